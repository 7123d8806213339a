(** Proofs about the saved files. *)
From Coq Require Import Ascii.
From Verif Require Import Py NamedModel NamedSpec NamedProofs CsvModel CsvSpec.
Local Open Scope string_scope.

(** ** Lines and cells *)
Lemma index_cons a c : index 0 "," (String a c) = None -> Ascii.eqb a "," = false /\ index 0 "," c = None.
Proof.
  change (index 0 "," (String a c)) with
    (if (if ascii_dec "," a then prefix "" c else false) then Some 0 else
       match index 0 "," c with Some n => Some (S n) | None => None end).
  replace (prefix "" c) with true by (now destruct c).
  destruct (ascii_dec "," a) as [<-|ne]; [discriminate|]. intros H. split.
  - apply Ascii.eqb_neq; congruence.
  - destruct (index 0 "," c); [discriminate|reflexivity].
Qed.

Lemma split_app c s : index 0 "," c = None -> split (c ++ "," ++ s) = c :: split s.
Proof.
  induction c as [|a c IH]; [reflexivity|]. intros H. apply index_cons in H as [E H].
  change (String a c ++ "," ++ s) with (String a (c ++ "," ++ s)). cbn [split].
  now rewrite E, IH.
Qed.

Lemma split_id c : index 0 "," c = None -> split c = [c].
Proof.
  induction c as [|a c IH]; [reflexivity|]. intros H. apply index_cons in H as [E H]. cbn [split].
  now rewrite E, IH.
Qed.

Lemma split_line c cs : (forall x, In x (c :: cs) -> index 0 "," x = None) -> split (line (c :: cs)) = c :: cs.
Proof.
  revert c. induction cs as [|c' cs IH]; intros c H.
  - apply split_id, H; left; reflexivity.
  - change (line (c :: c' :: cs)) with (c ++ "," ++ line (c' :: cs)).
    rewrite split_app by (apply H; left; reflexivity). f_equal. apply IH. intros x Hx; apply H; right; exact Hx.
Qed.

Lemma cells_line cs : (forall x, In x cs -> x <> "" /\ index 0 "," x = None) -> cellsOf (line cs) = cs.
Proof.
  destruct cs as [|c cs]; [reflexivity|]. intros H.
  assert (N : line (c :: cs) <> "").
  { destruct (H c (or_introl eq_refl)) as [N _]. destruct c as [|a c]; [congruence|].
    destruct cs; simpl; discriminate. }
  unfold cellsOf. destruct (line (c :: cs)) eqn:E; [congruence|]. rewrite <- E.
  apply split_line. intros x Hx; apply H, Hx.
Qed.

(** ** Names *)
Lemma app_inj_r (a b s : string) : a ++ s = b ++ s -> a = b.
Proof.
  intros H. apply (f_equal list_ascii_of_string) in H.
  rewrite <- (string_of_list_ascii_of_string a), <- (string_of_list_ascii_of_string b). f_equal.
  assert (E : forall x y, list_ascii_of_string (x ++ y) = (list_ascii_of_string x ++ list_ascii_of_string y)%list).
  { intros x y; induction x; simpl; [reflexivity|now f_equal]. }
  rewrite !E in H. apply app_inv_tail in H. exact H.
Qed.

Lemma app_assoc_s (a b c : string) : (a ++ b) ++ c = a ++ (b ++ c).
Proof. induction a; simpl; [reflexivity|now f_equal]. Qed.

Lemma fileAt_inj path a b : fileAt path a = fileAt path b -> a = b.
Proof. unfold fileAt. intros H. apply app_inj_l in H. injection H as H. now apply app_inj_r in H. Qed.

Lemma concat_cons s l : String.concat "" (s :: l) = s ++ String.concat "" l.
Proof. destruct l; simpl; [|reflexivity]. induction s; simpl; [reflexivity|now f_equal]. Qed.

Lemma tableName_cons prefix i p : tableName prefix (i :: p) = tableName (prefix ++ str_nat i) p.
Proof. unfold tableName. cbn [map]. now rewrite concat_cons, app_assoc_s. Qed.

Lemma app_nil_s (s : string) : s ++ "" = s.
Proof. induction s; simpl; [reflexivity|now f_equal]. Qed.

Lemma str_nat_digit i : i < 10 -> exists c, str_nat i = String c "".
Proof.
  intros H. do 10 (destruct i as [|i]; [eexists; reflexivity|]). lia.
Qed.

Lemma digits_inj p q : Forall (fun i => i < 10) p -> Forall (fun i => i < 10) q ->
  String.concat "" (map str_nat p) = String.concat "" (map str_nat q) -> p = q.
Proof.
  revert q. induction p as [|i p IH]; intros [|j q] Hp Hq; [reflexivity| | |].
  - cbn [map]. rewrite concat_cons. inversion Hq; subst. destruct (str_nat_digit j) as [c E]; [assumption|]. rewrite E. discriminate.
  - cbn [map]. rewrite concat_cons. inversion Hp; subst. destruct (str_nat_digit i) as [c E]; [assumption|]. rewrite E. discriminate.
  - cbn [map]. rewrite !concat_cons. inversion Hp; inversion Hq; subst.
    destruct (str_nat_digit i) as [c E]; [assumption|]. destruct (str_nat_digit j) as [c' E']; [assumption|].
    rewrite E, E'. simpl. intros Q. injection Q as Q1 Q2. f_equal.
    + apply str_nat_inj. rewrite E, E'. now f_equal.
    + now apply IH.
Qed.

Section P.
Variable V : Type.
Variable str : pyval V -> string.
Variable parse : string -> option V.
Notation nested := (nested V).

Lemma nested_ind' (P : nested -> Prop) :
  (forall rows, P (Tab rows)) -> (forall parts, Forall P parts -> P (Deep parts)) -> forall t, P t.
Proof.
  intros HT HD. fix IH 1. intros [rows|parts]; [apply HT|]. apply HD.
  induction parts as [|t parts IHp]; constructor; [apply IH|exact IHp].
Qed.

(** ** The list of files written *)
Definition written := list (string * list (list V)).
Fixpoint tables (t : nested) (name : string) : written :=
  match t with
  | Tab rows => [(name, rows)]
  | Deep parts =>
      (fix loop (parts : list nested) (i : nat) : written :=
         match parts with
         | [] => []
         | t :: ts => (tables t (name ++ str_nat i) ++ loop ts (S i))%list
         end) parts 0
  end.
Fixpoint parts (ts : list nested) (name : string) (i : nat) : written :=
  match ts with
  | [] => []
  | t :: ts => (tables t (name ++ str_nat i) ++ parts ts name (S i))%list
  end.
Lemma tables_deep ts name : tables (Deep ts) name = parts ts name 0.
Proof.
  simpl. generalize 0. induction ts as [|t ts IH]; intros i; [reflexivity|]. simpl. now rewrite IH.
Qed.

Definition lines (rows : list (list V)) : list string := map (fun r => line (map (fun v => str (PNum v)) r)) rows.
Definition putAll (path : string) (w : written) (fs : files) : files :=
  fold_left (fun fs x => put fs (fileAt path (fst x)) (lines (snd x))) w fs.

Lemma putAll_app path w w' fs : putAll path (w ++ w')%list fs = putAll path w' (putAll path w fs).
Proof. apply fold_left_app. Qed.

Lemma writeRowsE rows : writeRows V str (map (fun r => PList (map PNum r)) rows) = (lines rows, Ok tt).
Proof.
  induction rows as [|r rows IH]; [reflexivity|]. simpl. rewrite IH, map_map. reflexivity.
Qed.

(** Files are compared pointwise, since they are functions. *)
Definition eqf (fs fs' : files) : Prop := forall f, fs f = fs' f.
Lemma put_eqf fs fs' f ls : eqf fs fs' -> eqf (put fs f ls) (put fs' f ls).
Proof. intros H g; unfold put; now destruct (String.eqb g f). Qed.
Lemma put_put fs f a b : eqf (put (put fs f a) f b) (put fs f b).
Proof. intros g; unfold put; now destruct (String.eqb g f). Qed.
Lemma putAll_eqf path w fs fs' : eqf fs fs' -> eqf (putAll path w fs) (putAll path w fs').
Proof. revert fs fs'; induction w as [|x w IH]; intros fs fs' H; [exact H|]. apply IH, put_eqf, H. Qed.

Definition saves (t : nested) (path : string) : Prop := forall name fs, exists fs',
  recursiveSaveList V str (toPy V t) path name fs = (fs', Ok tt) /\ eqf fs' (putAll path (tables t name) fs).

Lemma regular_list t : regular V t -> exists c l, toPy V t = PList (PList c :: l).
Proof. intros H; inversion H as [v r rows|t' ps Ht Hps]; simpl; [|inversion Ht; simpl]; eauto. Qed.

Lemma saveE t path : regular V t -> saves t path.
Proof.
  induction t as [rows|ts IH] using nested_ind'; intros R name fs; inversion R as [v r rows'|t ts' Rt Rts]; subst.
  - eexists; split.
    + pose proof (writeRowsE ((v :: r) :: rows')) as W. cbn [map] in W.
      cbn [toPy recursiveSaveList map]. unfold saveCSV. rewrite W. reflexivity.
    + apply put_put.
  - assert (L : forall l i fs, Forall (regular V) l -> Forall (fun t => regular V t -> saves t path) l ->
      exists fs', (fix loop (l : list (pyval V)) (ind : nat) (fs : files) : files * result unit :=
         match l with
         | [] => (fs, Ok tt)
         | d :: l' =>
             let (fs', r) := recursiveSaveList V str d path (name ++ str_nat ind) fs in
             match r with Ok _ => loop l' (S ind) fs' | Err e => (fs', Err e) end
         end) (map (toPy V) l) i fs = (fs', Ok tt) /\ eqf fs' (putAll path (parts l name i) fs)).
    { clear. induction l as [|t l IHl]; intros i fs Rl Sl; [exists fs; split; [reflexivity|intros f; reflexivity]|].
      inversion Rl; inversion Sl; subst.
      destruct (H5 H1 (name ++ str_nat i) fs) as [fs1 [E1 Q1]].
      destruct (IHl (S i) fs1 H2 H6) as [fs2 [E2 Q2]].
      exists fs2. cbn [map]. rewrite E1. split; [exact E2|].
      cbn [parts]. rewrite putAll_app. intros f. rewrite (Q2 f). now apply putAll_eqf. }
    destruct (L (t :: ts') 0 fs) as [fs' [E Q]]; [constructor; assumption|exact IH|].
    exists fs'. rewrite tables_deep. split; [|exact Q].
    rewrite <- E. cbn [toPy map]. destruct (regular_list t Rt) as [c [l ->]]. reflexivity.
Qed.

(** ** Reading *)
Lemma putAll_other path w fs f : (forall x, In x w -> fileAt path (fst x) <> f) -> putAll path w fs f = fs f.
Proof.
  revert fs. induction w as [|x w IH]; intros fs H; [reflexivity|]. simpl. rewrite IH by (intros y Hy; apply H; right; exact Hy).
  unfold put. destruct (String.eqb_spec f (fileAt path (fst x))); [|reflexivity].
  exfalso; apply (H x); [left; reflexivity|congruence].
Qed.

(** The last table with a given name. *)
Lemma putAll_last path w w' name rows fs : (forall x, In x w' -> fst x <> name) ->
  putAll path (w ++ (name, rows) :: w')%list fs (fileAt path name) = Some (lines rows).
Proof.
  intros H. rewrite putAll_app. simpl. rewrite putAll_other.
  - unfold put. now rewrite String.eqb_refl.
  - intros x Hx E. apply fileAt_inj in E. exact (H x Hx E).
Qed.

Lemma putAll_nodup path w name rows fs : NoDup (map fst w) -> In (name, rows) w ->
  putAll path w fs (fileAt path name) = Some (lines rows).
Proof.
  intros N I. apply in_split in I as [w1 [w2 ->]]. apply putAll_last.
  intros x Hx E. rewrite map_app in N. simpl in N. apply NoDup_remove_2 in N. apply N, in_or_app. right.
  rewrite <- E. now apply in_map.
Qed.

Lemma mapM_some {A B} (f : A -> option B) g l : (forall x, In x l -> f x = Some (g x)) -> mapM f l = Some (map g l).
Proof. induction l as [|x l IH]; intros H; [reflexivity|]. simpl. rewrite H, IH; [reflexivity| |left; reflexivity]. intros; apply H; right; assumption. Qed.

Lemma parseLine r : roundTrip V str parse -> mapM parse (cellsOf (line (map (fun v => str (PNum v)) r))) = Some r.
Proof.
  intros RT. rewrite cells_line.
  - induction r as [|v r IH]; [reflexivity|]. simpl. destruct (RT v) as [_ [_ ->]]. now rewrite IH.
  - intros x Hx. apply in_map_iff in Hx as [v [<- _]]. destruct (RT v) as [N [I _]]. now split.
Qed.

Lemma readE path name rows fs : roundTrip V str parse -> rows <> [] -> fs (fileAt path name) = Some (lines rows) ->
  readCSV V parse (fileAt path name) fs = Ok (readsAs V rows).
Proof.
  intros RT N E. unfold readCSV. rewrite E.
  assert (M : mapM (fun l => mapM parse (cellsOf l)) (lines rows) = Some rows).
  { clear E N. induction rows as [|r rows IH]; [reflexivity|]. unfold lines in *. cbn [map mapM]. rewrite parseLine by exact RT. now rewrite IH. }
  rewrite M. destruct rows as [|r [|r' rows]]; [congruence| |]; reflexivity.
Qed.

(** ** Positions *)
Lemma tables_at t name n rows : In (n, rows) (tables t name) <-> exists p, tableAt V t p rows /\ n = tableName name p.
Proof.
  revert name. induction t as [rows'|ts IH] using nested_ind'; intros name.
  - simpl. split.
    + intros [E|[]]. injection E as -> ->. exists []. split; [constructor|]. unfold tableName. simpl. now rewrite app_nil_s.
    + intros [p [A ->]]. inversion A; subst. left. unfold tableName. simpl. now rewrite app_nil_s.
  - rewrite tables_deep.
    assert (L : forall l k, Forall (fun t => forall name, In (n, rows) (tables t name) <-> exists p, tableAt V t p rows /\ n = tableName name p) l ->
      In (n, rows) (parts l name k) <-> exists i t p, nth_error l i = Some t /\ tableAt V t p rows /\ n = tableName name (k + i :: p)).
    { clear. induction l as [|t l IHl]; intros k F.
      - simpl. split; [tauto|]. intros [i [t [p [E _]]]]. destruct i; discriminate.
      - inversion F as [|? ? F1 F2]; subst. cbn [parts]. rewrite in_app_iff, F1, IHl by exact F2. split.
        + intros [[p [A ->]]|[i [t' [p [E [A ->]]]]]].
          * exists 0, t, p. rewrite tableName_cons, Nat.add_0_r. auto.
          * exists (S i), t', p. rewrite Nat.add_succ_r. auto.
        + intros [[|i] [t' [p [E [A ->]]]]].
          * left. injection E as ->. exists p. rewrite tableName_cons, Nat.add_0_r. auto.
          * right. exists i, t', p. rewrite Nat.add_succ_r. auto. }
    rewrite L by exact IH. split.
    + intros [i [t [p [E [A ->]]]]]. exists (i :: p). split; [econstructor; eassumption|reflexivity].
    + intros [p [A ->]]. inversion A; subst. simpl. eauto 10.
Qed.

Lemma small_paths t p rows : upTo V 10 t -> tableAt V t p rows -> Forall (fun i => i < 10) p.
Proof.
  revert p. induction t as [rows'|ts IH] using nested_ind'; intros p U A; inversion A as [|? i t p' ? Ht At]; subst; [constructor|].
  inversion U as [|? L F]; subst. constructor.
  - apply Nat.lt_le_trans with (List.length ts); [|exact L]. apply nth_error_Some. congruence.
  - apply nth_error_In in Ht. rewrite Forall_forall in IH, F. eapply IH; eauto.
Qed.

Lemma tableAt_det t p rows rows' : tableAt V t p rows -> tableAt V t p rows' -> rows = rows'.
Proof.
  intros A; revert rows'; induction A as [|ps i t p rows Ht A IHA]; intros rows' B; inversion B as [|? ? t' ? ? Ht' B']; subst; [reflexivity|].
  rewrite Ht in Ht'. injection Ht' as <-. now apply IHA.
Qed.

(** Keeping the last table of each name keeps every table if names are shared by
    equal tables only. *)
Lemma putAll_fun path w name rows fs : In (name, rows) w ->
  (forall rows', In (name, rows') w -> rows' = rows) ->
  putAll path w fs (fileAt path name) = Some (lines rows).
Proof.
  revert fs. induction w as [|[n r] w IH] using rev_ind; intros fs I U; [destruct I|].
  rewrite putAll_app. simpl. unfold put at 1.
  destruct (String.eqb_spec (fileAt path name) (fileAt path n)) as [E|E].
  - apply fileAt_inj in E as <-. rewrite (U r); [reflexivity|]. apply in_or_app; right; left; reflexivity.
  - apply IH.
    + apply in_app_or in I as [I|[I|[]]]; [exact I|]. injection I as -> ->. congruence.
    + intros rows' I'. apply U, in_or_app. left; exact I'.
Qed.

Lemma regular_rows t p rows : regular V t -> tableAt V t p rows -> rows <> [].
Proof.
  intros R A; revert R; induction A as [rows|ps i t p rows Ht A IHA]; intros R; inversion R; subst; [discriminate|].
  apply IHA. apply nth_error_In in Ht. destruct Ht as [<-|Ht]; [assumption|]. rewrite Forall_forall in *. auto.
Qed.

Lemma readsAs_inj rows rows' : rows <> [] -> rows' <> [] -> readsAs V rows = readsAs V rows' -> rows = rows'.
Proof.
  destruct rows as [|r [|r2 rows]]; [congruence| |]; destruct rows' as [|r' [|r2' rows']]; try congruence; simpl; intros _ _ E; congruence.
Qed.

(** ** Several results *)
Definition dictTables (d : list (string * nested)) (name : string) : written :=
  flat_map (fun x => tables (snd x) (name ++ fst x)) d.
Definition dictPy (d : list (string * nested)) : list (string * pyval V) := map (fun x => (fst x, toPy V (snd x))) d.

Lemma saveDictE d path name fs rest : Forall (fun x => regular V (snd x)) d -> exists fs',
  saveDictToCSV V str (dictPy d ++ rest)%list path name fs = saveDictToCSV V str rest path name fs' /\ eqf fs' (putAll path (dictTables d name) fs).
Proof.
  revert fs. induction d as [|[k t] d IH]; intros fs F; [exists fs; split; [reflexivity|intros f; reflexivity]|].
  inversion F as [|? ? R F']; subst. simpl in R.
  destruct (saveE t path R (name ++ k) fs) as [fs1 [E1 Q1]]. destruct (IH fs1 F') as [fs2 [E2 Q2]].
  exists fs2. simpl. rewrite E1. split; [exact E2|]. unfold dictTables. simpl. rewrite putAll_app.
  intros f. rewrite (Q2 f). now apply putAll_eqf.
Qed.

Definition qresPy (rs : list (list string * list (string * nested))) := map (fun x => (fst x, dictPy (snd x))) rs.
Definition qresTables (rs : list (list string * list (string * nested))) : written :=
  flat_map (fun x => dictTables (snd x) (allStringSum (fst x))) rs.

Lemma saveQResE rs path fs : Forall (fun x => Forall (fun y => regular V (snd y)) (snd x)) rs -> exists fs',
  saveQResCSV V str (qresPy rs) path fs = (fs', Ok tt) /\ eqf fs' (putAll path (qresTables rs) fs).
Proof.
  revert fs. induction rs as [|[m d] rs IH]; intros fs F; [exists fs; split; [reflexivity|intros f; reflexivity]|].
  inversion F as [|? ? R F']; subst. simpl in R.
  destruct d as [|x d].
  - simpl. destruct (IH fs F') as [fs' [E Q]]. exists fs'. split; [exact E|exact Q].
  - destruct (saveDictE (x :: d) path (allStringSum m) fs [] R) as [fs1 [E1 Q1]].
    rewrite app_nil_r in E1. destruct (IH fs1 F') as [fs2 [E2 Q2]]. exists fs2. split.
    + cbn [qresPy map fst snd saveQResCSV dictPy]. cbn [dictPy map] in E1. rewrite E1. exact E2.
    + unfold qresTables. cbn [flat_map fst snd]. rewrite putAll_app. intros f. rewrite (Q2 f). now apply putAll_eqf.
Qed.

Lemma dict_at d name n rows : In (n, rows) (dictTables d name) <->
  exists k t p, In (k, t) d /\ tableAt V t p rows /\ n = tableName (name ++ k) p.
Proof.
  unfold dictTables. rewrite in_flat_map. split.
  - intros [[k t] [I H]]. apply tables_at in H as [p [A E]]. eauto 10.
  - intros [k [t [p [I [A E]]]]]. exists (k, t). split; [exact I|]. apply tables_at. eauto.
Qed.

(** ** Names of positions *)
Lemma las_app x y : list_ascii_of_string (x ++ y) = (list_ascii_of_string x ++ list_ascii_of_string y)%list.
Proof. induction x; simpl; [reflexivity|now f_equal]. Qed.
Lemma las_inj x y : list_ascii_of_string x = list_ascii_of_string y -> x = y.
Proof. intros H. rewrite <- (string_of_list_ascii_of_string x), <- (string_of_list_ascii_of_string y). now f_equal. Qed.

Lemma all_digits_in s : all_digits s = true <-> forall c, In c (list_ascii_of_string s) -> is_digit c = true.
Proof.
  induction s as [|a s IH]; simpl; [tauto|]. rewrite andb_true_iff, IH. split.
  - intros [H1 H2] c [<-|H]; auto.
  - intros H; split; auto.
Qed.

Lemma concat_digits p : all_digits (String.concat "" (map str_nat p)) = true.
Proof.
  induction p as [|i p IH]; [reflexivity|]. cbn [map]. rewrite concat_cons.
  apply all_digits_in. intros c. rewrite las_app, in_app_iff. intros [H|H].
  - revert c H. apply all_digits_in, str_nat_digits.
  - revert c H. now apply all_digits_in.
Qed.

(** Two keys, neither of which is the other followed by digits. *)
Lemma keys_apart k k' d d' : ~ digitsAfter k k' -> ~ digitsAfter k' k ->
  all_digits d = true -> all_digits d' = true -> k ++ d <> k' ++ d'.
Proof.
  intros N N' D D' E. apply (f_equal list_ascii_of_string) in E. rewrite !las_app in E.
  assert (H : forall (a b c d : list ascii), (a ++ b = c ++ d)%list -> (exists x, c = (a ++ x)%list /\ b = (x ++ d)%list) \/ (exists x, a = (c ++ x)%list /\ d = (x ++ b)%list)).
  { clear. induction a as [|x a IH]; intros b c d E; simpl in *; [left; exists c; auto|].
    destruct c as [|y c]; simpl in *; [right; exists (x :: a); auto|]. injection E as <- E.
    destruct (IH _ _ _ E) as [[z [-> ->]]|[z [-> ->]]]; [left|right]; exists z; auto. }
  destruct (H _ _ _ _ E) as [[x [E1 E2]]|[x [E1 E2]]].
  - apply N. exists (string_of_list_ascii x). split.
    + apply las_inj. now rewrite las_app, list_ascii_of_string_of_list_ascii.
    + rewrite list_ascii_of_string_of_list_ascii. intros c Hc. rewrite all_digits_in in D. apply D. rewrite E2. apply in_or_app; left; exact Hc.
  - apply N'. exists (string_of_list_ascii x). split.
    + apply las_inj. now rewrite las_app, list_ascii_of_string_of_list_ascii.
    + rewrite list_ascii_of_string_of_list_ascii. intros c Hc. rewrite all_digits_in in D'. apply D'. rewrite E2. apply in_or_app; left; exact Hc.
Qed.

Lemma Forall2_len {A B} {R : A -> B -> Prop} {l l'} : Forall2 R l l' -> List.length l = List.length l'.
Proof. induction 1; simpl; congruence. Qed.

(** One wide level. *)
Definition fits (w : bool) (i : nat) : Prop := w = false -> i < 10.
Lemma levels_path ws t p rows : levels V ws t -> tableAt V t p rows -> Forall2 fits ws p.
Proof.
  intros L A; revert ws L; induction A as [rows|ps i t p rows Ht A IHA]; intros ws L; inversion L; subst; constructor.
  - intros E. apply Nat.lt_le_trans with (List.length ps); [|auto]. apply nth_error_Some. congruence.
  - apply IHA. apply nth_error_In in Ht. rewrite Forall_forall in *. auto.
Qed.

Lemma cat_len ws p : Forall2 fits ws p -> count_occ bool_dec ws true = 0 ->
  List.length (list_ascii_of_string (String.concat "" (map str_nat p))) = List.length p.
Proof.
  intros F; induction F as [|w i ws p H F IH]; intros Z; [reflexivity|]. destruct w; [discriminate|]. simpl in Z.
  cbn [map]. rewrite concat_cons, las_app, app_length, IH by exact Z.
  destruct (str_nat_digit i (H eq_refl)) as [c ->]. reflexivity.
Qed.

Lemma narrow_forall ws p : Forall2 fits ws p -> count_occ bool_dec ws true = 0 -> Forall (fun i => i < 10) p.
Proof. intros F; induction F as [|w i ws p H F IH]; intros Z; constructor; destruct w; try discriminate; auto. Qed.

Lemma wide_inj ws p q : Forall2 fits ws p -> Forall2 fits ws q -> count_occ bool_dec ws true <= 1 ->
  String.concat "" (map str_nat p) = String.concat "" (map str_nat q) -> p = q.
Proof.
  intros F; revert q; induction F as [|w i ws p H F IH]; intros q G Z E; inversion G as [|? j ? q' H' G']; subst; [reflexivity|].
  cbn [map] in E. rewrite !concat_cons in E. destruct w.
  - simpl in Z. assert (Z' : count_occ bool_dec ws true = 0) by lia.
    apply (f_equal list_ascii_of_string) in E. rewrite !las_app in E.
    assert (LL : List.length (list_ascii_of_string (String.concat "" (map str_nat p))) = List.length (list_ascii_of_string (String.concat "" (map str_nat q')))).
    { rewrite (cat_len ws), (cat_len ws) by assumption. rewrite <- (Forall2_len F). now rewrite <- (Forall2_len G'). }
    assert (EE : list_ascii_of_string (str_nat i) = list_ascii_of_string (str_nat j) /\
      list_ascii_of_string (String.concat "" (map str_nat p)) = list_ascii_of_string (String.concat "" (map str_nat q'))).
    { revert E LL. generalize (list_ascii_of_string (str_nat i)) (list_ascii_of_string (str_nat j))
        (list_ascii_of_string (String.concat "" (map str_nat p))) (list_ascii_of_string (String.concat "" (map str_nat q'))).
      clear. intros a b c d E L. assert (LA : List.length a = List.length b).
      { apply (f_equal (@List.length _)) in E. rewrite !app_length in E. lia. }
      revert b E LA. induction a as [|x a IH]; intros [|y b] E LA; try discriminate; [auto|].
      simpl in E. injection E as -> E. injection LA as LA. destruct (IH b E LA) as [-> ->]. auto. }
    destruct EE as [E1 E2]. f_equal; [apply str_nat_inj, las_inj, E1|].
    apply digits_inj; [eapply narrow_forall|eapply narrow_forall|apply las_inj, E2]; eassumption.
  - destruct (str_nat_digit i (H eq_refl)) as [c Ec]. destruct (str_nat_digit j (H' eq_refl)) as [c' Ec'].
    rewrite Ec, Ec' in E. simpl in E. injection E as E1 E2. f_equal.
    + apply str_nat_inj. rewrite Ec, Ec'. now f_equal.
    + apply IH; assumption.
Qed.
End P.
