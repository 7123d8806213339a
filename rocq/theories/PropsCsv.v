(** C51: the saved result files. *)
From Coq Require Import Ascii DecimalString Decimal.
From Verif Require Import Py NamedModel NamedSpec NamedProofs CsvModel CsvSpec CsvProofs.
Local Open Scope string_scope.

Section Props.
Variable V : Type.
Variable str : pyval V -> string.
Variable parse : string -> option V.
Implicit Types (t : nested V) (fs : files) (path name : string).

(** What one call does, for results of any size: it succeeds; every table can be
    read back if and only if no two different tables get the same name; and no
    other file changes. *)
Theorem C51_general t path name fs : roundTrip V str parse -> regular V t ->
  exists fs', recursiveSaveList V str (toPy V t) path name fs = (fs', Ok tt) /\
  ((forall p rows, tableAt V t p rows -> readCSV V parse (fileAt path (tableName name p)) fs' = Ok (readsAs V rows)) <->
   (forall p q rows rows', tableAt V t p rows -> tableAt V t q rows' -> tableName name p = tableName name q -> rows = rows')) /\
  (forall f, (forall p rows, tableAt V t p rows -> f <> fileAt path (tableName name p)) -> fs' f = fs f).
Proof.
  intros RT R. destruct (saveE V str t path R name fs) as [fs' [E Q]]. exists fs'. split; [exact E|]. split; [split|].
  - intros H p q rows rows' A B EN. pose proof (H p rows A) as H1. pose proof (H q rows' B) as H2.
    rewrite EN, H2 in H1. injection H1 as H1. symmetry.
    apply (readsAs_inj V); eauto using regular_rows.
  - intros H p rows A. apply (readE V str); [exact RT|eauto using regular_rows|].
    rewrite (Q (fileAt path (tableName name p))). apply putAll_fun.
    + apply tables_at. eauto.
    + intros rows' I. apply tables_at in I as [q [B EN]]. symmetry. eapply H; eassumption.
  - intros f H. rewrite (Q f). apply putAll_other. intros [n rows] I. apply tables_at in I as [p [A ->]].
    simpl. intros <-. exact (H p rows A eq_refl).
Qed.

(** At most ten entries in each list: every table is in its own file and can be
    read back. *)
Theorem C51_saved t path name fs : roundTrip V str parse -> regular V t -> upTo V 10 t ->
  exists fs', recursiveSaveList V str (toPy V t) path name fs = (fs', Ok tt) /\
  (forall p q rows rows', tableAt V t p rows -> tableAt V t q rows' -> tableName name p = tableName name q -> p = q) /\
  (forall p rows, tableAt V t p rows -> readCSV V parse (fileAt path (tableName name p)) fs' = Ok (readsAs V rows)).
Proof.
  intros RT R U. destruct (C51_general t path name fs RT R) as [fs' [E [[_ H] _]]].
  assert (I : forall p q rows rows', tableAt V t p rows -> tableAt V t q rows' -> tableName name p = tableName name q -> p = q).
  { intros p q rows rows' A B EN. unfold tableName in EN. apply app_inj_l in EN.
    apply digits_inj; eauto using small_paths. }
  exists fs'. split; [exact E|]. split; [exact I|]. apply H. intros p q rows rows' A B EN.
  rewrite <- (I p q rows rows' A B EN) in B. eapply tableAt_det; eassumption.
Qed.

(** One sweep of any length is safe as well, and so is one long level among
    levels of at most ten entries, if the depth is the same everywhere. *)
Theorem C51_one_long_level t ws path name fs : roundTrip V str parse -> regular V t ->
  levels V ws t -> count_occ bool_dec ws true <= 1 ->
  exists fs', recursiveSaveList V str (toPy V t) path name fs = (fs', Ok tt) /\
  (forall p rows, tableAt V t p rows -> readCSV V parse (fileAt path (tableName name p)) fs' = Ok (readsAs V rows)).
Proof.
  intros RT R L Z. destruct (C51_general t path name fs RT R) as [fs' [E [[_ H] _]]].
  exists fs'. split; [exact E|]. apply H. intros p q rows rows' A B EN.
  unfold tableName in EN. apply app_inj_l in EN.
  assert (p = q) as <- by (apply (wide_inj ws); eauto using levels_path).
  eapply tableAt_det; eassumption.
Qed.

(** Two levels of twelve entries are not: the tables at [1][11] and [11][1] go to
    the same file, and the first is lost. *)
Definition twelve (v w : V) : nested V :=
  Deep (map (fun i => Deep (map (fun j => Tab [[if (i =? 1)%nat && (j =? 11)%nat then v else w]]) (seq 0 12))) (seq 0 12)).

Theorem C51_overwritten_refuted v w path name fs : roundTrip V str parse -> v <> w ->
  regular V (twelve v w) /\ upTo V 12 (twelve v w) /\ tableAt V (twelve v w) [1; 11] [[v]] /\
  exists fs', recursiveSaveList V str (toPy V (twelve v w)) path name fs = (fs', Ok tt) /\
    readCSV V parse (fileAt path (tableName name [1; 11])) fs' = Ok (Row [w]).
Proof.
  intros RT N.
  assert (R : regular V (twelve v w)).
  { assert (T : forall i, regular V (Deep (map (fun j => Tab [[if (i =? 1)%nat && (j =? 11)%nat then v else w]]) (seq 0 12)))).
    { intros i. cbn [seq map]. constructor; [constructor|]. repeat constructor. }
    unfold twelve. cbn [seq map]. constructor; [apply T|]. repeat (constructor; [apply T|]). constructor. }
  split; [exact R|]. split; [|split].
  - unfold twelve. constructor; [reflexivity|]. apply Forall_forall. intros t H. apply in_map_iff in H as [i [<- _]].
    constructor; [reflexivity|]. apply Forall_forall. intros t H. apply in_map_iff in H as [j [<- _]]. constructor.
  - econstructor; [reflexivity|]. econstructor; [reflexivity|]. simpl. constructor.
  - destruct (saveE V str (twelve v w) path R name fs) as [fs' [E Q]]. exists fs'. split; [exact E|].
    apply (readE V str parse path (tableName name [1; 11]) [[w]]); [exact RT|discriminate|].
    rewrite (Q (fileAt path (tableName name [1; 11]))).
    unfold twelve. rewrite tables_deep.
    assert (PA : forall l l' k, parts V (l ++ l')%list name k = (parts V l name k ++ parts V l' name (k + List.length l))%list).
    { clear. induction l as [|t l IH]; intros l' k; [simpl; now rewrite Nat.add_0_r|].
      cbn [List.app parts List.length]. now rewrite IH, app_assoc, Nat.add_succ_r. }
    match goal with |- context [parts V (map ?F (seq 0 12)) name 0] =>
      change (parts V (map F (seq 0 12)) name 0) with (parts V (map F (seq 0 11) ++ map F [11])%list name 0) end.
    rewrite PA, putAll_app, map_length, seq_length.
    cbn [map parts Nat.add]. rewrite app_nil_r, tables_deep.
    set (m := name ++ str_nat 11).
    change (parts V (map (fun j : nat => Tab [[if (11 =? 1)%nat && (j =? 11)%nat then v else w]]) (seq 0 12)) m 0)
      with ([((m ++ str_nat 0)%string, [[w]])] ++ ((m ++ str_nat 1)%string, [[w]])
             :: parts V (map (fun _ : nat => Tab [[w]]) (seq 0 10)) m 2)%list.
    replace (tableName name [1; 11]) with (m ++ str_nat 1) by (subst m; rewrite app_assoc_s; reflexivity).
    apply putAll_last. intros x Hx EN.
    assert (Y : exists j, 2 <= j /\ fst x = m ++ str_nat j).
    { clear -Hx. revert Hx. cbn [seq map parts tables app]. simpl. intros Hx.
      repeat (destruct Hx as [<-|Hx]; [eexists; split; [|reflexivity]; lia|]). destruct Hx. }
    destruct Y as [j [Hj EJ]]. rewrite EJ in EN. apply app_inj_l, str_nat_inj in EN. lia.
Qed.

(** The results of a single simulation, a flat list of numbers, cannot be saved:
    the call fails, and what was in the file before is lost. *)
Theorem C51_flat_refuted v (l : list V) path name fs : exists fs',
  recursiveSaveList V str (PList (map PNum (v :: l))) path name fs = (fs', Err TypeError) /\
  fs' (fileAt path name) = Some [] /\ (forall f, f <> fileAt path name -> fs' f = fs f).
Proof.
  eexists; split; [reflexivity|]. split.
  - unfold put. now rewrite String.eqb_refl.
  - intros f H. unfold put. now apply String.eqb_neq in H as ->.
Qed.

(** Results that are neither lists, arrays nor float, int or np.complex128 (such
    as Python complex numbers) are silently not saved. *)
Theorem C51_dropped_refuted (l : list (pyval V)) (ls : list (pyval V)) path name fs :
  recursiveSaveList V str (PList (POther :: l)) path name fs = (fs, Ok tt) /\
  recursiveSaveList V str (PList (PList (POther :: l) :: ls)) path name fs = (fs, Ok tt).
Proof. split; reflexivity. Qed.

(** saveCSV itself saves a table and a single list. *)
Theorem C51_saveCSV (v : V) (r : list V) (rows : list (list V)) path name fs : roundTrip V str parse ->
  (exists fs', saveCSV V str (PList (map PNum (v :: r))) path name fs = (fs', Ok tt) /\
     readCSV V parse (fileAt path name) fs' = Ok (Row (v :: r))) /\
  (exists fs', saveCSV V str (toPy V (Tab (r :: rows))) path name fs = (fs', Ok tt) /\
     readCSV V parse (fileAt path name) fs' = Ok (readsAs V (r :: rows))).
Proof.
  intros RT. split.
  - eexists; split; [reflexivity|]. apply (readE V str parse path name [v :: r]); [exact RT|discriminate|].
    unfold put. rewrite String.eqb_refl. unfold lines. cbn [map]. do 4 f_equal. exact (map_map PNum str r).
  - pose proof (writeRowsE V str (r :: rows)) as W. cbn [map] in W. eexists; split.
    + cbn [toPy map saveCSV]. rewrite W. reflexivity.
    + apply (readE V str parse path name (r :: rows)); [exact RT|discriminate|].
      unfold put. now rewrite String.eqb_refl.
Qed.

(** ** Dictionaries of results and several result objects

    Every result object has a name with aliases and a dictionary of results; the
    names, aliases and keys are written one after the other. *)
Definition fullKeys (rs : list (list string * list (string * nested V))) : list string :=
  flat_map (fun x => map (fun y => allStringSum (fst x) ++ fst y) (snd x)) rs.

Lemma qres_at rs n rows : In (n, rows) (qresTables V rs) <->
  exists m d k t p, In (m, d) rs /\ In (k, t) d /\ tableAt V t p rows /\ n = tableName (allStringSum m ++ k) p.
Proof.
  unfold qresTables. rewrite in_flat_map. split.
  - intros [[m d] [I H]]. apply dict_at in H as [k [t [p [I' [A E]]]]]. eauto 15.
  - intros [m [d [k [t [p [I [I' [A E]]]]]]]]. exists (m, d). split; [exact I|]. apply dict_at. eauto 10.
Qed.

(** The joint names are pairwise different, and none is another followed by
    digits. *)
Definition apart (l : list string) : Prop :=
  ForallOrdPairs (fun k k' => ~ digitsAfter k k' /\ ~ digitsAfter k' k) l.

Lemma digitsAfter_refl k : digitsAfter k k.
Proof. exists "". split; [now rewrite app_nil_s|intros c []]. Qed.

Theorem C51_results rs path fs : roundTrip V str parse ->
  Forall (fun x => Forall (fun y => regular V (snd y) /\ upTo V 10 (snd y)) (snd x)) rs -> apart (fullKeys rs) ->
  exists fs', saveQResCSV V str (qresPy V rs) path fs = (fs', Ok tt) /\
  forall m d k t p rows, In (m, d) rs -> In (k, t) d -> tableAt V t p rows ->
    readCSV V parse (fileAt path (tableName (allStringSum m ++ k) p)) fs' = Ok (readsAs V rows).
Proof.
  intros RT F AP.
  assert (R : Forall (fun x => Forall (fun y => regular V (snd y)) (snd x)) rs).
  { eapply Forall_impl; [|exact F]. intros x H. eapply Forall_impl; [|exact H]. intros y [? ?]; assumption. }
  destruct (saveQResE V str rs path fs R) as [fs' [E Q]]. exists fs'. split; [exact E|].
  intros m d k t p rows I I' A. rewrite Forall_forall in F.
  assert (RU : forall m d k t, In (m, d) rs -> In (k, t) d -> regular V t /\ upTo V 10 t).
  { intros m' d' k' t' J J'. specialize (F _ J). rewrite Forall_forall in F. exact (F _ J'). }
  apply (readE V str); [exact RT|eapply regular_rows; [apply (RU m d k t)|]; eassumption|].
  rewrite (Q _). apply putAll_fun.
  - apply qres_at. eauto 15.
  - intros rows' H. apply qres_at in H as [m' [d' [k' [t' [p' [J [J' [A' EN]]]]]]]].
    assert (S : forall l, apart l -> forall a b, In a l -> In b l -> (~ digitsAfter a b /\ ~ digitsAfter b a) \/ a = b).
    { clear. intros l H. induction H as [|a l H1 H2 IH]; intros x y; [intros []|]. intros [<-|Hx] [<-|Hy]; auto.
      - left. rewrite Forall_forall in H1. auto.
      - left. rewrite Forall_forall in H1. destruct (H1 _ Hx); auto. }
    (* positions in the lists: the keys that agree are the same occurrence *)
    assert (U : forall rs : list (list string * list (string * nested V)), apart (fullKeys rs) ->
      forall m d k t m' d' k' t', In (m, d) rs -> In (k, t) d -> In (m', d') rs -> In (k', t') d' ->
      allStringSum m ++ k = allStringSum m' ++ k' -> t = t').
    { clear. intros rs AP.
      assert (G : forall l : list (string * nested V), apart (map fst l) -> forall k t t', In (k, t) l -> In (k, t') l -> t = t').
      { clear. intros l H k t t'. induction l as [|[a b] l IH]; [intros []|].
        simpl in H. inversion H as [|? ? H1 H2]; subst. intros [X|X] [Y|Y].
        - congruence.
        - injection X as -> ->. rewrite Forall_forall in H1. destruct (H1 k) as [Z _]; [apply in_map_iff; exists (k, t'); auto|].
          destruct Z. apply digitsAfter_refl.
        - injection Y as -> ->. rewrite Forall_forall in H1. destruct (H1 k) as [Z _]; [apply in_map_iff; exists (k, t); auto|].
          destruct Z. apply digitsAfter_refl.
        - apply IH; assumption. }
      intros m d k t m' d' k' t' I J I' J' E.
      pose (l := flat_map (fun x : list string * list (string * nested V) => map (fun y => (allStringSum (fst x) ++ fst y, snd y)) (snd x)) rs).
      assert (ML : map fst l = fullKeys rs).
      { subst l. unfold fullKeys. clear. induction rs as [|x rs IH]; [reflexivity|]. simpl. rewrite map_app, IH, map_map. reflexivity. }
      rewrite <- ML in AP. apply (G l AP (allStringSum m ++ k)).
      - subst l. apply in_flat_map. exists (m, d). split; [exact I|]. apply in_map_iff. exists (k, t). auto.
      - rewrite E. subst l. apply in_flat_map. exists (m', d'). split; [exact I'|]. apply in_map_iff. exists (k', t'). auto. }
    assert (K : In (allStringSum m ++ k) (fullKeys rs) /\ In (allStringSum m' ++ k') (fullKeys rs)).
    { split; apply in_flat_map.
      - exists (m, d). split; [exact I|]. apply in_map_iff. exists (k, t). auto.
      - exists (m', d'). split; [exact J|]. apply in_map_iff. exists (k', t'). auto. }
    destruct K as [K1 K2]. destruct (S _ AP _ _ K1 K2) as [[N N']|EK].
    + exfalso. unfold tableName in EN. revert EN. apply keys_apart; [exact N|exact N'|apply concat_digits|apply concat_digits].
    + assert (t = t') as <- by (apply (U rs AP m d k t m' d' k' t'); assumption).
      unfold tableName in EN. rewrite EK in EN. apply app_inj_l in EN.
      assert (p = p') as <-.
      { destruct (RU m d k t I I'). apply digits_inj; eauto using small_paths. }
      eapply tableAt_det; eassumption.
Qed.

(** Without the condition results are lost: a result object "a" with a result
    "bc" and one "ab" with a result "c". *)
Theorem C51_names_refuted (v w : V) path fs : roundTrip V str parse -> v <> w ->
  exists fs', saveQResCSV V str (qresPy V [(["a"], [("bc", Tab [[v]])]); (["ab"], [("c", Tab [[w]])])]) path fs = (fs', Ok tt) /\
    readCSV V parse (fileAt path "abc") fs' = Ok (Row [w]).
Proof.
  intros RT N. eexists; split; [reflexivity|].
  apply (readE V str parse path "abc" [[w]]); [exact RT|discriminate|]. unfold put. now rewrite !String.eqb_refl.
Qed.

(** The first result that fails ends the call: the results before it are saved,
    the file of the failing one is emptied, and those after it are not written. *)
Theorem C51_stops d k v (l : list V) rest path name fs : Forall (fun x => regular V (snd x)) d ->
  exists fs1 fs', saveDictToCSV V str (dictPy V d) path name fs = (fs1, Ok tt) /\
  saveDictToCSV V str (dictPy V d ++ (k, PList (map PNum (v :: l))) :: rest)%list path name fs = (fs', Err TypeError) /\
  fs' (fileAt path (name ++ k)) = Some [] /\
  forall f, f <> fileAt path (name ++ k) -> fs' f = fs1 f.
Proof.
  intros R.
  assert (S : forall d rest fs fs1, saveDictToCSV V str d path name fs = (fs1, Ok tt) ->
    saveDictToCSV V str (d ++ rest)%list path name fs = saveDictToCSV V str rest path name fs1).
  { clear. induction d as [|[k t] d IH]; intros rest fs fs1; [simpl; congruence|]. simpl.
    destruct (recursiveSaveList V str t path (name ++ k) fs) as [fs2 [[]|e]]; [apply IH|discriminate]. }
  destruct (saveDictE V str d path name fs [] R) as [fs1 [E _]]. rewrite app_nil_r in E.
  exists fs1. eexists. split; [exact E|]. rewrite (S _ _ _ _ E). split; [reflexivity|]. split.
  - unfold put. now rewrite String.eqb_refl.
  - intros f N. unfold put. now apply String.eqb_neq in N as ->.
Qed.
End Props.

(** ** Non-vacuity: numbers are naturals, written in decimal *)
Definition strN (x : pyval nat) : string := match x with PNum n => str_nat n | _ => "[]" end.
Definition parseN (s : string) : option nat := option_map Nat.of_uint (NilZero.uint_of_string s).

Lemma digits_no_comma s : (forall c, In c (list_ascii_of_string s) -> is_digit c = true) -> index 0 "," s = None.
Proof.
  induction s as [|a s IH]; intros H; [reflexivity|].
  change (index 0 "," (String a s)) with
    (if (if ascii_dec "," a then prefix "" s else false) then Some 0 else match index 0 "," s with Some n => Some (S n) | None => None end).
  destruct (ascii_dec "," a) as [<-|N].
  - specialize (H ","%char (or_introl eq_refl)). discriminate.
  - rewrite IH; [reflexivity|]. intros c Hc. apply H. right; exact Hc.
Qed.

Lemma roundTripN : roundTrip nat strN parseN.
Proof.
  intros n. simpl. pose proof (concat_digits [n]) as D. cbn [map String.concat] in D. rewrite all_digits_in in D.
  split; [|split].
  - unfold str_nat, NilZero.string_of_uint. destruct (Nat.to_uint n); discriminate.
  - apply digits_no_comma, D.
  - unfold parseN, str_nat. rewrite NilZero.usu; [|].
    + simpl. f_equal. apply DecimalNat.Unsigned.of_to.
    + intros E. destruct n; [discriminate|]. apply (f_equal Nat.of_uint) in E. rewrite DecimalNat.Unsigned.of_to in E. discriminate.
Qed.

Definition sample : nested nat := Deep [Deep [Tab [[1; 2]; [3]]; Tab [[4]]]; Deep [Tab [[5; 6; 7]]]].
Example sample_ok : regular nat sample /\ upTo nat 10 sample /\ tableAt nat sample [0; 1] [[4]].
Proof.
  split; [repeat constructor|]. split.
  - unfold sample. repeat first [apply UTab | apply UDeep | apply Forall_cons | apply Forall_nil]; simpl; lia.
  - repeat (econstructor; [reflexivity|]). constructor.
Qed.
Example C51_saved_ex : exists fs',
  recursiveSaveList nat strN (toPy nat sample) "out" "r" (fun _ => None) = (fs', Ok tt) /\
  readCSV nat parseN "out/r00.txt" fs' = Ok (Rows [[1; 2]; [3]]) /\
  readCSV nat parseN "out/r01.txt" fs' = Ok (Row [4]) /\
  readCSV nat parseN "out/r10.txt" fs' = Ok (Row [5; 6; 7]) /\
  readCSV nat parseN "out/r11.txt" fs' = Err KeyError.
Proof. eexists; split; [reflexivity|]. repeat split; vm_compute; reflexivity. Qed.

(** One level of 100 sweeps, then two of a few. *)
Example one_long : let t := Deep (map (fun i => Deep [Tab [[i]]; Tab [[i + 1]]]) (seq 0 100)) in
  regular nat t /\ levels nat [true; false] t /\ count_occ bool_dec [true; false] true <= 1.
Proof.
  cbv zeta. split; [|split; [|simpl; lia]].
  - assert (T : forall i, regular nat (Deep [Tab [[i]]; Tab [[i + 1]]])) by (intros; repeat constructor).
    change (seq 0 100) with (0 :: seq 1 99). cbn [map]. constructor; [apply T|].
    apply Forall_forall. intros t H. apply in_map_iff in H as [i [<- _]]. apply T.
  - constructor; [discriminate|]. apply Forall_forall. intros t H. apply in_map_iff in H as [i [<- _]].
    constructor; [simpl; lia|]. repeat constructor.
Qed.

Example C51_results_ex : let rs := [(["sim"; "alias"], [("a", sample); ("b", Tab [[1]])]); (["other"], []); (["tail"], [("a", sample)])] in
  Forall (fun x => Forall (fun y => regular nat (snd y) /\ upTo nat 10 (snd y)) (snd x)) rs /\ apart (fullKeys nat rs).
Proof.
  assert (T : regular nat (Tab [[1]]) /\ upTo nat 10 (Tab [[1]])) by (split; constructor).
  destruct sample_ok as [R [U _]]. cbv zeta. split; [repeat (constructor; auto)|].
  unfold apart. simpl. repeat constructor; intros [x [E _]]; discriminate.
Qed.

Example C51_overwritten_ex : exists fs',
  recursiveSaveList nat strN (toPy nat (twelve nat 7 0)) "out" "r" (fun _ => None) = (fs', Ok tt) /\
  readCSV nat parseN "out/r111.txt" fs' = Ok (Row [0]).
Proof. destruct (C51_overwritten_refuted nat strN parseN 7 0 "out" "r" (fun _ => None) roundTripN) as [_ [_ [_ H]]]; [discriminate|exact H]. Qed.

Print Assumptions C51_general.
Print Assumptions C51_saved.
Print Assumptions C51_one_long_level.
Print Assumptions C51_overwritten_refuted.
Print Assumptions C51_flat_refuted.
Print Assumptions C51_dropped_refuted.
Print Assumptions C51_saveCSV.
Print Assumptions C51_results.
Print Assumptions C51_names_refuted.
Print Assumptions C51_stops.
