(** C33: copies of systems. *)
From Verif Require Import Py CopyModel CopySpec CopyProofs.

Section Props.
Variables (F W O : Type).
Variable one : W.
Variable isPauli : O -> bool.
Variables numberOp jzOp : O.
Notation sys := (sys F W O).
Notation term := (term F W O).
Notation copy := (copy F W O one isPauli numberOp jzOp).
Notation rmul := (rmul F W O one isPauli numberOp jzOp).
Notation same := (same F W O).
Notation sameTerm := (sameTerm F W O).
Notation objects := (objects F W O).
Notation copyable := (copyable F W O isPauli).
Implicit Types (s x : sys) (t : term).

(** Single systems with at most one term, and composite systems of any depth and
    size with at most one term each, couplings being between direct sub-systems:
    the copy says the same and consists of new objects only. *)
Theorem C33_copy s n : copyable s -> exists s' n',
  copy s n = Ok (s', n') /\ same s s' /\ (forall o, In o (objects s') -> n <= o < n') /\ NoDup (objects s').
Proof.
  intros C. destruct (copy_ok F W O one isPauli numberOp jzOp s C n) as [s' [n' [E [S [_ [B N]]]]]]. eauto 10.
Qed.

(** ** What every copy looks like *)
Lemma setInit_terms s v s' : setInit F W O s v = Ok s' -> terms s' = terms s /\ comp s' = comp s /\ skind s' = skind s.
Proof.
  destruct s as [i k [[]|] d b ini l ts]; cbn [setInit]; [| |discriminate].
  - destruct v as [v|r v|vs]; [discriminate| |].
    + destruct (_ =? _)%nat; [|discriminate]. intros H; injection H as <-. auto.
    + destruct (negb _); [discriminate|]. destruct (_ l vs) as [l'|]; [|discriminate]. cbn [bind2]. intros H; injection H as <-. auto.
  - destruct v as [v|r v|vs]; [intros H; injection H as <-; auto| |intros H; injection H as <-; auto].
    destruct (_ =? _)%nat; [|discriminate]. intros H; injection H as <-. auto.
Qed.
Lemma setDim_terms s m s' : setDim F W O isPauli s m = Ok s' -> terms s' = terms s /\ comp s' <> None.
Proof.
  destruct s as [i k c d b ini l ts]. unfold setDim.
  destruct c as [[]|]; [intros H; injection H as <-; split; [reflexivity|discriminate]| |].
  - destruct (negb _); [discriminate|].
    destruct ts as [|[ti [?|] [o|?] ? ?] ts]; try (intros H; injection H as <-; split; [reflexivity|discriminate]).
    destruct (pauliFits _ _ _ _); [|discriminate]. intros H; injection H as <-; split; [reflexivity|discriminate].
  - destruct (negb (List.length l =? 0)%nat); [intros H; injection H as <-; split; [reflexivity|discriminate]|].
    destruct (negb _); [discriminate|].
    destruct ts as [|[ti [?|] [o|?] ? ?] ts]; try (intros H; injection H as <-; split; [reflexivity|discriminate]).
    destruct (pauliFits _ _ _ _); [|discriminate]. intros H; injection H as <-; split; [reflexivity|discriminate].
Qed.
Lemma addSub_terms s x s' : addSub F W O s x = Ok s' -> terms s' = terms s.
Proof. destruct s as [i k [[]|] d b ini l ts]; simpl; try discriminate; intros H; injection H as <-; reflexivity. Qed.
Lemma each_terms l s n s' n' : each F W O one isPauli numberOp jzOp l s n = Ok (s', n') -> terms s' = terms s.
Proof.
  revert s n. induction l as [|x l IH]; intros s n; cbn [each]; [intros H; injection H as <- _; reflexivity|].
  destruct (copy x n) as [[x' n1]|]; [|discriminate]. cbn [bind2].
  destruct (addSub F W O s x') as [s1|] eqn:E; [|discriminate]. cbn [bind2]. intros H. apply IH in H. rewrite H. eapply addSub_terms, E.
Qed.
Lemma copyTerms_last ts : forall s n s' n', copyTerms F W O isPauli s n ts = Ok (s', n') ->
  match rev ts with
  | [] => terms s' = terms s
  | t :: _ => exists t', terms s' = t' :: tl (terms s) /\ t_op t' = t_op t /\ t_order t' = t_order t /\ t_freq t' = t_freq t /\
               (t_on t = None -> t_on t' = None)
  end.
Proof.
  induction ts as [|t ts IH]; intros s n s' n'; cbn [copyTerms]; [intros H; injection H as <- _; reflexivity|].
  destruct (copyTerm F W O isPauli s n t) as [[s1 n1]|] eqn:E; [|discriminate]. cbn [bind2]. intros H. apply IH in H.
  destruct s as [i k c d b ini l ts0]. apply copyTerm_shape in E as [t1 [-> [E1 [E2 [E3 E4]]]]].
  cbn [rev]. destruct (rev ts) as [|u us]; [|exact H]. simpl. exists t1. simpl in H. now rewrite H.
Qed.

(** However many terms a system has, its copy has one, which says what the last
    term of the system says. *)
Theorem C33_last_term s n s' n' t ts : copy s n = Ok (s', n') -> terms s = (ts ++ [t])%list ->
  exists t', terms s' = [t'] /\ t_op t' = t_op t /\ t_order t' = t_order t /\ t_freq t' = t_freq t /\ (t_on t = None -> t_on t' = None).
Proof.
  destruct s as [i k c d b ini l ts0]. cbn [terms]. intros H ->. rewrite copyE in H.
  destruct (construct F W O one numberOp jzOp k n) as [new n0] eqn:EC.
  destruct (each _ _ _ _ _ _ _ l new n0) as [[s1 n1]|] eqn:E1; [|discriminate]. cbn [bind2] in H. apply each_terms in E1.
  destruct (copyTerms F W O isPauli s1 n1 (ts ++ [t])) as [[s2 n2]|] eqn:E2; [|discriminate]. cbn [bind2] in H.
  apply copyTerms_last in E2. rewrite rev_unit in E2. destruct E2 as [t' [E2 R]].
  assert (Z : tl (terms s1) = []). { rewrite E1. destruct k; injection EC as <- _; reflexivity. }
  rewrite Z in E2. exists t'. split; [|exact R].
  destruct (match ini with None => Ok s2 | Some v => setInit F W O s2 v end) as [s3|] eqn:E3; [|discriminate].
  cbn [bind2] in H. assert (T3 : terms s3 = [t']).
  { destruct ini as [v|]; [apply setInit_terms in E3 as [-> _]; exact E2|]. injection E3 as <-. exact E2. }
  destruct c as [[]|].
  - injection H as <- _. exact T3.
  - destruct (setDim F W O isPauli s3 d) as [s4|] eqn:E4; [|discriminate]. injection H as <- _.
    apply setDim_terms in E4 as [E4 _]. destruct s4; simpl in *. congruence.
  - destruct (setDim F W O isPauli s3 d) as [s4|] eqn:E4; [|discriminate]. injection H as <- _.
    apply setDim_terms in E4 as [E4 _]. destruct s4; simpl in *. congruence.
Qed.

(** So no system with two or more terms is copied faithfully. *)
Theorem C33_terms_refuted s n s' n' : 2 <= List.length (terms s) -> copy s n = Ok (s', n') -> ~ same s s'.
Proof.
  intros L E S.
  assert (X : exists ts t, terms s = (ts ++ [t])%list).
  { destruct (terms s) as [|u us]; [simpl in L; lia|]. destruct (@exists_last _ (u :: us)) as [ts [t Et]]; [discriminate|]. eauto. }
  destruct X as [ts [t ET]]. destruct (C33_last_term s n s' n' _ _ E ET) as [t' [E' _]].
  assert (Q : List.length (terms s) = List.length (terms s')).
  { inversion S as [? ? ? ? ? ? ? ? ? ? ? t1 t2 ? ? ST]; subst. simpl. clear -ST. induction ST; simpl; congruence. }
  rewrite E' in Q. simpl in Q. lia.
Qed.

(** A plain single system with an initial state cannot be copied, nor a cavity or
    spin whose initial state was given as a vector: the initial state is set
    before the dimension. *)
Theorem C33_initial_refuted i d b v ts n :
  (forall s' n', copy (Sys i Generic (Some false) d b (Some v) [] ts) n <> Ok (s', n')) /\
  copy (Sys i Generic (Some false) d b (Some v) [] []) n = Err ValueError.
Proof.
  split; [|reflexivity]. intros s' n' H. rewrite copyE in H. cbn [construct each bind2] in H.
  destruct (copyTerms _ _ _ _ _ _ ts) as [[s1 n1]|] eqn:E; [|discriminate]. cbn [bind2] in H.
  assert (C : comp s1 = None).
  { revert E. clear. assert (G : forall ts (s0 : sys) n s1 n1, comp s0 = None -> copyTerms F W O isPauli s0 n ts = Ok (s1, n1) -> comp s1 = None).
    { clear. induction ts as [|t ts IH]; intros s0 n s1 n1 C; cbn [copyTerms]; [intros H; injection H as <- _; exact C|].
      destruct (copyTerm F W O isPauli s0 n t) as [[s2 n2]|] eqn:E; [|discriminate]. cbn [bind2]. apply IH.
      destruct s0 as [i k c d b ini l ts0]. apply copyTerm_shape in E as [t' [-> _]]. exact C. }
    apply G. reflexivity. }
  destruct s1 as [i1 k1 c1 d1 b1 ini1 l1 ts1]. simpl in C. subst c1. discriminate.
Qed.
Theorem C33_vector_refuted i k d b r v ts n : k = CavityK \/ k = SpinK -> r <> 1 ->
  forall s' n', copy (Sys i k (Some false) d b (Some (IMat r v)) [] ts) n <> Ok (s', n').
Proof.
  intros K R s' n' H. rewrite copyE in H.
  destruct (construct F W O one numberOp jzOp k n) as [new n0] eqn:EC.
  assert (N : exists ts0, new = Sys n k (Some false) 1 false None [] ts0) by (destruct K as [-> | ->]; injection EC as <- _; eauto).
  destruct N as [ts0 ->]. cbn [each bind2] in H.
  destruct (copyTerms _ _ _ _ _ _ ts) as [[s1 n1]|] eqn:E; [|discriminate]. cbn [bind2] in H.
  assert (G : forall ts (n0 : nat) ts0 s1 n1, copyTerms F W O isPauli (Sys n k (Some false) 1 false None [] ts0) n0 ts = Ok (s1, n1) ->
     exists ts1, s1 = Sys n k (Some false) 1 false None [] ts1).
  { clear. induction ts as [|t ts IH]; intros n0 ts0 s1 n1; cbn [copyTerms]; [intros H; injection H as <- _; eauto|].
    destruct (copyTerm F W O isPauli (Sys n k (Some false) 1 false None [] ts0) n0 t) as [[s2 n2]|] eqn:E; [|discriminate]. cbn [bind2].
    apply copyTerm_shape in E as [t' [-> _]]. apply IH. }
  apply G in E as [ts1 ->]. cbn [setInit] in H. apply Nat.eqb_neq in R. rewrite R in H. discriminate.
Qed.

(** A coupling of systems that are not direct sub-systems makes copying fail. *)
Theorem C33_nested_refuted s n t ps p : In t (terms s) -> t_on t = Some ps -> In p ps -> snd p <> [] ->
  forall s' n', copy s n <> Ok (s', n').
Proof.
  destruct s as [i k c d b ini l ts]. cbn [terms]. intros It Et Ip Np s' n' H. rewrite copyE in H.
  destruct (construct F W O one numberOp jzOp k n) as [new n0].
  destruct (each _ _ _ _ _ _ _ l new n0) as [[s1 n1]|]; [|discriminate]. cbn [bind2] in H.
  destruct (copyTerms F W O isPauli s1 n1 ts) as [[s2 n2]|] eqn:E; [|discriminate]. clear H.
  revert s1 n1 E It. induction ts as [|u ts IH]; intros s1 n1 E It; [destruct It|]. cbn [copyTerms] in E.
  destruct (copyTerm F W O isPauli s1 n1 u) as [[s3 n3]|] eqn:E3; [|discriminate]. cbn [bind2] in E.
  destruct It as [->|It]; [|eapply IH; eassumption]. clear -E3 Et Ip Np.
  destruct s1 as [i k c d b ini l ts0]. unfold copyTerm in E3. rewrite Et in E3.
  destruct (names F W O l ps) as [r|] eqn:EN; [|discriminate]. cbn [bind2] in E3.
  assert (r = ps) as ->.
  { clear -EN. revert r EN. induction ps as [|[j up] ps IH]; intros r; simpl; [congruence|].
    destruct (j <? List.length l)%nat; [|discriminate]. destruct (names F W O l ps) as [q|]; [|discriminate]. simpl.
    intros H; injection H as <-. f_equal. now apply IH. }
  assert (X : exists e, resolve ps = Err e).
  { clear -Ip Np. induction ps as [|[j up] ps IH]; [destruct Ip|]. simpl. destruct up as [|? ?]; [|eauto].
    destruct Ip as [<-|Ip]; [simpl in Np; congruence|]. destruct (IH Ip) as [e ->]. simpl. eauto. }
  destruct X as [e X]. rewrite X in E3. discriminate.
Qed.

(** The copy of a system whose type is still open is a single system, and the
    copy of a composite system without sub-systems is of open type. *)
Theorem C33_open_refuted s n s' n' : copy s n = Ok (s', n') -> comp s = None -> comp s' <> None.
Proof.
  destruct s as [i k c d b ini l ts]. cbn [comp]. intros H ->. rewrite copyE in H.
  destruct (construct F W O one numberOp jzOp k n) as [new n0].
  destruct (each _ _ _ _ _ _ _ l new n0) as [[s1 n1]|]; [|discriminate]. cbn [bind2] in H.
  destruct (copyTerms F W O isPauli s1 n1 ts) as [[s2 n2]|]; [|discriminate]. cbn [bind2] in H.
  destruct (match ini with None => Ok s2 | Some v => setInit F W O s2 v end) as [s3|]; [|discriminate]. cbn [bind2] in H.
  destruct (setDim F W O isPauli s3 d) as [s4|] eqn:E4; [|discriminate]. injection H as <- _.
  apply setDim_terms in E4 as [_ E4]. destruct s4; exact E4.
Qed.
Theorem C33_empty_refuted i d b n : exists s' n',
  copy (Sys i Generic (Some true) d b None [] []) n = Ok (s', n') /\ comp s' = None.
Proof. do 2 eexists; split; reflexivity. Qed.

(** A cavity whose terms were removed gets its default term back. *)
Theorem C33_default_refuted i d b n : isPauli numberOp = false -> 0 < d -> exists s' n' t,
  copy (Sys i CavityK (Some false) d b None [] []) n = Ok (s', n') /\ terms s' = [t] /\ t_op t = One (Some numberOp) /\ t_freq t = None.
Proof.
  intros P Hd. do 3 eexists. rewrite copyE. cbn [construct each copyTerms bind2 setDim].
  assert (Hm : (0 <? d)%nat = true) by (apply Nat.ltb_lt; lia). rewrite Hm. cbn [negb pauliFits]. rewrite P. cbn [andb negb bind2 setCoef].
  repeat split; reflexivity.
Qed.

(** The initial state a sub-system was given after its composite system is lost. *)
Theorem C33_input_refuted i j d d' b b' v w n : isPauli jzOp = false -> 0 < d' -> exists s' n' x,
  copy (Sys i Generic (Some true) d b (Some (IList [IVal v])) [Sys j QubitK (Some false) d' b' (Some (IVal w)) [] []] []) n = Ok (s', n') /\
  subs s' = [x] /\ init x = Some (IVal v).
Proof.
  intros P Hd. do 3 eexists. rewrite copyE. cbn [construct each]. rewrite copyE. cbn [construct each copyTerms bind2 setInit setDim].
  assert (Hm : (0 <? d')%nat = true) by (apply Nat.ltb_lt; lia). rewrite Hm. cbn [negb pauliFits]. rewrite P. cbn [andb negb bind2 setCoef addSub app].
  cbn. repeat split; reflexivity.
Qed.

(** ** N * system *)
Lemma addCopies_ok s m : copyable s -> forall i d b acc n, exists l n',
  addCopies F W O one isPauli numberOp jzOp m s (Sys i Generic (Some true) d b None acc []) n
    = Ok (Sys i Generic (Some true) d b None (acc ++ l) [], n') /\
  List.length l = m /\ Forall (same s) l /\ n <= n' /\ (forall o, In o (flat_map objects l) -> n <= o < n') /\ NoDup (flat_map objects l).
Proof.
  intros C. induction m as [|m IH]; intros i d b acc n.
  - exists [], n. rewrite app_nil_r. split; [reflexivity|]. split; [reflexivity|]. split; [constructor|]. split; [lia|]. split; [intros o []|constructor].
  - destruct (copy_ok F W O one isPauli numberOp jzOp s C n) as [x [n1 [E1 [S1 [L1 [B1 N1]]]]]].
    destruct (IH i d b (acc ++ [x])%list n1) as [l [n2 [E2 [Z [S2 [L2 [B2 N2]]]]]]].
    exists (x :: l), n2. cbn [addCopies]. rewrite E1. cbn [bind2 addSub]. rewrite E2, <- app_assoc.
    split; [reflexivity|]. split; [simpl; lia|]. split; [now constructor|]. split; [lia|]. cbn [flat_map]. split.
    + intros o Ho. apply in_app_or in Ho as [Ho|Ho]; [apply B1 in Ho|apply B2 in Ho]; lia.
    + clear -N1 N2 B1 B2. revert N1 B1. generalize (objects x). intros l1 N1. induction N1 as [|a l1 Ha N1 IH]; intros B1; [exact N2|].
      simpl. constructor.
      * intros Hi. apply in_app_or in Hi as [Hi|Hi]; [contradiction|]. apply B2 in Hi. specialize (B1 a (or_introl eq_refl)). lia.
      * apply IH. intros o Ho. apply B1. now right.
Qed.

Lemma same_refl s : same s s.
Proof.
  induction s as [i k c d b ini l ts IH] using (sys_ind' F W O). constructor; [auto| |].
  - induction IH; constructor; auto.
  - induction ts; constructor; [repeat split|assumption].
Qed.

(** N times a system is a composite system of the system itself and N - 1 copies
    of it (at least the system itself). *)
Theorem C33_rmul m s n : copyable s -> exists c l n', rmul m s n = Ok (c, n') /\ comp c = Some true /\ subs c = s :: l /\
  List.length l = m - 1 /\ Forall (same s) l /\ (forall o, In o (flat_map objects l) -> n < o < n') /\ NoDup (flat_map objects l) /\
  dimension c = dimension s ^ S (m - 1).
Proof.
  intros C. unfold rmul. cbn [construct addSub bind2].
  destruct (addCopies_ok s (m - 1) C n 1 false [s] (n + 1)) as [l [n' [E [Z [S [L [B N]]]]]]].
  cbn [app] in *. rewrite E. do 3 eexists. split; [reflexivity|]. split; [reflexivity|]. split; [reflexivity|].
  split; [exact Z|]. split; [exact S|]. split; [intros o Ho; apply B in Ho; lia|]. split; [exact N|].
  rewrite <- Z. cbn [dimension fold_left].
  assert (G : forall l k, Forall (same s) l -> fold_left (fun n x => n * dimension x) l k = k * dimension s ^ List.length l).
  { clear. intros l k S; revert k; induction S as [|x l Sx S IH]; intros k; [simpl; lia|]. cbn [fold_left List.length Nat.pow].
    rewrite IH, <- (same_dim _ _ _ _ _ Sx). lia. }
  rewrite (G l) by exact S. cbn [Nat.pow]. lia.
Qed.
End Props.

(** Non-vacuity: a cavity and a qubit coupled, inside a composite with a third
    system, and the loss of a term. *)
Section Ex.
Inductive op := Number | Jz_ | SigmaX | Create.
Definition pauli (o : op) : bool := match o with SigmaX => true | _ => false end.
Definition cav : sys nat nat op := Sys 0 CavityK (Some false) 5 false (Some (IVal 3)) [] [Term 1 None (One (Some Number)) (One 1) (Some 7)].
Definition qub : sys nat nat op := Sys 2 QubitK (Some false) 2 false (Some (IMat 2 9)) [] [Term 3 None (One (Some SigmaX)) (One 1) (Some 8)].
Definition pair : sys nat nat op := Sys 4 Generic (Some true) 1 false (Some (IList [IVal 3; IMat 2 9])) [cav; qub]
  [Term 5 (Some [(0, []); (1, [])]) (Many [Some Create; Some SigmaX]) (Many [1; 1]) (Some 2)].
Definition plain : sys nat nat op := Sys 6 Generic (Some false) 3 true None [] [].
Definition all : sys nat nat op := Sys 7 Generic (Some true) 1 false None [pair; plain] [].
Example all_copyable : copyable nat nat op pauli all.
Proof.
  assert (HC : copyable nat nat op pauli cav).
  { constructor; [lia| |discriminate]. right. do 3 eexists. repeat split. simpl. discriminate. }
  assert (HQ : copyable nat nat op pauli qub).
  { constructor; [lia| |auto]. right. do 3 eexists. repeat split. simpl. auto. }
  assert (HP : copyable nat nat op pauli pair).
  { constructor; [discriminate|repeat (apply Forall_cons; [assumption|]); constructor| |reflexivity].
    right. eexists; split; [reflexivity|]. right. do 3 eexists. repeat split.
    constructor; [split; [reflexivity|]; eexists; split; [reflexivity|]; simpl; discriminate|].
    constructor; [split; [reflexivity|]; eexists; split; [reflexivity|]; simpl; auto|]. constructor. }
  assert (HL : copyable nat nat op pauli plain) by (constructor; [lia|left; auto|exact I]).
  constructor; [discriminate|repeat (apply Forall_cons; [assumption|]); constructor|left; reflexivity|exact I].
Qed.
Example two_terms : exists s' n',
  copy nat nat op 1 pauli Number Jz_ (Sys 0 CavityK (Some false) 5 false None []
    [Term 1 None (One (Some Number)) (One 1) (Some 7); Term 2 None (One (Some Create)) (One 2) (Some 1)]) 10 = Ok (s', n') /\
  terms s' = [Term 11 None (One (Some Create)) (One 2) (Some 1)].
Proof. do 2 eexists; split; reflexivity. Qed.
End Ex.

Print Assumptions C33_copy.
Print Assumptions C33_last_term.
Print Assumptions C33_terms_refuted.
Print Assumptions C33_initial_refuted.
Print Assumptions C33_vector_refuted.
Print Assumptions C33_nested_refuted.
Print Assumptions C33_open_refuted.
Print Assumptions C33_empty_refuted.
Print Assumptions C33_default_refuted.
Print Assumptions C33_input_refuted.
Print Assumptions C33_rmul.
