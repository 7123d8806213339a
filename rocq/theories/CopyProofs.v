(** Proofs about copies. *)
From Verif Require Import Py CopyModel CopySpec.

Section P.
Variables (F W O : Type).
Variable one : W.
Variable isPauli : O -> bool.
Variables numberOp jzOp : O.
Notation sys := (sys F W O).
Notation term := (term F W O).
Notation copy := (copy F W O one isPauli numberOp jzOp).
Notation same := (same F W O).
Notation sameTerm := (sameTerm F W O).
Notation objects := (objects F W O).
Notation copyable := (copyable F W O isPauli).
Notation dimOk := (dimOk O isPauli).
Implicit Types (s x : sys) (t : term).

Section Ind.
Variable P : sys -> Prop.
Hypothesis H : forall i k c d b ini l ts, Forall P l -> P (Sys i k c d b ini l ts).
Lemma sys_ind' s : P s.
Proof.
  revert s. fix IH 1. intros [i k c d b ini l ts]. apply H.
  induction l as [|x l IHl]; constructor; [apply IH|exact IHl].
Qed.
End Ind.

Lemma sameTerm_refl t : sameTerm t t. Proof. repeat split. Qed.

Lemma same_dim s s' : same s s' -> dimension s = dimension s'.
Proof.
  revert s'. induction s as [i k c d b ini l ts IH] using sys_ind'. intros s' S.
  inversion S as [? ? ? ? ? ? ? ? ? ? l' ? ts' D SL ST]; subst.
  destruct c as [[]|]; simpl; try (apply D; discriminate).
  generalize 1. clear -IH SL. revert IH. induction SL as [|x x' l l' Sx SL IHl]; intros IH m; [reflexivity|].
  simpl. inversion IH as [|? ? Hx Hl]; subst. rewrite (Hx _ Sx). now apply IHl.
Qed.
Lemma same_init s s' : same s s' -> init s' = init s.
Proof. intros S; inversion S; reflexivity. Qed.
Lemma same_comp s s' : same s s' -> comp s' = comp s.
Proof. intros S; inversion S; reflexivity. Qed.

Lemma fits_ok d o : dimOk d o -> pauliFits O isPauli d o = true.
Proof.
  destruct o as [o|]; simpl; [|reflexivity]. destruct (isPauli o); simpl; [|reflexivity].
  intros H. destruct (H eq_refl) as [-> | ->]; reflexivity.
Qed.

(** Setting the initial state again. *)
Lemma setInit_again s : copyable s -> forall s' v, same s s' -> init s = Some v ->
  exists s'', setInit F W O s' v = Ok s'' /\ same s s'' /\ objects s'' = objects s'.
Proof.
  induction s as [i k c d b ini l ts IH] using sys_ind'. intros C s' v S E. simpl in E. subst ini.
  inversion S as [? i' ? ? ? d' ? b' ? ? l' ? ts' D SL ST]; subst.
  inversion C as [? ? ? ? ? ? Hd HT HI|? ? ? ? ? ? Hl HC HT HA]; subst.
  - destruct D as [<- <-]; [discriminate|]. destruct v as [v|r v|vs]; simpl.
    + eexists; split; [reflexivity|]. split; [constructor; auto|reflexivity].
    + destruct HI as [_ [-> ->]]. simpl. eexists; split; [reflexivity|]. split; [constructor; auto|reflexivity].
    + eexists; split; [reflexivity|]. split; [constructor; auto|reflexivity].
  - destruct v as [v|r v|vs].
    + destruct HA.
    + unfold agrees in HA. rewrite (same_dim _ _ S) in HA. cbn [setInit]. rewrite HA, Nat.eqb_refl.
      eexists; split; [reflexivity|]. split; [constructor; auto|reflexivity].
    + simpl in HA.
      assert (L : forall l l' vs, Forall (fun s => copyable s -> forall s' v, same s s' -> init s = Some v ->
            exists s'', setInit F W O s' v = Ok s'' /\ same s s'' /\ objects s'' = objects s') l ->
          Forall copyable l -> Forall2 same l l' -> map init l = map (@Some inp) vs ->
          exists l'', (fix each (l : list sys) (vs : list inp) : result (list sys) :=
                        match l, vs with
                        | x :: l, v :: vs => bind2 (setInit F W O x v) (fun x' => bind2 (each l vs) (fun r => Ok (x' :: r)))
                        | _, _ => Ok []
                        end) l' vs = Ok l'' /\ Forall2 same l l'' /\ flat_map objects l'' = flat_map objects l').
      { clear. intros l l' vs HI HC SL. revert vs. induction SL as [|x x' l l' Sx SL IHl]; intros [|v vs] E; try discriminate.
        - exists []. auto.
        - injection E as E1 E2. inversion HI as [|? ? HI1 HI2]; inversion HC as [|? ? HC1 HC2]; subst.
          destruct (HI1 HC1 x' v Sx E1) as [x'' [E'' [S'' O'']]].
          destruct (IHl HI2 HC2 vs E2) as [l'' [El [Sl Ol]]].
          exists (x'' :: l''). rewrite E''. cbn [bind2]. rewrite El. split; [reflexivity|]. split; [now constructor|].
          cbn [flat_map]. now rewrite O'', Ol. }
      destruct (L l l' vs IH HC SL HA) as [l'' [El [Sl Ol]]].
      cbn [setInit]. 
      assert (EL : List.length vs = List.length l').
      { transitivity (List.length l); [|clear -SL; induction SL; simpl; congruence].
        apply (f_equal (@List.length _)) in HA. now rewrite !map_length in HA. }
      rewrite EL, Nat.eqb_refl. cbn [negb]. rewrite El. cbn [bind2]. eexists; split; [reflexivity|].
      split; [constructor; auto|]. cbn [CopySpec.objects]. now rewrite Ol.
Qed.

Lemma setInit_old i k c d b ini ini' l ts v :
  setInit F W O (Sys i k c d b ini l ts) v = setInit F W O (Sys i k c d b ini' l ts) v.
Proof. destruct c as [[]|]; reflexivity. Qed.

(** The loop over the sub-systems. *)
Definition copied s n := exists s' n', copy s n = Ok (s', n') /\ same s s' /\ n <= n' /\
  (forall o, In o (objects s') -> n <= o < n') /\ NoDup (objects s').

Fixpoint each (l : list sys) (new : sys) (n : nat) : result (sys * nat) :=
  match l with
  | [] => Ok (new, n)
  | x :: l => bind2 (copy x n) (fun '(x', n') => bind2 (addSub F W O new x') (fun new' => each l new' n'))
  end.

Lemma eachE l : Forall (fun s => forall n, copied s n) l -> forall i c d b acc n, c <> Some false ->
  exists l' n', each l (Sys i Generic c d b None acc []) n =
    Ok (Sys i Generic (match l with [] => c | _ => Some true end) d b None (acc ++ l') [], n') /\
  Forall2 same l l' /\ n <= n' /\ (forall o, In o (flat_map objects l') -> n <= o < n') /\ NoDup (flat_map objects l').
Proof.
  induction 1 as [|x l Hx Hl IH]; intros i c d b acc n Hc.
  - exists [], n. rewrite app_nil_r. split; [reflexivity|]. split; [constructor|]. split; [lia|]. split; [intros o []|constructor].
  - destruct (Hx n) as [x' [n1 [E1 [S1 [L1 [B1 N1]]]]]]. 
    destruct (IH i (Some true) d b (acc ++ [x']) n1) as [l' [n2 [E2 [S2 [L2 [B2 N2]]]]]]; [discriminate|].
    exists (x' :: l'), n2. cbn [each]. rewrite E1. cbn [bind2].
    assert (A : addSub F W O (Sys i Generic c d b None acc []) x' = Ok (Sys i Generic (Some true) d b None (acc ++ [x']) [])).
    { destruct c as [[]|]; [reflexivity|congruence|reflexivity]. }
    rewrite A. cbn [bind2]. rewrite E2. rewrite <- app_assoc. split; [destruct l; reflexivity|].
    split; [now constructor|]. split; [lia|]. cbn [flat_map]. split.
    + intros o Ho. apply in_app_or in Ho as [Ho|Ho]; [apply B1 in Ho|apply B2 in Ho]; lia.
    + clear -N1 N2 B1 B2. revert N1 B1. generalize (objects x'). intros l1 N1. induction N1 as [|a l1 Ha N1 IH]; intros B1; [exact N2|].
      simpl. constructor.
      * intros Hi. apply in_app_or in Hi as [Hi|Hi]; [contradiction|]. apply B2 in Hi. specialize (B1 a (or_introl eq_refl)). lia.
      * apply IH. intros o Ho. apply B1. now right.
Qed.

Lemma names_ok (l : list sys) ps : Forall (fun p : nat * list nat => snd p = [] /\ fst p < List.length l) ps ->
  names F W O l ps = Ok ps /\ resolve ps = Ok ps.
Proof.
  induction 1 as [|[i up] ps [H1 H2] H [IH1 IH2]]; [split; reflexivity|]. simpl in *. subst up.
  apply Nat.ltb_lt in H2. rewrite H2, IH1, IH2. split; reflexivity.
Qed.

Lemma pauliAll_ok (l : list sys) ps os :
  Forall2 (fun (p : nat * list nat) o => snd p = [] /\ exists x, nth_error l (fst p) = Some x /\ dimOk (dimension x) o) ps os ->
  pauliAll F W O isPauli l ps os = true.
Proof.
  induction 1 as [|[i up] o ps os [H1 [x [Hx Hd]]] H IH]; [reflexivity|]. simpl in *. rewrite Hx, IH, (fits_ok _ _ Hd). reflexivity.
Qed.

Lemma Forall2_nth (l l' : list sys) i x : Forall2 same l l' -> nth_error l i = Some x ->
  exists x', nth_error l' i = Some x' /\ same x x'.
Proof.
  intros S; revert i; induction S as [|a a' l l' Sa S IH]; intros [|i] E; try discriminate; simpl in *.
  - injection E as <-. eauto.
  - eauto.
Qed.

Lemma copyE i k c d b ini l ts n : copy (Sys i k c d b ini l ts) n =
  let (new, n) := construct F W O one numberOp jzOp k n in
  bind2 (each l new n) (fun '(new, n) =>
  bind2 (copyTerms F W O isPauli new n ts) (fun '(new, n) =>
  bind2 (match ini with None => Ok new | Some v => setInit F W O new v end) (fun new =>
  match c with
  | Some true => Ok (new, n)
  | _ => bind2 (setDim F W O isPauli new d) (fun new => Ok (setCoef F W O new b, n))
  end))).
Proof. reflexivity. Qed.

Lemma singleTerm i k c dd bb ini0 l ts0 n t o w : t_on t = None -> t_op t = One o -> t_order t = One w ->
  dimOk (dimension (Sys i k c dd bb ini0 l ts0)) o -> List.length ts0 <= 1 -> (forall a, In a ts0 -> i < t_id a < n) -> i < n ->
  exists t' n', copyTerm F W O isPauli (Sys i k c dd bb ini0 l ts0) n t = Ok (Sys i k c dd bb ini0 l [t'], n') /\
    sameTerm t t' /\ n <= n' /\ i < t_id t' < n' /\ (n <= t_id t' \/ In (t_id t') (map t_id ts0)).
Proof.
  intros E1 E2 E3 D L B Li. unfold copyTerm. rewrite E1, E2, E3. cbn [bind2 checkOps].
  rewrite (fits_ok _ _ D). cbn [bind2 checkOrd].
  destruct ts0 as [|f [|? ?]]; [| |simpl in L; lia].
  - do 2 eexists; split; [reflexivity|]. split; [repeat split; assumption|]. simpl. lia.
  - do 2 eexists; split; [reflexivity|]. split; [repeat split; assumption|]. specialize (B f (or_introl eq_refl)). simpl. lia.
Qed.

Theorem copy_ok s : copyable s -> forall n, copied s n.
Proof.
  induction s as [i k c d b ini l ts IH] using sys_ind'. intros C n.
  inversion C as [? ? ? ? ? ? Hd HT HI|? ? ? ? ? ? Hl HC HT HA]; subst; unfold copied.
  - (* single *)
    rewrite copyE. destruct (construct F W O one numberOp jzOp k n) as [new n0] eqn:EC. cbn [each bind2].
    assert (X : exists c0 d0 ts0, new = Sys n k c0 d0 false None [] ts0 /\ (d0 = 1 \/ d0 = 2) /\
       (k = Generic /\ c0 = None /\ ts0 = [] \/ k <> Generic /\ c0 = Some false /\ exists a, ts0 = [a]) /\ (k = QubitK -> d0 = 2) /\
       n < n0 /\ (forall a, In a ts0 -> n < t_id a < n0)).
    { destruct k; injection EC as <- <-; do 3 eexists; (split; [reflexivity|]); simpl;
        (split; [auto|]); (split; [first [left; now auto | right; split; [discriminate|]; eauto]|]); (split; [auto; discriminate|]); (split; [lia|]);
        intros a [<-|[]] || intros a []; simpl; lia. }
    destruct X as [c0 [d0 [ts0 [-> [D0 [K0 [Q0 [Ln0 B0]]]]]]]].
    assert (T : exists ts1 n1, copyTerms F W O isPauli (Sys n k c0 d0 false None [] ts0) n0 ts = Ok (Sys n k c0 d0 false None [] ts1, n1) /\
        Forall2 sameTerm ts ts1 /\ n0 <= n1 /\ (forall a, In a ts1 -> n < t_id a < n1) /\ List.length ts1 <= 1).
    { destruct HT as [[-> ->]|[t [o [w [-> [E1 [E2 [E3 D]]]]]]]].
      - destruct K0 as [[_ [_ ->]]|[K _]]; [|congruence]. exists [], n0. split; [reflexivity|]. split; [constructor|]. split; [lia|]. split; [intros a []|simpl; lia].
      - destruct (singleTerm n k c0 d0 false None [] ts0 n0 t o w E1 E2 E3) as [t' [n1 [E [S [Ln [Bt _]]]]]]; auto.
        + assert (DD : dimension (Sys n k c0 d0 false None [] ts0) = d0) by (destruct K0 as [[_ [-> _]]|[_ [-> _]]]; reflexivity).
          rewrite DD. destruct o as [o|]; [|exact I]. intros _. tauto.
        + destruct K0 as [[_ [_ ->]]|[_ [_ [a ->]]]]; simpl; lia.
        + exists [t'], n1. cbn [copyTerms]. rewrite E. cbn [bind2]. split; [reflexivity|]. split; [constructor; [exact S|constructor]|].
          split; [exact Ln|]. split; [|simpl; lia]. intros a [<-|[]]. exact Bt. }
    destruct T as [ts1 [n1 [ET [ST [L1 [B1 Z1]]]]]]. rewrite ET. cbn [bind2].
    assert (J : exists c1, match ini with None => Ok (Sys n k c0 d0 false None [] ts1) | Some v => setInit F W O (Sys n k c0 d0 false None [] ts1) v end
       = Ok (Sys n k c1 d0 false ini [] ts1) /\ c1 <> Some true).
    { destruct ini as [v|]; [|exists c0; split; [reflexivity|destruct K0 as [[_ [-> _]]|[_ [-> _]]]; discriminate]].
      destruct v as [v|r v|vs].
      - destruct K0 as [[K _]|[_ [-> _]]]; [congruence|]. exists (Some false). split; [reflexivity|discriminate].
      - destruct HI as [K [-> ->]]. destruct K0 as [[K' _]|[_ [-> _]]]; [congruence|]. rewrite (Q0 K). exists (Some false). split; [reflexivity|discriminate].
      - destruct K0 as [[K _]|[_ [-> _]]]; [congruence|]. exists (Some false). split; [reflexivity|discriminate]. }
    destruct J as [c1 [EJ NJ]]. rewrite EJ. cbn [bind2].
    assert (DM : setDim F W O isPauli (Sys n k c1 d0 false ini [] ts1) d = Ok (Sys n k (Some false) d false ini [] ts1)).
    { unfold setDim. assert (Hm : (0 <? d)%nat = true) by (apply Nat.ltb_lt; lia). rewrite Hm.
      destruct HT as [[-> _]|[t [o [w [-> [E1 [E2 [E3 D]]]]]]]].
      - inversion ST; subst. destruct c1 as [[]|]; [congruence|reflexivity|reflexivity].
      - inversion ST as [|? t' ? ? St St']; subst. inversion St'; subst. destruct t' as [ti ton top tor tf].
        destruct St as [F1 [F2 [F3 F4]]]. simpl in *. subst ton top. rewrite E1, E2.
        rewrite (fits_ok _ _ D). destruct c1 as [[]|]; [congruence|reflexivity|reflexivity]. }
    rewrite DM. cbn [bind2 setCoef]. exists (Sys n k (Some false) d b ini [] ts1), n1.
    split; [reflexivity|]. split; [constructor; auto|]. split; [lia|]. cbn [CopySpec.objects flat_map app]. split.
    + intros o [<-|Ho]; [lia|]. apply in_map_iff in Ho as [a [<- Ha]]. specialize (B1 a Ha). lia.
    + destruct ts1 as [|a [|? ?]]; [repeat constructor; intros []| |simpl in Z1; lia].
      constructor; [|repeat constructor; intros []]. intros [E|[]]. specialize (B1 a (or_introl eq_refl)). lia.
  - (* composite *)
    rewrite copyE. cbn [construct].
    assert (IH' : Forall (fun s => forall n, copied s n) l).
    { clear -IH HC. rewrite Forall_forall in *. intros x Hx m. apply IH; auto. }
    destruct (eachE l IH' n None 1 false [] (n + 1)) as [l' [n0 [E0 [S0 [L0 [B0 N0]]]]]]; [discriminate|].
    rewrite E0. cbn [bind2 app].
    replace (match l with [] => None | _ => Some true end) with (Some true) by (destruct l; congruence).
    assert (T : exists ts1 n1, copyTerms F W O isPauli (Sys n Generic (Some true) 1 false None l' []) n0 ts =
         Ok (Sys n Generic (Some true) 1 false None l' ts1, n1) /\
        Forall2 sameTerm ts ts1 /\ n0 <= n1 /\ (forall a, In a ts1 -> n0 <= t_id a < n1) /\ List.length ts1 <= 1).
    { destruct HT as [->|[t [-> [[E1 [o [w [E2 [E3 D]]]]]|[ps [os [ws [E1 [E2 [E3 [LO [LW FO]]]]]]]]]]]].
      - exists [], n0. split; [reflexivity|]. split; [constructor|]. split; [lia|]. split; [intros a []|simpl; lia].
      - destruct (singleTerm n Generic (Some true) 1 false None l' [] n0 t o w E1 E2 E3) as [t' [n1 [E [S [Ln [Bt _]]]]]];
          [|simpl; lia|intros a []|lia|].
        + assert (SD : same (Sys i Generic (Some true) d b ini l []) (Sys n Generic (Some true) 1 false ini l' [])) by (constructor; auto; congruence).
          apply same_dim in SD. change (dimension (Sys i Generic (Some true) d b ini l [t])) with (dimension (Sys i Generic (Some true) d b ini l [])) in D.
          rewrite SD in D. exact D.
        + unfold copyTerm in *. cbn [copyTerms]. unfold copyTerm. rewrite E1, E2, E3 in *. cbn [bind2] in *.
          destruct (checkOps F W O isPauli (Sys n Generic (Some true) 1 false None l' []) None (One o)) as [[]|]; [|discriminate].
          cbn [bind2 checkOrd] in *. injection E as <- <-. do 2 eexists; split; [reflexivity|]. split; [constructor; [repeat split; assumption|constructor]|].
          split; [lia|]. split; [|simpl; lia]. intros a [<-|[]]. simpl. lia.
      - cbn [copyTerms]. unfold copyTerm. rewrite E1.
        assert (FO' : Forall2 (fun (p : nat * list nat) o => snd p = [] /\ exists x, nth_error l' (fst p) = Some x /\ dimOk (dimension x) o) ps os).
        { clear -FO S0. induction FO as [|p o ps os [H1 [x [Hx Hd]]] FO IH]; constructor; [|exact IH]. split; [exact H1|].
          destruct (Forall2_nth _ _ _ _ S0 Hx) as [x' [Hx' Sx]]. exists x'. split; [exact Hx'|]. now rewrite <- (same_dim _ _ Sx). }
        destruct (names_ok l' ps) as [EN ER].
        { clear -FO'. induction FO' as [|p o ps os [H1 [x [Hx _]]] FO IH]; constructor; [|exact IH].
          split; [exact H1|]. apply nth_error_Some. congruence. }
        rewrite EN. cbn [bind2]. rewrite ER. cbn [bind2]. rewrite E2, E3. cbn [checkOps checkOrd bind2 subs]. rewrite LO, Nat.eqb_refl. cbn [negb].
        rewrite (pauliAll_ok l' ps os FO'), LW, Nat.eqb_refl. cbn [bind2].
        do 2 eexists; split; [reflexivity|]. split; [constructor; [repeat split; simpl; congruence|constructor]|]. split; [lia|].
        split; [|simpl; lia]. intros a [<-|[]]. simpl. lia. }
    destruct T as [ts1 [n1 [ET [ST [L1 [B1 Z1]]]]]]. rewrite ET. cbn [bind2].
    assert (OB : forall s', objects s' = n :: flat_map objects l' ++ map t_id ts1 ->
       (forall o, In o (objects s') -> n <= o < n1) /\ NoDup (objects s')).
    { intros s' ->. split.
      - intros o [<-|Ho]; [lia|]. apply in_app_or in Ho as [Ho|Ho]; [apply B0 in Ho; lia|].
        apply in_map_iff in Ho as [a [<- Ha]]. specialize (B1 a Ha). lia.
      - constructor.
        + intros Ho. apply in_app_or in Ho as [Ho|Ho]; [apply B0 in Ho; lia|].
          apply in_map_iff in Ho as [a [Ea Ha]]. specialize (B1 a Ha). lia.
        + destruct ts1 as [|a [|? ?]]; [rewrite app_nil_r; exact N0| |simpl in Z1; lia].
          simpl. apply NoDup_Add with (a := t_id a) (l := flat_map objects l').
          * replace (flat_map objects l') with (flat_map objects l' ++ []) at 1 by apply app_nil_r. apply Add_app.
          * split; [exact N0|]. intros Ho. apply B0 in Ho. specialize (B1 a (or_introl eq_refl)). lia. }
    destruct ini as [v|].
    + destruct (setInit_again _ C (Sys n Generic (Some true) 1 false (Some v) l' ts1) v) as [s'' [E'' [S'' O'']]].
      * constructor; auto. congruence.
      * reflexivity.
      * rewrite (setInit_old n Generic (Some true) 1 false None (Some v)), E''. cbn [bind2]. exists s'', n1.
        split; [reflexivity|]. split; [exact S''|]. split; [lia|]. apply OB. exact O''.
    + cbn [bind2]. eexists _, n1. split; [reflexivity|]. split; [constructor; auto; congruence|]. split; [lia|].
      apply OB. reflexivity.
Qed.

(** What is left of the terms. *)
Lemma copyTerm_shape i k c d b ini l ts n t s' n' : copyTerm F W O isPauli (Sys i k c d b ini l ts) n t = Ok (s', n') ->
  exists t', s' = Sys i k c d b ini l (t' :: tl ts) /\ t_op t' = t_op t /\ t_order t' = t_order t /\ t_freq t' = t_freq t /\
    (t_on t = None -> t_on t' = None).
Proof.
  unfold copyTerm. destruct (t_on t) as [ps|] eqn:E.
  - destruct (names F W O l ps) as [r|]; [|discriminate]. cbn [bind2]. destruct (resolve r) as [r'|]; [|discriminate]. cbn [bind2].
    destruct (checkOps _ _ _ _ _ _ _) as [[]|]; [|discriminate]. destruct (checkOrd _ _ _) as [[]|]; [|discriminate]. cbn [bind2].
    destruct ts as [|f rest]; intros H; injection H as <- _; eexists; split; try reflexivity; repeat split; discriminate.
  - cbn [bind2].
    destruct (checkOps _ _ _ _ _ _ _) as [[]|]; [|discriminate]. destruct (checkOrd _ _ _) as [[]|]; [|discriminate]. cbn [bind2].
    destruct ts as [|f rest]; intros H; injection H as <- _; eexists; split; try reflexivity; repeat split; discriminate.
Qed.
End P.
