(** C08-C10: update flags and deletion of matrices. *)
From Verif Require Import Py ParamModel ParamSpec ParamProofs.
Local Open Scope string_scope.
Local Open Scope list_scope.

(** Assigning a parameter: the value is stored; if it differs from the old one
    exactly the flags of the objects reachable through bounds are raised;
    if it is equal nothing at all changes. *)
Theorem C08_flag_reaches_exactly_dependents :
  forall (V : Type) (veq : V -> V -> bool), (forall a b, veq a b = true <-> a = b) ->
  forall (fuel : nat) (s s' : pstate V) (o : nat) (attr : string) (v : V),
    setAttr veq fuel s o attr v = Some s' ->
    p_val s' o attr = v
    /\ (forall x a, (x, a) <> (o, attr) -> p_val s' x a = p_val s x a)
    /\ (v = p_val s o attr -> s' = s)
    /\ (v <> p_val s o attr ->
          (forall x, bpath (p_bound s) o x -> p_flag s' x = true)
          /\ (forall x, ~ bpath (p_bound s) o x -> p_flag s' x = p_flag s x)
          /\ p_bound s' = p_bound s).
Proof.
  exact (fun V veq H fuel s s' o attr v E => setAttr_exact veq H fuel s o attr v s' E).
Qed.
Print Assumptions C08_flag_reaches_exactly_dependents.

(** The propagation completes exactly on graphs without a cycle of bounds
    reachable from the changed object. *)
Theorem C08_propagation_completes_iff_acyclic :
  forall (bound : nat -> list nat) (nodes : list nat) (b : bool) (o : nat) (fl : nat -> bool),
    (forall x, bpath bound o x -> In x nodes) ->
    (~ cyclic bound o -> forall fuel, List.length nodes < fuel ->
        exists fl', setUpdated bound fuel b o fl = Some fl')
    /\ (cyclic bound o -> forall fuel, setUpdated bound fuel b o fl = None).
Proof.
  exact (fun bound nodes b o fl H =>
    conj (fun Hc fuel Hf => setUpdated_finite bound nodes fuel b o fl H Hf Hc)
         (fun Hc fuel => setUpdated_cycle bound fuel b o fl Hc)).
Qed.
Print Assumptions C08_propagation_completes_iff_acyclic.

(** The setter hands the same boolean on, also when it is False. *)
Theorem C08_setter_exact :
  forall (bound : nat -> list nat) (fuel : nat) (b : bool) (o : nat) (fl fl' : nat -> bool),
    setUpdated bound fuel b o fl = Some fl' ->
    (forall x, bpath bound o x -> fl' x = b) /\ (forall x, ~ bpath bound o x -> fl' x = fl x).
Proof. exact (fun bound fuel b o fl fl' => setUpdated_exact bound fuel b o fl fl'). Qed.
Print Assumptions C08_setter_exact.

Example C08_sample :   (* 0 -> 1 -> {2,3}, 4 is not bound *)
  let s := PState (fun x => match x with 0 => [1] | 1 => [2; 3] | 3 => [2] | _ => [] end)
                  (fun _ => false) (fun _ _ => 0) in
  match setAttr Nat.eqb 10 s 0 "frequency" 7 with
  | Some s' => map (p_flag s') [0; 1; 2; 3; 4] = [true; true; true; true; false]
  | None => False
  end
  /\ setAttr Nat.eqb 10 s 0 "frequency" 0 = Some s.
Proof. split; reflexivity. Qed.

(** delMatrices with an explicit exclusion list terminates on every finite
    object graph and resets exactly the visited objects outside the list; the
    list returned contains what it contained and everything visited. *)
Theorem C09_delMatrices_clears_visited :
  forall (M : Type) (g : graph) (nodes : list nat) (fuel o : nat) (s : dstate M),
    closed_graph g nodes -> In o nodes -> 2 * List.length nodes + 2 <= fuel ->
    exists s', delMatrices g fuel o s = Some s'
    /\ (forall x, In x (d_ex s') <-> In x (d_ex s) \/ visited g (d_ex s) o x)
    /\ (forall x, visited g (d_ex s) o x -> ~ In x (d_ex s) ->
          d_mat s' x = None /\ d_hc s' x = None /\ (g_kind g x = KSim -> d_ini s' x = None))
    /\ (forall x, visited g (d_ex s) o x -> g_kind g x = KSys -> d_cmp s' x = None)
    /\ (forall x, In x (d_ex s) \/ ~ visited g (d_ex s) o x ->
          d_mat s' x = d_mat s x /\ d_hc s' x = d_hc s x /\ d_ini s' x = d_ini s x)
    /\ (forall x, ~ visited g (d_ex s) o x -> d_cmp s' x = d_cmp s x).
Proof. exact (fun M g nodes fuel o s => @delMatrices_exact M g nodes fuel o s). Qed.
Print Assumptions C09_delMatrices_clears_visited.

(** With a fresh list, visited means reachable by any chain of links. *)
Theorem C09_fresh_list_means_reachable :
  forall (g : graph) (o x : nat), visited g [] o x <-> reachable g o x.
Proof. exact visited_nil. Qed.
Print Assumptions C09_fresh_list_means_reachable.

(** A cyclic graph: composite 0 with sub-systems 1 and 2 (bound back to 0),
    term 3 of system 1 (bound to 1), simulations 4, 5, 6 bound in a chain and to
    the systems; 7 is unrelated. *)
Definition sample_graph : graph :=
  Graph (fun x => match x with 0 | 1 | 2 => KSys | 4 | 5 | 6 => KSim | _ => KPlain end)
        (fun x => match x with 1 | 2 => [0] | 3 => [1] | 0 => [4] | _ => [] end)
        (fun x => match x with 0 => [1; 2] | 4 => [0] | _ => [] end)
        (fun x => match x with 5 => Some 4 | 4 => Some 6 | _ => None end)
        (fun x => match x with 0 => 4 | 1 => 5 | _ => 6 end)
        (fun x => match x with 1 => [3] | _ => [] end).

Example C09_sample :
  closed_graph sample_graph [0;1;2;3;4;5;6]
  /\ match delMatrices sample_graph 16 2 (DState Some Some Some Some []) with
     | Some s => map (d_mat s) [0;1;2;3;4;5;6;7] = [None;None;None;None;None;None;None;Some 7]
     | None => False
     end.
Proof.
  split; [|reflexivity]. split.
  - intros p q Hp H. unfold link, term_of in H.
    repeat (destruct Hp as [<-|Hp]; [simpl in H |- *;
      repeat match goal with
             | K : _ \/ _ |- _ => destruct K
             | K : _ /\ _ |- _ => destruct K
             | K : False |- _ => destruct K
             | K : Some _ = Some _ |- _ => injection K as K
             | K : _ = _ |- _ => discriminate K
             end; subst; tauto|]); destruct Hp.
  - intros p q [K H]. simpl in K, H.
    do 8 (destruct p as [|p]; simpl in K, H; try discriminate K;
      repeat match goal with K : _ \/ _ |- _ => destruct K | K : False |- _ => destruct K end; subst; try reflexivity).
Qed.

(** Calls without an argument share one exclusion list per class: a call clears
    exactly the visited objects that no earlier such call has put in the list. *)
Theorem C10_default_call_exact :
  forall (M : Type) (g : graph) (nodes : list nat) (fuel : nat) (dflt : okind -> list nat) (o : nat)
         (s : dstate M),
    closed_graph g nodes -> In o nodes -> 2 * List.length nodes + 2 <= fuel ->
    let E := dflt (g_kind g o) in
    exists dflt' s', call_default g fuel dflt o s = Some (dflt', s')
      /\ (forall x, visited g E o x -> ~ In x E -> d_mat s' x = None /\ d_hc s' x = None)
      /\ (forall x, In x E \/ ~ visited g E o x -> d_mat s' x = d_mat s x /\ d_hc s' x = d_hc s x)
      /\ (forall x, In x (dflt' (g_kind g o)) <-> In x E \/ visited g E o x)
      /\ (forall k, k <> g_kind g o -> dflt' k = dflt k).
Proof. exact (fun M g nodes fuel dflt o s => @call_default_exact M g nodes fuel dflt o s). Qed.
Print Assumptions C10_default_call_exact.

(** Hence a second call on the same object clears nothing, whatever has been
    computed in between. *)
Theorem C10_second_call_clears_nothing :
  forall (M : Type) (g : graph) (nodes : list nat) (fuel : nat) (dflt dflt1 : okind -> list nat) (o : nat)
         (s s1 s2 : dstate M),
    closed_graph g nodes -> In o nodes -> 2 * List.length nodes + 2 <= fuel ->
    (forall p q, term_of g p q -> In p (dflt (g_kind g o)) -> In q (dflt (g_kind g o))) ->
    call_default g fuel dflt o s = Some (dflt1, s1) ->
    exists dflt2 s3, call_default g fuel dflt1 o s2 = Some (dflt2, s3)
      /\ (forall x, d_mat s3 x = d_mat s2 x) /\ (forall x, d_hc s3 x = d_hc s2 x).
Proof. exact (fun M g nodes fuel dflt dflt1 o s s1 s2 => @second_call_noop M g nodes fuel dflt dflt1 o s s1 s2). Qed.
Print Assumptions C10_second_call_clears_nothing.

(** So the natural expectation fails. *)
Theorem C10_repeated_call_clears_again_refuted :
  exists (g : graph) (fuel o : nat) (s : dstate nat),
    match call_default g fuel (fun _ => []) o s with
    | Some (d1, s1) => d_mat s1 o = None /\
        match call_default g fuel d1 o s with
        | Some (d2, s2) => d_mat s2 o = Some o
        | None => False
        end
    | None => False
    end.
Proof.
  exists sample_graph, 16, 0, (DState Some Some Some Some []). vm_compute. split; reflexivity.
Qed.
Print Assumptions C10_repeated_call_clears_again_refuted.
