(** Model of the class [named]: default names, aliases and the registry of
    instances (src/quanguru/classes/base.py 304-505). *)
From Coq Require Import DecimalString Decimal.
From Verif Require Import Py AliasModel.
Local Open Scope string_scope.

(** Python's str of a counter. *)
Definition str_nat (n : nat) : string := NilZero.string_of_uint (Nat.to_uint n).

(** named.__namer (base.py 411-421). *)
Definition namer (label : string) (internal : bool) (count : nat) : string :=
  if internal then ("_" ++ label) ++ str_nat count else label ++ str_nat count.

(** State of the naming machinery.  A class is a number; an object is a number
    (order of creation).
    [n_int], [n_ext], [n_inst], [n_total]: the counters of each class and the
    global one (base.py 318-328), for classes that define their own counters
    (every class of the library does).
    [n_world]: names and aliases of the objects; [n_cls], [n_isint]: class and
    _internal flag of an object; [n_alive]: whether its weak reference still
    resolves; [n_next]: next identity.
    [n_reg]: the current named._allInstacesDict; an entry is a weak reference
    to an object. *)
Record nstate := NState {
  n_int : nat -> nat; n_ext : nat -> nat; n_inst : nat -> nat; n_total : nat;
  n_world : world; n_cls : nat -> nat; n_isint : nat -> bool; n_alive : nat -> bool;
  n_next : nat; n_epoch : nat; n_reg : dict nat }.

Definition ninit : nstate :=
  NState (fun _ => 0) (fun _ => 0) (fun _ => 0) 0
         (World (fun _ => "") (fun _ => [])) (fun _ => 0) (fun _ => false) (fun _ => false) 0 0 [].

Definition upd {A} (f : nat -> A) (x : nat) (v : A) : nat -> A :=
  fun y => if Nat.eqb y x then v else f y.

(** Instantiation: _incrementInstances, __namer, registration
    (base.py 370-380, 400-421).  Simplification: no keyword arguments, i.e. the
    alias is assigned after construction. *)
Definition create (label : nat -> string) (s : nstate) (c : nat) (internal : bool) : nstate :=
  let ni := if internal then upd (n_int s) c (S (n_int s c)) else n_int s in
  let ne := if internal then n_ext s else upd (n_ext s) c (S (n_ext s c)) in
  let count := if internal then ni c else ne c in
  let o := n_next s in
  let w := World (upd (w_name (n_world s)) o (namer (label c) internal count))
                 (upd (w_alias (n_world s)) o []) in
  NState ni ne (upd (n_inst s) c (S (n_inst s c))) (S (n_total s))
         w (upd (n_cls s) o c) (upd (n_isint s) o internal) (upd (n_alive s) o true)
         (S o) (n_epoch s) (setitem w (n_reg s) (KObj o) o).

(** The loop of the alias setter over the registry (base.py 442-446); a dead
    weak reference yields None, which differs from self. *)
Definition alias_clash (s : nstate) (o : nat) (ali : string) : bool :=
  existsb (fun e => andb (keq (n_world s) (fst e) (KStr ali))
                         (negb (andb (n_alive s (snd e)) (Nat.eqb (snd e) o)))) (n_reg s).

(** alias setter for one string (base.py 440-447). *)
Definition set_alias (s : nstate) (o : nat) (ali : string) : result nstate :=
  if alias_clash s o ali then Err ValueError
  else Ok (NState (n_int s) (n_ext s) (n_inst s) (n_total s) (addAlias (n_world s) o ali)
                  (n_cls s) (n_isint s) (n_alive s) (n_next s) (n_epoch s) (n_reg s)).

(** getByNameOrAlias (base.py 388-398) through the current registry: the object
    an entry refers to, or None when it has been collected. *)
Definition getByNameOrAlias (s : nstate) (k : key) : result (option nat) :=
  match get (n_world s) (n_reg s) k None with
  | None => Err ValueError
  | Some o => Ok (if n_alive s o then Some o else None)
  end.

(** _resetAll (base.py 473-489); [n_epoch] only records which objects were
    created since (it is not part of the code's state). *)
Definition resetAll (s : nstate) : nstate :=
  NState (fun _ => 0) (fun _ => 0) (fun _ => 0) 0 (n_world s) (n_cls s) (n_isint s) (n_alive s)
         (n_next s) (n_next s) [].

(** The object is garbage collected. *)
Definition collect (s : nstate) (o : nat) : nstate :=
  NState (n_int s) (n_ext s) (n_inst s) (n_total s) (n_world s)
         (n_cls s) (n_isint s) (upd (n_alive s) o false) (n_next s) (n_epoch s) (n_reg s).

Inductive nop :=
| NCreate (c : nat) (internal : bool)
| NAlias (o : nat) (s : string)
| NCollect (o : nat)
| NReset.

(** A rejected alias leaves the state as it is (the exception is raised before
    the assignment). *)
Definition nstep (label : nat -> string) (s : nstate) (o : nop) : nstate :=
  match o with
  | NCreate c i => create label s c i
  | NAlias x a => match set_alias s x a with Ok s' => s' | Err _ => s end
  | NCollect x => collect s x
  | NReset => resetAll s
  end.

Definition nrun (label : nat -> string) (ops : list nop) : nstate :=
  fold_left (nstep label) ops ninit.

(** Labels of the classes of the library (grep of the [label] class attributes
    in classes/*.py); the legacy classes compQSystem and qSystem (QSys.py 379,
    837) share one label and appear once here. *)
Definition library_labels : list string :=
  ["named"; "qBase"; "updateBase"; "paramBoundBase"; "computeBase"; "genericDrive"; "qDrive";
   "pulse"; "SpinRotation"; "xGate"; "genericProtocol"; "qProtocol"; "copyStep"; "freeEvolution";
   "Gate"; "Update"; "qResBase"; "qResults"; "Simulation"; "stateBase"; "timeBase"; "QSimComp";
   "_sweep"; "Sweep"; "genericQSys"; "QuantumSystemOld"; "_timeDep"; "term"; "SpinOld"; "QubitOld";
   "CavityOld"; "qCoupling"; "QuantumSystem"; "Cavity"; "Spin"; "Qubit"; "QTerm"; "_genericOpen";
   "dissipator"; "environment"].
