(** Model of saving and reading results as CSV files
    (src/quanguru/extensions/saveReadCSV.py). *)
From Coq Require Import Ascii.
From Verif Require Import Py NamedModel.
Local Open Scope string_scope.

Section Csv.
(** Numbers ([float], [int], [np.complex128]). *)
Variable V : Type.

(** Python values: lists and arrays, numbers, and anything else without a
    length (None, a Python complex number, numpy integers, ...). *)
Inductive pyval := PList (l : list pyval) | PNum (v : V) | POther.

(** [str] of a value. *)
Variable str : pyval -> string.

(** The directory: for each path of a file its lines. *)
Definition files := string -> option (list string).
Definition put (fs : files) (f : string) (ls : list string) : files :=
  fun g => if String.eqb g f then Some ls else fs g.

(** csv.writer.writerow: the texts of the cells separated by commas.
    Simplification: no quoting; texts of numbers contain nothing to quote. *)
Fixpoint line (cells : list string) : string :=
  match cells with
  | [] => ""
  | [c] => c
  | c :: cs => c ++ "," ++ line cs
  end.

(** csv.reader: the cells of a line; an empty line has none. *)
Fixpoint split (s : string) : list string :=
  match s with
  | "" => [""]
  | String c r =>
      if Ascii.eqb c "," then "" :: split r
      else match split r with
           | [] => [String c ""]
           | w :: ws => String c w :: ws
           end
  end.
Definition cellsOf (s : string) : list string := match s with "" => [] | _ => split s end.

(** [path + '/' + str(fileName) + '.txt'] (saveReadCSV.py 63) *)
Definition fileAt (path fileName : string) : string := path ++ "/" ++ fileName ++ ".txt".

(** The rows written by the loop of lines 66-67, and how it ends. *)
Fixpoint writeRows (data : list pyval) : list string * result unit :=
  match data with
  | [] => ([], Ok tt)
  | PList cells :: data' => let (ls, r) := writeRows data' in (line (map str cells) :: ls, r)
  | _ :: _ => ([], Err TypeError)
  end.

(** saveReadCSV.py saveCSV 37-71.  The file is opened, and emptied, before the
    data are looked at.  Simplifications: the name is given (no time stamp), the
    directory exists, and a number that is indexed raises TypeError (numpy
    scalars raise IndexError). *)
Definition saveCSV (data : pyval) (path fileName : string) (fs : files) : files * result unit :=
  let f := fileAt path fileName in
  let fs := put fs f [] in
  match data with
  | PList [] => (fs, Err IndexError)
  | PList (PList c :: data') =>
      let (ls, r) := writeRows (PList c :: data') in (put fs f ls, r)
  | PList (PNum v :: data') => (put fs f [line (map str (PNum v :: data'))], Ok tt)
  | PList (POther :: _) => (fs, Ok tt)
  | _ => (fs, Err TypeError)
  end.

(** saveReadCSV.py _recursiveSaveList 102-110 *)
Fixpoint recursiveSaveList (data : pyval) (path fileName : string) (fs : files) : files * result unit :=
  match data with
  | PList [] => (fs, Err IndexError)
  | PList (PList [] :: _) => (fs, Err IndexError)
  | PList ((PList (PList _ :: _) :: _) as l) =>
      (fix loop (l : list pyval) (ind : nat) (fs : files) : files * result unit :=
         match l with
         | [] => (fs, Ok tt)
         | d :: l' =>
             let (fs', r) := recursiveSaveList d path (fileName ++ str_nat ind) fs in
             match r with Ok _ => loop l' (S ind) fs' | Err e => (fs', Err e) end
         end) l 0 fs
  | PList (PList (PNum _ :: _) :: _) => saveCSV data path fileName fs
  | PList (PList (POther :: _) :: _) => (fs, Ok tt)
  | PList (PNum v :: _) => saveCSV (PNum v) path fileName fs
  | PList (POther :: _) => (fs, Ok tt)
  | _ => (fs, Err TypeError)
  end.

(** saveReadCSV.py _saveDictToCSV 112-114 *)
Fixpoint saveDictToCSV (data : list (string * pyval)) (path fileName : string) (fs : files) : files * result unit :=
  match data with
  | [] => (fs, Ok tt)
  | (key, val) :: data' =>
      let (fs', r) := recursiveSaveList val path (fileName ++ key) fs in
      match r with Ok _ => saveDictToCSV data' path fileName fs' | Err e => (fs', Err e) end
  end.

(** base.py _allStringSum 141-147: the name and the aliases that are strings,
    joined. *)
Definition allStringSum (members : list string) : string := String.concat "" members.

(** saveReadCSV.py saveQResCSV 116-121.  A result object is given by its name
    and string aliases and its dictionary of results. *)
Fixpoint saveQResCSV (results : list (list string * list (string * pyval))) (path : string) (fs : files)
    : files * result unit :=
  match results with
  | [] => (fs, Ok tt)
  | (_, []) :: results' => saveQResCSV results' path fs
  | (members, res) :: results' =>
      let (fs', r) := saveDictToCSV res path (allStringSum members) fs in
      match r with Ok _ => saveQResCSV results' path fs' | Err e => (fs', Err e) end
  end.

(** What readCSV returns: the rows, or the only row. *)
Inductive table := Rows (rs : list (list V)) | Row (r : list V).

(** [float(text)] *)
Variable parse : string -> option V.

Fixpoint mapM {A B} (f : A -> option B) (l : list A) : option (list B) :=
  match l with
  | [] => Some []
  | x :: l' => match f x, mapM f l' with Some y, Some ys => Some (y :: ys) | _, _ => None end
  end.

(** saveReadCSV.py readCSV 73-100, for [datatype=float]; KeyError stands for
    FileNotFoundError. *)
Definition readCSV (f : string) (fs : files) : result table :=
  match fs f with
  | None => Err KeyError
  | Some ls =>
      match mapM (fun l => mapM parse (cellsOf l)) ls with
      | None => Err ValueError
      | Some rs => if (1 <? List.length rs)%nat then Ok (Rows rs)
                   else match rs with r :: _ => Ok (Row r) | [] => Err IndexError end
      end
  end.

End Csv.
Arguments PList {V} l. Arguments PNum {V} v. Arguments POther {V}.
Arguments Rows {V} rs. Arguments Row {V} r.
