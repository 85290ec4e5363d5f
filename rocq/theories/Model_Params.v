(** Model of the files of wake_t/diagnostics/bunch_analysis.py: parameters and bunches written to
    and read from HDF5 files.  The file system is a list of folders and of files by path; errors of
    the operating system are not modelled. *)
From Coq Require Import Reals String List Bool.
From Verif Require Import Model_Gen.
Import ListNotations.
Open Scope R_scope.

(** bunch_analysis.py:83-85, 100-108: an HDF5 file: datasets and attributes by name *)
Record h5 := mkh5 { datasets : list (string * list R); attrs : list (string * R) }.
(** bunch_analysis.py:80-83: the file system *)
Record disk := mkdisk { folders : list string; files : list (string * h5) }.
(** bunch_analysis.py:85, 105-108, 113: how a call can fail *)
Inductive error := ValueError | AttributeError | FileNotFoundError.
(** bunch_analysis.py:79-108: a value or an exception *)
Inductive res (A : Type) := Ok (a : A) | Err (e : error).
Arguments Ok {A}. Arguments Err {A}.

(** bunch_analysis.py:91: look-up by name *)
Fixpoint get {A} (k : string) (l : list (string * A)) : option A :=
  match l with [] => None | (n, v) :: r => if String.eqb n k then Some v else get k r end.
(** bunch_analysis.py:91 [d[k] = v] for a Python dictionary: an existing key keeps its place *)
Fixpoint put {A} (k : string) (v : A) (l : list (string * A)) : list (string * A) :=
  match l with
  | [] => [(k, v)]
  | (n, w) :: r => if String.eqb n k then (n, v) :: r else (n, w) :: put k v r
  end.
(** bunch_analysis.py:82, 99 [os.path.join(folder_path, file_name + '.h5')]; simplification: the
    folder does not end with a separator, the name does not start with one *)
Definition file_path (folder name : string) : string := (folder ++ "/" ++ name ++ ".h5")%string.
(** bunch_analysis.py:80-81, 97-98: create the folder if it does not exist *)
Definition make_folder (folder : string) (d : disk) : disk :=
  if existsb (String.eqb folder) (folders d) then d else mkdisk (folders d ++ [folder]) (files d).
(** bunch_analysis.py:85 [create_dataset]; a name can be used once *)
Definition create_dataset (k : string) (v : list R) (f : h5) : res h5 :=
  match get k (datasets f) with
  | Some _ => Err ValueError
  | None => Ok (mkh5 (datasets f ++ [(k, v)]) (attrs f))
  end.
(** bunch_analysis.py:84-85: the loop; what has been written so far stays in the file *)
Fixpoint create_all (l : list (string * list R)) (f : h5) : res h5 * h5 :=
  match l with
  | [] => (Ok f, f)
  | (k, v) :: r => match create_dataset k v f with Ok f' => create_all r f' | Err e => (Err e, f) end
  end.
(** bunch_analysis.py:83, 100 [H5File(path, 'w')] and the end of the [with] block: the file replaces
    an older one *)
Definition write_file (folder name : string) (f : h5) (d : disk) : disk :=
  mkdisk (folders d) (put (file_path folder name) f (files d)).

(** bunch_analysis.py:79-85 [save_parameters_to_file] *)
Definition save_parameters_to_file (params : list (string * list R)) (folder name : string) (d : disk)
    : res unit * disk :=
  let d := make_folder folder d in
  let '(r, f) := create_all params (mkh5 [] []) in
  (match r with Ok _ => Ok tt | Err e => Err e end, write_file folder name f d).

Section Read.
(** bunch_analysis.py:90: the order in which h5py lists the names; bunch_analysis.py:91: whether a
    dataset has the attribute [value] (h5py before 3.0) *)
Variable key_order : list string -> list string.
Variable has_value : bool.
(** bunch_analysis.py:90-91: the loop *)
Fixpoint read_all (keys : list string) (f : h5) (acc : list (string * list R)) : res (list (string * list R)) :=
  match keys with
  | [] => Ok acc
  | k :: r =>
      match get k (datasets f) with
      | Some v => if has_value then read_all r f (put k v acc) else Err AttributeError
      | None => Err AttributeError
      end
  end.
(** bunch_analysis.py:88-93 [read_parameters_from_file] *)
Definition read_parameters_from_file (path : string) (d : disk) : res (list (string * list R)) :=
  match get path (files d) with
  | None => Err FileNotFoundError
  | Some f => read_all (key_order (map fst (datasets f))) f []
  end.
End Read.

(** bunch_analysis.py:96-108 [save_bunch_to_file] *)
Definition save_bunch_to_file (b : made) (folder name : string) (d : disk) : res unit * disk :=
  let d := make_folder folder d in
  let '(r, f) := create_all
    [("x", b_x b); ("y", b_y b); ("xi", b_xi b); ("px", b_px b); ("py", b_py b); ("pz", b_pz b);
     ("q", charges b)]%string (mkh5 [] []) in
  match r with
  | Ok _ => (Ok tt, write_file folder name (mkh5 (datasets f) (put "prop_dist" (b_prop b) (attrs f))) d)
  | Err e => (Err e, write_file folder name f d)
  end.
