(** Model of field-based beamline elements, beamlines and the openPMD diagnostics they
    share: wake_t/beamline_elements/field_element.py, wake_t/beamline_elements/beamline.py,
    wake_t/diagnostics/openpmd_diag.py. Lengths and times are exact rationals. *)
From Coq Require Import QArith Qround String List Bool Arith ZArith.
From Verif Require Import Model_Tracker.
Import ListNotations.
Open Scope Q_scope.

(** field_element.py:3, 134: scipy.constants.c *)
Definition c_light : Q := 299792458.

(** ** openpmd_diag.py *)
Section Openpmd.
  (** Particle species, their name, and fields with their support flag
      ([openpmd_diag_supported], fields/base.py:18-19). *)
  Variables B D : Type.
  Variable name : B -> string.

  (** One iteration as it ends up on disk, openpmd_diag.py:85-105.  [f_zoff] is
      the position offset of the species (particle_bunch.py:259).  Not modelled:
      the bytes, units and attributes. *)
  Record file := {
    f_iter : nat;
    f_time : Q;
    f_dt : Q;
    f_species : list B;
    f_zoff : list Q;
    f_fields : list D }.

  (** openpmd_diag.py:42-49 (constructor attributes) and the files written so
      far, oldest first. *)
  Record diag := { index_out : nat; z_pos : Q; files : list file }.
  (** openpmd_diag.py:43, 49 *)
  Definition new_diag : diag := {| index_out := 0; z_pos := 0; files := [] |}.

  (** openpmd_diag.py:311-323 [check_species_names]; [true] is the normal
      return, [false] the [ValueError]. *)
  Fixpoint check_names (sp_names : list string) (l : list B) : bool :=
    match l with
    | [] => true
    | b :: r => if existsb (String.eqb (name b)) sp_names then false
                else check_names (sp_names ++ [name b]) r
    end.

  (** fields/base.py:76-77: data of a field, [None] when not supported *)
  Definition field_data (f : bool * D) : option D :=
    if fst f then Some (snd f) else None.
  (** openpmd_diag.py:102-105: the loop over the fields *)
  Fixpoint supported (l : list (bool * D)) : list D :=
    match l with
    | [] => []
    | f :: r => match field_data f with
                | Some x => x :: supported r
                | None => supported r
                end
    end.

  (** openpmd_diag.py:51-109 [write_diagnostics]; [None] is the [ValueError]
      raised by the check on names, before anything is written. *)
  Definition write_diagnostics (time dt : Q) (species : list B)
      (fields : list (bool * D)) (d : diag) : option diag :=
    if check_names [] species then
      let it_time := time + z_pos d / c_light in
      Some {| index_out := S (index_out d); z_pos := z_pos d;
              files := files d ++
                [{| f_iter := index_out d; f_time := it_time; f_dt := dt;
                    f_species := species;
                    f_zoff := map (fun _ => it_time * c_light) species;
                    f_fields := supported fields |}] |}
    else None.

  (** openpmd_diag.py:111-126 [increase_z_pos]. *)
  Definition increase_z_pos (dist : Q) (d : diag) : diag :=
    {| index_out := index_out d; z_pos := z_pos d + dist; files := files d |}.
End Openpmd.
Arguments index_out {B D}. Arguments z_pos {B D}. Arguments files {B D}.
Arguments f_iter {B D}. Arguments f_time {B D}. Arguments f_dt {B D}.
Arguments f_species {B D}. Arguments f_zoff {B D}. Arguments f_fields {B D}.

(** field_element.py:82: the [opmd_diag] argument of [track]: a false value, a true value that
    is not an [OpenPMDDiagnostics], or an instance *)
Inductive opmd_arg (X : Type) := Falsy | Truthy | Instance (d : X).
Arguments Falsy {X}. Arguments Truthy {X}. Arguments Instance {X}.

(** field_element.py:127-130 (and tm_elements.py:126-129). *)
Definition resolve_diag {X} (new : X) (a : opmd_arg X) : option X :=
  match a with
  | Falsy => None
  | Truthy => Some new
  | Instance d => Some d
  end.

(** ** field_element.py *)

(** field_element.py:81, 62: an argument that is one value or a list of values *)
Inductive arg (A : Type) := Single (a : A) | Listed (l : list A).
Arguments Single {A}. Arguments Listed {A}.

(** field_element.py:113-114. *)
Definition as_list {A} (a : arg A) : list A :=
  match a with Single x => [x] | Listed l => l end.

(** field_element.py:115-124; [None] is the [ValueError]. *)
Definition dt_list {A} (dt : arg A) (n_bunches : nat) : option (list A) :=
  match dt with
  | Single x => Some (repeat x n_bunches)
  | Listed l => if Nat.eqb (length l) n_bunches then Some l else None
  end.

(** field_element.py:151-154: what [track] returns: the list of copies of the only bunch, or one
    list per bunch *)
Inductive returned (B : Type) := Flat (l : list B) | Nested (l : list (list B)).
Arguments Flat {B}. Arguments Nested {B}.
(** field_element.py:151-152 *)
Definition unwrap {B} (l : list (list B)) : returned B :=
  match l with
  | [x] => Flat x
  | _ => Nested l
  end.

Section Element.
  Variables B F : Type.
  Variable evolve : F -> B -> Q -> Q -> B.
  Variable update : nat -> F -> list B -> F.
  Variable auto_dt : B -> Q.
  Variable copy : B -> B.
  Variable rnd : Q -> Q.
  Variable name : B -> string.
  (** Content of the fields as written to disk is not followed through the
      tracking: the files of this section carry no field data. *)
  Notation diag := (diag B unit).

  (** field_element.py:70-77.  [fe_fields]: (dt_update, force_even_updates) of
      the numerical fields; [fe_fs]: the fields themselves. *)
  Record felement := {
    fe_length : Q;
    fe_dt : arg (option Q);
    fe_nout : nat;
    fe_push : bool;
    fe_fields : list (Q * bool);
    fe_fs : F }.

  (** field_element.py:133-145 and tracker.py:100-116: configuration of the
      tracker. *)
  Definition tracker_config (el : felement) (dtb : list (option Q)) : config :=
    {| c_tfinal := fe_length el / c_light; c_dtb := dtb;
       c_fields := fe_fields el; c_ndiags := fe_nout el;
       c_push_before := fe_push el |}.

  (** tracker.py:113-115: [adjust_dt] changes the fields of the element for
      good. *)
  Definition adjusted (el : felement) (fs : F) : felement :=
    {| fe_length := fe_length el; fe_dt := fe_dt el; fe_nout := fe_nout el;
       fe_push := fe_push el;
       fe_fields :=
         map (fun f => (adjust_dt (snd f) (fe_length el / c_light) (fst f), snd f))
             (fe_fields el);
       fe_fs := fs |}.

  (** tracker.py:311-313: the outputs of the run, in order, written to disk.
      [None]: one of them raised [ValueError]. *)
  Fixpoint write_all (dt : Q) (l : list (event B)) (d : diag) : option diag :=
    match l with
    | [] => Some d
    | EDiag t sn :: r =>
        match write_diagnostics B unit name t dt sn [] d with
        | Some d' => write_all dt r d'
        | None => None
        end
    | _ :: r => write_all dt r d
    end.

  (** field_element.py:120, 148-154: how [track] ends *)
  Inductive result :=
  | Returned (r : returned B) (bs : list B) (el : felement) (d : option diag)
  | Raised (e : error) (bs : list B) (el : felement) (d : option diag).

  (** field_element.py:79-154 [FieldElement.track].  The species written are
      the bunches themselves; the log holds their copies, which agree on all that
      is written (Properties_Bunch, C15).  A duplicate name makes the first
      output, at time 0, raise, when only the fields have been updated. *)
  Definition fe_track (fuel : nat) (bunches : arg B) (od : opmd_arg diag)
      (el : felement) : result :=
    let bl := as_list bunches in
    match dt_list (fe_dt el) (length bl) with
    | None => Raised ValueError bl el (resolve_diag (new_diag B unit) od)
    | Some dtb =>
        let d := resolve_diag (new_diag B unit) od in
        let c := tracker_config el dtb in
        match do_tracking B F evolve update auto_dt copy rnd fuel c bl (fe_fs el) with
        | Done s =>
            match d with
            | None => Returned (unwrap (out s)) (bs s) (adjusted el (fs s)) None
            | Some d0 =>
                match write_all (dt_diags c) (log s) d0 with
                | Some d1 =>
                    Returned (unwrap (out s)) (bs s) (adjusted el (fs s))
                      (Some (increase_z_pos B unit (c_tfinal c * c_light) d1))
                | None =>
                    let s0 := start B F update auto_dt c bl (fe_fs el) in
                    Raised ValueError (bs s0) (adjusted el (fs s0)) (Some d0)
                end
            end
        | Raise e s => Raised e (bs s) (adjusted el (fs s)) d
        | Continue s => Raised OutOfFuel (bs s) (adjusted el (fs s)) d
        end
    end.
End Element.
Arguments Returned {B F}. Arguments Raised {B F}.
Arguments fe_length {F}. Arguments fe_dt {F}. Arguments fe_nout {F}.
Arguments fe_push {F}. Arguments fe_fields {F}. Arguments fe_fs {F}.
Arguments Build_felement {F}.

(** ** beamline.py *)
Section Beamline.
  (** [W]: everything mutable but the diagnostics (bunches, elements); [X]: diagnostics;
      [O]: entries of the returned lists; [E]: exceptions. *)
  Variables W X O E : Type.
  Variable new : X.

  (** beamline.py:57-64: how [track] ends *)
  Inductive res := Ok (w : W) (x : option X) (o : list O)
                 | Exn (e : E) (w : W) (x : option X).

  (** beamline.py:58-62: any object with a [track] method, as called by the beamline. It hands
      back the diagnostics instance it was given, as modified. *)
  Definition element := opmd_arg X -> W -> res.

  (** beamline.py:60: what the beamline passes on: the instance it holds, or the false value *)
  Definition passed (x : option X) : opmd_arg X :=
    match x with Some d => Instance d | None => Falsy end.

  (** beamline.py:56-63: the loop; [acc] is [bunch_list]. *)
  Fixpoint bl_loop (els : list element) (x : option X) (w : W) (acc : list O) : res :=
    match els with
    | [] => Ok w x acc
    | e :: r =>
        match e (passed x) w with
        | Ok w' x' o => bl_loop r x' w' (acc ++ o)
        | Exn err w' x' => Exn err w' x'
        end
    end.

  (** beamline.py:19-64 [Beamline.track]. *)
  Definition beamline (els : list element) : element :=
    fun od w => bl_loop els (resolve_diag new od) w [].
End Beamline.
Arguments Ok {W X O E}. Arguments Exn {W X O E}.

(** ** Field elements inside a beamline *)
Section FieldBeamline.
  Variables B F : Type.
  Variable evolve : F -> B -> Q -> Q -> B.
  Variable update : nat -> F -> list B -> F.
  Variable auto_dt : B -> Q.
  Variable copy : B -> B.
  Variable rnd : Q -> Q.
  Variable name : B -> string.

  (** beamline.py:17, 56-62: the world holds the bunches and the element objects; the beamline
      is a list of references to those objects (the same object may occur twice) *)
  Record world := { w_bunches : list B; w_els : list (felement F) }.

  (** beamline.py:57: entries of the returned list are bunches or lists of bunches *)
  Inductive entry := EBunch (b : B) | EList (l : list B).
  (** beamline.py:57 [bunch_list.extend(...)] *)
  Definition entries (r : returned B) : list entry :=
    match r with
    | Flat l => map EBunch l
    | Nested l => map EList l
    end.

  (** beamline.py:58-62 [element.track(bunches, opmd_diag=...)] for the element stored at [i] *)
  Definition fe_at (fuel i : nat) : element world (diag B unit) entry error :=
    fun od w =>
      match nth_error (w_els w) i with
      | None => Exn AttributeError w (resolve_diag (new_diag B unit) od)
      | Some el =>
          match fe_track B F evolve update auto_dt copy rnd name fuel
                  (Listed (w_bunches w)) od el with
          | Returned r bs' el' d' =>
              Ok {| w_bunches := bs'; w_els := upd i el' (w_els w) |} d' (entries r)
          | Raised e bs' el' d' =>
              Exn e {| w_bunches := bs'; w_els := upd i el' (w_els w) |} d'
          end
      end.
End FieldBeamline.
Arguments w_bunches {B F}. Arguments w_els {B F}.
Arguments EBunch {B}. Arguments EList {B}.
