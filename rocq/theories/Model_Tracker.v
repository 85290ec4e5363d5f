(** Model of the event loop that advances bunches, numerical fields and
    diagnostics: wake_t/tracking/tracker.py and the clock of
    wake_t/fields/numerical_field.py.

    Times are exact rationals.  Simplification: float64 additions are exact.
    The explicit conversions to [np.float32] made by the loop before comparing
    times are kept as a function [rnd] (parameter). *)
From Coq Require Import QArith Qround List Bool Arith ZArith.
Import ListNotations.
Open Scope Q_scope.

(** tracker.py:195, 205, 298: strict comparison of Python floats ([a < b]) *)
Definition Qltb (a b : Q) : bool := negb (Qle_bool b a).

(** tracker.py:195 [numpy.argmin] on a 1D array: index of the first smallest element *)
Fixpoint argmin_go (best : nat) (vbest : Q) (i : nat) (l : list Q) : nat :=
  match l with
  | [] => best
  | y :: ys => if Qltb y vbest then argmin_go i y (S i) ys
               else argmin_go best vbest (S i) ys
  end.
(** tracker.py:195 [numpy.argmin]; an exception ([ValueError], here [None]) on an empty array *)
Definition argmin (l : list Q) : option nat :=
  match l with
  | [] => None
  | x :: xs => Some (argmin_go 0 x 1 xs)
  end.

(** tracker.py:241, 245, 293, 302: in-place assignment [l[i] = v] of an existing position *)
Fixpoint upd {A} (i : nat) (v : A) (l : list A) : list A :=
  match l, i with
  | [], _ => []
  | _ :: xs, O => v :: xs
  | x :: xs, S j => x :: upd j v xs
  end.

(** tracker.py:185: elementwise sum of two arrays *)
Fixpoint vadd (a b : list Q) : list Q :=
  match a, b with
  | x :: xs, y :: ys => (x + y) :: vadd xs ys
  | _, _ => []
  end.

(** numerical_field.py:92-99 [NumericalField.adjust_dt]. [np.ceil] is the integer ceiling. *)
Definition adjust_dt (force_even : bool) (t_final dt : Q) : Q :=
  if force_even then
    let n_updates := inject_Z (Qceiling (t_final / dt)) in
    t_final / n_updates
  else dt.

(** tracker.py:86-99: what the constructor receives. A bunch step [None] is the string ['auto'].
    [c_fields] lists the numerical fields only, as (dt_update, force_even_updates). *)
Record config := {
  c_tfinal : Q;
  c_dtb : list (option Q);
  c_fields : list (Q * bool);
  c_ndiags : nat;
  c_push_before : bool }.

(** tracker.py:119, 130: an object to track *)
Inductive obj := OBunch (i : nat) | OField (j : nat) | ODiag.

(** tracker.py:102: number of bunches (one step per bunch) *)
Definition n_bunches (c : config) : nat := length (c_dtb c).
(** tracker.py:113: number of numerical fields *)
Definition n_fields (c : config) : nat := length (c_fields c).

(** tracker.py:119, 129-130: the objects to track, in this order *)
Definition objects (c : config) : list obj :=
  map OBunch (seq 0 (n_bunches c)) ++ map OField (seq 0 (n_fields c)) ++
  (if Nat.ltb 0 (c_ndiags c) then [ODiag] else []).

(** tracker.py:113-116: update periods after adjustment. *)
Definition dt_fields (c : config) : list Q :=
  map (fun f => adjust_dt (snd f) (c_tfinal c) (fst f)) (c_fields c).

(** tracker.py:131. *)
Definition dt_diags (c : config) : Q :=
  c_tfinal c / inject_Z (Z.of_nat (c_ndiags c)).

(** tracker.py:123-126: membership of bunch [i] in [auto_dt_bunches]. Simplification: the
    bunches of the list are distinct objects. *)
Definition is_auto (c : config) (i : nat) : bool :=
  match nth_error (c_dtb c) i with
  | Some None => true
  | _ => false
  end.

(** tracker.py:167, 195, 262: exceptions; [OutOfFuel] is the model's own *)
Inductive error := AttributeError | ValueError | OutOfFuel.

Section Loop.
  (** Particle bunches, the collection of fields, and the operations on them that the
      tracker calls: [evolve fields bunch t dt] is [bunch.evolve(fields, t, dt, pusher)],
      [update j fields bunches] is [num_fields[j].update(bunches)], [auto_dt] is
      [auto_dt_bunch_f] and [copy] is [bunch.copy()]. *)
  Variables B F : Type.
  Variable evolve : F -> B -> Q -> Q -> B.
  Variable update : nat -> F -> list B -> F.
  Variable auto_dt : B -> Q.
  Variable copy : B -> B.
  Variable rnd : Q -> Q.

  (** tracker.py:290, 164, 224, 304-313: Observable effects, oldest first in [log]. [EPush i
      t dt sync]: bunch [i] was evolved from [t] by [dt]; [sync] tells the push that
      precedes diagnostics from the bunch's own step. [EField j t]: numerical field [j]
      updated when tracking time is [t]. [EDiag t snap]: output generated at tracking time
      [t]. *)
  Inductive event :=
  | EPush (i : nat) (t dt : Q) (sync : bool)
  | EField (j : nat) (t : Q)
  | EDiag (t : Q) (snap : list B).

  (** tracker.py:140-262: attributes and local variables of the tracking *)
  Record state := {
    bs : list B;             (* self.bunches *)
    fs : F;                  (* self.fields *)
    tobj : list Q;           (* t_objects *)
    dtobj : list Q;          (* dt_objects *)
    out : list (list B);     (* self.bunch_list *)
    log : list event }.

  (** tracker.py:264-302 [Tracker.evolve_bunch].  The clipping of the next step
      reads the step that [auto_dt] may just have replaced. *)
  Definition evolve_bunch (c : config) (sync : bool) (i : nat)
      (t_current t_next dt_next : Q) (s : state) : state :=
    match nth_error (bs s) i with
    | None => s
    | Some b =>
        let b' := evolve (fs s) b t_current dt_next in
        let dts := if is_auto c i then upd i (auto_dt b') (dtobj s)
                   else dtobj s in
        let final_push := Qeq_bool (rnd t_next) (rnd (c_tfinal c)) in
        let next_push_beyond_final_time :=
          Qltb (c_tfinal c) (t_next + nth i dts 0) in
        let dts' := if negb final_push && next_push_beyond_final_time
                    then upd i (c_tfinal c - t_next) dts else dts in
        {| bs := upd i b' (bs s); fs := fs s; tobj := tobj s; dtobj := dts';
           out := out s; log := log s ++ [EPush i t_current dt_next sync] |}
    end.

  (** tracker.py:307-308: copies appended to [bunch_list] *)
  Definition append_out (out : list (list B)) (bs : list B) : list (list B) :=
    map (fun p => fst p ++ [copy (snd p)]) (combine out bs).
  (** tracker.py:304-313 [Tracker.generate_diagnostics] when [bunch_list] exists; the openPMD
      part is the [EDiag] entry (files: Model_Element) *)
  Definition generate_diagnostics (t : Q) (s : state) : state :=
    {| bs := bs s; fs := fs s; tobj := tobj s; dtobj := dtobj s;
       out := append_out (out s) (bs s);
       log := log s ++ [EDiag t (map copy (bs s))] |}.

  (** tracker.py:164, 224 [self.num_fields[j].update(self.bunches)] *)
  Definition update_field (t : Q) (j : nat) (s : state) : state :=
    {| bs := bs s; fs := update j (fs s) (bs s); tobj := tobj s;
       dtobj := dtobj s; out := out s; log := log s ++ [EField j t] |}.

  (** tracker.py:241, 245 [t_objects[i] += d] *)
  Definition advance (i : nat) (d : Q) (s : state) : state :=
    {| bs := bs s; fs := fs s; tobj := upd i (nth i (tobj s) 0 + d) (tobj s);
       dtobj := dtobj s; out := out s; log := log s |}.

  (** tracker.py:230-241: body of the loop that brings bunch [i] to the time of
      the diagnostics. *)
  Definition push_to (c : config) (t_next : Q) (s : state) (i : nat) : state :=
    let t := nth i (tobj s) 0 in
    let dt_bunch := t_next - t in
    advance i dt_bunch (evolve_bunch c true i t t_next dt_bunch s).

  (** tracker.py:182-262: how an iteration, and the run, ends *)
  Inductive outcome := Continue (s : state) | Done (s : state)
                     | Raise (e : error) (s : state).

  (** tracker.py:182-248: one iteration of the loop. *)
  Definition step (c : config) (s : state) : outcome :=
    let t_next_objects := vadd (tobj s) (dtobj s) in
    match argmin (map rnd t_next_objects) with
    | None => Raise ValueError s
    | Some i_next =>
        let dt_next := nth i_next (dtobj s) 0 in
        let t_next := nth i_next t_next_objects 0 in
        let t_current := nth i_next (tobj s) 0 in
        if Qltb (rnd (c_tfinal c)) (rnd t_next) then Done s
        else
          let s' :=
            match nth_error (objects c) i_next with
            | Some (OBunch i) =>
                evolve_bunch c false i t_current t_next dt_next s
            | Some (OField j) => update_field t_next j s
            | Some ODiag =>
                generate_diagnostics t_next
                  (if c_push_before c
                   then fold_left (push_to c t_next) (seq 0 (n_bunches c)) s
                   else s)
            | None => s
            end in
          Continue (advance i_next dt_next s')
    end.

  (** tracker.py:182-248: the loop, with fuel *)
  Fixpoint loop (fuel : nat) (c : config) (s : state) : outcome :=
    match fuel with
    | O => Raise OutOfFuel s
    | S k => match step c s with
             | Continue s' => loop k c s'
             | o => o
             end
    end.

  (** tracker.py:175-179: initial steps of the bunches *)
  Fixpoint initial_dtb (dtb : list (option Q)) (bs : list B) : list Q :=
    match dtb, bs with
    | d :: ds, b :: r =>
        (match d with Some q => q | None => auto_dt b end) :: initial_dtb ds r
    | _, _ => []
    end.
  (** tracker.py:171-179: initial steps of all objects *)
  Definition initial_dt (c : config) (bs : list B) : list Q :=
    initial_dtb (c_dtb c) bs ++ dt_fields c ++
    (if Nat.ltb 0 (c_ndiags c) then [dt_diags c] else []).

  (** tracker.py:129-138 and 162-164: state when the initial diagnostics are
      about to be generated. *)
  Definition start (c : config) (bs0 : list B) (fs0 : F) : state :=
    fold_left (fun s j => update_field 0 j s) (seq 0 (n_fields c))
      {| bs := bs0; fs := fs0;
         tobj := map (fun _ => 0) (initial_dt c bs0);
         dtobj := initial_dt c bs0;
         out := map (fun _ => []) bs0; log := [] |}.

  (** tracker.py:140-262 [Tracker.do_tracking].  [bunch_list] is only created
      when [n_diags > 0] (line 129-135): otherwise the initial diagnostics raise
      [AttributeError] as soon as there is a bunch, and so does the [return]
      statement.  Threads, progress bar: not modelled.  The initial steps of
      lines 175-179 are read from the bunches before any push, as here. *)
  Definition do_tracking (fuel : nat) (c : config) (bs0 : list B) (fs0 : F)
      : outcome :=
    let s := start c bs0 fs0 in
    match c_ndiags c with
    | O => match bs0 with
           | [] => match loop fuel c s with
                   | Done s' => Raise AttributeError s'
                   | o => o
                   end
           | _ :: _ => Raise AttributeError s
           end
    | S _ => loop fuel c (generate_diagnostics 0 s)
    end.
End Loop.

Arguments EPush {B}. Arguments EField {B}. Arguments EDiag {B}.
Arguments Continue {B F}. Arguments Done {B F}. Arguments Raise {B F}.
Arguments bs {B F}. Arguments fs {B F}. Arguments tobj {B F}.
Arguments dtobj {B F}. Arguments out {B F}. Arguments log {B F}.
