(** Model of tracking in which a push, a field update or an output may raise an exception at
    any moment: wake_t/tracking/tracker.py:140-313, with the number of numba threads (lines
    150-153, 260) and the z position of the openPMD output (lines 250-252).  There is no
    [try] in these lines: an exception leaves everything as it is at that moment.
    Operations that do not raise are those of Model_Tracker. Not modelled: the progress bar;
    exceptions between two operations (an interrupt by the user) are those of the next
    operation with no effect of its own. *)
From Coq Require Import QArith List Bool Arith.
From Verif Require Import Model_Tracker.
Import ListNotations.
Open Scope Q_scope.

Section Crash.
  Variables B F : Type.
  Variable evolve : F -> B -> Q -> Q -> B.
  Variable update : nat -> F -> list B -> F.
  Variable auto_dt : B -> Q.
  Variable copy : B -> B.
  Variable rnd : Q -> Q.
  (** Does the operation that follows these events raise?  How far did it come: the bunch or
      the fields it leaves (pushes and updates work in place), the number of copies already
      appended. *)
  Variable raises : list (event B) -> bool.
  Variable half_evolved : list (event B) -> B -> B.
  Variable half_updated : list (event B) -> F -> F.
  Variable copies : list (event B) -> nat.

  (** tracker.py:290, 164, 224, 304-313: an operation returns, or raises, leaving the state as
      it is at that moment *)
  Inductive attempt := Fine (s : state B F) | Crash (s : state B F).
  (** tracker.py:140-313: the next statement, reached only when the previous one returned *)
  Definition andthen (a : attempt) (k : state B F -> attempt) : attempt :=
    match a with Fine s => k s | Crash s => Crash s end.

  (** tracker.py:264-302 *)
  Definition try_evolve (c : config) (sync : bool) (i : nat) (t_current t_next dt_next : Q) (s : state B F) : attempt :=
    match nth_error (bs s) i with
    | None => Fine s
    | Some b =>
        if raises (log s) then
          Crash {| bs := upd i (half_evolved (log s) b) (bs s); fs := fs s; tobj := tobj s; dtobj := dtobj s;
                   out := out s; log := log s |}
        else Fine (evolve_bunch B F evolve auto_dt rnd c sync i t_current t_next dt_next s)
    end.
  (** tracker.py:164, 224 *)
  Definition try_update (t : Q) (j : nat) (s : state B F) : attempt :=
    if raises (log s) then
      Crash {| bs := bs s; fs := half_updated (log s) (fs s); tobj := tobj s; dtobj := dtobj s;
               out := out s; log := log s |}
    else Fine (update_field B F update t j s).
  (** tracker.py:307-308: the first copies have been appended *)
  Fixpoint append_first (k : nat) (out : list (list B)) (bs : list B) : list (list B) :=
    match k, out, bs with
    | S k', o :: out', b :: bs' => (o ++ [copy b]) :: append_first k' out' bs'
    | _, _, _ => out
    end.
  (** tracker.py:304-313: copies first, then the file *)
  Definition try_diagnostics (t : Q) (s : state B F) : attempt :=
    if raises (log s) then
      Crash {| bs := bs s; fs := fs s; tobj := tobj s; dtobj := dtobj s;
               out := append_first (copies (log s)) (out s) (bs s); log := log s |}
    else Fine (generate_diagnostics B F copy t s).
  (** tracker.py:230-241 *)
  Definition try_push_to (c : config) (t_next : Q) (i : nat) (s : state B F) : attempt :=
    let t := nth i (tobj s) 0 in
    let dt_bunch := t_next - t in
    andthen (try_evolve c true i t t_next dt_bunch s) (fun s' => Fine (advance B F i dt_bunch s')).
  (** tracker.py:163, 230: the loops over fields and bunches *)
  Fixpoint in_turn (op : nat -> state B F -> attempt) (is : list nat) (s : state B F) : attempt :=
    match is with
    | [] => Fine s
    | i :: is' => andthen (op i s) (in_turn op is')
    end.

  (** tracker.py:140-262: how [do_tracking] ends *)
  Inductive ending := Completed (s : state B F) | Raised (e : error) (s : state B F) | Interrupted (s : state B F).

  (** tracker.py:182-248 *)
  Fixpoint try_loop (fuel : nat) (c : config) (s : state B F) : ending :=
    match fuel with
    | O => Raised OutOfFuel s
    | S k =>
        let t_next_objects := vadd (tobj s) (dtobj s) in
        match argmin (map rnd t_next_objects) with
        | None => Raised ValueError s
        | Some i_next =>
            let dt_next := nth i_next (dtobj s) 0 in
            let t_next := nth i_next t_next_objects 0 in
            let t_current := nth i_next (tobj s) 0 in
            if Qltb (rnd (c_tfinal c)) (rnd t_next) then Completed s
            else
              match
                match nth_error (objects c) i_next with
                | Some (OBunch i) => try_evolve c false i t_current t_next dt_next s
                | Some (OField j) => try_update t_next j s
                | Some ODiag =>
                    andthen (if c_push_before c then in_turn (try_push_to c t_next) (seq 0 (n_bunches c)) s
                             else Fine s)
                            (try_diagnostics t_next)
                | None => Fine s
                end
              with
              | Fine s' => try_loop k c (advance B F i_next dt_next s')
              | Crash s' => Interrupted s'
              end
        end
    end.

  (** tracker.py:152-153, 250-252, 260: what the tracker shares with the rest of the session:
      number of numba threads, z position of the openPMD output *)
  Record session := mks { threads : nat; z_pos : Q }.

  (** tracker.py:140-262.  [num_threads]: the number requested for Wake-T; [light]:
      scipy.constants.c. [bunch_list] is only created when [n_diags > 0]: as in
      Model_Tracker. *)
  Definition try_tracking (num_threads : nat) (light : Q) (fuel : nat) (c : config)
      (bs0 : list B) (fs0 : F) (g : session) : ending * session :=
    let num_threads_outside_waket := threads g in
    let g1 := mks num_threads (z_pos g) in
    let finish (s : state B F) :=
      let g2 := mks (threads g1) (z_pos g1 + c_tfinal c * light) in
      let g3 := mks num_threads_outside_waket (z_pos g2) in
      (match c_ndiags c with O => Raised AttributeError s | S _ => Completed s end, g3) in
    let s0 := {| bs := bs0; fs := fs0; tobj := map (fun _ => 0) (initial_dt B auto_dt c bs0);
                 dtobj := initial_dt B auto_dt c bs0; out := map (fun _ => []) bs0; log := [] |} in
    match in_turn (try_update 0) (seq 0 (n_fields c)) s0 with
    | Crash s => (Interrupted s, g1)
    | Fine s =>
        match
          match c_ndiags c, bs0 with
          | O, [] => inl s
          | O, _ :: _ => inr (Raised AttributeError s)
          | S _, _ => match try_diagnostics 0 s with Fine s' => inl s' | Crash s' => inr (Interrupted s') end
          end
        with
        | inr e => (e, g1)
        | inl s' =>
            match try_loop fuel c s' with
            | Completed s'' => finish s''
            | e => (e, g1)
            end
        end
    end.
End Crash.
Arguments Fine {B F}. Arguments Crash {B F}.
Arguments Completed {B F}. Arguments Raised {B F}. Arguments Interrupted {B F}.
