(** The event loop of wake_t/tracking/tracker.py once more, now with the rounding of every
    floating-point operation on times: [fl] is applied to the result of each sum, difference
    and quotient (binary64 on the machine), [rnd] is the conversion [np.float32].  Objects,
    configuration, state, events and the operations without arithmetic are those of
    Model_Tracker. *)
From Coq Require Import QArith Qround List Bool Arith ZArith.
From Verif Require Import Model_Tracker.
Import ListNotations.
Open Scope Q_scope.

Section Fl.
  Variables B F : Type.
  Variable evolve : F -> B -> Q -> Q -> B.
  Variable update : nat -> F -> list B -> F.
  Variable auto_dt : B -> Q.
  Variable copy : B -> B.
  Variable fl rnd : Q -> Q.

  (** numerical_field.py:92-99 [adjust_dt]; [np.ceil] is exact, and so is the conversion of the
      integer. *)
  Definition adjust_dt_fl (force_even : bool) (t_final dt : Q) : Q :=
    if force_even then
      let n_updates := inject_Z (Qceiling (fl (t_final / dt))) in
      fl (t_final / n_updates)
    else dt.
  (** tracker.py:113-116 *)
  Definition dt_fields_fl (c : config) : list Q :=
    map (fun f => adjust_dt_fl (snd f) (c_tfinal c) (fst f)) (c_fields c).
  (** tracker.py:131 *)
  Definition dt_diags_fl (c : config) : Q := fl (c_tfinal c / inject_Z (Z.of_nat (c_ndiags c))).
  (** tracker.py:185 *)
  Definition next_times (t_objects dt_objects : list Q) : list Q := map fl (vadd t_objects dt_objects).

  (** tracker.py:264-302 *)
  Definition evolve_bunch_fl (c : config) (sync : bool) (i : nat) (t_current t_next dt_next : Q) (s : state B F)
      : state B F :=
    match nth_error (bs s) i with
    | None => s
    | Some b =>
        let b' := evolve (fs s) b t_current dt_next in
        let dts := if is_auto c i then upd i (auto_dt b') (dtobj s) else dtobj s in
        let final_push := Qeq_bool (rnd t_next) (rnd (c_tfinal c)) in
        let next_push_beyond_final_time := Qltb (c_tfinal c) (fl (t_next + nth i dts 0)) in
        let dts' := if negb final_push && next_push_beyond_final_time
                    then upd i (fl (c_tfinal c - t_next)) dts else dts in
        {| bs := upd i b' (bs s); fs := fs s; tobj := tobj s; dtobj := dts';
           out := out s; log := log s ++ [EPush i t_current dt_next sync] |}
    end.
  (** tracker.py:241, 245 [t_objects[i] += d] *)
  Definition advance_fl (i : nat) (d : Q) (s : state B F) : state B F :=
    {| bs := bs s; fs := fs s; tobj := upd i (fl (nth i (tobj s) 0 + d)) (tobj s);
       dtobj := dtobj s; out := out s; log := log s |}.
  (** tracker.py:230-241 *)
  Definition push_to_fl (c : config) (t_next : Q) (s : state B F) (i : nat) : state B F :=
    let t := nth i (tobj s) 0 in
    let dt_bunch := fl (t_next - t) in
    advance_fl i dt_bunch (evolve_bunch_fl c true i t t_next dt_bunch s).
  (** tracker.py:182-248 *)
  Definition step_fl (c : config) (s : state B F) : outcome B F :=
    let t_next_objects := next_times (tobj s) (dtobj s) in
    match argmin (map rnd t_next_objects) with
    | None => Raise ValueError s
    | Some i_next =>
        let dt_next := nth i_next (dtobj s) 0 in
        let t_next := nth i_next t_next_objects 0 in
        let t_current := nth i_next (tobj s) 0 in
        if Qltb (rnd (c_tfinal c)) (rnd t_next) then Done s
        else
          let s' :=
            match nth_error (objects c) i_next with
            | Some (OBunch i) => evolve_bunch_fl c false i t_current t_next dt_next s
            | Some (OField j) => update_field B F update t_next j s
            | Some ODiag =>
                generate_diagnostics B F copy t_next
                  (if c_push_before c then fold_left (push_to_fl c t_next) (seq 0 (n_bunches c)) s else s)
            | None => s
            end in
          Continue (advance_fl i_next dt_next s')
    end.
  (** tracker.py:182-248: the loop, with fuel *)
  Fixpoint loop_fl (fuel : nat) (c : config) (s : state B F) : outcome B F :=
    match fuel with
    | O => Raise OutOfFuel s
    | S k => match step_fl c s with Continue s' => loop_fl k c s' | o => o end
    end.
  (** tracker.py:171-179 *)
  Definition initial_dt_fl (c : config) (bs : list B) : list Q :=
    initial_dtb B auto_dt (c_dtb c) bs ++ dt_fields_fl c ++
    (if Nat.ltb 0 (c_ndiags c) then [dt_diags_fl c] else []).
  (** tracker.py:129-138, 162-164 *)
  Definition start_fl (c : config) (bs0 : list B) (fs0 : F) : state B F :=
    fold_left (fun s j => update_field B F update 0 j s) (seq 0 (n_fields c))
      {| bs := bs0; fs := fs0; tobj := map (fun _ => 0) (initial_dt_fl c bs0);
         dtobj := initial_dt_fl c bs0; out := map (fun _ => []) bs0; log := [] |}.
  (** tracker.py:140-262, for [n_diags > 0] (C10 is about [n_diags = 0]). *)
  Definition do_tracking_fl (fuel : nat) (c : config) (bs0 : list B) (fs0 : F) : outcome B F :=
    loop_fl fuel c (generate_diagnostics B F copy 0 (start_fl c bs0 fs0)).
End Fl.
