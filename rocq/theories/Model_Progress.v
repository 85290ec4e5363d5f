(** Model of the progress bars: the one of the tracker (wake_t/tracking/progress_bar.py and its
    uses in wake_t/tracking/tracker.py) and the one of transfer-map elements
    (wake_t/utilities/other.py).  What tqdm does with [update] is modelled as documented there:
    it adds to the counter [n], unless the bar is disabled. *)
From Coq Require Import QArith String Ascii List Bool Arith ZArith.
From Verif Require Import Model_Float32 Model_Tracker.
Import ListNotations.
Open Scope Q_scope.

(** progress_bar.py:30-37: a tqdm bar: total, counter, whether it is disabled, whether it has
    been closed, and the values that the counter has taken, oldest first. *)
Record bar := mkbar { b_total : Q; b_n : Q; b_disable : bool; b_closed : bool;
                      b_shown : list Q }.
(** progress_bar.py:13-39 [get_progress_bar]; the description and the format of the text are
    not modelled. *)
Definition get_progress_bar (total_length : Q) (disable : bool) : bar :=
  mkbar total_length 0 disable false [].
(** tracker.py:248 [progress_bar.update(d)] *)
Definition bar_update (d : Q) (b : bar) : bar :=
  if b_disable b then b
  else mkbar (b_total b) (b_n b + d) false (b_closed b) (b_shown b ++ [b_n b + d]).
(** tracker.py:255 [progress_bar.close()] *)
Definition bar_close (b : bar) : bar :=
  mkbar (b_total b) (b_n b) (b_disable b) true (b_shown b).

Section Bar.
  Variables B F : Type.
  Variable evolve : F -> B -> Q -> Q -> B.
  Variable update : nat -> F -> list B -> F.
  Variable auto_dt : B -> Q.
  Variable copy : B -> B.
  Variable rnd : Q -> Q.
  Variable c_light : Q.

  (** tracker.py:185-201, 209: [self.t_tracking] in the iteration that starts in state [s] *)
  Definition t_tracking (s : state B F) : Q :=
    let t_next_objects := vadd (tobj s) (dtobj s) in
    match argmin (map rnd t_next_objects) with
    | None => 0
    | Some i_next => nth i_next t_next_objects 0
    end.
  (** tracker.py:182-248: the loop with the update of the bar at its end *)
  Fixpoint bar_loop (fuel : nat) (c : config) (s : state B F) (b : bar)
      : outcome B F * bar :=
    match fuel with
    | O => (Raise OutOfFuel s, b)
    | S k =>
        match step B F evolve update auto_dt copy rnd c s with
        | Continue s' => bar_loop k c s' (bar_update (t_tracking s * c_light - b_n b) b)
        | o => (o, b)
        end
    end.
  (** tracker.py:140-262 [do_tracking]; as Model_Tracker.do_tracking, with the bar.  The bar is
      closed only if the loop ends (line 255); the missing [bunch_list] is noticed after that. *)
  Definition do_tracking_bar (show : bool) (fuel : nat) (c : config) (bs0 : list B) (fs0 : F)
      : outcome B F * bar :=
    let b := get_progress_bar (c_tfinal c * c_light) (negb show) in
    let s := start B F update auto_dt c bs0 fs0 in
    let close (r : outcome B F * bar) :=
      match fst r with Done _ => (fst r, bar_close (snd r)) | _ => r end in
    match c_ndiags c with
    | O => match bs0 with
           | [] => let r := close (bar_loop fuel c s b) in
                   match fst r with
                   | Done s' => (Raise AttributeError s', snd r)
                   | _ => r
                   end
           | _ :: _ => (Raise AttributeError s, b)
           end
    | S _ => close (bar_loop fuel c (generate_diagnostics B F copy 0 s) b)
    end.
End Bar.

(** other.py:11 ['-'*n]: repeated character *)
Fixpoint times (n : nat) (a : ascii) : string :=
  match n with O => EmptyString | S k => String a (times k a) end.
(** other.py:8-15 [print_progress_bar]: the text written.  Simplification: [step/total_steps*20]
    is exact. [round] rounds half to even. *)
Definition print_progress_bar (pre_string : string) (step total_steps : nat) : string :=
  let n_dash := Z.to_nat (nearest_even (inject_Z (Z.of_nat step) / inject_Z (Z.of_nat total_steps) * 20)) in
  let n_space := (20 - n_dash)%nat in
  let status := (pre_string ++ "[" ++ times n_dash "-" ++ times n_space " " ++ "] ")%string in
  if Nat.ltb step total_steps then (status ++ String (ascii_of_nat 13) "")%string else status.
