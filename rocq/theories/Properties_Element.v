(** Properties C11-C13: arguments of [track], beamlines, openPMD bookkeeping. *)
From Coq Require Import QArith Qround String List Bool Arith ZArith Lia Lqa.
From Verif Require Import Model_Tracker Spec_Tracker Proofs_Tracker Model_Element
  Spec_Element Proofs_Element.
Import ListNotations.
Open Scope Q_scope.

(** ** C11 *)
(** A list of steps of the wrong length: ValueError, and bunches, element and
    diagnostics are as before the call. *)
Theorem C11_wrong_number_of_steps :
  forall B F evolve update auto_dt copy rnd name fuel (bunches : arg B) od
         (el : felement F) l,
  fe_dt el = Listed l ->
  length l <> length (match bunches with Single b => [b] | Listed bl => bl end) ->
  fe_track B F evolve update auto_dt copy rnd name fuel bunches od el =
  Raised ValueError (match bunches with Single b => [b] | Listed bl => bl end) el
    (match od with Falsy => None | Truthy => Some (new_diag B unit)
                 | Instance d => Some d end).
Proof.
  intros. erewrite wrong_number_lemma by eauto. destruct od; reflexivity.
Qed.

(** One value stands for one copy of it per bunch. *)
Theorem C11_one_step_for_all :
  forall B F evolve update auto_dt copy rnd name fuel (bunches : arg B) od
         (el : felement F) x n,
  n = length (match bunches with Single b => [b] | Listed bl => bl end) ->
  observed (fe_track B F evolve update auto_dt copy rnd name fuel bunches od
              (with_dt (Single x) el)) =
  observed (fe_track B F evolve update auto_dt copy rnd name fuel bunches od
              (with_dt (Listed (repeat x n)) el)).
Proof. intros; subst n; apply one_step_lemma. Qed.

(** A bunch given directly is a list of one bunch. *)
Theorem C11_single_bunch_is_a_list :
  forall B F evolve update auto_dt copy rnd name fuel (b : B) od (el : felement F),
  fe_track B F evolve update auto_dt copy rnd name fuel (Single b) od el =
  fe_track B F evolve update auto_dt copy rnd name fuel (Listed [b]) od el.
Proof. intros; apply single_is_list_lemma. Qed.

(** Tracking makes the bunches travel the length of the element, each with its
    own step: the new bunches and fields result from a list of effects in which
    the pushes of each bunch follow each other from 0 to length/c and have the
    requested length (or end exactly at the end of the element). *)
Theorem C11_every_bunch_its_own_step :
  forall B F evolve update auto_dt copy name m fuel (bunches : arg B) od
         (el : felement F) r bs' el' d',
  let bl := match bunches with Single b => [b] | Listed bl => bl end in
  good_element (length bl) el -> bounded_below auto_dt m -> fe_push el = true ->
  fe_track B F evolve update auto_dt copy exact name fuel bunches od el =
    Returned r bs' el' d' ->
  exists log,
    (fe_fs el', bs') = replay B F evolve update log (fe_fs el, bl) /\
    forall i, (i < length bl)%nat ->
      chain 0 (pushes i log) (fe_length el / 299792458) /\
      forall q, requested (fe_dt el) i = Some q ->
        (forall p, In p (pushes i log) -> 0 <= snd p <= q) /\
        (forall t d, In (EPush i t d false) log ->
           d == q \/ (d <= q /\ t + d == fe_length el / 299792458)).
Proof.
  intros B F evolve update auto_dt copy name m fuel bunches od el r bs' el' d' bl
    Hg Ha Hp H.
  apply returned_inv in H as (l & s & El & Hs & _ & -> & -> & _).
  change (match bunches with Single b => [b] | Listed bl => bl end) with (as_list bunches) in bl.
  fold bl in El, Hs.
  pose proof (good_cfg B F _ el l Hg El) as Hc.
  destruct (dt_list_spec _ _ _ El) as [Ll Lr].
  exists (log s). split; [apply (done_Rep _ _ _ _ _ _ _ _ _ _ Hc _ _ Hs)|].
  intros i Hi.
  destruct (arrival_lemma B F evolve update auto_dt copy _ bl (fe_fs el) Hc m Ha exact fuel s i
              exact_mono Hs Hi (or_introl Hp)) as (t & Hch & Ht).
  split.
  - eapply chain_ext; [reflexivity| |exact Hch]. unfold exact in Ht. exact Ht.
  - intros q Hq. split.
    + destruct (push_lengths_lemma B F evolve update auto_dt copy _ bl (fe_fs el) Hc m Ha
                  fuel s i Hs Hi) as (H1 & H2 & _).
      intros p Hin. rewrite Forall_forall in H1. split; [apply H1; auto|].
      specialize (H2 q). rewrite Forall_forall in H2. apply H2; auto.
      simpl. rewrite (Lr i Hi), Hq. reflexivity.
    + intros t0 d Hin. apply in_split in Hin as (l1 & l2 & Elog).
      destruct (own_steps_lemma B F evolve update auto_dt copy _ bl (fe_fs el) Hc m Ha fuel s
                  l1 i t0 d l2 Hs Elog) as (b & _ & Hd).
      simpl in Hd. rewrite (Lr i Hi), Hq in Hd. exact Hd.
Qed.

(** Shape of the result: the list of the n_out + 1 copies of a lone bunch,
    otherwise one such list per bunch; the first copy is the bunch as given. *)
Theorem C11_shape_of_the_result :
  forall B F evolve update auto_dt copy name m fuel (bunches : arg B) od
         (el : felement F) r bs' el' d',
  let bl := match bunches with Single b => [b] | Listed bl => bl end in
  good_element (length bl) el -> bounded_below auto_dt m -> fe_push el = true ->
  fe_track B F evolve update auto_dt copy exact name fuel bunches od el =
    Returned r bs' el' d' ->
  exists outs,
    r = (match outs with [o] => Flat o | _ => Nested outs end) /\
    length outs = length bl /\
    forall i o b, nth_error outs i = Some o -> nth_error bl i = Some b ->
      length o = S (fe_nout el) /\ nth_error o 0 = Some (copy b).
Proof.
  intros B F evolve update auto_dt copy name m fuel bunches od el r bs' el' d' bl
    Hg Ha Hp H.
  apply returned_inv in H as (l & s & El & Hs & -> & _).
  change (match bunches with Single b => [b] | Listed bl => bl end) with (as_list bunches) in bl.
  fold bl in El, Hs.
  pose proof (good_cfg B F _ el l Hg El) as Hc.
  destruct (dt_list_spec _ _ _ El) as [Ll Lr].
  destruct (done_Rep _ _ _ _ _ _ _ _ _ _ Hc _ _ Hs) as [Wf _ _ _].
  exists (out s). split; [reflexivity|].
  split; [transitivity (length l); [apply Wf|exact Ll]|].
  intros i o b Hi Hb.
  destruct (outputs_lemma B F evolve update auto_dt copy _ bl (fe_fs el) Hc m Ha exact
              fuel s i o exact_mono Hs Hi) as [H1 H2].
  destruct (diag_count_lemma B F evolve update auto_dt copy _ bl (fe_fs el) Hc m Ha exact
              fuel s exact_mono Hs) as (n & _ & [H3 _] & H4).
  assert (Hnd : (0 < fe_nout el)%nat) by apply Hg.
  assert (Hd : 0 < dt_diags (tracker_config F el l)) by (eapply dtdiag_pos; eassumption).
  unfold dt_diags in Hd.
  assert (En : n = fe_nout el) by (apply H4; unfold exact; lra).
  assert (Lo : length o = S (fe_nout el)) by lia.
  split; [exact Lo|].
  destruct (nth_error o 0) as [x|] eqn:Ex.
  2:{ apply nth_error_None in Ex. lia. }
  destruct (H2 0%nat x Ex) as (l1 & t & sn & l2 & b0 & E1 & E2 & E3 & E4 & E5 & _).
  destruct (first_output_lemma B F evolve update auto_dt copy _ bl (fe_fs el) exact fuel s Hs)
    as [rest Er].
  f_equal. subst x. f_equal.
  assert (El1 : l1 = map (fun j => EField j 0) (seq 0 (length (fe_fields el)))).
  { rewrite <- app_assoc in Er. simpl in Er. rewrite E1 in Er.
    eapply no_diag_unique; [| |exact Er].
    - apply length_zero_iff_nil. exact E2.
    - apply diag_fields. }
  rewrite El1 in E4. clear -E4 Hb.
  assert (G : forall k f, snd (replay B F evolve update
      (map (fun j => EField j 0) k) (f, bl)) = bl).
  { induction k as [|j k IH]; intros f; simpl; auto. }
  rewrite G in E4. congruence.
Qed.

(** Tracking a well-formed element ends. *)
Theorem C11_track_returns :
  forall B F evolve update auto_dt copy name m (bunches : arg B) od (el : felement F),
  let bl := match bunches with Single b => [b] | Listed bl => bl end in
  good_element (length bl) el -> bounded_below auto_dt m ->
  keeps_names name evolve copy ->
  distinct_names name bl \/ od = Falsy ->
  exists N r bs' el' d', forall fuel, (N <= fuel)%nat ->
    fe_track B F evolve update auto_dt copy exact name fuel bunches od el =
    Returned r bs' el' d'.
Proof. intros; eapply fe_returns; eassumption. Qed.

(** ** C12 *)
(** [Beamline.track] visits the elements in order, each from the state left by
    the previous one, concatenating the outputs (elements are arbitrary objects
    with a [track] method). *)
Theorem C12_beamline_visits_in_order :
  forall W X O E (new : X) (els : list (element W X O E)) od w r,
  beamline W X O E new els od w = r <->
  visits els (match od with Falsy => None | Truthy => Some new | Instance d => Some d end) w r.
Proof. intros; apply beamline_visits. Qed.

Theorem C12_beamline_concatenation :
  forall W X O E (new : X) (A B : list (element W X O E)) od w,
  beamline W X O E new (A ++ B) od w =
  and_then (beamline W X O E new A od w)
    (fun x w' => beamline W X O E new B
                   (match x with Some d => Instance d | None => Falsy end) w').
Proof. intros; apply beamline_app. Qed.

(** A beamline used as an element is the same as its elements. *)
Theorem C12_nested_beamline :
  forall W X O E (new : X) (A B : list (element W X O E)) od w,
  beamline W X O E new (beamline W X O E new A :: B) od w =
  beamline W X O E new (A ++ B) od w.
Proof. intros; apply beamline_nested. Qed.

(** With several bunches the outputs of the elements are concatenated, not merged
    bunch by bunch: the result has one entry per element and bunch. *)
Theorem C12_number_of_entries :
  forall B F evolve update auto_dt copy name m (w : world B F) idx,
  bounded_below auto_dt m -> keeps_names name evolve copy ->
  distinct_names name (w_bunches w) ->
  (forall el, In el (w_els w) -> good_element (length (w_bunches w)) el) ->
  (forall i, In i idx -> (i < length (w_els w))%nat) ->
  exists N w' d' o, forall fuel, (N <= fuel)%nat ->
    beamline _ _ _ _ (new_diag B unit)
      (map (fe_at B F evolve update auto_dt copy exact name fuel) idx) Truthy w
      = Ok w' (Some d') o /\
    length o = shape_len (length (w_bunches w)) (profile (w_els w) idx).
Proof.
  intros B F evolve update auto_dt copy name m w idx Hm Hk Hn Hg Hi.
  destruct (line_diag B F evolve update auto_dt copy name m Hm Hk idx (new_diag B unit) w
              (new_dinv B unit) (conj Hg Hn) Hi) as (N & w' & d' & o & H).
  exists N, w', d', o. intros fuel Hf. destruct (H fuel Hf) as (H1 & _ & _ & _ & _ & H2 & _).
  split; assumption.
Qed.

(** ** C13 *)
(** Along a beamline of field elements tracked with one diagnostics object: the
    iterations are numbered 0, 1, 2, ..., the times are those of the outputs
    along the line, the position offset of every species is c times the time, and
    every iteration holds all species. *)
Theorem C13_times_along_a_beamline :
  forall B F evolve update auto_dt copy name m (w : world B F) idx,
  bounded_below auto_dt m -> keeps_names name evolve copy ->
  distinct_names name (w_bunches w) ->
  (forall el, In el (w_els w) -> good_element (length (w_bunches w)) el) ->
  (forall i, In i idx -> (i < length (w_els w))%nat) ->
  exists N w' d' o, forall fuel, (N <= fuel)%nat ->
    beamline _ _ _ _ (new_diag B unit)
      (map (fe_at B F evolve update auto_dt copy exact name fuel) idx) Truthy w
      = Ok w' (Some d') o /\
    map f_iter (files d') = seq 0 (length (files d')) /\
    Forall2 Qeq (map f_time (files d')) (expected_times 0 (profile (w_els w) idx)) /\
    Forall (fun f => f_zoff f = map (fun _ => f_time f * 299792458) (f_species f)) (files d') /\
    Forall (fun f => map name (f_species f) = map name (w_bunches w)) (files d').
Proof.
  intros B F evolve update auto_dt copy name m w idx Hm Hk Hn Hg Hi.
  destruct (line_diag B F evolve update auto_dt copy name m Hm Hk idx (new_diag B unit) w
              (new_dinv B unit) (conj Hg Hn) Hi) as (N & w' & d' & o & H).
  exists N, w', d', o. intros fuel Hf.
  destruct (H fuel Hf) as (H1 & [_ H2] & _ & _ & _ & _ & fl & H3 & H4 & H5 & H6).
  simpl in H3. subst fl. auto.
Qed.

(** Any history of calls on one diagnostics object: iteration numbers without
    gaps, and a write adds one file with the local time shifted by the distance
    travelled so far, the step, the species and the supported fields. *)
Theorem C13_iterations_without_gaps :
  forall B D (name : B -> string) (l : list (diag_call B D)),
  let d := fold_left (call name) l (new_diag B D) in
  map f_iter (files d) = seq 0 (length (files d)).
Proof. intros B D name l. apply (calls_dinv B D name l), new_dinv. Qed.

Theorem C13_written_iteration :
  forall B D (name : B -> string) (l : list (diag_call B D)) t dt sp fl,
  let d := fold_left (call name) l (new_diag B D) in
  distinct_names name sp ->
  exists f,
    files (call name d (CWrite t dt sp fl)) = (files d ++ [f])%list /\
    f_iter f = length (files d) /\
    f_time f == t + advanced l / 299792458 /\
    f_dt f = dt /\ f_species f = sp /\
    (length (f_zoff f) = length sp /\
     forall z, In z (f_zoff f) -> z == t * 299792458 + advanced l) /\
    f_fields f = map snd (filter fst fl).
Proof. exact history_lemma. Qed.

(** Two species with one name: ValueError, nothing written. *)
Theorem C13_duplicate_names_rejected :
  forall B D (name : B -> string) (l : list (diag_call B D)) t dt sp fl,
  let d := fold_left (call name) l (new_diag B D) in
  ~ distinct_names name sp ->
  write_diagnostics B D name t dt sp fl d = None /\
  call name d (CWrite t dt sp fl) = d.
Proof.
  intros B D name l t dt sp fl d H.
  assert (E := history_dup B D name l t dt sp fl H). fold d in E.
  split; auto. simpl. rewrite E. reflexivity.
Qed.
Theorem C13_duplicate_names_when_tracking :
  forall B F evolve update auto_dt copy name m (bunches : arg B) d (el : felement F),
  let bl := match bunches with Single b => [b] | Listed bl => bl end in
  bounded_below auto_dt m -> good_element (length bl) el ->
  keeps_names name evolve copy -> ~ distinct_names name bl ->
  exists N el', forall fuel, (N <= fuel)%nat ->
    fe_track B F evolve update auto_dt copy exact name fuel bunches (Instance d) el =
    Raised ValueError bl el' (Some d).
Proof. intros; eapply fe_dup; eassumption. Qed.

(** ** Non-vacuity: a line of two elements, one of them visited twice, with two
    named bunches. *)
Definition nb := (string * Q)%type.
Definition ex_ev (f : nat) (b : nb) (t d : Q) : nb := (fst b, Qred (snd b + d)).
Definition ex_up (j : nat) (f : nat) (l : list nb) : nat := S f.
Definition ex_au (b : nb) : Q := 1 # 300000000.
Definition ex_cp (b : nb) : nb := b.
Definition ex_w : world nb nat :=
  {| w_bunches := [("drive"%string, 0); ("witness"%string, 0)];
     w_els := [
       {| fe_length := 1; fe_dt := Single None; fe_nout := 2; fe_push := true;
          fe_fields := [(1 # 400000000, true)]; fe_fs := 0%nat |};
       {| fe_length := 3; fe_dt := Listed [Some (1 # 100000000); None]; fe_nout := 1;
          fe_push := true; fe_fields := []; fe_fs := 0%nat |}] |}.
Example ex_world_ok :
  bounded_below ex_au (1 # 300000000) /\ keeps_names fst ex_ev ex_cp /\
  distinct_names fst (w_bunches ex_w) /\
  (forall el, In el (w_els ex_w) -> good_element 2 el) /\
  (forall i, In i [0; 1; 0]%nat -> (i < length (w_els ex_w))%nat).
Proof.
  split; [split; [reflexivity|intros b; discriminate]|].
  split; [split; reflexivity|].
  split.
  { repeat constructor; simpl; intuition discriminate. }
  split.
  - intros el [<-|[<-|[]]].
    + split; [reflexivity|]. split; [simpl; lia|]. split; simpl; [discriminate|].
      intros d b [E|[]]. injection E as <- <-. reflexivity.
    + split; [reflexivity|]. split; [simpl; lia|]. split; simpl.
      * split; [reflexivity|]. intros q [E|[E|[]]]; try discriminate. injection E as <-. reflexivity.
      * intros d b [].
  - intros i [<-|[<-|[<-|[]]]]; simpl; lia.
Qed.
Example ex_line :
  match beamline _ _ _ _ (new_diag nb unit)
    (map (fe_at nb nat ex_ev ex_up ex_au ex_cp exact fst 60) [0; 1; 0]%nat) Truthy ex_w with
  | Ok w' (Some d') o =>
      map f_iter (files d') = [0;1;2;3;4;5;6;7]%nat /\
      map (fun f => Qred (f_time f * c_light)) (files d') = [0; 1#2; 1; 1; 4; 4; 9#2; 5] /\
      map (fun b => Qred (snd b * c_light)) (w_bunches w') = [5; 5] /\
      length o = 6%nat
  | _ => False
  end.
Proof. vm_compute. repeat split. Qed.
Example ex_dup : ~ distinct_names fst [("a"%string, 0); ("b"%string, 1); ("a"%string, 2)].
Proof. intros H. inversion H; subst. apply H2. simpl. auto. Qed.

Print Assumptions C11_wrong_number_of_steps.
Print Assumptions C11_one_step_for_all.
Print Assumptions C11_single_bunch_is_a_list.
Print Assumptions C11_every_bunch_its_own_step.
Print Assumptions C11_shape_of_the_result.
Print Assumptions C11_track_returns.
Print Assumptions C12_beamline_visits_in_order.
Print Assumptions C12_beamline_concatenation.
Print Assumptions C12_nested_beamline.
Print Assumptions C12_number_of_entries.
Print Assumptions C13_times_along_a_beamline.
Print Assumptions C13_iterations_without_gaps.
Print Assumptions C13_written_iteration.
Print Assumptions C13_duplicate_names_rejected.
Print Assumptions C13_duplicate_names_when_tracking.
