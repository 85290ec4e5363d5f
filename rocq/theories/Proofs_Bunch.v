(** Lemmas about particle bunches. *)
From Coq Require Import Reals String List Arith Lia Lra DecimalString DecimalNat.
From Verif Require Import Model_Push Spec_Push Proofs_Push Model_Bunch Spec_Bunch.
Import ListNotations.
Open Scope R_scope.

(** ** Memory *)
Lemma wr_length a v : forall h, length (wr h a v) = length h.
Proof. induction a; intros [|u h]; simpl; auto. Qed.
Lemma rd_wr_same a v : forall h, (a < length h)%nat -> rd (wr h a v) a = v.
Proof. unfold rd. induction a; intros [|u h] H; simpl in *; try lia; auto. apply IHa. lia. Qed.
Lemma rd_wr_other a a' v : a <> a' -> forall h, rd (wr h a v) a' = rd h a'.
Proof.
  unfold rd. revert a'. induction a; intros [|a'] H [|u h]; simpl; auto; try congruence.
Qed.
Lemma rd_app_old h v a : (a < length h)%nat -> rd (h ++ v) a = rd h a.
Proof. intros H. unfold rd. apply app_nth1. exact H. Qed.
Lemma rd_app_new h v i : rd (h ++ v) (length h + i)%nat = nth i v [].
Proof.
  unfold rd. rewrite app_nth2 by lia. f_equal. lia.
Qed.
Lemma alloc_list_eq vs : forall h,
  alloc_list h vs = (h ++ vs, seq (length h) (length vs)).
Proof.
  induction vs as [|v r IH]; intros h; simpl.
  - rewrite app_nil_r. reflexivity.
  - rewrite IH. rewrite <- app_assoc, app_length. simpl.
    replace (length h + 1)%nat with (S (length h)) by lia. reflexivity.
Qed.

(** ** Particles *)
Lemma particles_ext h h' b : (forall a, In a (footprint b) -> rd h a = rd h' a) ->
  particles h b = particles h' b.
Proof.
  intros H. unfold particles. unfold footprint in H. simpl in H.
  rewrite !H by auto 10. reflexivity.
Qed.
Lemma contents_ext h h' b : (forall a, In a (footprint b) -> rd h a = rd h' a) ->
  contents h b = contents h' b.
Proof.
  intros H. unfold contents. rewrite (particles_ext h h' b H). f_equal. apply H.
  unfold footprint; simpl; auto 10.
Qed.
Lemma particles_length h b : length (particles h b) = length (rd h (b_x b)).
Proof. unfold particles. rewrite map_length, seq_length. reflexivity. Qed.

Lemma nth_map_seq (l : list R) n : n = length l -> map (fun i => nth i l 0) (seq 0 n) = l.
Proof.
  intros ->. induction l as [|v l IH]; simpl; auto. f_equal.
  rewrite <- seq_shift, map_map. exact IH.
Qed.

Lemma particles_arrays h b (l : list part) :
  rd h (b_x b) = map x l -> rd h (b_y b) = map y l -> rd h (b_xi b) = map xi l ->
  rd h (b_px b) = map px l -> rd h (b_py b) = map py l -> rd h (b_pz b) = map pz l ->
  particles h b = l.
Proof.
  intros E1 E2 E3 E4 E5 E6. unfold particles. rewrite E1, E2, E3, E4, E5, E6, map_length.
  clear. induction l as [|p l IH]; simpl; auto. f_equal.
  - destruct p; reflexivity.
  - rewrite <- seq_shift, map_map. exact IH.
Qed.
Lemma arrays_of_particles h b : valid h b ->
  rd h (b_x b) = map x (particles h b) /\ rd h (b_y b) = map y (particles h b) /\
  rd h (b_xi b) = map xi (particles h b) /\ rd h (b_px b) = map px (particles h b) /\
  rd h (b_py b) = map py (particles h b) /\ rd h (b_pz b) = map pz (particles h b).
Proof.
  intros (_ & _ & HL). unfold particles. rewrite !map_map. simpl.
  assert (L : forall a, In a (footprint b) ->
    rd h a = map (fun i => nth i (rd h a) 0) (seq 0 (length (rd h (b_x b))))).
  { intros a Ha. symmetry. apply nth_map_seq. symmetry. apply HL, Ha. }
  unfold footprint in L. simpl in L.
  split; [apply L; auto 10|]. split; [apply L; auto 10|]. split; [apply L; auto 10|].
  split; [apply L; auto 10|]. split; apply L; auto 10.
Qed.

(** Distinctness of the seven addresses in a usable form. *)
Lemma valid_distinct h b : valid h b ->
  b_x b <> b_y b /\ b_x b <> b_xi b /\ b_x b <> b_px b /\ b_x b <> b_py b /\ b_x b <> b_pz b /\
  b_x b <> b_w b /\ b_y b <> b_xi b /\ b_y b <> b_px b /\ b_y b <> b_py b /\ b_y b <> b_pz b /\
  b_y b <> b_w b /\ b_xi b <> b_px b /\ b_xi b <> b_py b /\ b_xi b <> b_pz b /\
  b_xi b <> b_w b /\ b_px b <> b_py b /\ b_px b <> b_pz b /\ b_px b <> b_w b /\
  b_py b <> b_pz b /\ b_py b <> b_w b /\ b_pz b <> b_w b.
Proof.
  intros (H & _). unfold footprint in H.
  repeat match goal with H : NoDup (_ :: _) |- _ => inversion H; clear H; subst end.
  simpl in *. intuition congruence.
Qed.

Lemma write_read h b l : valid h b ->
  particles (write_particles h b l) b = l /\
  rd (write_particles h b l) (b_w b) = rd h (b_w b) /\
  length (write_particles h b l) = length h /\
  (forall a, ~ In a (footprint b) -> rd (write_particles h b l) a = rd h a).
Proof.
  intros V. pose proof (valid_distinct h b V) as D. destruct V as (_ & HB & _).
  unfold footprint in HB. simpl in HB.
  assert (Hx : (b_x b < length h)%nat) by (apply HB; auto 10).
  assert (Hy : (b_y b < length h)%nat) by (apply HB; auto 10).
  assert (Hxi : (b_xi b < length h)%nat) by (apply HB; auto 10).
  assert (Hpx : (b_px b < length h)%nat) by (apply HB; auto 10).
  assert (Hpy : (b_py b < length h)%nat) by (apply HB; auto 10).
  assert (Hpz : (b_pz b < length h)%nat) by (apply HB; auto 10).
  clear HB.
  unfold write_particles.
  split; [|split; [|split]].
  - apply particles_arrays;
      repeat (first [ rewrite rd_wr_same by (rewrite ?wr_length; assumption)
                    | rewrite rd_wr_other by intuition congruence ]); reflexivity.
  - repeat rewrite rd_wr_other by intuition congruence. reflexivity.
  - rewrite !wr_length. reflexivity.
  - intros a Ha. unfold footprint in Ha. simpl in Ha.
    repeat rewrite rd_wr_other by intuition congruence. reflexivity.
Qed.

Lemma valid_write h b l : valid h b -> length l = length (rd h (b_x b)) ->
  valid (write_particles h b l) b /\ length (rd (write_particles h b l) (b_x b)) = length l.
Proof.
  intros V Hl. pose proof (write_read h b l V) as (W1 & W2 & W3 & W4).
  pose proof (valid_distinct h b V) as D.
  assert (V0 := V). destruct V as (ND & HB & HL).
  assert (HB' := HB). unfold footprint in HB'. simpl in HB'.
  assert (A : forall a, In a (footprint b) -> length (rd (write_particles h b l) a) = length l).
  { unfold footprint. simpl. intros a Ha.
    unfold write_particles.
    destruct Ha as [<-|[<-|[<-|[<-|[<-|[<-|[<-|[]]]]]]]];
    repeat (first [ rewrite rd_wr_same by (rewrite ?wr_length; apply HB'; auto 10)
                  | rewrite rd_wr_other by intuition congruence ]);
    rewrite ?map_length; auto.
    rewrite Hl. apply HL. unfold footprint; simpl; auto 10. }
  split.
  - split; [exact ND|]. split.
    + intros a Ha. rewrite W3. apply HB, Ha.
    + intros a Ha. rewrite !A; auto. unfold footprint; simpl; auto.
  - apply A. unfold footprint; simpl; auto.
Qed.

(** ** Pushers on bunches *)
Lemma rk4_buffers q m fields G t dt l a : gathers fields G -> length l = length (r_fld a) ->
  let a' := snd (apply_rk4_pusher q m fields t dt l a) in
  length (r_fld a') = length l /\ length (r_k a') = length l /\
  length (r_push a') = length l /\ length (r_coord a') = length l.
Proof.
  intros HG Hl. unfold apply_rk4_pusher. cbn [fold_left snd].
  pose proof (stage_0 q m fields G t dt HG l a Hl) as S0.
  pose proof (stage_S q m fields G t dt HG l _ _ _ 1%nat S0 ltac:(auto)) as S1.
  pose proof (stage_S q m fields G t dt HG l _ _ _ 2%nat S1 ltac:(auto)) as S2.
  pose proof (stage_S q m fields G t dt HG l _ _ _ 3%nat S2 ltac:(auto)) as S3.
  destruct S3 as (E1 & E2 & E3). rewrite E1, E2, !map_length. split; [exact E3|].
  split; [reflexivity|]. split; [reflexivity|].
  destruct S2 as (F1 & _ & _).
  unfold rk4_stage at 1. cbn [r_coord]. unfold update_coord. rewrite F1.
  rewrite map2_length; rewrite ?map_length; reflexivity.
Qed.

(** The field list that acts on the bunch. *)
Definition acting (h : heap) (b : bunch) (fields : list field) : option (list field) :=
  match z_injection b with
  | None => Some fields
  | Some z => match amax (rd h (b_xi b)) with
              | None => None
              | Some m => if Rlt_dec (m + prop_distance b) z then Some [] else Some fields
              end
  end.

Lemma fresh_rk4 q m fields G t dt l : gathers fields G ->
  fresh_push q m l (fields, t, dt, "rk4"%string) = map (classical_rk4 (lorentz q m G) t dt) l.
Proof.
  intros HG. unfold fresh_push. change (String.eqb "rk4" "rk4") with true. cbv iota zeta.
  apply rk4_map; [exact HG|]. cbn [r_fld]. rewrite map_length. reflexivity.
Qed.
Lemma fresh_boris q m fields G t dt l : gathers fields G ->
  fresh_push q m l (fields, t, dt, "boris"%string) = map (boris1 (q / (m * c_SI)) G t dt) l.
Proof.
  intros HG. unfold fresh_push. change (String.eqb "boris" "rk4") with false. cbv iota zeta.
  apply (boris_map q m fields G); [exact HG|]. rewrite map_length. reflexivity.
Qed.
Lemma fresh_map q m fields G t dt pusher : gathers fields G -> known pusher ->
  exists f, forall l, fresh_push q m l (fields, t, dt, pusher) = map f l.
Proof.
  intros HG [-> | ->].
  - eexists. intros l. apply fresh_rk4, HG.
  - eexists. intros l. apply fresh_boris, HG.
Qed.

Lemma evolve_lemma h b fields fs G t dt pusher : valid h b -> fits h b -> known pusher ->
  acting h b fields = Some fs -> gathers fs G ->
  exists h' b', evolve h b fields t dt pusher = Done (h', b') /\
    valid h' b' /\ fits h' b' /\
    footprint b' = footprint b /\ length h' = length h /\
    particles h' b' = fresh_push (q_species b) (m_species b) (particles h b) (fs, t, dt, pusher) /\
    rd h' (b_w b') = rd h (b_w b) /\
    prop_distance b' = prop_distance b + dt * c_SI /\
    (b_tags b', t_flight b', z_injection b', x_ref b', theta_ref b', b_name b', q_species b',
     m_species b') =
    (b_tags b, t_flight b, z_injection b, x_ref b, theta_ref b, b_name b, q_species b, m_species b) /\
    (forall a, ~ In a (footprint b) -> rd h' a = rd h a).
Proof.
  intros V F K A HG.
  assert (LP := particles_length h b).
  assert (LF : length (particles h b) = length (field_arrays (length (rd h (b_x b))) b)).
  { rewrite LP. unfold field_arrays. destruct (b_fld b) eqn:E.
    - symmetry. apply F. exact E.
    - rewrite repeat_length. reflexivity. }
  unfold evolve. fold (acting h b fields). rewrite A.
  destruct K as [-> | ->].
  - change (String.eqb "rk4" "rk4") with true. cbv iota.
    destruct (rk4_arrays _ b) as [[co d] k].
    match goal with |- context [apply_rk4_pusher ?q ?m ?fs ?t ?dt ?l ?a] =>
      pose proof (rk4_map q m fs G t dt l a HG LF) as E;
      pose proof (rk4_buffers q m fs G t dt l a HG LF) as B;
      destruct (apply_rk4_pusher q m fs t dt l a) as [l' a'] end.
    cbv zeta in B. cbn [fst snd] in E, B. destruct B as (B1 & B2 & B3 & B4).
    assert (Hl' : length l' = length (rd h (b_x b))) by (subst l'; rewrite map_length; exact LP).
    pose proof (write_read h b l' V) as (W1 & W2 & W3 & W4).
    pose proof (valid_write h b l' V Hl') as (V' & VL).
    eexists _, _. split; [reflexivity|]. split; [exact V'|]. split.
    { split.
      - intros f Hf. cbn in Hf. injection Hf as <-.
        change (length (r_fld a') = length (rd (write_particles h b l') (b_x b))).
        rewrite VL. lia.
      - intros c0 d0 k0 Hc. cbn in Hc. injection Hc as <- <- <-.
        change (length (r_coord a') = length (rd (write_particles h b l') (b_x b)) /\
          length (r_push a') = length (rd (write_particles h b l') (b_x b)) /\
          length (r_k a') = length (rd (write_particles h b l') (b_x b))).
        rewrite VL. lia. }
    split; [reflexivity|]. split; [exact W3|]. split.
    { change (particles (write_particles h b l') b = fresh_push (q_species b) (m_species b)
        (particles h b) (fs, t, dt, "rk4"%string)).
      rewrite W1, (fresh_rk4 _ _ fs G) by exact HG. exact E. }
    split; [exact W2|]. split; [reflexivity|]. split; [reflexivity|]. exact W4.
  - change (String.eqb "boris" "rk4") with false. change (String.eqb "boris" "boris") with true.
    cbv iota zeta.
    match goal with |- context [apply_boris_pusher ?q ?m ?fs ?t ?dt ?l ?a] =>
      pose proof (boris_map q m fs G t dt l a HG LF) as [E B];
      destruct (apply_boris_pusher q m fs t dt l a) as [l' a'] end.
    cbn [fst snd] in E, B.
    assert (Hl' : length l' = length (rd h (b_x b))) by (subst l'; rewrite map_length; exact LP).
    pose proof (write_read h b l' V) as (W1 & W2 & W3 & W4).
    pose proof (valid_write h b l' V Hl') as (V' & VL).
    eexists _, _. split; [reflexivity|]. split; [exact V'|]. split.
    { split.
      - intros f Hf. cbn in Hf. injection Hf as <-.
        change (length a' = length (rd (write_particles h b l') (b_x b))). rewrite VL. lia.
      - intros c0 d0 k0 Hc. cbn in Hc. destruct F as [_ F2]. specialize (F2 _ _ _ Hc).
        change (length c0 = length (rd (write_particles h b l') (b_x b)) /\
          length d0 = length (rd (write_particles h b l') (b_x b)) /\
          length k0 = length (rd (write_particles h b l') (b_x b))).
        rewrite VL. lia. }
    split; [reflexivity|]. split; [exact W3|]. split.
    { change (particles (write_particles h b l') b = fresh_push (q_species b) (m_species b)
        (particles h b) (fs, t, dt, "boris"%string)).
      rewrite W1, (fresh_boris _ _ fs G) by exact HG. exact E. }
    split; [exact W2|]. split; [reflexivity|]. split; [reflexivity|]. exact W4.
Qed.

Lemma evolve_prop h b fields t dt pusher h' b' :
  evolve h b fields t dt pusher = Done (h', b') ->
  known pusher /\ prop_distance b' = prop_distance b + dt * c_SI /\
  z_injection b' = z_injection b.
Proof.
  unfold evolve. fold (acting h b fields). destruct (acting h b fields); [|discriminate].
  destruct (String.eqb_spec pusher "rk4") as [->|N1].
  - destruct (rk4_arrays _ b) as [[co d] k]. destruct (apply_rk4_pusher _ _ _ _ _ _ _) as [l' a].
    intros H. injection H as _ <-. split; [left; reflexivity|]. split; reflexivity.
  - destruct (String.eqb_spec pusher "boris") as [->|N2]; [|discriminate].
    destruct (apply_boris_pusher _ _ _ _ _ _ _) as [l' a].
    intros H. injection H as _ <-. split; [right; reflexivity|]. split; reflexivity.
Qed.

Lemma amax_spec l m : amax l = Some m -> In m l /\ (forall v, In v l -> v <= m).
Proof.
  destruct l as [|v r]; [discriminate|]. simpl. intros H. injection H as <-.
  revert v. induction r as [|u r IH]; intros v; simpl.
  - split; auto. intros w [->|[]]. lra.
  - destruct (IH (Rmax v u)) as [H1 H2]. split.
    + destruct H1 as [H1|H1]; auto. rewrite <- H1. unfold Rmax. destruct (Rle_dec v u); auto.
    + intros w [<-|[<-|Hw]].
      * eapply Rle_trans; [apply (Rmax_l v u)|]. apply H2. auto.
      * eapply Rle_trans; [apply (Rmax_r v u)|]. apply H2. auto.
      * apply H2. auto.
Qed.

Lemma acting_before h b z fields : valid h b -> z_injection b = Some z ->
  particles h b <> [] ->
  (forall p, In p (particles h b) -> xi p + prop_distance b < z) ->
  acting h b fields = Some [].
Proof.
  intros V Hz Hne Hp. unfold acting. rewrite Hz.
  destruct (arrays_of_particles h b V) as (_ & _ & E & _).
  destruct (amax (rd h (b_xi b))) as [m|] eqn:Em.
  - apply amax_spec in Em. destruct Em as [Hm _]. rewrite E in Hm.
    apply in_map_iff in Hm. destruct Hm as (p & <- & Hin). specialize (Hp p Hin).
    destruct (Rlt_dec _ _); [reflexivity|lra].
  - rewrite E in Em. destruct (particles h b); [congruence|discriminate].
Qed.
Lemma acting_after h b z fields p : valid h b -> z_injection b = Some z ->
  In p (particles h b) -> z <= xi p + prop_distance b ->
  acting h b fields = Some fields.
Proof.
  intros V Hz Hin Hp. unfold acting. rewrite Hz.
  destruct (arrays_of_particles h b V) as (_ & _ & E & _).
  destruct (amax (rd h (b_xi b))) as [m|] eqn:Em.
  - apply amax_spec in Em. destruct Em as [_ Hm]. rewrite E in Hm.
    specialize (Hm (xi p) (in_map xi _ _ Hin)).
    destruct (Rlt_dec _ _); [lra|reflexivity].
  - rewrite E in Em. destruct (particles h b); [destruct Hin|discriminate].
Qed.

Lemma fresh_free q m l t dt pusher : known pusher ->
  fresh_push q m l ([], t, dt, pusher) = map (drift dt) l.
Proof.
  intros [-> | ->].
  - rewrite (fresh_rk4 q m [] (fun _ _ => em0)) by apply gathers_nil.
    apply map_ext. intros p. apply rk4_free.
  - rewrite (fresh_boris q m [] (fun _ _ => em0)) by apply gathers_nil.
    apply map_ext. intros p. apply boris1_free.
Qed.

Lemma pushes_prop l : forall h b h' b', pushes h b l = Done (h', b') ->
  prop_distance b' = prop_distance b + c_SI * total (map dt_of l).
Proof.
  induction l as [|[[[fields t] dt] pusher] r IH]; intros h b h' b' H; simpl in H.
  - injection H as _ <-. unfold total. simpl. ring.
  - destruct (evolve h b fields t dt pusher) as [[h1 b1]|] eqn:E; [|discriminate].
    apply evolve_prop in E. destruct E as (_ & E & _).
    rewrite (IH _ _ _ _ H), E. unfold total, dt_of. simpl. ring.
Qed.

Lemma pushes_run l : forall h b, valid h b -> fits h b -> z_injection b = None ->
  (forall fields t dt pusher, In (fields, t, dt, pusher) l ->
     known pusher /\ exists G, gathers fields G) ->
  exists h' b', pushes h b l = Done (h', b') /\
    valid h' b' /\ fits h' b' /\
    particles h' b' = fold_left (fresh_push (q_species b) (m_species b)) l (particles h b) /\
    rd h' (b_w b') = rd h (b_w b).
Proof.
  induction l as [|[[[fields t] dt] pusher] r IH]; intros h b V F Hz Hl.
  - exists h, b. split; [reflexivity|]. auto.
  - destruct (Hl fields t dt pusher) as (K & G & HG); [simpl; auto|].
    assert (A : acting h b fields = Some fields) by (unfold acting; rewrite Hz; reflexivity).
    destruct (evolve_lemma h b fields fields G t dt pusher V F K A HG)
      as (h1 & b1 & E & V1 & F1 & _ & _ & P1 & W1 & _ & S1 & _).
    injection S1 as _ _ Z1 _ _ _ Q1 M1.
    destruct (IH h1 b1 V1 F1) as (h2 & b2 & E2 & V2 & F2 & P2 & W2).
    + rewrite Z1. exact Hz.
    + intros f0 t0 d0 p0 Hin. apply (Hl f0 t0 d0 p0). simpl; auto.
    + exists h2, b2. split; [simpl; rewrite E; exact E2|]. split; [exact V2|].
      split; [exact F2|]. rewrite P2, Q1, M1, P1, W2, W1. split; reflexivity.
Qed.

(** ** Which arrays an operation touches *)
Definition only_touches (fp : list addr) (h h' : heap) : Prop :=
  (length h <= length h')%nat /\
  (forall a, (a < length h)%nat -> ~ In a fp -> rd h' a = rd h a).

Lemma write_touches h b l a : ~ In a (footprint b) -> rd (write_particles h b l) a = rd h a.
Proof.
  intros H. unfold footprint in H. simpl in H. unfold write_particles.
  repeat rewrite rd_wr_other by intuition congruence. reflexivity.
Qed.
Lemma write_length h b l : length (write_particles h b l) = length h.
Proof. unfold write_particles. rewrite !wr_length. reflexivity. Qed.

Lemma evolve_touches h b fields t dt pusher h' b' :
  (match evolve h b fields t dt pusher with Done s' => s' | Raise _ s' => s' end) = (h', b') ->
  length h' = length h /\ (forall a, ~ In a (footprint b) -> rd h' a = rd h a) /\
  footprint b' = footprint b.
Proof.
  unfold evolve. fold (acting h b fields). destruct (acting h b fields).
  2:{ intros H. injection H as <- <-. auto. }
  destruct (String.eqb pusher "rk4").
  - destruct (rk4_arrays _ b) as [[co d] k]. destruct (apply_rk4_pusher _ _ _ _ _ _ _) as [l' a].
    intros H. injection H as <- <-. split; [apply write_length|]. split; [|reflexivity].
    intros a0. apply write_touches.
  - destruct (String.eqb pusher "boris").
    + destruct (apply_boris_pusher _ _ _ _ _ _ _) as [l' a].
      intros H. injection H as <- <-. split; [apply write_length|]. split; [|reflexivity].
      intros a0. apply write_touches.
    + intros H. injection H as <- <-. auto.
Qed.

Lemma op_touches h b o h' b' : apply_op (h, b) o = (h', b') ->
  only_touches (footprint b) h h' /\
  (forall a, In a (footprint b') ->
     In a (footprint b) \/ In a (handed o) \/ (length h <= a)%nat).
Proof.
  destruct o; cbn [apply_op handed]; intros H.
  - apply evolve_touches in H. destruct H as (L & T & E). split.
    + split; [lia|]. auto.
    + intros a Ha. rewrite E in Ha. auto.
  - unfold reposition_xi in H. destruct (Req_EM_T _ _); injection H as <- <-.
    + split; [split; auto|]. intros a; auto.
    + split; [split|].
      * rewrite wr_length. lia.
      * intros a _ Ha. apply rd_wr_other. unfold footprint in Ha. simpl in Ha. intuition congruence.
      * auto.
  - unfold set_q, alloc in H. injection H as <- <-. split; [split|].
    + rewrite app_length. lia.
    + intros a Ha _. apply rd_app_old, Ha.
    + unfold footprint. simpl. intuition lia.
  - injection H as <- <-. split; [split; auto|]. unfold footprint. simpl. intuition.
  - injection H as <- <-. split; [split; auto|]. unfold footprint. simpl. intuition.
  - unfold set_phase_space_from_alternative_matrix, alloc in H. injection H as <- <-.
    split; [split|].
    + rewrite !app_length. lia.
    + intros a Ha _. rewrite !rd_app_old; rewrite ?app_length; auto; lia.
    + unfold footprint. simpl. rewrite !app_length. simpl. intuition lia.
  - unfold set_bunch_matrix, alloc in H. injection H as <- <-. split; [split|].
    + rewrite app_length. lia.
    + intros a Ha _. apply rd_app_old, Ha.
    + unfold footprint. simpl. intuition lia.
  - injection H as <- <-. split; [split; auto|]. unfold footprint. simpl. auto.
Qed.

Lemma ops_independent ops : forall h c b,
  (forall a, In a (footprint b) -> (a < length h)%nat) ->
  (forall a, In a (footprint b) -> ~ In a (footprint c)) ->
  (forall o a, In o ops -> In a (handed o) -> ~ In a (footprint b)) ->
  contents (fst (apply_ops ops (h, c))) b = contents h b.
Proof.
  induction ops as [|o ops IH]; intros h c b HB HD HA; [reflexivity|].
  change (apply_ops (o :: ops) (h, c)) with (apply_ops ops (apply_op (h, c) o)).
  destruct (apply_op (h, c) o) as [h1 c1] eqn:E.
  destruct (op_touches h c o h1 c1 E) as [[L T] F].
  rewrite IH.
  - symmetry. apply contents_ext. intros a Ha. symmetry. apply T; auto.
  - intros a Ha. specialize (HB a Ha). lia.
  - intros a Ha Hc. destruct (F a Hc) as [H|[H|H]].
    + exact (HD a Ha H).
    + exact (HA o a (or_introl eq_refl) H Ha).
    + specialize (HB a Ha). lia.
  - intros o' a Ho. apply HA. right. exact Ho.
Qed.

(** ** Copy *)
Lemma copy_eq h n b :
  copy h n b =
  (h ++ [rd h (b_w b); rd h (b_x b); rd h (b_y b); rd h (b_xi b); rd h (b_px b); rd h (b_py b);
         rd h (b_pz b)],
   mkb (length h + 1)%nat (length h + 2)%nat (length h + 3)%nat (length h + 4)%nat (length h + 5)%nat
     (length h + 6)%nat (length h + 0)%nat None (prop_distance b) 0 None (x_ref b) (theta_ref b)
     (b_name b) (q_species b) (m_species b) None None, n).
Proof.
  unfold copy, alloc, new_bunch, set_name, with_ref. cbn [b_x b_y b_xi b_px b_py b_pz b_w
    b_tags prop_distance t_flight z_injection x_ref theta_ref b_name q_species m_species
    b_fld b_rk].
  rewrite <- !app_assoc, !app_length. simpl. f_equal. f_equal. f_equal; lia.
Qed.

Lemma copy_arrays h n b h' c n' : copy h n b = (h', c, n') ->
  map (rd h') (footprint c) = map (rd h) (footprint b).
Proof.
  rewrite copy_eq. intros H. injection H as <- <- _. unfold footprint. cbn [map b_x b_y b_xi b_px
    b_py b_pz b_w]. rewrite !rd_app_new. reflexivity.
Qed.
Lemma copy_contents h n b h' c n' : copy h n b = (h', c, n') -> contents h' c = contents h b.
Proof.
  intros H. pose proof (copy_arrays h n b h' c n' H) as E. unfold footprint in E. simpl in E.
  injection E as E1 E2 E3 E4 E5 E6 E7. unfold contents, particles.
  rewrite E1, E2, E3, E4, E5, E6, E7. reflexivity.
Qed.
Lemma copy_fresh h n b h' c n' : copy h n b = (h', c, n') ->
  (length h <= length h')%nat /\ (forall a, (a < length h)%nat -> rd h' a = rd h a) /\
  (forall a, In a (footprint c) -> (length h <= a < length h')%nat) /\ NoDup (footprint c).
Proof.
  rewrite copy_eq. intros H. injection H as <- <- _. rewrite app_length. simpl.
  split; [lia|]. split; [intros a Ha; apply rd_app_old, Ha|]. split.
  - unfold footprint. simpl. intuition lia.
  - unfold footprint. simpl. repeat constructor; simpl; intuition lia.
Qed.

(** ** Matrices *)
Lemma map_div_mul (q : R) l : q <> 0 -> map (fun v => v / q) (map (fun w => w * q) l) = l.
Proof.
  intros H. rewrite map_map. rewrite <- (map_id l) at 2. apply map_ext. intros w. field. exact H.
Qed.

(** The rows [m 0], [m 1], ... hold the matrix [M]. *)
Definition holds (h : heap) (m : nat -> addr) (M : list (list R)) : Prop :=
  forall i, (i < length M)%nat -> (m i < length h)%nat /\ rd h (m i) = nth i M [].

Lemma alloc_holds h M h1 rows : alloc_list h M = (h1, rows) ->
  holds h1 (fun i => nth i rows 0%nat) M.
Proof.
  rewrite alloc_list_eq. intros H. injection H as <- <-. intros i Hi.
  rewrite seq_nth by exact Hi. rewrite app_length. split; [lia|]. apply rd_app_new.
Qed.

Lemma bunch_matrix_contents h b m M : holds h m M -> length M = 7%nat ->
  let '(h2, b2) := set_bunch_matrix h b m in
  map (rd h2) (footprint b2) = firstn 6 M ++ [map (fun q => q / q_species b) (nth 6 M [])].
Proof.
  intros H L. unfold set_bunch_matrix, alloc. unfold footprint.
  cbn [b_x b_y b_xi b_px b_py b_pz b_w with_w with_coords map].
  do 8 (destruct M as [|? M]; try discriminate L).
  assert (R : forall i v, (i < 7)%nat -> rd (h ++ [v]) (m i) = rd h (m i)).
  { intros i v Hi. apply rd_app_old. apply H. simpl. lia. }
  rewrite !R by lia.
  destruct (H 0%nat) as [_ ->]; [simpl; lia|]. destruct (H 1%nat) as [_ ->]; [simpl; lia|].
  destruct (H 2%nat) as [_ ->]; [simpl; lia|]. destruct (H 3%nat) as [_ ->]; [simpl; lia|].
  destruct (H 4%nat) as [_ ->]; [simpl; lia|]. destruct (H 5%nat) as [_ ->]; [simpl; lia|].
  destruct (H 6%nat) as [_ ->]; [simpl; lia|].
  replace (length h) with (length h + 0)%nat by lia. rewrite rd_app_new. reflexivity.
Qed.

Lemma contents_arrays h b h' b' :
  map (rd h') (footprint b') = map (rd h) (footprint b) -> contents h' b' = contents h b.
Proof.
  intros E. unfold footprint in E. simpl in E.
  injection E as E1 E2 E3 E4 E5 E6 E7. unfold contents, particles.
  rewrite E1, E2, E3, E4, E5, E6, E7. reflexivity.
Qed.

(** ** Weighted mean *)
Lemma sum_shift d : forall v w, length v = length w ->
  sum (map2 Rmult (map (fun u => u + d) v) w) = sum (map2 Rmult v w) + d * sum w.
Proof.
  induction v as [|a v IH]; intros [|b w] H; simpl in *; try lia; try lra.
  rewrite IH by lia. ring.
Qed.

Lemma reposition_lemma h b xi_c : valid h b -> sum (rd h (b_w b)) <> 0 ->
  let d := xi_c - average (rd h (b_xi b)) (rd h (b_w b)) in
  let h' := wr h (b_xi b) (map (fun v => v + d) (rd h (b_xi b))) in
  reposition_xi h b xi_c = Done h' /\
  contents h' b = (map (fun p => mkp (x p) (y p) (xi p + d) (px p) (py p) (pz p))
                     (particles h b), rd h (b_w b)) /\
  sum (map2 Rmult (rd h' (b_xi b)) (rd h' (b_w b))) = xi_c * sum (rd h' (b_w b)) /\
  length h' = length h /\ (forall a, a <> b_xi b -> rd h' a = rd h a).
Proof.
  intros V Hw d h'.
  assert (T : forall a, a <> b_xi b -> rd h' a = rd h a).
  { intros a Ha. apply rd_wr_other. congruence. }
  pose proof (valid_distinct h b V) as D.
  assert (V0 := V). destruct V as (_ & HB & HL). unfold footprint in HB, HL. simpl in HB, HL.
  assert (S : rd h' (b_xi b) = map (fun v => v + d) (rd h (b_xi b))).
  { apply rd_wr_same. apply HB. auto. }
  split; [|split; [|split; [|split]]].
  - unfold reposition_xi. destruct (Req_EM_T _ _); [contradiction|]. reflexivity.
  - unfold contents. f_equal.
    + destruct (arrays_of_particles h b V0) as (A1 & A2 & A3 & A4 & A5 & A6).
      apply particles_arrays.
      * rewrite T by intuition congruence. rewrite A1 at 1. rewrite map_map. reflexivity.
      * rewrite T by intuition congruence. rewrite A2 at 1. rewrite map_map. reflexivity.
      * rewrite S. rewrite A3 at 1. rewrite !map_map. reflexivity.
      * rewrite T by intuition congruence. rewrite A4 at 1. rewrite map_map. reflexivity.
      * rewrite T by intuition congruence. rewrite A5 at 1. rewrite map_map. reflexivity.
      * rewrite T by intuition congruence. rewrite A6 at 1. rewrite map_map. reflexivity.
    + apply T. intuition congruence.
  - rewrite S. rewrite !T by intuition congruence. rewrite sum_shift.
    + unfold d, average. field. exact Hw.
    + rewrite (HL (b_xi b)) by auto 10. rewrite (HL (b_w b)) by auto 10. reflexivity.
  - apply wr_length.
  - exact T.
Qed.

(** ** Names *)
Lemma append_inj (p a b : string) : (p ++ a)%string = (p ++ b)%string -> a = b.
Proof. induction p as [|c p IH]; simpl; intros H; [exact H|]. injection H as H. auto. Qed.
Lemma auto_name_inj n m : auto_name n = auto_name m -> n = m.
Proof.
  unfold auto_name. intros H. apply append_inj in H.
  apply (f_equal NilZero.uint_of_string) in H.
  assert (E : forall k, NilZero.uint_of_string (NilZero.string_of_uint (Nat.to_uint k)) =
                        Some (Nat.to_uint k)).
  { intros k. apply NilZero.usu. intros Hk. pose proof (f_equal Nat.of_uint Hk) as H0.
    rewrite Unsigned.of_to in H0. simpl in H0. subst k. discriminate Hk. }
  rewrite !E in H. injection H as H. apply Unsigned.to_uint_inj. exact H.
Qed.

(** ** The alternative matrix *)
Definition alt1 (G B : R) (p : part) : part :=
  let g := gamma p in
  let g' := ((g - G) / (G * B) + 1) * G in
  let k := sqrt (g' ^ 2 - 1) in
  let px' := px p / sqrt (g ^ 2 - 1) * k in
  let py' := py p / sqrt (g ^ 2 - 1) * k in
  mkp (x p) (y p) (xi p) px' py' (sqrt (g' ^ 2 - px' ^ 2 - py' ^ 2 - 1)).

Lemma combine_map {A B C} (f : A -> B) (g : A -> C) l :
  combine (map f l) (map g l) = map (fun u => (f u, g u)) l.
Proof. induction l; simpl; auto. rewrite IHl. reflexivity. Qed.

Lemma gamma_list l :
  map2 (fun a p => sqrt (1 + a ^ 2 + fst p ^ 2 + snd p ^ 2)) (map px l)
       (combine (map py l) (map pz l)) = map gamma l.
Proof.
  rewrite combine_map, map2_map_l, map2_map_r, map2_diag. apply map_ext. intros p. simpl.
  unfold gamma. f_equal. ring.
Qed.

Lemma get_alternative_eq h b : valid h b ->
  let l := particles h b in
  let G := average (map gamma l) (rd h (b_w b)) in
  get_alternative_6D_matrix h b =
  ([map x l; map (fun p => px p / sqrt (gamma p ^ 2 - 1)) l; map y l;
    map (fun p => py p / sqrt (gamma p ^ 2 - 1)) l; map xi l;
    map (fun p => (gamma p - G) / (G * sqrt (1 - / G ^ 2))) l], G).
Proof.
  intros V l G. destruct (arrays_of_particles h b V) as (A1 & A2 & A3 & A4 & A5 & A6).
  fold l in A1, A2, A3, A4, A5, A6.
  unfold get_alternative_6D_matrix. rewrite A1, A2, A3, A4, A5, A6.
  rewrite gamma_list. fold G. rewrite !map_map, !map2_map_l, !map2_map_r, !map2_diag.
  reflexivity.
Qed.

Lemma alternative_lemma h b h1 m G h2 b2 : valid h b ->
  holds h1 m (fst (get_alternative_6D_matrix h b)) ->
  G = snd (get_alternative_6D_matrix h b) ->
  set_phase_space_from_alternative_matrix h1 b m G = (h2, b2) ->
  particles h2 b2 = map (alt1 G (sqrt (1 - / G ^ 2))) (particles h b).
Proof.
  intros V Hh HG HS. rewrite (get_alternative_eq h b V) in Hh, HG. cbn [fst snd] in Hh, HG.
  rewrite <- HG in Hh.
  set (l := particles h b) in *.
  destruct (Hh 0%nat) as [L0 E0]; [simpl; lia|]. destruct (Hh 1%nat) as [L1 E1]; [simpl; lia|].
  destruct (Hh 2%nat) as [L2 E2]; [simpl; lia|]. destruct (Hh 3%nat) as [L3 E3]; [simpl; lia|].
  destruct (Hh 4%nat) as [L4 E4]; [simpl; lia|]. destruct (Hh 5%nat) as [L5 E5]; [simpl; lia|].
  cbn [nth] in E0, E1, E2, E3, E4, E5. clear Hh.
  unfold set_phase_space_from_alternative_matrix, alloc in HS.
  rewrite E1, E3, E5 in HS. rewrite !map_map, !map2_map_l, !map2_map_r, !map2_diag in HS.
  rewrite combine_map, map2_map_r, map2_diag in HS.
  injection HS as <- <-.
  rewrite <- !app_assoc. cbn [app].
  apply particles_arrays; cbn [b_x b_y b_xi b_px b_py b_pz with_coords];
    rewrite ?app_length; cbn [length];
    rewrite ?(rd_app_old h1) by assumption;
    try (rewrite ?E0, ?E2, ?E4, map_map; reflexivity).
  - replace (length h1) with (length h1 + 0)%nat by lia. rewrite rd_app_new. cbn [nth].
    rewrite map_map. reflexivity.
  - rewrite rd_app_new. cbn [nth]. rewrite map_map. reflexivity.
  - replace (length h1 + 1 + 1)%nat with (length h1 + 2)%nat by lia.
    rewrite rd_app_new. cbn [nth]. rewrite map_map. reflexivity.
Qed.

Lemma gamma_sq p : gamma p ^ 2 = 1 + (px p * px p + py p * py p + pz p * pz p).
Proof.
  unfold gamma. rewrite <- Rsqr_pow2. rewrite Rsqr_sqrt; [reflexivity|].
  apply Rlt_le, sq_pos3.
Qed.

Lemma alt1_gamma G B p : G * B <> 0 -> 1 < gamma p ->
  let g' := G + (gamma p - G) / B in 1 <= g' ->
  gamma (alt1 G B p) = g' /\
  px (alt1 G B p) * pmod p = px p * pmod (alt1 G B p) /\
  py (alt1 G B p) * pmod p = py p * pmod (alt1 G B p) /\
  0 <= pz (alt1 G B p).
Proof.
  intros HGB Hg g' Hg'.
  assert (G <> 0 /\ B <> 0) as [HG HB].
  { split; intros ->; apply HGB; ring. }
  assert (Eg : ((gamma p - G) / (G * B) + 1) * G = g') by (unfold g'; field; auto).
  set (P := px p * px p + py p * py p + pz p * pz p).
  assert (HP : gamma p ^ 2 - 1 = P) by (rewrite gamma_sq; unfold P; ring).
  assert (HP0 : 0 < P) by (rewrite <- HP; nra).
  assert (HS : sqrt P * sqrt P = P) by (apply sqrt_sqrt; lra).
  assert (HSp : 0 < sqrt P) by (apply sqrt_lt_R0; lra).
  set (K := sqrt (g' ^ 2 - 1)).
  assert (HK : K * K = g' ^ 2 - 1) by (apply sqrt_sqrt; nra).
  assert (HK0 : 0 <= K) by apply sqrt_pos.
  set (px' := px p / sqrt P * K). set (py' := py p / sqrt P * K).
  assert (Hin : g' ^ 2 - px' ^ 2 - py' ^ 2 - 1 = K * K * (pz p * pz p) / P).
  { replace (g' ^ 2 - px' ^ 2 - py' ^ 2 - 1) with (K * K - px' ^ 2 - py' ^ 2) by lra.
    unfold px', py'.
    replace ((px p / sqrt P * K) ^ 2) with (px p * px p * (K * K) / (sqrt P * sqrt P))
      by (field; lra).
    replace ((py p / sqrt P * K) ^ 2) with (py p * py p * (K * K) / (sqrt P * sqrt P))
      by (field; lra).
    rewrite HS. replace (K * K) with (K * K * P / P) at 1 by (field; lra).
    unfold P at 1. field. lra. }
  assert (Hin0 : 0 <= K * K * (pz p * pz p) / P).
  { unfold Rdiv. apply Rmult_le_pos; [|apply Rlt_le, Rinv_0_lt_compat; lra]. nra. }
  assert (Ea : alt1 G B p = mkp (x p) (y p) (xi p) px' py' (sqrt (K * K * (pz p * pz p) / P))).
  { unfold alt1. rewrite Eg, HP. fold K. fold px' py'. rewrite Hin. reflexivity. }
  rewrite Ea.
  set (pz' := sqrt (K * K * (pz p * pz p) / P)).
  assert (Hz : pz' * pz' = K * K * (pz p * pz p) / P) by (apply sqrt_sqrt; exact Hin0).
  assert (Hsum : px' * px' + py' * py' + pz' * pz' = K * K).
  { rewrite Hz, <- Hin, HK. ring. }
  split; [|split; [|split]].
  - unfold gamma. cbn [px py pz]. rewrite Hsum, HK. replace (1 + (g' ^ 2 - 1)) with (g' * g') by ring.
    apply sqrt_square. lra.
  - unfold pmod. cbn [px py pz]. rewrite Hsum. fold P. rewrite sqrt_square by exact HK0.
    unfold px'. field. lra.
  - unfold pmod. cbn [px py pz]. rewrite Hsum. fold P. rewrite sqrt_square by exact HK0.
    unfold py'. field. lra.
  - apply sqrt_pos.
Qed.
