(** Properties C14-C18 and C58-C60: particle bunches. *)
From Coq Require Import Reals String List Arith Permutation Lia Lra.
From Verif Require Import Model_Push Spec_Push Proofs_Push Model_Bunch Spec_Bunch Proofs_Bunch.
Import ListNotations.
Open Scope R_scope.

(** ** C14 *)
(** After any sequence of successful pushes the bunch has propagated c times the
    sum of the steps. *)
Theorem C14_propagation_distance :
  forall l h b h' b', pushes h b l = Done (h', b') ->
  prop_distance b' = prop_distance b + c_SI * total (map dt_of l).
Proof. exact pushes_prop. Qed.

(** Unknown pusher: ValueError, nothing has changed. *)
Theorem C14_unknown_pusher :
  forall h b fields t dt pusher,
  pusher <> "rk4"%string -> pusher <> "boris"%string ->
  evolve h b fields t dt pusher = Raise ValueError (h, b).
Proof.
  intros h b fields t dt pusher N1 N2. unfold evolve. fold (acting h b fields).
  destruct (acting h b fields); [|reflexivity].
  destruct (String.eqb_spec pusher "rk4"); [contradiction|].
  destruct (String.eqb_spec pusher "boris"); [contradiction|]. reflexivity.
Qed.

(** While every particle is before the injection position, a push is a free
    flight whatever the fields. *)
Theorem C14_free_before_injection :
  forall h b fields t dt pusher z,
  valid h b -> fits h b -> known pusher -> z_injection b = Some z ->
  particles h b <> [] ->
  (forall p, In p (particles h b) -> xi p + prop_distance b < z) ->
  exists h' b', evolve h b fields t dt pusher = Done (h', b') /\
    contents h' b' = (map (drift dt) (particles h b), rd h (b_w b)).
Proof.
  intros h b fields t dt pusher z V F K Hz Hne Hp.
  destruct (evolve_lemma h b fields [] (fun _ _ => em0) t dt pusher V F K
    (acting_before h b z fields V Hz Hne Hp) gathers_nil)
    as (h' & b' & E & _ & _ & _ & _ & P & W & _).
  exists h', b'. split; [exact E|]. unfold contents. rewrite P, W, fresh_free by exact K.
  reflexivity.
Qed.
(** From the moment one particle has reached it, or if there is no injection
    position, the fields act on all particles. *)
Theorem C14_fields_after_injection :
  forall h b fields G t dt pusher,
  valid h b -> fits h b -> known pusher -> gathers fields G ->
  (z_injection b = None \/
   exists z p, z_injection b = Some z /\ In p (particles h b) /\
               z <= xi p + prop_distance b) ->
  exists h' b', evolve h b fields t dt pusher = Done (h', b') /\
    contents h' b' =
      (fresh_push (q_species b) (m_species b) (particles h b) (fields, t, dt, pusher),
       rd h (b_w b)).
Proof.
  intros h b fields G t dt pusher V F K HG Hz.
  assert (A : acting h b fields = Some fields).
  { destruct Hz as [Hz|(z & p & Hz & Hin & Hp)].
    - unfold acting. rewrite Hz. reflexivity.
    - exact (acting_after h b z fields p V Hz Hin Hp). }
  destruct (evolve_lemma h b fields fields G t dt pusher V F K A HG)
    as (h' & b' & E & _ & _ & _ & _ & P & W & _).
  exists h', b'. split; [exact E|]. unfold contents. rewrite P, W. reflexivity.
Qed.
(** Moving the reference without pushing. *)
Theorem C14_increase_prop_distance :
  forall b d, prop_distance (increase_prop_distance b d) = prop_distance b + d /\
    footprint (increase_prop_distance b d) = footprint b.
Proof. intros. split; reflexivity. Qed.
(** An empty bunch with an injection position cannot be pushed. *)
Theorem C14_empty_bunch_with_injection :
  forall h b fields t dt pusher z, z_injection b = Some z -> rd h (b_xi b) = [] ->
  evolve h b fields t dt pusher = Raise ValueError (h, b).
Proof. intros h b fields t dt pusher z Hz He. unfold evolve. rewrite Hz, He. reflexivity. Qed.

(** The scratch arrays carry nothing from one push to the next: a whole
    sequence of pushes, with either pusher in any order, acts on the particles
    as the pushers with new arrays every time; the weights stay. *)
Theorem C14_no_memory_in_scratch_arrays :
  forall l h b, valid h b -> fits h b -> z_injection b = None ->
  (forall fields t dt pusher, In (fields, t, dt, pusher) l ->
     known pusher /\ exists G, gathers fields G) ->
  exists h' b', pushes h b l = Done (h', b') /\ valid h' b' /\ fits h' b' /\
    contents h' b' =
      (fold_left (fresh_push (q_species b) (m_species b)) l (particles h b), rd h (b_w b)).
Proof.
  intros l h b V F Hz Hl. destruct (pushes_run l h b V F Hz Hl) as (h' & b' & E & V' & F' & P & W).
  exists h', b'. split; [exact E|]. split; [exact V'|]. split; [exact F'|].
  unfold contents. rewrite P, W. reflexivity.
Qed.
(** What such a push is. *)
Theorem C14_rk4_and_boris :
  forall q m fields G t dt l, gathers fields G ->
  fresh_push q m l (fields, t, dt, "rk4"%string) =
    map (classical_rk4 (lorentz q m G) t dt) l /\
  (forall f, length f = length l ->
   fresh_push q m l (fields, t, dt, "boris"%string) =
     fst (apply_boris_pusher q m fields t dt l f)).
Proof.
  intros q m fields G t dt l HG. split; [apply fresh_rk4, HG|].
  intros f Hf. rewrite (fresh_boris q m fields G) by exact HG.
  destruct (boris_map q m fields G t dt l f HG) as [-> _]; [lia|reflexivity].
Qed.

(** ** C15 *)
Theorem C15_copy_of_a_valid_bunch :
  forall h n b h' c n', valid h b -> copy h n b = (h', c, n') ->
  contents h' c = contents h b /\ contents h' b = contents h b /\ valid h' c /\ valid h' b /\
  fits h' c /\
  prop_distance c = prop_distance b /\ b_name c = b_name b /\ q_species c = q_species b /\
  m_species c = m_species b /\ x_ref c = x_ref b /\ theta_ref c = theta_ref b /\ n' = n.
Proof.
  intros h n b h' c n' V H. assert (HC := copy_contents h n b h' c n' H).
  pose proof (copy_fresh h n b h' c n' H) as (L & O & F & ND).
  pose proof (copy_arrays h n b h' c n' H) as A.
  destruct V as (ND0 & HB & HL).
  assert (HLc : forall a, In a (footprint c) -> length (rd h' a) = length (rd h' (b_x c))).
  { unfold footprint in A. simpl in A. injection A as A1 A2 A3 A4 A5 A6 A7.
    unfold footprint in HL. simpl in HL. unfold footprint. simpl. intros a Ha.
    destruct Ha as [<-|[<-|[<-|[<-|[<-|[<-|[<-|[]]]]]]]];
      rewrite ?A1, ?A2, ?A3, ?A4, ?A5, ?A6, ?A7; auto 10; apply HL; auto 10. }
  split; [exact HC|]. split.
  { symmetry. apply contents_ext. intros a Ha. symmetry. apply O, HB, Ha. }
  split.
  { split; [exact ND|]. split; [|exact HLc]. intros a Ha. apply F, Ha. }
  split.
  { split; [exact ND0|]. split.
    - intros a Ha. specialize (HB a Ha). lia.
    - intros a Ha. rewrite !O; [apply HL, Ha|apply HB; unfold footprint; simpl; auto|apply HB, Ha]. }
  rewrite copy_eq in H. injection H as <- <- <-. unfold fits. simpl.
  split; [split; [intros f Hf; discriminate|intros a d k Hk; discriminate]|]. auto 10.
Qed.
(** Operations on the copy leave the original alone and conversely, as long as
    the caller does not hand over the other one's arrays. *)
Theorem C15_copy_is_independent :
  forall h n b h' c n' ops, valid h b -> copy h n b = (h', c, n') ->
  (forall o a, In o ops -> In a (handed o) -> ~ In a (footprint b) /\ ~ In a (footprint c)) ->
  contents (fst (apply_ops ops (h', c))) b = contents h b /\
  contents (fst (apply_ops ops (h', b))) c = contents h b.
Proof.
  intros h n b h' c n' ops V H HA.
  pose proof (copy_contents h n b h' c n' H) as HC.
  pose proof (copy_fresh h n b h' c n' H) as (L & O & F & ND).
  destruct V as (ND0 & HB & HL).
  assert (D : forall a, In a (footprint b) -> ~ In a (footprint c)).
  { intros a Ha Hc. specialize (HB a Ha). specialize (F a Hc). lia. }
  split.
  - rewrite ops_independent.
    + symmetry. apply contents_ext. intros a Ha. symmetry. apply O, HB, Ha.
    + intros a Ha. specialize (HB a Ha). lia.
    + exact D.
    + intros o a Ho Ha. apply (HA o a Ho Ha).
  - rewrite ops_independent; [exact HC| | |].
    + intros a Ha. apply F, Ha.
    + intros a Ha Hb. exact (D a Hb Ha).
    + intros o a Ho Ha. apply (HA o a Ho Ha).
Qed.
(** Particle tags, time of flight and injection position get lost. *)
Theorem C15_all_attributes_refuted :
  exists h n b, valid h b /\
  let '(_, c, _) := copy h n b in
  b_tags c <> b_tags b /\ t_flight c <> t_flight b /\ z_injection c <> z_injection b.
Proof.
  exists [[0];[0];[0];[0];[0];[0];[1]], 0%nat,
    (mkb 0%nat 1%nat 2%nat 3%nat 4%nat 5%nat 6%nat (Some [7%nat]) 0 1 (Some 2) 0 0 "b"%string (-1) 1 None None).
  split.
  - split; [|split].
    + unfold footprint. simpl. repeat constructor; simpl; intuition discriminate.
    + unfold footprint. simpl. intuition lia.
    + unfold footprint, rd. simpl. intros a Ha.
      destruct Ha as [<-|[<-|[<-|[<-|[<-|[<-|[<-|[]]]]]]]]; reflexivity.
  - simpl. split; [discriminate|]. split; [lra|discriminate].
Qed.

(** ** C16 *)
(** Reading the bunch matrix and writing it back. *)
Theorem C16_bunch_matrix_round_trip :
  forall h b h1 rows h2 b2, q_species b <> 0 ->
  alloc_list h (get_bunch_matrix h b) = (h1, rows) ->
  set_bunch_matrix h1 b (fun i => nth i rows 0%nat) = (h2, b2) ->
  contents h2 b2 = contents h b.
Proof.
  intros h b h1 rows h2 b2 Hq H1 H2. apply alloc_holds in H1.
  pose proof (bunch_matrix_contents h1 b _ _ H1 eq_refl) as E. rewrite H2 in E.
  apply contents_arrays. rewrite E. unfold footprint, get_bunch_matrix, get_q.
  simpl. rewrite map_div_mul by exact Hq. reflexivity.
Qed.
(** The six row matrix: order x, px, y, py, xi, pz in both directions. *)
Theorem C16_phase_space_rows :
  forall h b l, length l = 6%nat ->
  forall h1 rows, alloc_list h l = (h1, rows) ->
  let b2 := set_phase_space_from_matrix b (fun i => nth i rows 0%nat) in
  get_6D_matrix h1 b2 = l /\
  rd h1 (b_x b2) = nth 0 l [] /\ rd h1 (b_px b2) = nth 1 l [] /\
  rd h1 (b_y b2) = nth 2 l [] /\ rd h1 (b_py b2) = nth 3 l [] /\
  rd h1 (b_xi b2) = nth 4 l [] /\ rd h1 (b_pz b2) = nth 5 l [].
Proof.
  intros h b l Hl h1 rows H b2. apply alloc_holds in H.
  assert (E : forall i, (i < 6)%nat -> rd h1 (nth i rows 0%nat) = nth i l []).
  { intros i Hi. apply H. lia. }
  assert (R : rd h1 (b_x b2) = nth 0 l [] /\ rd h1 (b_px b2) = nth 1 l [] /\
    rd h1 (b_y b2) = nth 2 l [] /\ rd h1 (b_py b2) = nth 3 l [] /\
    rd h1 (b_xi b2) = nth 4 l [] /\ rd h1 (b_pz b2) = nth 5 l []).
  { unfold b2. simpl. rewrite !E by lia. auto 10. }
  split; [|exact R]. destruct R as (R1 & R2 & R3 & R4 & R5 & R6).
  unfold get_6D_matrix. rewrite R1, R2, R3, R4, R5, R6.
  do 7 (destruct l as [|? l]; try discriminate Hl). reflexivity.
Qed.
Theorem C16_set_phase_space :
  forall h b ax ay axi apx apy apz,
  get_6D_matrix h (set_phase_space b ax ay axi apx apy apz) =
    [rd h ax; rd h apx; rd h ay; rd h apy; rd h axi; rd h apz] /\
  rd h (b_w (set_phase_space b ax ay axi apx apy apz)) = rd h (b_w b).
Proof. intros. split; reflexivity. Qed.
Theorem C16_matrix_contents :
  forall h b, valid h b ->
  let l := particles h b in
  get_bunch_matrix h b = [map x l; map y l; map xi l; map px l; map py l; map pz l; get_q h b] /\
  get_6D_matrix h b = [map x l; map px l; map y l; map py l; map xi l; map pz l] /\
  get_6D_matrix_with_charge h b =
    [map x l; map px l; map y l; map py l; map xi l; map pz l; get_q h b].
Proof.
  intros h b V l. destruct (arrays_of_particles h b V) as (A1 & A2 & A3 & A4 & A5 & A6).
  fold l in A1, A2, A3, A4, A5, A6.
  unfold get_6D_matrix_with_charge, get_6D_matrix, get_bunch_matrix.
  rewrite A1, A2, A3, A4, A5, A6. auto.
Qed.
(** The alternative matrix written back: positions and directions are the same,
    but every energy deviation from the mean comes back divided by beta of the
    mean energy. *)
Theorem C16_alternative_matrix_written_back :
  forall h b h1 m h2 b2,
  let G := snd (get_alternative_6D_matrix h b) in
  let back p := G + (gamma p - G) / sqrt (1 - / G ^ 2) in
  valid h b -> 1 < G ->
  (forall p, In p (particles h b) -> 1 < gamma p /\ 1 <= back p) ->
  holds h1 m (fst (get_alternative_6D_matrix h b)) ->
  set_phase_space_from_alternative_matrix h1 b m G = (h2, b2) ->
  Forall2 (fun p p' =>
      x p' = x p /\ y p' = y p /\ xi p' = xi p /\ gamma p' = back p /\
      px p' * pmod p = px p * pmod p' /\ py p' * pmod p = py p * pmod p' /\ 0 <= pz p')
    (particles h b) (particles h2 b2).
Proof.
  intros h b h1 m h2 b2 G back V HG Hp Hh HS.
  rewrite (alternative_lemma h b h1 m G h2 b2 V Hh eq_refl HS). clearbody G.
  induction (particles h b) as [|p l IH]; simpl; constructor.
  - destruct (Hp p) as [H1 H2]; [simpl; auto|].
    split; [reflexivity|]. split; [reflexivity|]. split; [reflexivity|].
    apply alt1_gamma; auto.
    assert (0 < 1 - / G ^ 2).
    { assert (1 < G ^ 2) by nra. assert (/ G ^ 2 < 1).
      { rewrite <- Rinv_1. apply Rinv_lt_contravar; lra. } lra. }
    assert (0 < sqrt (1 - / G ^ 2)) by (apply sqrt_lt_R0; lra).
    apply Rgt_not_eq, Rmult_lt_0_compat; [lra|assumption].
  - apply IH. intros p' Hp'. apply Hp. simpl; auto.
Qed.
(** Hence any bunch with a particle above the mean energy is changed. *)
Theorem C16_alternative_round_trip_refuted :
  forall h b h1 m h2 b2 p,
  let G := snd (get_alternative_6D_matrix h b) in
  valid h b -> 1 < G -> In p (particles h b) -> G < gamma p ->
  holds h1 m (fst (get_alternative_6D_matrix h b)) ->
  set_phase_space_from_alternative_matrix h1 b m G = (h2, b2) ->
  contents h2 b2 <> contents h b.
Proof.
  intros h b h1 m h2 b2 p G V HG Hin Hp Hh HS E.
  apply (f_equal fst) in E. unfold contents in E. cbn [fst] in E.
  rewrite (alternative_lemma h b h1 m G h2 b2 V Hh eq_refl HS) in E.
  assert (Ep : alt1 G (sqrt (1 - / G ^ 2)) p = p).
  { revert E Hin. generalize (particles h b). intros l. induction l as [|u l IH]; simpl.
    - intros _ [].
    - intros E. injection E as E1 E2. intros [->|H]; auto. }
  assert (0 < 1 - / G ^ 2 < 1).
  { assert (1 < G ^ 2) by nra. assert (/ G ^ 2 < 1).
    { rewrite <- Rinv_1. apply Rinv_lt_contravar; lra. }
    assert (0 < / G ^ 2) by (apply Rinv_0_lt_compat; lra). lra. }
  set (B := sqrt (1 - / G ^ 2)) in *.
  assert (HB : 0 < B) by (apply sqrt_lt_R0; lra).
  assert (HB2 : B * B = 1 - / G ^ 2) by (apply sqrt_sqrt; lra).
  assert (HB1 : B < 1) by nra.
  assert (Hd : gamma p - G < (gamma p - G) / B).
  { apply (Rmult_lt_reg_r B); [exact HB|]. replace ((gamma p - G) / B * B) with (gamma p - G)
      by (field; lra). nra. }
  destruct (alt1_gamma G B p) as [Eg _].
  - nra.
  - lra.
  - lra.
  - rewrite Ep in Eg. lra.
Qed.
(** A bunch without energy spread, moving forward, is not changed. *)
Theorem C16_alternative_round_trip_without_spread :
  forall h b h1 m h2 b2,
  let G := snd (get_alternative_6D_matrix h b) in
  valid h b -> 1 < G ->
  (forall p, In p (particles h b) -> gamma p = G /\ 0 <= pz p) ->
  holds h1 m (fst (get_alternative_6D_matrix h b)) ->
  set_phase_space_from_alternative_matrix h1 b m G = (h2, b2) ->
  particles h2 b2 = particles h b.
Proof.
  intros h b h1 m h2 b2 G V HG Hp Hh HS.
  rewrite (alternative_lemma h b h1 m G h2 b2 V Hh eq_refl HS).
  rewrite <- (map_id (particles h b)) at 2. apply map_ext_in. intros p Hin.
  destruct (Hp p Hin) as [Hg Hz]. unfold alt1. rewrite Hg.
  replace (((G - G) / (G * sqrt (1 - / G ^ 2)) + 1) * G) with G by (unfold Rdiv; ring).
  assert (HP : gamma p ^ 2 - 1 = px p * px p + py p * py p + pz p * pz p)
    by (rewrite gamma_sq; ring).
  rewrite Hg in HP.
  assert (0 < sqrt (G ^ 2 - 1)) by (apply sqrt_lt_R0; nra).
  replace (px p / sqrt (G ^ 2 - 1) * sqrt (G ^ 2 - 1)) with (px p) by (field; lra).
  replace (py p / sqrt (G ^ 2 - 1) * sqrt (G ^ 2 - 1)) with (py p) by (field; lra).
  replace (G ^ 2 - px p ^ 2 - py p ^ 2 - 1) with (pz p * pz p) by lra.
  rewrite sqrt_square by exact Hz. destruct p; reflexivity.
Qed.

(** ** C17 *)
Theorem C17_reading_and_assigning_charge :
  forall h b q h' b', q_species b <> 0 -> set_q h b q = (h', b') ->
  (forall w, In w (rd h' (b_w b')) -> 0 <= w) /\
  length (get_q h' b') = length q /\
  (forall i, (i < length q)%nat ->
     let v := nth i q 0 in let r := nth i (get_q h' b') 0 in
     (0 <= v * q_species b -> r = v) /\ (v * q_species b <= 0 -> r = - v)) /\
  (forall a, (a < length h)%nat -> rd h' a = rd h a).
Proof.
  intros h b q h' b' Hq H. unfold set_q, alloc in H. injection H as <- <-.
  assert (E : rd (h ++ [map (fun q => Rabs (q / q_species b)) q]) (length h) =
    map (fun q => Rabs (q / q_species b)) q).
  { replace (length h) with (length h + 0)%nat at 1 by lia. rewrite rd_app_new. reflexivity. }
  unfold get_q. cbn [b_w with_w q_species]. rewrite E.
  split; [|split; [|split]].
  - intros w Hw. apply in_map_iff in Hw. destruct Hw as (v & <- & _). apply Rabs_pos.
  - rewrite !map_length. reflexivity.
  - intros i Hi. cbv zeta. rewrite map_map.
    set (F := fun u => Rabs (u / q_species b) * q_species b).
    rewrite (nth_indep (map F q) 0 (F 0)) by (rewrite map_length; exact Hi).
    rewrite map_nth. unfold F. set (v := nth i q 0). set (s := q_species b) in *.
    assert (Hss : 0 < / (s * s)) by (apply Rinv_0_lt_compat; nra).
    assert (Ev : v / s = v * s * / (s * s)) by (field; exact Hq).
    split; intros Hv.
    + rewrite Rabs_right; [field; exact Hq|]. rewrite Ev. apply Rle_ge, Rmult_le_pos; lra.
    + rewrite Rabs_left1; [field; exact Hq|]. rewrite Ev. nra.
  - intros a Ha. apply rd_app_old, Ha.
Qed.
Theorem C17_reading_charge :
  forall h b i, (i < length (rd h (b_w b)))%nat ->
  nth i (get_q h b) 0 = nth i (rd h (b_w b)) 0 * q_species b.
Proof.
  intros h b i Hi. unfold get_q. set (F := fun w => w * q_species b).
  rewrite (nth_indep (map F _) 0 (F 0)) by (rewrite map_length; exact Hi).
  rewrite map_nth. reflexivity.
Qed.

(** ** C18 *)
Theorem C18_reposition :
  forall h b xi_c, valid h b -> sum (rd h (b_w b)) <> 0 ->
  exists h' d, reposition_xi h b xi_c = Done h' /\
    contents h' b = (map (fun p => mkp (x p) (y p) (xi p + d) (px p) (py p) (pz p))
                       (particles h b), rd h (b_w b)) /\
    sum (map2 Rmult (map xi (particles h' b)) (rd h' (b_w b))) = xi_c * sum (rd h' (b_w b)) /\
    (forall a, a <> b_xi b -> rd h' a = rd h a) /\
    exists h'', reposition_xi h' b xi_c = Done h'' /\ contents h'' b = contents h' b.
Proof.
  intros h b xi_c V Hw.
  pose proof (reposition_lemma h b xi_c V Hw) as (E & C & S & L & T).
  set (d := xi_c - average (rd h (b_xi b)) (rd h (b_w b))) in *.
  set (h' := wr h (b_xi b) (map (fun v => v + d) (rd h (b_xi b)))) in *.
  pose proof (valid_distinct h b V) as D.
  assert (HBx : (b_xi b < length h)%nat) by (apply V; unfold footprint; simpl; auto).
  assert (V' : valid h' b).
  { destruct V as (ND & HB & HL). split; [exact ND|]. split.
    - intros a Ha. rewrite L. apply HB, Ha.
    - intros a Ha. rewrite (T (b_x b)) by intuition congruence.
      destruct (Nat.eq_dec a (b_xi b)) as [->|N].
      + unfold h'. rewrite rd_wr_same by exact HBx. rewrite map_length. apply HL, Ha.
      + rewrite T by exact N. apply HL, Ha. }
  assert (Ww : rd h' (b_w b) = rd h (b_w b)) by (apply T; intuition congruence).
  assert (A : rd h' (b_xi b) = map xi (particles h' b)).
  { apply (arrays_of_particles h' b V'). }
  exists h', d. split; [exact E|]. split; [exact C|]. split; [rewrite <- A; exact S|].
  split; [exact T|].
  assert (Hw' : sum (rd h' (b_w b)) <> 0) by (rewrite Ww; exact Hw).
  pose proof (reposition_lemma h' b xi_c V' Hw') as (E2 & C2 & _).
  assert (Z : xi_c - average (rd h' (b_xi b)) (rd h' (b_w b)) = 0).
  { unfold average. rewrite S. field. exact Hw'. }
  rewrite Z in E2, C2. eexists. split; [exact E2|]. rewrite C2. unfold contents. f_equal.
  rewrite <- (map_id (particles h' b)) at 2. apply map_ext. intros p.
  destruct p; simpl; f_equal; ring.
Qed.
Theorem C18_no_charge :
  forall h b xi_c, sum (rd h (b_w b)) = 0 ->
  reposition_xi h b xi_c = Raise ZeroDivisionError h.
Proof. intros h b xi_c H. unfold reposition_xi. destruct (Req_EM_T _ _); [reflexivity|contradiction]. Qed.

(** ** C58 *)
(** A bunch that is only pushed keeps scratch arrays of the right size ([fits] in
    C14_no_memory_in_scratch_arrays).  They are not resized when the number of
    particles changes: pushing after [set_phase_space] with a larger bunch uses
    field arrays with fewer entries than there are particles. *)
Theorem C58_scratch_arrays_follow_the_bunch_refuted :
  exists h b fields t dt ax ay axi apx apy apz,
  valid h b /\ fits h b /\ b_fld b = None /\
  let '(h1, b1) := apply_ops [Evolve fields t dt "boris"; SetPhaseSpace ax ay axi apx apy apz] (h, b) in
  exists f, b_fld b1 = Some f /\ (length f < length (particles h1 b1))%nat.
Proof.
  exists [[0];[0];[0];[0];[0];[0];[1];[0;0]],
    (mkb 0%nat 1%nat 2%nat 3%nat 4%nat 5%nat 6%nat None 0 0 None 0 0 "b"%string (-1) 1 None None), [], 0, 0,
    7%nat, 7%nat, 7%nat, 7%nat, 7%nat, 7%nat.
  split.
  { split; [|split].
    + unfold footprint. simpl. repeat constructor; simpl; intuition discriminate.
    + unfold footprint. simpl. intuition lia.
    + unfold footprint, rd. simpl. intros a Ha.
      destruct Ha as [<-|[<-|[<-|[<-|[<-|[<-|[<-|[]]]]]]]]; reflexivity. }
  split; [split; [intros f Hf; discriminate|intros a d k Hk; discriminate]|].
  split; [reflexivity|].
  cbn. eexists. split; [reflexivity|]. simpl; lia.
Qed.

(** ** C59 *)
(** What is handed to the openPMD output: positions, weights and species as they
    are, momenta in SI units, and the distance c t of the moving window. *)
Theorem C59_openpmd_data :
  forall h b t, valid h b ->
  let l := particles h b in
  let d := get_openpmd_diagnostics_data h b t in
  od_x d = map x l /\ od_y d = map y l /\ od_z d = map xi l /\
  od_px d = map (fun p => px p * (m_species b * c_SI)) l /\
  od_py d = map (fun p => py p * (m_species b * c_SI)) l /\
  od_pz d = map (fun p => pz p * (m_species b * c_SI)) l /\
  od_w d = rd h (b_w b) /\ od_q d = q_species b /\ od_m d = m_species b /\
  od_name d = b_name b /\ od_z_off d = c_SI * t.
Proof.
  intros h b t V l d. destruct (arrays_of_particles h b V) as (A1 & A2 & A3 & A4 & A5 & A6).
  fold l in A1, A2, A3, A4, A5, A6.
  unfold d, get_openpmd_diagnostics_data. cbn [od_x od_y od_z od_px od_py od_pz od_w od_q od_m
    od_name od_z_off].
  rewrite A1, A2, A3, A4, A5, A6, !map_map.
  assert (M : forall f : part -> R, map (fun p => f p * m_species b * c_SI) l =
    map (fun p => f p * (m_species b * c_SI)) l).
  { intros f. apply map_ext. intros p. ring. }
  rewrite !M. repeat (split; [reflexivity|]). ring.
Qed.

(** ** C60 *)
(** Names given to bunches without a name are all different: creating bunches in
    any order, the k-th and l-th unnamed ones have the same name only if k = l. *)
Fixpoint create (n : nat) (names : list (option string)) : list string * nat :=
  match names with
  | [] => ([], n)
  | o :: r => let '(s, n1) := set_name n o in
              let '(l, n2) := create n1 r in (s :: l, n2)
  end.
Theorem C60_automatic_names_are_distinct :
  forall names n i j, (i < length names)%nat -> (j < length names)%nat ->
  nth i names (Some ""%string) = None -> nth j names (Some ""%string) = None ->
  nth i (fst (create n names)) ""%string = nth j (fst (create n names)) ""%string -> i = j.
Proof.
  assert (B : forall names n i, (i < length names)%nat -> nth i names (Some ""%string) = None ->
    exists k, (n <= k)%nat /\ nth i (fst (create n names)) ""%string = auto_name k).
  { induction names as [|o r IH]; intros n i Hi Ho; simpl in Hi; [lia|].
    simpl. destruct i as [|i]; simpl in Ho.
    - subst o. simpl. destruct (create (S n) r). exists n. split; [lia|reflexivity].
    - destruct o as [s|]; simpl.
      + destruct (create n r) as [l2 n2] eqn:E. specialize (IH n i). rewrite E in IH.
        destruct IH as (k & Hk & Ek); [lia|exact Ho|]. exists k. split; [exact Hk|exact Ek].
      + destruct (create (S n) r) as [l2 n2] eqn:E. specialize (IH (S n) i). rewrite E in IH.
        destruct IH as (k & Hk & Ek); [lia|exact Ho|]. exists k. split; [lia|exact Ek]. }
  induction names as [|o r IH]; intros n i j Hi Hj Oi Oj E; simpl in Hi, Hj; [lia|].
  simpl in E. destruct o as [s|].
  - simpl in E. destruct i as [|i]; [discriminate Oi|]. destruct j as [|j]; [discriminate Oj|].
    f_equal. simpl in Oi, Oj. apply (IH n i j); auto; try lia.
    destruct (create n r); exact E.
  - simpl in E. destruct (create (S n) r) as [l2 n2] eqn:C.
    destruct i as [|i], j as [|j]; auto; simpl in Oi, Oj, E.
    + destruct (B r (S n) j ltac:(lia) Oj) as (k & Hk & Ek). rewrite C in Ek. simpl in Ek.
      rewrite Ek in E. apply auto_name_inj in E. lia.
    + destruct (B r (S n) i ltac:(lia) Oi) as (k & Hk & Ek). rewrite C in Ek. simpl in Ek.
      rewrite Ek in E. apply auto_name_inj in E. lia.
    + f_equal. apply (IH (S n) i j); auto; try lia. rewrite C. exact E.
Qed.
(** A name given by the user is kept and does not use up a number. *)
Theorem C60_given_names_are_kept :
  forall n s w ax ay axi apx apy apz tags p tf zi q m b n',
  new_bunch n w ax ay axi apx apy apz tags p tf zi (Some s) q m = (b, n') ->
  b_name b = s /\ n' = n.
Proof. intros. unfold new_bunch, set_name in H. injection H as <- <-. auto. Qed.
(** But a user may choose a name that is then also given automatically. *)
Theorem C60_all_names_distinct_refuted :
  exists names, fst (create 0 names) = ["elec_bunch_0"; "elec_bunch_0"]%string.
Proof. exists [Some "elec_bunch_0"%string; None]. reflexivity. Qed.
(** What a new bunch is. *)
Theorem C60_new_bunch :
  forall h n w ax ay axi apx apy apz tags p tf zi name q m b n',
  new_bunch n w ax ay axi apx apy apz tags p tf zi name q m = (b, n') ->
  footprint b = [ax; ay; axi; apx; apy; apz; w] /\ fits h b /\
  prop_distance b = p /\ t_flight b = tf /\ z_injection b = zi /\ b_tags b = tags /\
  x_ref b = 0 /\ theta_ref b = 0 /\ q_species b = q /\ m_species b = m /\
  (name = None -> b_name b = auto_name n /\ n' = S n).
Proof.
  intros h n w ax ay axi apx apy apz tags p tf zi name q m b n' H.
  unfold new_bunch in H. destruct (set_name n name) as [nm k] eqn:E. injection H as <- <-.
  unfold fits. simpl.
  split; [reflexivity|]. split; [split; [intros f Hf; discriminate|intros ? ? ? Hk; discriminate]|].
  repeat (split; [reflexivity|]). intros ->. simpl in E. injection E as <- <-. auto.
Qed.

(** ** C61 *)
(** A bunch works on the arrays it was given: a second bunch created with the same
    coordinate arrays is moved along when the first one is pushed, and arrays the
    bunch does not refer to never change. *)
Theorem C61_bunches_on_the_same_arrays_move_together :
  forall h b b2 fields G t dt pusher,
  valid h b -> fits h b -> known pusher -> gathers fields G ->
  z_injection b = None -> footprint b2 = footprint b ->
  exists h' b', evolve h b fields t dt pusher = Done (h', b') /\
    contents h' b2 = contents h' b' /\
    (forall a, ~ In a (footprint b) -> rd h' a = rd h a).
Proof.
  intros h b b2 fields G t dt pusher V F K HG Hz Hf.
  assert (A : acting h b fields = Some fields) by (unfold acting; rewrite Hz; reflexivity).
  destruct (evolve_lemma h b fields fields G t dt pusher V F K A HG)
    as (h' & b' & E & _ & _ & FP & _ & _ & _ & _ & _ & T).
  exists h', b'. split; [exact E|]. split; [|exact T].
  apply contents_arrays. rewrite FP, Hf. reflexivity.
Qed.
(** So arrays passed to the constructor do not keep their values. *)
Theorem C61_caller_arrays_unchanged_refuted :
  exists h b dt, valid h b /\ fits h b /\
  exists h' b', evolve h b [] 0 dt "boris" = Done (h', b') /\
    rd h' (b_xi b) <> rd h (b_xi b).
Proof.
  set (b := mkb 0%nat 1%nat 2%nat 3%nat 4%nat 5%nat 6%nat None 0 0 None 0 0 "b"%string (-1) 1
    None None).
  set (h := [[0];[0];[0];[0];[0];[0];[1]] : heap).
  exists h, b, 1.
  assert (V : valid h b).
  { split; [|split].
    + unfold footprint. simpl. repeat constructor; simpl; intuition discriminate.
    + unfold footprint. simpl. intuition lia.
    + unfold footprint, rd. simpl. intros a Ha.
      destruct Ha as [<-|[<-|[<-|[<-|[<-|[<-|[<-|[]]]]]]]]; reflexivity. }
  assert (F : fits h b) by (split; [intros f Hf; discriminate|intros a d k Hk; discriminate]).
  split; [exact V|]. split; [exact F|].
  destruct (evolve_lemma h b [] [] (fun _ _ => em0) 0 1 "boris" V F (or_intror eq_refl)
    eq_refl gathers_nil) as (h' & b' & E & V' & _ & FP & _ & P & _).
  exists h', b'. split; [exact E|].
  destruct (arrays_of_particles h' b' V') as (_ & _ & A & _).
  assert (Ex : b_xi b' = b_xi b) by (unfold footprint in FP; injection FP; auto).
  rewrite <- Ex, A, P, fresh_free by (right; reflexivity).
  change (particles h b) with [mkp 0 0 0 0 0 0]. unfold drift, velocity, momentum, scal.
  cbn [map xi px py pz]. unfold h, b, rd. cbn [nth b_xi]. rewrite Ex. cbn [b_xi b nth].
  intros H. injection H as H. assert (Hc := c_pos). lra.
Qed.

(** ** Non-vacuity *)
Definition ex_h : heap := [[1; 2]; [3; 4]; [5; 6]; [0; 3]; [4; 0]; [0; 4]; [1; 3]].
Definition ex_b : bunch :=
  mkb 0%nat 1%nat 2%nat 3%nat 4%nat 5%nat 6%nat None 10 0 (Some 20) 0 0 "b"%string (-1) 1 None None.
Example ex_valid : valid ex_h ex_b /\ fits ex_h ex_b.
Proof.
  split; [split; [|split]|split].
  - unfold footprint. simpl. repeat constructor; simpl; intuition discriminate.
  - unfold footprint. simpl. intuition lia.
  - unfold footprint, rd. simpl. intros a Ha.
    destruct Ha as [<-|[<-|[<-|[<-|[<-|[<-|[<-|[]]]]]]]]; reflexivity.
  - intros f Hf; discriminate.
  - intros ? ? ? Hk; discriminate.
Qed.
(** The bunch is before its injection position. *)
Example ex_C14 : particles ex_h ex_b = [mkp 1 3 5 0 4 0; mkp 2 4 6 3 0 4] /\
  (forall p, In p (particles ex_h ex_b) -> xi p + prop_distance ex_b < 20).
Proof.
  split; [reflexivity|]. intros p Hp. change (particles ex_h ex_b) with
    [mkp 1 3 5 0 4 0; mkp 2 4 6 3 0 4] in Hp. simpl in Hp. simpl.
  destruct Hp as [<-|[<-|[]]]; simpl; lra.
Qed.
(** Fields that can act on it. *)
Example ex_C14_fields : gathers [quadrupole_field 3]
  (fun p t => em_sum [mke 0 0 0 (- 3 * snd (fst p)) (- 3 * fst (fst p)) 0]).
Proof.
  exact (superposition_lemma [quadrupole_field 3] [_]
    (Forall2_cons _ _ (quadrupole_adds 3) (Forall2_nil _))).
Qed.
Example ex_C15 : forall o a,
  In o [Evolve [] 0 1 "rk4"; Reposition 3; SetQ [1; 2]; SetPhaseSpace 100%nat 101%nat 102%nat 103%nat 104%nat 105%nat] ->
  In a (handed o) -> ~ In a (footprint ex_b).
Proof.
  unfold footprint. simpl. intros o a [<-|[<-|[<-|[<-|[]]]]]; simpl; intuition lia.
Qed.
(** Two particles with gamma 5/4 and 5/3 and a mean energy above the rest energy. *)
Definition alt_h : heap := [[0; 0]; [0; 0]; [0; 0]; [0; 0]; [0; 0]; [3 / 4; 4 / 3]; [1; 1]].
Example ex_C16 : valid alt_h ex_b /\
  snd (get_alternative_6D_matrix alt_h ex_b) = 35 / 24 /\
  In (mkp 0 0 0 0 0 (4 / 3)) (particles alt_h ex_b) /\ gamma (mkp 0 0 0 0 0 (4 / 3)) = 5 / 3.
Proof.
  assert (V : valid alt_h ex_b).
  { split; [|split].
    - unfold footprint. simpl. repeat constructor; simpl; intuition discriminate.
    - unfold footprint. simpl. intuition lia.
    - unfold footprint, rd. simpl. intros a Ha.
      destruct Ha as [<-|[<-|[<-|[<-|[<-|[<-|[<-|[]]]]]]]]; reflexivity. }
  assert (G2 : gamma (mkp 0 0 0 0 0 (4 / 3)) = 5 / 3).
  { unfold gamma. simpl. replace (1 + (0 * 0 + 0 * 0 + 4 / 3 * (4 / 3))) with (5 / 3 * (5 / 3))
      by field. apply sqrt_square. lra. }
  assert (G1 : gamma (mkp 0 0 0 0 0 (3 / 4)) = 5 / 4).
  { unfold gamma. simpl. replace (1 + (0 * 0 + 0 * 0 + 3 / 4 * (3 / 4))) with (5 / 4 * (5 / 4))
      by field. apply sqrt_square. lra. }
  split; [exact V|]. split; [|split; [simpl; auto|exact G2]].
  rewrite (get_alternative_eq alt_h ex_b V). cbn [snd].
  change (particles alt_h ex_b) with [mkp 0 0 0 0 0 (3 / 4); mkp 0 0 0 0 0 (4 / 3)].
  cbn [map]. rewrite G1, G2. unfold average, rd, sum. simpl. field.
Qed.
Example ex_C18 : sum (rd ex_h (b_w ex_b)) <> 0.
Proof. unfold sum, rd. simpl. lra. Qed.

Print Assumptions C14_propagation_distance.
Print Assumptions C14_unknown_pusher.
Print Assumptions C14_free_before_injection.
Print Assumptions C14_fields_after_injection.
Print Assumptions C14_increase_prop_distance.
Print Assumptions C14_empty_bunch_with_injection.
Print Assumptions C14_no_memory_in_scratch_arrays.
Print Assumptions C14_rk4_and_boris.
Print Assumptions C15_copy_of_a_valid_bunch.
Print Assumptions C15_copy_is_independent.
Print Assumptions C15_all_attributes_refuted.
Print Assumptions C16_bunch_matrix_round_trip.
Print Assumptions C16_phase_space_rows.
Print Assumptions C16_set_phase_space.
Print Assumptions C16_matrix_contents.
Print Assumptions C16_alternative_matrix_written_back.
Print Assumptions C16_alternative_round_trip_refuted.
Print Assumptions C16_alternative_round_trip_without_spread.
Print Assumptions C17_reading_and_assigning_charge.
Print Assumptions C17_reading_charge.
Print Assumptions C18_reposition.
Print Assumptions C18_no_charge.
Print Assumptions C58_scratch_arrays_follow_the_bunch_refuted.
Print Assumptions C59_openpmd_data.
Print Assumptions C60_automatic_names_are_distinct.
Print Assumptions C60_given_names_are_kept.
Print Assumptions C60_all_names_distinct_refuted.
Print Assumptions C60_new_bunch.
Print Assumptions C61_bunches_on_the_same_arrays_move_together.
Print Assumptions C61_caller_arrays_unchanged_refuted.
