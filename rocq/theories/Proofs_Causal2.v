(** Pushing bunches that agree ahead of a position in wakefields that agree there. *)
From Coq Require Import QArith Reals Qreals ZArith String List Bool Lia Lra.
From Coquelicot Require Import Coquelicot.
From Verif Require Model_Laser.
From Verif Require Import Model_Push Spec_Push Proofs_Push Model_Interp Spec_Interp Proofs_Interp Model_Deposit Model_QS Model_Tracker Model_Run Model_RZ
  Spec_RZ Model_Bunch Spec_Bunch Proofs_Bunch Model_Sim Spec_Sim Proofs_Sim3 Proofs_Sim4 Spec_Causal Proofs_Causal.
Import ListNotations.
Open Scope R_scope.

(** ** Wakefields that agree *)
(** Slices whose values are used at or ahead of [z]. *)
Definition near (z : R) (x : box) (i : Z) : Prop := z <= node_z (box_grid x) (i + 1).
Definition data_rel (z : R) (x : box) (F F' : fields) : Prop :=
  sized x F /\ sized x F' /\
  forall i j, in_box x i j -> near z x i ->
    inner (h_rho F) i j = inner (h_rho F') i j /\ inner (h_chi F) i j = inner (h_chi F') i j /\
    inner (h_er F) i j = inner (h_er F') i j /\ inner (h_ez F) i j = inner (h_ez F') i j /\
    inner (h_bt F) i j = inner (h_bt F') i j.
(** A pulse on the grid of the box, without subgrid. *)
Definition on_grid (x : box) (l0 : R) (pol : string) (sp : Model_Laser.sparams) (n : nat) (main : nat * nat)
    (a old : Model_Laser.carr2) : pulse :=
  let nz := Z.to_nat (x_nxi x) in let nr := Z.to_nat (x_nr x) in
  Model_Laser.mkpl l0 pol (Some (Model_Laser.mksa (nz + 2 - 2) nr a)) (Some sp) n (Some false) main
    (Some (Model_Laser.mksa (nz + 2) nr a, Model_Laser.mksa (nz + 2) nr old)).
Definition rows_rel (z : R) (x : box) (a a' : Model_Laser.carr2) : Prop :=
  forall i k, (i < Z.to_nat (x_nxi x) + 2)%nat -> (k < Z.to_nat (x_nr x))%nat -> near z x (Z.of_nat i) -> a i k = a' i k.
Definition laser_rel (z : R) (x : box) (l l' : option pulse) : Prop :=
  if x_evolution x then
    match l, l' with
    | None, None => True
    | Some p, Some p' => exists l0 pol sp n main a old a' old',
        p = on_grid x l0 pol sp n main a old /\ p' = on_grid x l0 pol sp n main a' old' /\
        Model_Laser.sp_nz sp = Z.to_nat (x_nxi x) /\ Model_Laser.sp_nr sp = Z.to_nat (x_nr x) /\
        rows_rel z x a a' /\ rows_rel z x old old'
    | _, _ => False
    end
  else l = l'.
(** A wakefield before its first update. *)
Definition unused (x : box) (o : wake) : Prop :=
  match o_laser o with
  | None => True
  | Some p => (exists l0 pol, p = Model_Laser.new_pulse l0 pol) /\ (x_evolution x = true -> x_lnxi x = None /\ x_lnr x = None)
  end.
Definition proper_box (x : box) : Prop :=
  x_ximin x < x_ximax x /\ 0 < x_rmax x /\ (3 <= x_nxi x)%Z /\ (3 <= x_nr x)%Z.
Record wrel (z : R) (o o' : wake) : Prop := mkwr {
  wr_box : o_box o = o_box o';
  wr_dt : o_dt o = o_dt o';
  wr_even : o_even o = o_even o';
  wr_t : o_t o = o_t o';
  wr_np : o_np o = o_np o';
  wr_proper : proper_box (o_box o);
  wr_state : (o_init o = false /\ o = o' /\ unused (o_box o) o) \/
             (o_init o = true /\ o_init o' = true /\ data_rel z (o_box o) (o_arrays o) (o_arrays o') /\
              laser_rel z (o_box o) (o_laser o) (o_laser o')) }.
Lemma cell_pos x : proper_box x -> 0 < gdz (box_grid x).
Proof.
  intros (H1 & _ & H3 & _). apply IZR_le in H3. cbn. apply Rdiv_lt_0_compat; lra.
Qed.
Lemma node_mono x i j : proper_box x -> (i <= j)%Z -> node_z (box_grid x) i <= node_z (box_grid x) j.
Proof.
  intros H Hij. pose proof (cell_pos x H). apply IZR_le in Hij. unfold node_z.
  apply Rplus_le_compat_l, Rmult_le_compat_r; lra.
Qed.
Lemma near_mono z y x i : z <= y -> near y x i -> near z x i.
Proof. unfold near. lra. Qed.
Lemma rows_mono z y x a a' : z <= y -> rows_rel z x a a' -> rows_rel y x a a'.
Proof. intros H Hr i k Hi Hk Hn. apply Hr; auto. eapply near_mono; eassumption. Qed.
Lemma data_mono z y x F F' : z <= y -> data_rel z x F F' -> data_rel y x F F'.
Proof. intros H (S1 & S2 & Hd). split; [exact S1|]. split; [exact S2|]. intros i j Hi Hn. apply Hd; auto. eapply near_mono; eassumption. Qed.
Lemma laser_mono z y x l l' : z <= y -> laser_rel z x l l' -> laser_rel y x l l'.
Proof.
  intros H. unfold laser_rel. destruct (x_evolution x); [|auto]. destruct l as [p|], l' as [p'|]; auto.
  intros (l0 & pol & sp & n & main & a & old & a' & old' & E1 & E2 & E3 & E4 & R1 & R2).
  exists l0, pol, sp, n, main, a, old, a', old'. repeat (split; [assumption|]).
  split; eapply rows_mono; eassumption.
Qed.
Lemma wrel_mono z y o o' : z <= y -> wrel z o o' -> wrel y o o'.
Proof.
  intros H [E1 E2 E3 E4 E5 E6 E7]. constructor; try assumption.
  destruct E7 as [E7|(I1 & I2 & D & L)]; [left; exact E7|right].
  repeat (split; [assumption|]). split; [eapply data_mono; eassumption|eapply laser_mono; eassumption].
Qed.
Definition frel (z : R) (f f' : efield) : Prop :=
  match f, f' with
  | Analytic c, Analytic c' => c = c'
  | Wake env pl o, Wake env' pl' o' => env = env' /\ pl = pl' /\ wrel z o o'
  | _, _ => False
  end.

(** ** Gathering *)
Lemma interpolates_rel x odd f f' z r v y : proper_box x -> y <= z ->
  (forall i j, in_box x i j -> near y x i -> f i j = f' i j) ->
  interpolates (box_grid x) odd f z r v -> interpolates (box_grid x) odd f' z r v.
Proof.
  intros Hp Hy Hf H i Hi Hz. destruct (H i Hi Hz) as [H1 H2]. cbn [box_grid gnz gnr] in *.
  assert (E : forall j, (0 <= j < x_nr x)%Z -> f i j = f' i j /\ f (i + 1)%Z j = f' (i + 1)%Z j).
  { intros j Hj. split; apply Hf; try (split; lia); unfold near; [lra|].
    pose proof (node_mono x (i + 1) (i + 1 + 1) Hp ltac:(lia)). lra. }
  destruct Hp as (_ & _ & _ & Hn).
  split.
  - intros j Hj Hr. rewrite (H1 j Hj Hr). unfold bilinear.
    destruct (E j ltac:(lia)) as [-> ->]. destruct (E (j + 1)%Z ltac:(lia)) as [-> ->]. reflexivity.
  - intros Hr. rewrite (H2 Hr). destruct (E 0%Z ltac:(lia)) as [-> ->]. reflexivity.
Qed.
Lemma as_rz_formed o : proper_box (o_box o) -> sized (o_box o) (o_arrays o) -> well_formed (as_rz o).
Proof.
  intros (H1 & H2 & H3 & H4) S. unfold sized in S.
  inversion S as [|a1 l1 A1 S1]; subst. inversion S1 as [|a2 l2 A2 S2]; subst. inversion S2 as [|a3 l3 A3 S3]; subst.
  inversion S3 as [|a4 l4 A4 S4]; subst. inversion S4 as [|a5 l5 A5 S5]; subst.
  unfold well_formed, allocated, as_rz. unfold box_array in *.
  cbn [w_ximin w_ximax w_rmax w_nxi w_nr Model_Interp.e_r Model_Interp.e_z Model_Interp.b_t].
  do 6 (split; [first [assumption|lia]|]). assumption.
Qed.
Lemma wake1_rel z o o' p f : wrel z o o' -> z <= lon p -> wake1 o p f = wake1 o' p f.
Proof.
  intros [E1 E2 E3 E4 E5 Hp St] Hz. destruct St as [(_ & -> & _)|(_ & _ & (S1 & S2 & D) & _)]; [reflexivity|].
  rewrite E1 in Hp, S2. pose proof (as_rz_formed o' Hp S2) as W'. rewrite <- E1 in Hp, S2.
  pose proof (as_rz_formed o Hp S1) as W.
  assert (G : grid_of (as_rz o) = box_grid (o_box o)) by reflexivity.
  assert (G' : grid_of (as_rz o') = box_grid (o_box o)) by (rewrite E1; reflexivity).
  unfold wake1. destruct (Rle_lt_dec (radius p) 0) as [Hr|Hr].
  - assert (R0 : radius p = 0) by (pose proof (radius_nonneg p); lra).
    destruct p as [[a b] u]. unfold gather_main1. rewrite (radius_eq a b u), R0. destruct (Req_EM_T 0 0); [reflexivity|lra].
  - destruct (gather_main_one _ p W Hr) as [N1 N2]. destruct (gather_main_one _ p W' Hr) as [N1' N2'].
    rewrite G in *. rewrite G' in *.
    destruct (within (geom_of (box_grid (o_box o))) (lon p) (radius p)) eqn:Ew.
    + apply within_true in Ew; [|lra].
      destruct (N2 Ew) as (er & ez & bt & I1 & I2 & I3 & Ev). destruct (N2' Ew) as (er' & ez' & bt' & I1' & I2' & I3' & Ev').
      rewrite Ev, Ev'. f_equal. f_equal. f_equal.
      assert (Pg : proper (box_grid (o_box o))) by (rewrite <- G; apply proper_grid, W).
      change (Model_Interp.e_r (as_rz o)) with (h_er (o_arrays o)) in I1. change (Model_Interp.e_r (as_rz o')) with (h_er (o_arrays o')) in I1'.
      change (Model_Interp.e_z (as_rz o)) with (h_ez (o_arrays o)) in I2. change (Model_Interp.e_z (as_rz o')) with (h_ez (o_arrays o')) in I2'.
      change (Model_Interp.b_t (as_rz o)) with (h_bt (o_arrays o)) in I3. change (Model_Interp.b_t (as_rz o')) with (h_bt (o_arrays o')) in I3'.
      apply (interpolates_rel _ _ _ (inner (h_er (o_arrays o'))) _ _ _ z Hp Hz) in I1; [|intros i j Hi Hn; apply (D i j Hi Hn)].
      apply (interpolates_rel _ _ _ (inner (h_ez (o_arrays o'))) _ _ _ z Hp Hz) in I2; [|intros i j Hi Hn; apply (D i j Hi Hn)].
      apply (interpolates_rel _ _ _ (inner (h_bt (o_arrays o'))) _ _ _ z Hp Hz) in I3; [|intros i j Hi Hn; apply (D i j Hi Hn)].
      rewrite (interpolates_unique _ _ _ _ _ _ _ Pg Ew I1 I1'), (interpolates_unique _ _ _ _ _ _ _ Pg Ew I2 I2'),
        (interpolates_unique _ _ _ _ _ _ _ Pg Ew I3 I3'). reflexivity.
    + apply within_false in Ew; [|lra]. rewrite (N1 Ew), (N1' Ew). reflexivity.
Qed.
Lemma gather1_rel z fields fields' p t : List.Forall2 (frel z) fields fields' -> z <= lon p -> forall f,
  gather1 fields p t f = gather1 fields' p t f.
Proof.
  intros H Hz. induction H as [|u v l l' Huv H IH]; intros f; [reflexivity|].
  destruct u as [env pl o|c], v as [env' pl' o'|c']; cbn [frel] in Huv; try contradiction; cbn [gather1].
  - destruct Huv as (-> & -> & W). rewrite (wake1_rel z o o' p f W Hz). destruct (wake1 o' p f); auto.
  - subst c'. apply IH.
Qed.

(** ** Pushing *)
Lemma c_pos : 0 < c_SI.
Proof. unfold c_SI. lra. Qed.
Lemma half_back dt p : 0 <= dt -> xi (half_position_push1 dt p) <= xi p.
Proof.
  intros Hd. cbn [half_position_push1 xi]. set (g := sqrt (1 + (px p ^ 2 + py p ^ 2 + pz p ^ 2))).
  assert (G : Rabs (pz p) <= g).
  { rewrite <- sqrt_Rsqr_abs. apply sqrt_le_1_alt. unfold Rsqr. nra. }
  assert (G1 : 0 < g) by (apply sqrt_lt_R0; nra).
  pose proof (Rle_abs (pz p)). pose proof c_pos.
  assert (Q : pz p * (c_SI / g) <= c_SI).
  { replace (pz p * (c_SI / g)) with (c_SI * (pz p / g)) by (field; lra).
    rewrite <- (Rmult_1_r c_SI) at 2. apply Rmult_le_compat_l; [lra|].
    apply Rmult_le_reg_r with g; [exact G1|]. unfold Rdiv. rewrite Rmult_assoc, Rinv_l, Rmult_1_r by lra. lra. }
  nra.
Qed.
Lemma boris1_back fields qm t dt p q : 0 <= dt -> boris1 fields qm t dt p = Some q -> xi q <= xi (half_position_push1 dt p) <= xi p.
Proof.
  intros Hd. unfold boris1. cbv zeta. destruct (gather1 _ _ _ _) as [f|]; [|discriminate]. intros E. injection E as <-.
  split; [|apply half_back, Hd]. eapply Rle_trans; [apply half_back, Hd|]. unfold push_momentum1. cbn [xi]. lra.
Qed.
Lemma boris1_rel z fields fields' qm t dt p q : 0 <= dt -> List.Forall2 (frel z) fields fields' ->
  boris1 fields qm t dt p = Some q -> z <= xi q -> boris1 fields' qm t dt p = Some q.
Proof.
  intros Hd H E Hq. pose proof (boris1_back _ _ _ _ _ _ Hd E) as B. unfold boris1 in *. cbv zeta in *.
  rewrite <- (gather1_rel z fields fields'); [exact E|exact H|]. unfold lon, pos_of. cbn [snd]. lra.
Qed.

Definition ahead_of (z : R) (pw : part * R) : bool := if Rle_dec z (xi (fst pw)) then true else false.
(** The common part of the pushed bunch from that of the bunch. *)
Definition carry (z : R) (f : part -> option part) (l : list (part * R)) : list (part * R) :=
  flat_map (fun pw => match f (fst pw) with
                      | Some q => if Rle_dec z (xi q) then [(q, snd pw)] else []
                      | None => [] end) l.
Lemma from_carry z f : (forall p q, f p = Some q -> xi q <= xi p) -> forall l w l', travo f l = Some l' -> length l = length w ->
  from z (combine l' w) = carry z f (from z (combine l w)).
Proof.
  intros Hf. induction l as [|p l IH]; intros [|v w] l' E L; try discriminate; cbn in E.
  - injection E as <-. reflexivity.
  - destruct (f p) as [q|] eqn:Ep; [|discriminate]. destruct (travo f l) as [r|] eqn:Er; [|discriminate].
    injection E as <-. specialize (IH w r eq_refl ltac:(cbn in L; lia)). specialize (Hf p q Ep).
    unfold from in *. cbn [combine filter fst]. rewrite IH.
    destruct (Rle_dec z (xi q)) as [A|A]; destruct (Rle_dec z (xi p)) as [A'|A']; try lra.
    + unfold carry at 2. cbn [flat_map fst snd]. rewrite Ep. destruct (Rle_dec z (xi q)); [reflexivity|lra].
    + unfold carry at 2. cbn [flat_map fst snd]. rewrite Ep. destruct (Rle_dec z (xi q)); [lra|reflexivity].
    + reflexivity.
Qed.
Lemma carry_ext z f f' l : (forall p w, In (p, w) l -> exists q q', f p = Some q /\ f' p = Some q' /\
    (z <= xi q -> q' = q) /\ (z <= xi q' -> q' = q)) -> carry z f l = carry z f' l.
Proof.
  induction l as [|[p w] l IH]; intros H; [reflexivity|]. unfold carry in *. cbn [flat_map fst snd].
  rewrite IH by (intros u v Hu; apply (H u v); right; exact Hu). f_equal.
  destruct (H p w (or_introl eq_refl)) as (q & q' & -> & -> & H1 & H2).
  destruct (Rle_dec z (xi q)) as [A|A]; [rewrite (H1 A); destruct (Rle_dec z (xi q)); [reflexivity|lra]|].
  destruct (Rle_dec z (xi q')) as [A'|A']; [rewrite (H2 A') in A'; lra|reflexivity].
Qed.
Lemma in_from z l w p v : In (p, v) (from z (combine l w)) -> In p l /\ z <= xi p.
Proof.
  unfold from. intros H. apply filter_In in H as [H1 H2]. cbn [fst] in H2.
  split; [apply in_combine_l in H1; exact H1|]. destruct (Rle_dec z (xi p)); [assumption|discriminate].
Qed.
Lemma travo_in {A B} (f : A -> option B) l l' a : travo f l = Some l' -> In a l -> exists b, f a = Some b.
Proof.
  intros E Ha. destruct (f a) as [b|] eqn:Ef; [exists b; reflexivity|].
  assert (X : travo f l = None) by (apply travo_none; exists a; auto). congruence.
Qed.
Lemma amax_spec l m : amax l = Some m -> In m l /\ forall v, In v l -> v <= m.
Proof.
  destruct l as [|a l]; [discriminate|]. cbn. intros E. injection E as <-. revert a.
  induction l as [|b l IH]; intros a; cbn.
  - split; [auto|]. intros v [->|[]]. lra.
  - destruct (IH (Rmax a b)) as [I1 I2]. split.
    + destruct I1 as [I1|I1]; [|auto]. rewrite <- I1. unfold Rmax. destruct (Rle_dec a b); auto.
    + pose proof (I2 (Rmax a b) (or_introl eq_refl)). pose proof (Rmax_l a b). pose proof (Rmax_r a b).
      intros v [->|[->|Hv]]; [lra|lra|]. apply I2. right. exact Hv.
Qed.
Lemma in_combine_same {A C} (l : list A) : forall (w : list C), length l = length w -> forall a, In a l -> exists b, In (a, b) (combine l w).
Proof.
  induction l as [|u l IH]; intros [|v w] H a []; try discriminate.
  - subst. exists v. left. reflexivity.
  - destruct (IH w ltac:(cbn in H; lia) a H0) as (b & Hb). exists b. right. exact Hb.
Qed.
Lemma sound_lengths hb : sound hb -> length (parts hb) = length (weights hb).
Proof.
  destruct hb as [h b]. intros [V _]. unfold parts, weights. cbn [fst snd] in *. rewrite particles_length.
  destruct V as (_ & _ & V). symmetry. apply V. cbn. tauto.
Qed.

Section Evolve.
  Variables (z t dt : R) (fields fields' : list efield).
  Hypothesis Hdt : 0 <= dt.
  Hypothesis Hf : List.Forall2 (frel z) fields fields'.
  Lemma pushed_same hb hb' fs fs' l l' : same_ahead z hb hb' -> List.Forall2 (frel z) fs fs' ->
    travo (boris1 fs (q_species (snd hb) / (m_species (snd hb) * c_SI)) t dt) (parts hb) = Some l ->
    travo (boris1 fs' (q_species (snd hb') / (m_species (snd hb') * c_SI)) t dt) (parts hb') = Some l' ->
    from z (combine l (weights hb)) = from z (combine l' (weights hb')).
  Proof.
    intros (S1 & S2 & (_ & _ & _ & _ & _ & _ & _ & Eq & Em) & Hs) Hfs E E'. rewrite <- Eq, <- Em in E'.
    set (qm := q_species (snd hb) / (m_species (snd hb) * c_SI)) in *.
    rewrite (from_carry z _ (fun p q H => Rle_trans _ _ _ (proj1 (boris1_back _ _ _ _ _ _ Hdt H)) (proj2 (boris1_back _ _ _ _ _ _ Hdt H))) _ _ _ E (sound_lengths hb S1)).
    rewrite (from_carry z _ (fun p q H => Rle_trans _ _ _ (proj1 (boris1_back _ _ _ _ _ _ Hdt H)) (proj2 (boris1_back _ _ _ _ _ _ Hdt H))) _ _ _ E' (sound_lengths hb' S2)).
    rewrite <- Hs. apply carry_ext. intros p w Hp.
    pose proof Hp as Hp'. rewrite Hs in Hp'. apply in_from in Hp as [Hp _]. apply in_from in Hp' as [Hp' _].
    destruct (travo_in _ _ _ p E Hp) as (q & Eq1). destruct (travo_in _ _ _ p E' Hp') as (q' & Eq2).
    exists q, q'. split; [exact Eq1|]. split; [exact Eq2|]. split; intros Hq.
    - pose proof (boris1_rel z fs fs' _ _ _ _ _ Hdt Hfs Eq1 Hq). congruence.
    - assert (Hfs' : List.Forall2 (frel z) fs fs') by exact Hfs.
      unfold boris1 in Eq1, Eq2. cbv zeta in Eq1, Eq2.
      pose proof (boris1_back fs' qm t dt p q' Hdt Eq2) as Bk.
      rewrite (gather1_rel z fs fs') in Eq1; [congruence|exact Hfs|]. unfold lon, pos_of. cbn [snd]. lra.
  Qed.
  Lemma all_behind hb fs l qm : sound hb -> from z (combine (parts hb) (weights hb)) = [] ->
    travo (boris1 fs qm t dt) (parts hb) = Some l -> from z (combine l (weights hb)) = [].
  Proof.
    intros S1 H E.
    rewrite (from_carry z _ (fun p q H => Rle_trans _ _ _ (proj1 (boris1_back _ _ _ _ _ _ Hdt H)) (proj2 (boris1_back _ _ _ _ _ _ Hdt H))) _ _ _ E (sound_lengths hb S1)).
    rewrite H. reflexivity.
  Qed.
  Lemma max_same hb hb' m m' : same_ahead z hb hb' -> from z (combine (parts hb) (weights hb)) <> [] ->
    amax (map xi (parts hb)) = Some m -> amax (map xi (parts hb')) = Some m' -> m = m'.
  Proof.
    intros (S1 & S2 & _ & Hs) Hne A A'. apply amax_spec in A as [A1 A2]. apply amax_spec in A' as [A1' A2'].
    assert (G : forall hb hb' m m', sound hb -> from z (combine (parts hb) (weights hb)) = from z (combine (parts hb') (weights hb')) ->
      from z (combine (parts hb) (weights hb)) <> [] -> In m (map xi (parts hb)) -> (forall v, In v (map xi (parts hb)) -> v <= m) ->
      (forall v, In v (map xi (parts hb')) -> v <= m') -> m <= m').
    { clear. intros hb hb' m m' S1 Hs Hne A1 A2 A2'.
      destruct (from z (combine (parts hb) (weights hb))) as [|[p w] r] eqn:E; [contradiction|].
      assert (Hp : In (p, w) (from z (combine (parts hb) (weights hb)))) by (rewrite E; left; reflexivity).
      apply in_from in Hp as [Hp Hz]. specialize (A2 (xi p) (in_map xi _ _ Hp)).
      apply in_map_iff in A1 as (q & <- & Hq). destruct (in_combine_same _ _ (sound_lengths hb S1) q Hq) as (v & Hv).
      assert (Hqf : In (q, v) (from z (combine (parts hb) (weights hb)))).
      { unfold from. apply filter_In. split; [exact Hv|]. cbn [fst]. destruct (Rle_dec z (xi q)); [reflexivity|lra]. }
      rewrite E, Hs in Hqf. apply in_from in Hqf as [Hqf _]. apply A2', in_map, Hqf. }
    apply Rle_antisym.
    - apply (G hb hb' m m'); assumption.
    - apply (G hb' hb m' m); auto. rewrite <- Hs. exact Hne.
  Qed.
  Lemma evolve_rel hb hb' hb1 hb1' : same_ahead z hb hb' ->
    push_bunch "boris" fields hb t dt = Some hb1 -> push_bunch "boris" fields' hb' t dt = Some hb1' -> same_ahead z hb1 hb1'.
  Proof.
    intros H E E'. pose proof H as (S1 & S2 & At & Hs).
    pose proof (push_cases "boris" fields hb t dt S1) as P. rewrite E in P. destruct P as (P & T1 & W1 & M1).
    pose proof (push_cases "boris" fields' hb' t dt S2) as P'. rewrite E' in P'. destruct P' as (P' & T1' & W1' & M1').
    split; [exact T1|]. split; [exact T1'|]. split.
    { unfold same_attributes in *. unfold moved_on in *. intuition congruence. }
    rewrite W1, W1'. unfold pushed in P, P'. cbn [knownb orb String.eqb Ascii.eqb Bool.eqb] in P, P'.
    unfold push1 in P, P'. cbn [String.eqb Ascii.eqb Bool.eqb] in P, P'.
    destruct (acts hb fields) as [fs|] eqn:A; [|discriminate]. destruct (acts hb' fields') as [fs'|] eqn:A'; [|discriminate].
    change (travo (boris1 fs (q_species (snd hb) / (m_species (snd hb) * c_SI)) t dt) (parts hb) = Some (parts hb1)) in P.
    change (travo (boris1 fs' (q_species (snd hb') / (m_species (snd hb') * c_SI)) t dt) (parts hb') = Some (parts hb1')) in P'.
    destruct (from z (combine (parts hb) (weights hb))) as [|u r] eqn:Ef.
    - rewrite (all_behind hb fs _ _ S1 Ef P). symmetry. exact (all_behind hb' fs' _ _ S2 (eq_sym Hs) P').
    - assert (Hfs : List.Forall2 (frel z) fs fs').
      { unfold acts in A, A'. destruct At as (_ & Epd & _ & Ez & _). rewrite <- Ez, <- Epd in A'.
        destruct (z_injection (snd hb)) as [zi|]; [|congruence].
        destruct (amax (map xi (parts hb))) as [m|] eqn:Em; [|discriminate].
        destruct (amax (map xi (parts hb'))) as [m'|] eqn:Em'; [|discriminate].
        rewrite <- (max_same hb hb' m m' H ltac:(rewrite Ef; discriminate) Em Em') in A'.
        destruct (Rlt_dec _ _); injection A as <-; injection A' as <-; [constructor|exact Hf]. }
      eapply pushed_same; eassumption.
  Qed.
End Evolve.
Lemma copy_rel z hb hb' : same_ahead z hb hb' -> same_ahead z (copy_tracked hb) (copy_tracked hb').
Proof.
  intros (S1 & S2 & At & Hs). destruct (copy_sound hb S1) as (C1 & C2 & C3 & C4). destruct (copy_sound hb' S2) as (C1' & C2' & C3' & C4').
  split; [exact C1|]. split; [exact C1'|]. split.
  - unfold same_attributes, copy_attributes in *. intuition congruence.
  - rewrite C2, C3, C2', C3'. exact Hs.
Qed.
Lemma from_mono z y l l' : z <= y -> from z l = from z l' -> from y l = from y l'.
Proof.
  intros H E. assert (G : forall l, from y l = from y (from z l)).
  { clear E. intros u. unfold from. induction u as [|p u IH]; [reflexivity|]. cbn [filter].
    destruct (Rle_dec z (xi (fst p))) as [A|A]; cbn [filter]; destruct (Rle_dec y (xi (fst p))) as [A'|A']; rewrite ?IH; try reflexivity. lra. }
  rewrite (G l), (G l'), E. reflexivity.
Qed.
Lemma same_ahead_mono z y hb hb' : z <= y -> same_ahead z hb hb' -> same_ahead y hb hb'.
Proof. intros H (S1 & S2 & At & Hs). repeat (split; [assumption|]). eapply from_mono; eassumption. Qed.
