(** Ramps, stages and time steps. *)
From Coq Require Import QArith Reals String List Bool Arith Lra Lia.
From Verif Require Import Model_Tracker Model_Element Model_Stage Spec_Stage.
Import ListNotations.
Open Scope R_scope.

Lemma shape_0 s : ramp_shape s 0 = 1.
Proof.
  unfold ramp_shape. destruct (String.eqb s "inverse_square"); [field|].
  destruct (String.eqb s "exponential"); [rewrite Ropp_0; apply exp_0|].
  replace (- 0 ^ 2 / 2) with 0 by field. apply exp_0.
Qed.
Lemma shape_decreasing s u v : 0 <= u < v -> 0 < ramp_shape s v < ramp_shape s u.
Proof.
  intros H. unfold ramp_shape. destruct (String.eqb s "inverse_square").
  - assert (0 < (1 + u) ^ 2) by nra. assert (A : (1 + u) ^ 2 < (1 + v) ^ 2) by nra.
    split; [apply Rdiv_lt_0_compat; lra|]. unfold Rdiv. rewrite !Rmult_1_l. apply Rinv_lt_contravar; [|exact A].
    apply Rmult_lt_0_compat; lra.
  - destruct (String.eqb s "exponential"); (split; [apply exp_pos|apply exp_increasing]); [lra|]. nra.
Qed.

(** How the built-in profiles depend on the decay length *)
Definition scale (s : string) (t d p : R) : option R :=
  if String.eqb s "inverse_square" then over_or_inf p (sqrt (t / d) - 1)
  else if String.eqb s "exponential" then over_or_inf p (ln (t / d))
  else over_or_inf p (sqrt (2 * ln (t / d))).
Lemma profiles_eq s : built_in s -> exists f, ramp_profiles s = Some f /\
  forall z a, f z a = match decay (scale s) a, ra_top a with
                      | Some d, Some t => Some (t * ramp_shape s (in_units z d))
                      | _, _ => None end.
Proof.
  intros [->|[->| ->]]; eexists; (split; [reflexivity|]); intros z a;
    unfold inverse_square_profile, exponential_profile, gaussian_profile, shaped;
    destruct a as [de [t|] [d|] [p|]]; destruct de as [de|]; unfold decay; cbn [ra_decay ra_top ra_down ra_position];
    try reflexivity; f_equal; unfold ramp_shape, scale; cbn [String.eqb Ascii.eqb Bool.eqb];
    rewrite Rmult_comm; f_equal; unfold Rdiv; rewrite ?Rmult_1_l; reflexivity.
Qed.

Lemma scale_eq s t d p : built_in s -> 0 < d < t -> 0 < p ->
  exists l, scale s t d p = Some l /\ 0 < l /\ t * ramp_shape s (p / l) = d.
Proof.
  intros Hs [Hd Ht] Hp.
  assert (Q : 1 < t / d) by (apply (Rmult_lt_reg_r d); [lra|]; unfold Rdiv; rewrite Rmult_assoc, Rinv_l; lra).
  assert (LN : 0 < ln (t / d)) by (rewrite <- ln_1; apply ln_increasing; lra).
  destruct Hs as [->|[->| ->]]; unfold scale, ramp_shape; cbn [String.eqb Ascii.eqb Bool.eqb]; unfold over_or_inf.
  - assert (S1 : 1 < sqrt (t / d)) by (rewrite <- sqrt_1; apply sqrt_lt_1; lra).
    destruct (Req_EM_T (sqrt (t / d) - 1) 0); [lra|]. eexists. split; [reflexivity|].
    split; [apply Rdiv_lt_0_compat; lra|].
    replace (p / (p / (sqrt (t / d) - 1))) with (sqrt (t / d) - 1) by (field; lra).
    replace (1 + (sqrt (t / d) - 1)) with (sqrt (t / d)) by ring. rewrite pow2_sqrt by lra. field. lra.
  - destruct (Req_EM_T (ln (t / d)) 0); [lra|]. eexists. split; [reflexivity|].
    split; [apply Rdiv_lt_0_compat; lra|].
    replace (p / (p / ln (t / d))) with (ln (t / d)) by (field; lra).
    rewrite exp_Ropp, exp_ln by lra. field. lra.
  - assert (S1 : 0 < sqrt (2 * ln (t / d))) by (apply sqrt_lt_R0; lra).
    destruct (Req_EM_T (sqrt (2 * ln (t / d))) 0); [lra|]. eexists. split; [reflexivity|].
    split; [apply Rdiv_lt_0_compat; lra|].
    replace (p / (p / sqrt (2 * ln (t / d)))) with (sqrt (2 * ln (t / d))) by (field; lra).
    rewrite pow2_sqrt by lra. replace (- (2 * ln (t / d)) / 2) with (- ln (t / d)) by field.
    rewrite exp_Ropp, exp_ln by lra. field. lra.
Qed.
Lemma scale_flat s t p : built_in s -> 0 < t -> scale s t t p = None.
Proof.
  intros Hs Ht. assert (E : t / t = 1) by (field; lra).
  destruct Hs as [->|[->| ->]]; unfold scale, over_or_inf; cbn [String.eqb Ascii.eqb Bool.eqb]; rewrite E, ?ln_1, ?sqrt_1, ?Rmult_0_r, ?sqrt_0;
    match goal with |- context [Req_EM_T ?a 0] => destruct (Req_EM_T a 0); [reflexivity|lra] end.
Qed.

(** Density of a down-ramp with known decay length. *)
Lemma ramp_eq L s ty de t d po : built_in s ->
  exists f, ramp L (PName s) ty de t d po = Some f /\
  forall z, f z = match decay (scale s) (mkra de t d (Some (match po with Some p => p | None => L end))), t with
                  | Some l, Some t => Some (t * ramp_shape s (in_units (if String.eqb ty "upramp" then L - z else z) l))
                  | _, _ => None end.
Proof.
  intros Hs. unfold ramp. destruct (profiles_eq s Hs) as (f & E & F). rewrite E.
  eexists. split; [reflexivity|]. intros z. cbv beta. rewrite F. reflexivity.
Qed.

Lemma down_spec L s t d po : built_in s -> 0 < d < t -> 0 < match po with Some p => p | None => L end ->
  let p := match po with Some p => p | None => L end in
  exists f, ramp L (PName s) "downramp" None (Some t) (Some d) po = Some f /\
    f 0 = Some t /\ f p = Some d /\
    forall z1 z2, 0 <= z1 < z2 -> exists v1 v2, f z1 = Some v1 /\ f z2 = Some v2 /\ 0 < v2 < v1.
Proof.
  intros Hs Hd Hp p. fold p in Hp. destruct (ramp_eq L s "downramp" None (Some t) (Some d) po Hs) as (f & E & F).
  exists f. split; [exact E|]. destruct (scale_eq s t d p Hs Hd Hp) as (l & El & Hl & Hv).
  assert (F' : forall z, f z = Some (t * ramp_shape s (z / l))).
  { intros z. rewrite F. unfold decay. cbn [ra_decay ra_top ra_down ra_position]. fold p. rewrite El. reflexivity. }
  split; [rewrite F'; replace (0 / l) with 0 by (field; lra); rewrite shape_0, Rmult_1_r; reflexivity|].
  split; [rewrite F', Hv; reflexivity|]. intros z1 z2 Hz. exists (t * ramp_shape s (z1 / l)), (t * ramp_shape s (z2 / l)).
  split; [apply F'|]. split; [apply F'|].
  assert (A : 0 <= z1 / l < z2 / l).
  { split; [apply Rmult_le_pos; [lra|left; apply Rinv_0_lt_compat; lra]|]. apply Rmult_lt_compat_r; [apply Rinv_0_lt_compat|]; lra. }
  pose proof (shape_decreasing s _ _ A) as [B C]. split; [apply Rmult_lt_0_compat; lra|apply Rmult_lt_compat_l; lra].
Qed.
Lemma decay_spec L s t l d po : built_in s -> 0 < t -> 0 < l ->
  exists f, ramp L (PName s) "downramp" (Some l) (Some t) d po = Some f /\
    (forall z, f z = Some (t * ramp_shape s (z / l))) /\ f 0 = Some t /\
    forall z1 z2, 0 <= z1 < z2 -> exists v1 v2, f z1 = Some v1 /\ f z2 = Some v2 /\ 0 < v2 < v1.
Proof.
  intros Hs Ht Hl. destruct (ramp_eq L s "downramp" (Some l) (Some t) d po Hs) as (f & E & F).
  exists f. split; [exact E|].
  assert (F' : forall z, f z = Some (t * ramp_shape s (z / l))) by (intros z; rewrite F; reflexivity).
  split; [exact F'|].
  split; [rewrite F'; replace (0 / l) with 0 by (field; lra); rewrite shape_0, Rmult_1_r; reflexivity|].
  intros z1 z2 Hz. exists (t * ramp_shape s (z1 / l)), (t * ramp_shape s (z2 / l)).
  split; [apply F'|]. split; [apply F'|].
  assert (A : 0 <= z1 / l < z2 / l).
  { split; [apply Rmult_le_pos; [lra|left; apply Rinv_0_lt_compat; lra]|]. apply Rmult_lt_compat_r; [apply Rinv_0_lt_compat|]; lra. }
  pose proof (shape_decreasing s _ _ A) as [B C]. split; [apply Rmult_lt_0_compat; lra|apply Rmult_lt_compat_l; lra].
Qed.
Lemma flat_spec L s ty t po : built_in s -> 0 < t ->
  exists f, ramp L (PName s) ty None (Some t) (Some t) po = Some f /\ forall z, f z = Some t.
Proof.
  intros Hs Ht. destruct (ramp_eq L s ty None (Some t) (Some t) po Hs) as (f & E & F). exists f. split; [exact E|].
  intros z. rewrite F. unfold decay. cbn [ra_decay ra_top ra_down ra_position]. rewrite scale_flat by assumption.
  cbn [in_units]. rewrite shape_0, Rmult_1_r. reflexivity.
Qed.
Lemma mirror_spec L p de t d po ty : ty <> "upramp"%string ->
  match ramp L p "upramp" de t d po, ramp L p ty de t d po with
  | Some up, Some down => forall z, up z = down (L - z)
  | None, None => True
  | _, _ => False
  end.
Proof.
  intros Hty. unfold ramp. destruct (match p with PName s => ramp_profiles s | PFunction f => Some f end); [|exact I].
  intros z. rewrite (proj2 (String.eqb_neq _ _) Hty), String.eqb_refl. reflexivity.
Qed.
Lemma missing_spec L s ty de t d po : built_in s ->
  t = None \/ (de = None /\ d = None) ->
  exists f, ramp L (PName s) ty de t d po = Some f /\ forall z, f z = None.
Proof.
  intros Hs H. destruct (ramp_eq L s ty de t d po Hs) as (f & E & F). exists f. split; [exact E|]. intros z. rewrite F.
  unfold decay. cbn [ra_decay ra_top ra_down ra_position]. destruct H as [->|[-> ->]]; [destruct de; destruct d; reflexivity|destruct t; reflexivity].
Qed.
Lemma unknown_spec L s ty de t d po : ramp L (PName s) ty de t d po = None <-> ~ built_in s.
Proof.
  split.
  - intros H Hs. destruct (ramp_eq L s ty de t d po Hs) as (f & E & _). congruence.
  - intros H. unfold ramp, ramp_profiles. destruct (String.eqb_spec s "inverse_square") as [->|]; [exfalso; apply H; left; reflexivity|].
    destruct (String.eqb_spec s "exponential") as [->|]; [exfalso; apply H; right; left; reflexivity|].
    destruct (String.eqb_spec s "gaussian") as [->|]; [exfalso; apply H; right; right; reflexivity|]. reflexivity.
Qed.
Lemma custom_spec L p ty de t d po : exists f, ramp L (PFunction p) ty de t d po = Some f /\
  forall z, f z = p (if String.eqb ty "upramp" then L - z else z)
    (mkra de t d (Some (match po with Some x => x | None => L end))).
Proof. eexists. split; [reflexivity|]. reflexivity. Qed.

(** ** Time steps *)
Lemma fold_max l : forall a, a <= fold_left Rmax l a /\ (forall b, In b l -> b <= fold_left Rmax l a).
Proof.
  induction l as [|b l IH]; intros a; cbn [fold_left]; [split; [lra|intros b []]|].
  destruct (IH (Rmax a b)) as [I1 I2]. pose proof (Rmax_l a b). pose proof (Rmax_r a b).
  split; [lra|]. intros c [<-|Hc]; [lra|apply I2, Hc].
Qed.
Lemma list_max_ge l b : In b l -> b <= list_max l.
Proof.
  destruct l as [|a l]; [intros []|]. cbn [list_max]. destruct (fold_max l a) as [I1 I2]. intros [<-|H]; [exact I1|apply I2, H].
Qed.
Lemma fold_max_in l : forall a, fold_left Rmax l a = a \/ In (fold_left Rmax l a) l.
Proof.
  induction l as [|b l IH]; intros a; cbn [fold_left]; [left; reflexivity|].
  destruct (IH (Rmax a b)) as [E|H]; [|right; right; exact H]. rewrite E. unfold Rmax.
  destruct (Rle_dec a b); [right; left; reflexivity|left; reflexivity].
Qed.
Lemma list_max_in l : l <> [] -> In (list_max l) l.
Proof. destruct l as [|a l]; [congruence|]. intros _. cbn. destruct (fold_max_in l a) as [->|H]; auto. Qed.
Lemma fold_min l : forall a, fold_left Rmin l a <= a /\ (forall b, In b l -> fold_left Rmin l a <= b).
Proof.
  induction l as [|b l IH]; intros a; cbn [fold_left]; [split; [lra|intros b []]|].
  destruct (IH (Rmin a b)) as [I1 I2]. pose proof (Rmin_l a b). pose proof (Rmin_r a b).
  split; [lra|]. intros c [<-|Hc]; [lra|apply I2, Hc].
Qed.
Lemma list_min_le l b : In b l -> list_min l <= b.
Proof.
  destruct l as [|a l]; [intros []|]. cbn [list_min]. destruct (fold_min l a) as [I1 I2]. intros [<-|H]; [exact I1|apply I2, H].
Qed.
Lemma fold_min_in l : forall a, fold_left Rmin l a = a \/ In (fold_left Rmin l a) l.
Proof.
  induction l as [|b l IH]; intros a; cbn [fold_left]; [left; reflexivity|].
  destruct (IH (Rmin a b)) as [E|H]; [|right; right; exact H]. rewrite E. unfold Rmin.
  destruct (Rle_dec a b); [left; reflexivity|right; left; reflexivity].
Qed.
Lemma list_min_in l : l <> [] -> In (list_min l) l.
Proof. destruct l as [|a l]; [congruence|]. intros _. cbn. destruct (fold_min_in l a) as [->|H]; auto. Qed.

Lemma all_some_eq l n : all_some l = Some n <-> l = map Some n.
Proof.
  revert n. induction l as [|[a|] l IH]; intros n; cbn [all_some].
  - split; [intros [= <-]; reflexivity|destruct n; [reflexivity|discriminate]].
  - destruct (all_some l) as [r|] eqn:E.
    + split; [intros [= <-]; cbn; f_equal; apply IH; reflexivity|].
      destruct n as [|b n]; [discriminate|]. cbn. intros [= -> H]. apply IH in H. congruence.
    + split; [discriminate|]. destruct n as [|b n]; [discriminate|]. cbn. intros [= -> H]. apply IH in H. discriminate.
  - split; [discriminate|]. destruct n; discriminate.
Qed.

Lemma sample_in L i : (i <= 99)%nat -> In (INR i * (L / 99)) (samples L).
Proof. intros H. unfold samples. apply in_map_iff. exists i. split; [reflexivity|]. apply in_seq. lia. Qed.

Lemma sqrt_div_cmp a g g' : 0 <= a -> 0 < g' <= g -> sqrt (a / g) <= sqrt (a / g').
Proof.
  intros Ha Hg. apply sqrt_le_1_alt. unfold Rdiv. apply Rmult_le_compat_l; [exact Ha|]. apply Rinv_le_contravar; lra.
Qed.

Lemma Rabs_div_pos a b : 0 < b -> Rabs (a / b) = Rabs a / b.
Proof. intros H. unfold Rdiv. rewrite Rabs_mult, (Rabs_right (/ b)); [reflexivity|left; apply Rinv_0_lt_compat; exact H]. Qed.

(** Common part: the frequency used is an upper bound of those of the particles. *)
Lemma lorentz_min pz p a b : In p pz -> 0 <= list_min pz -> 0 < min_gamma pz <= lorentz (a, b, p).
Proof.
  intros Hp H0. unfold min_gamma, lorentz. pose proof (list_min_le pz p Hp).
  split; [apply sqrt_lt_R0; nra|]. apply sqrt_le_1_alt. assert (list_min pz ^ 2 <= p ^ 2) by (apply pow_incr; lra). nra.
Qed.
Lemma tenth_spec w dt : tenth_of_inverse w = Dt dt -> 0 <= w -> 0 < dt /\ dt * w = 0.1.
Proof.
  unfold tenth_of_inverse. destruct (Req_EM_T w 0) as [|N]; [discriminate|]. intros [= <-] Hw.
  assert (0 < w) by lra. split; [|field; exact N]. apply Rmult_lt_0_compat; [lra|]. apply Rdiv_lt_0_compat; lra.
Qed.

Section Steps.
  Variables e m_e c eps0 : R.
  Hypothesis He : 0 < e. Hypothesis Hm : 0 < m_e. Hypothesis Hc : 0 < c. Hypothesis Heps : 0 < eps0.

  Lemma linear_spec k q m pz dt : 0 < m -> linear_dt c k q m pz = Dt dt -> 
    0 < dt /\
    (0 <= list_min pz -> forall a b p, In p pz -> dt * oscillation q m (c * k) (lorentz (a, b, p)) <= 0.1) /\
    dt * oscillation q m (c * k) (min_gamma pz) = 0.1.
  Proof.
    intros Hq H. unfold linear_dt in H. destruct (tenth_spec _ _ H (sqrt_pos _)) as [P E].
    assert (G : 0 < min_gamma pz) by (unfold min_gamma; apply sqrt_lt_R0; nra).
    assert (EQ : forall g, 0 < g -> oscillation q m (c * k) g = sqrt (Rabs (q / m * c * k) / g)).
    { intros g Hg. unfold oscillation. f_equal. replace (q / m * c * k) with (q * (c * k) / m) by (field; lra).
      rewrite Rabs_div_pos by exact Hq. field. split; lra. }
    assert (EM : sqrt (Rabs (q / m * c * k / min_gamma pz)) = oscillation q m (c * k) (min_gamma pz)).
    { rewrite EQ by exact G. f_equal. apply Rabs_div_pos, G. }
    rewrite EM in E. split; [exact P|]. split; [|exact E]. intros H0 a b p Hp.
    destruct (lorentz_min pz p a b Hp H0) as [_ L]. rewrite <- E. apply Rmult_le_compat_l; [lra|].
    rewrite !EQ by lra. apply sqrt_div_cmp; [apply Rabs_pos|split; assumption].
  Qed.

  Lemma stage_spec L d q m pz dt : 0 < m -> stage_dt e m_e c eps0 L d q m pz = Dt dt ->
    0 < dt /\
    exists n_p, (forall i, (i <= 99)%nat -> exists n, d (INR i * (L / 99)) = Some n /\ n <= n_p) /\
      (exists i, (i <= 99)%nat /\ d (INR i * (L / 99)) = Some n_p) /\
      (0 < n_p -> dt * oscillation q m (ion_gradient e eps0 n_p) (min_gamma pz) = 0.1).
  Proof.
    intros Hq H. unfold stage_dt in H. destruct (all_some (map d (samples L))) as [n|] eqn:A; [|discriminate].
    apply all_some_eq in A. set (n_p := list_max n) in *.
    destruct (tenth_spec _ _ H (sqrt_pos _)) as [P E]. split; [exact P|]. exists n_p. split; [|split].
    - intros i Hi. pose proof (in_map d _ _ (sample_in L i Hi)) as I. rewrite A in I. apply in_map_iff in I as (v & E' & Hv).
      exists v. split; [congruence|]. apply list_max_ge, Hv.
    - assert (NE : n <> []) by (intros ->; discriminate A). pose proof (list_max_in n NE) as I. fold n_p in I.
      apply (in_map Some) in I. rewrite <- A in I. apply in_map_iff in I as (z & E' & Hz). unfold samples in Hz.
      apply in_map_iff in Hz as (i & <- & Hi). apply in_seq in Hi. exists i. split; [lia|exact E'].
    - intros Hn. rewrite <- E. f_equal. unfold oscillation, ion_gradient. f_equal.
      rewrite pow2_sqrt by (apply Rmult_le_pos; [nra|left; apply Rinv_0_lt_compat; apply Rmult_lt_0_compat; lra]).
      assert (G : 0 < min_gamma pz) by (unfold min_gamma; apply sqrt_lt_R0; nra).
      replace (q / m * c * (m_e / (2 * e * c) * (n_p * e ^ 2 / (m_e * eps0))) / min_gamma pz)
        with (q * (e * n_p / (2 * eps0)) / (min_gamma pz * m)) by (field; repeat split; lra).
      symmetry. apply Rabs_div_pos. apply Rmult_lt_0_compat; lra.
  Qed.
  Lemma oscillation_mono q m g g' n n' : 0 < m -> 0 < g' <= g -> 0 <= n <= n' ->
    oscillation q m (ion_gradient e eps0 n) g <= oscillation q m (ion_gradient e eps0 n') g'.
  Proof.
    intros Hq Hg Hn. unfold oscillation, ion_gradient. apply sqrt_le_1_alt.
    rewrite !Rabs_mult. rewrite !(Rabs_right (e * _ / _)).
    - assert (A : e * n / (2 * eps0) <= e * n' / (2 * eps0)).
      { apply Rmult_le_compat_r; [left; apply Rinv_0_lt_compat; lra|]. apply Rmult_le_compat_l; lra. }
      assert (B : 0 <= e * n / (2 * eps0)) by (apply Rmult_le_pos; [nra|left; apply Rinv_0_lt_compat; lra]).
      unfold Rdiv at 1 3. apply Rmult_le_compat.
      + apply Rmult_le_pos; [apply Rabs_pos|exact B].
      + left. apply Rinv_0_lt_compat. nra.
      + apply Rmult_le_compat_l; [apply Rabs_pos|exact A].
      + apply Rinv_le_contravar; nra.
    - apply Rle_ge, Rmult_le_pos; [nra|left; apply Rinv_0_lt_compat; lra].
    - apply Rle_ge, Rmult_le_pos; [nra|left; apply Rinv_0_lt_compat; lra].
  Qed.
End Steps.
