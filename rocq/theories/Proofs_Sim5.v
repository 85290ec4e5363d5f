(** Turning the bunches about the axis. *)
From Coq Require Import QArith Reals Qreals String List Arith Lia Lra.
From Coquelicot Require Import Coquelicot.
From Verif Require Model_Laser.
From Verif Require Import Model_Push Spec_Push Proofs_Push Model_Interp Model_QS Model_Tracker Model_Run Model_RZ
  Model_Bunch Spec_Bunch Proofs_Bunch Model_Sim Spec_Sim Proofs_Sim Proofs_Sim2 Proofs_Sim3 Proofs_Sim4.
Import ListNotations.
Open Scope R_scope.

(** ** Orthogonal maps *)
Lemma orth_form M : orthogonal M -> exists a b e, M = mkpl a b (- e * b) (e * a) /\
  a * a + b * b = 1 /\ (e = 1 \/ e = -1) /\ det M = e.
Proof.
  destruct M as [a b c d]. unfold orthogonal, det. cbn [m11 m12 m21 m22]. intros (H1 & H2 & H3).
  set (e := a * d - b * c).
  assert (Q1 : e * b = - c).
  { unfold e. replace ((a * d - b * c) * b) with (d * (a * b + c * d) - c * (b ^ 2 + d ^ 2)) by ring. rewrite H2, H3. ring. }
  assert (Q2 : e * a = d).
  { unfold e. replace ((a * d - b * c) * a) with (d * (a ^ 2 + c ^ 2) - c * (a * b + c * d)) by ring. rewrite H1, H3. ring. }
  assert (Q3 : e * e = 1).
  { replace (e * e) with ((a ^ 2 + c ^ 2) * (b ^ 2 + d ^ 2) - (a * b + c * d) ^ 2) by (unfold e; ring). rewrite H1, H2, H3. ring. }
  exists a, b, e. split; [f_equal; lra|]. split.
  { replace (a * a + b * b) with (a * a + (e * e) * (b * b)) by (rewrite Q3; ring).
    replace (a * a + e * e * (b * b)) with (a * a + (e * b) * (e * b)) by ring. rewrite Q1. rewrite <- H1. ring. }
  split; [|reflexivity].
  assert (X : (e - 1) * (e + 1) = 0) by lra. apply Rmult_integral in X as [X|X]; [left|right]; lra.
Qed.
Ltac turning H := apply orth_form in H as (ma & mb & me & -> & HN & [-> | ->] & HD).
Definition tv (M : plane) (v : vec) : vec :=
  let '(a, b, c) := v in (m11 M * a + m12 M * b, m21 M * a + m22 M * b, c).
Definition pv (M : plane) (v : vec) : vec :=
  let '(a, b, c) := v in (det M * (m11 M * a + m12 M * b), det M * (m21 M * a + m22 M * b), det M * c).
Lemma sq_turn M a b : orthogonal M ->
  (m11 M * a + m12 M * b) ^ 2 + (m21 M * a + m22 M * b) ^ 2 = a ^ 2 + b ^ 2.
Proof.
  intros (H1 & H2 & H3).
  replace ((m11 M * a + m12 M * b) ^ 2 + (m21 M * a + m22 M * b) ^ 2) with
    ((m11 M ^ 2 + m21 M ^ 2) * a ^ 2 + (m12 M ^ 2 + m22 M ^ 2) * b ^ 2 +
     2 * (m11 M * m12 M + m21 M * m22 M) * (a * b)) by ring.
  rewrite H1, H2, H3. ring.
Qed.
Lemma dot_tv M v : orthogonal M -> dot (tv M v) (tv M v) = dot v v.
Proof.
  intros H. destruct v as [[a b] c]. cbn. pose proof (sq_turn M a b H). lra.
Qed.
Lemma dot_pv M v : orthogonal M -> dot (pv M v) (pv M v) = dot v v.
Proof.
  intros H. destruct v as [[a b] c]. cbn. pose proof (sq_turn M a b H) as E.
  assert (D : det M * det M = 1) by (apply orth_form in H as (? & ? & e & _ & _ & [He|He] & ->); rewrite He; ring).
  replace (det M * (m11 M * a + m12 M * b) * (det M * (m11 M * a + m12 M * b)) +
    det M * (m21 M * a + m22 M * b) * (det M * (m21 M * a + m22 M * b)) + det M * c * (det M * c))
    with ((det M * det M) * ((m11 M * a + m12 M * b) ^ 2 + (m21 M * a + m22 M * b) ^ 2 + c * c)) by ring.
  rewrite D, E. ring.
Qed.
Lemma cross_turn M u v : orthogonal M -> cross (tv M u) (pv M v) = tv M (cross u v).
Proof.
  intros H. turning H; destruct u as [[u1 u2] u3], v as [[v1 v2] v3]; unfold cross, tv, pv; rewrite HD;
    cbn [m11 m12 m21 m22]; apply vec_eq; try ring.
  all: transitivity ((ma * ma + mb * mb) * (u1 * v2 - u2 * v1)); [ring|rewrite HN; ring].
Qed.
Lemma vadd_turn M u v : vadd3 (tv M u) (tv M v) = tv M (vadd3 u v).
Proof. destruct u as [[u1 u2] u3], v as [[v1 v2] v3]. unfold vadd3, tv. apply vec_eq; ring. Qed.
Lemma scal_tv M k v : scal k (tv M v) = tv M (scal k v).
Proof. destruct v as [[v1 v2] v3]. unfold scal, tv. apply vec_eq; ring. Qed.
Lemma scal_pv M k v : scal k (pv M v) = pv M (scal k v).
Proof. destruct v as [[v1 v2] v3]. unfold scal, pv. apply vec_eq; ring. Qed.
Lemma rot_dot t v : rot t v = vadd3 v (cross (vadd3 v (cross v t)) (scal (2 / (1 + dot t t)) t)).
Proof. destruct t as [[t1 t2] t3]. reflexivity. Qed.
Lemma rot_turn M t v : orthogonal M -> rot (pv M t) (tv M v) = tv M (rot t v).
Proof.
  intros H. rewrite !rot_dot, (dot_pv M t H), scal_pv, cross_turn, vadd_turn, cross_turn, vadd_turn by exact H. reflexivity.
Qed.
Lemma boris_p_turn M k e b v : orthogonal M ->
  boris_p k (tv M e) (pv M b) (tv M v) = tv M (boris_p k e b v).
Proof.
  intros H. unfold boris_p. cbv zeta. rewrite scal_tv, vadd_turn, (dot_tv M _ H), scal_pv, rot_turn, vadd_turn by exact H.
  reflexivity.
Qed.
Lemma momentum_turn M p : momentum (turn M p) = tv M (momentum p).
Proof. reflexivity. Qed.
Lemma e_turn M f : e_field (turn_em M f) = tv M (e_field f).
Proof. reflexivity. Qed.
Lemma b_turn M f : b_field (turn_em M f) = pv M (b_field f).
Proof. reflexivity. Qed.

Lemma push_momentum_turn M dt qm p f : orthogonal M ->
  push_momentum1 dt qm (turn M p) (turn_em M f) = turn M (push_momentum1 dt qm p f).
Proof.
  intros H. rewrite !push_momentum1_vec, momentum_turn, e_turn, b_turn, (boris_p_turn M _ _ _ _ H).
  destruct (boris_p _ _ _ _) as [[a b] c]. reflexivity.
Qed.
Lemma half_turn M dt p : orthogonal M -> half_position_push1 dt (turn M p) = turn M (half_position_push1 dt p).
Proof.
  intros H. unfold half_position_push1, turn. cbn [x y xi px py pz].
  rewrite (sq_turn M _ _ H). set (g := c_SI / _). apply part_eq; cbn; ring.
Qed.
Lemma slope_turn M qm p f : orthogonal M -> calculate_k1 qm (turn M p) (turn_em M f) = turn M (calculate_k1 qm p f).
Proof.
  intros H. unfold calculate_k1.
  replace (1 + px (turn M p) ^ 2 + py (turn M p) ^ 2 + pz (turn M p) ^ 2) with
    (1 + px p ^ 2 + py p ^ 2 + pz p ^ 2) by (unfold turn; cbn [px py pz]; pose proof (sq_turn M (px p) (py p) H); lra).
  set (g := c_SI / _).
  pose proof (cross_turn M (px p * g, py p * g, pz p * g) (bx f, by_ f, bz f) H) as C.
  unfold cross, tv, pv in C. injection C as C1 C2 C3.
  unfold turn, turn_em. cbn [x y xi px py pz ex ey ez bx by_ bz].
  apply part_eq; cbn [x y xi px py pz]; try ring.
  - transitivity (qm * (m11 M * ex f + m12 M * ey f + (m11 M * (py p * g * bz f - pz p * g * by_ f) +
      m12 M * (pz p * g * bx f - px p * g * bz f)))); [|ring].
    rewrite <- C1. ring.
  - transitivity (qm * (m21 M * ex f + m22 M * ey f + (m21 M * (py p * g * bz f - pz p * g * by_ f) +
      m22 M * (pz p * g * bx f - px p * g * bz f)))); [|ring].
    rewrite <- C2. ring.
  - transitivity (qm * (ez f + (px p * g * by_ f - py p * g * bx f))); [|ring].
    rewrite <- C3. ring.
Qed.
Lemma em0_turn M : turn_em M em0 = em0.
Proof. apply em_eq; cbn; ring. Qed.
Lemma pos_turn M p : pos_of (turn M p) = turn_pos M (pos_of p).
Proof. reflexivity. Qed.

(** ** Gathering *)
Lemma analytic_turn M c p t f : orthogonal M -> axisymmetric (analytical c) ->
  analytic1 c (turn_pos M p) t (turn_em M f) = turn_em M (analytic1 c p t f).
Proof.
  intros H A. specialize (A M [p] t [f] H eq_refl). cbn in A. injection A as A1 A2 A3 A4 A5 A6.
  apply em_eq; assumption.
Qed.
Lemma main_turn M er ez_ bt g p f : orthogonal M ->
  to_opt (gather_main1 er ez_ bt g (turn_pos M p) (turn_em M f)) =
  option_map (turn_em M) (to_opt (gather_main1 er ez_ bt g p f)).
Proof.
  intros H. destruct p as [[x0 y0] z0]. unfold gather_main1, turn_pos. cbv zeta.
  rewrite (sq_turn M _ _ H). set (r := sqrt (x0 ^ 2 + y0 ^ 2)).
  destruct (Req_EM_T r 0); [reflexivity|]. destruct (Model_Interp.within g z0 r); [|reflexivity].
  destruct (interpolate4 er _ _) as [e|]; [|reflexivity]. cbn [bind].
  destruct (interpolate4 bt _ _) as [b|]; [|reflexivity]. cbn [bind].
  destruct (interpolate4 ez_ _ _) as [z|]; [|reflexivity]. cbn [bind to_opt option_map]. f_equal.
  turning H; apply em_eq; unfold turn_em; rewrite ?HD; cbn [m11 m12 m21 m22 ex ey ez bx by_ bz]; ring.
Qed.
Lemma gather_turn M fields : orthogonal M -> symmetric_fields fields -> forall p t f,
  gather1 fields (turn_pos M p) t (turn_em M f) = option_map (turn_em M) (gather1 fields p t f).
Proof.
  intros H. induction fields as [|[env pl o|c] r IH]; intros A p t f; cbn [gather1]; [reflexivity| |].
  - unfold wake1. rewrite (main_turn M _ _ _ _ _ _ H). destruct (to_opt _) as [v|]; [|reflexivity].
    cbn [option_map]. apply IH. intros c Hc. apply A. right. exact Hc.
  - rewrite (analytic_turn M c p t f H) by (apply A; left; reflexivity).
    apply IH. intros c0 Hc. apply A. right. exact Hc.
Qed.
Lemma gather0_turn M fields p t : orthogonal M -> symmetric_fields fields ->
  gather1 fields (turn_pos M p) t em0 = option_map (turn_em M) (gather1 fields p t em0).
Proof. intros H A. rewrite <- (em0_turn M) at 1. apply gather_turn; assumption. Qed.

(** ** Pushing *)
Lemma boris1_turn M fields qm t dt p : orthogonal M -> symmetric_fields fields ->
  boris1 fields qm t dt (turn M p) = option_map (turn M) (boris1 fields qm t dt p).
Proof.
  intros H A. unfold boris1. cbv zeta. rewrite (half_turn M dt p H), pos_turn, gather0_turn by assumption.
  destruct (gather1 _ _ _ _) as [f|]; [|reflexivity]. cbn [option_map].
  rewrite push_momentum_turn, half_turn by assumption. reflexivity.
Qed.
Lemma slope1_turn M fields qm t p : orthogonal M -> symmetric_fields fields ->
  slope1 fields qm t (turn M p) = option_map (turn M) (slope1 fields qm t p).
Proof.
  intros H A. unfold slope1. rewrite pos_turn, gather0_turn by assumption.
  destruct (gather1 _ _ _ _) as [f|]; [|reflexivity]. cbn [option_map]. rewrite slope_turn by assumption. reflexivity.
Qed.
Lemma along_turn M dt fac p k : along dt fac (turn M p) (turn M k) = turn M (along dt fac p k).
Proof. apply part_eq; cbn; ring. Qed.
Lemma rk4_1_turn M fields qm t dt p : orthogonal M -> symmetric_fields fields ->
  rk4_1 fields qm t dt (turn M p) = option_map (turn M) (rk4_1 fields qm t dt p).
Proof.
  intros H A. unfold rk4_1.
  rewrite (slope1_turn M) by assumption. destruct (slope1 fields qm t p) as [k1|]; [|reflexivity]. cbn [option_map bindo].
  rewrite along_turn, (slope1_turn M) by assumption.
  destruct (slope1 fields qm _ (along dt 0.5 p k1)) as [k2|]; [|reflexivity]. cbn [option_map bindo].
  rewrite along_turn, (slope1_turn M) by assumption.
  destruct (slope1 fields qm _ (along dt 0.5 p k2)) as [k3|]; [|reflexivity]. cbn [option_map bindo].
  rewrite along_turn, (slope1_turn M) by assumption.
  destruct (slope1 fields qm _ (along dt 1 p k3)) as [k4|]; [|reflexivity]. cbn [option_map bindo].
  f_equal. apply part_eq; cbn; ring.
Qed.
Lemma push1_turn M pusher fields q m t dt p : orthogonal M -> symmetric_fields fields ->
  push1 pusher fields q m t dt (turn M p) = option_map (turn M) (push1 pusher fields q m t dt p).
Proof.
  intros H A. unfold push1. destruct (String.eqb pusher "rk4"); [apply rk4_1_turn; assumption|].
  destruct (String.eqb pusher "boris"); [apply boris1_turn; assumption|reflexivity].
Qed.
Lemma travo_conj {A B} (g : A -> A) (k : B -> B) (f : A -> option B) l : (forall a, f (g a) = option_map k (f a)) ->
  travo f (map g l) = option_map (map k) (travo f l).
Proof.
  intros H. induction l as [|a l IH]; [reflexivity|]. cbn [map travo]. rewrite H, IH.
  destruct (f a); [|reflexivity]. cbn. destruct (travo f l); reflexivity.
Qed.
Lemma symmetric_nil : symmetric_fields [].
Proof. intros c []. Qed.
Lemma acts_same hb hb' fields : same_attributes (snd hb) (snd hb') ->
  amax (map xi (parts hb)) = amax (map xi (parts hb')) -> acts hb fields = acts hb' fields.
Proof.
  intros (_ & E2 & _ & E4 & _) E. unfold acts. rewrite <- E4, <- E2, <- E. reflexivity.
Qed.
Lemma acts_sub (P : list efield -> Prop) hb fields fs : P [] -> P fields -> acts hb fields = Some fs -> P fs.
Proof.
  unfold acts. destruct (z_injection _); [|intros _ H E; injection E as <-; exact H].
  destruct (amax _); [|discriminate]. destruct (Rlt_dec _ _); intros H0 H E; injection E as <-; assumption.
Qed.
Lemma moved_same b1 b1' b2 b2' d : same_attributes b1 b2 -> moved_on b1 b1' d -> moved_on b2 b2' d ->
  same_attributes b1' b2'.
Proof.
  unfold same_attributes, moved_on.
  intros (A1 & A2 & A3 & A4 & A5 & A6 & A7 & A8 & A9) (B1 & B2 & B3 & B4 & B5 & B6 & B7 & B8 & B9)
    (C1 & C2 & C3 & C4 & C5 & C6 & C7 & C8 & C9).
  repeat split; congruence.
Qed.
Lemma copied_same b1 b1' b2 b2' : same_attributes b1 b2 -> copy_attributes b1 b1' -> copy_attributes b2 b2' ->
  same_attributes b1' b2'.
Proof.
  unfold same_attributes, copy_attributes.
  intros (A1 & A2 & A3 & A4 & A5 & A6 & A7 & A8 & A9) (B1 & B2 & B3 & B4 & B5 & B6 & B7 & B8 & B9)
    (C1 & C2 & C3 & C4 & C5 & C6 & C7 & C8 & C9).
  repeat split; congruence.
Qed.
Lemma push_turned M pusher fields hb hb' t dt : orthogonal M -> symmetric_fields fields -> turned M hb hb' ->
  both (turned M) (push_bunch pusher fields hb t dt) (push_bunch pusher fields hb' t dt).
Proof.
  intros H A (S1 & S2 & At & P & W).
  pose proof (push_cases pusher fields hb t dt S1) as C1. pose proof (push_cases pusher fields hb' t dt S2) as C2.
  assert (E : pushed pusher fields hb' t dt = option_map (map (turn M)) (pushed pusher fields hb t dt)).
  { unfold pushed. rewrite <- (acts_same hb hb' fields At) by (rewrite P, map_map; reflexivity).
    destruct (acts hb fields) as [fs|] eqn:Ea; [|reflexivity]. destruct (knownb pusher); [|reflexivity].
    destruct At as (_ & _ & _ & _ & _ & _ & _ & Eq & Em). rewrite <- Eq, <- Em, P. apply travo_conj.
    intros p. apply push1_turn; [exact H|].
    apply (acts_sub symmetric_fields hb fields fs symmetric_nil A Ea). }
  destruct (push_bunch pusher fields hb t dt) as [u|], (push_bunch pusher fields hb' t dt) as [u'|]; cbn [both].
  - destruct C1 as (Q1 & T1 & W1 & M1), C2 as (Q2 & T2 & W2 & M2). rewrite Q1, Q2 in E. cbn in E. injection E as E.
    split; [exact T1|]. split; [exact T2|]. split; [eapply moved_same; eassumption|]. split; [exact E|]. congruence.
  - destruct C1 as (Q1 & _). rewrite Q1, C2 in E. discriminate.
  - destruct C2 as (Q2 & _). rewrite Q2, C1 in E. discriminate.
  - exact I.
Qed.
Lemma copy_turned M hb hb' : turned M hb hb' -> turned M (copy_tracked hb) (copy_tracked hb').
Proof.
  intros (S1 & S2 & At & P & W). destruct (copy_sound hb S1) as (T1 & P1 & W1 & C1).
  destruct (copy_sound hb' S2) as (T2 & P2 & W2 & C2).
  split; [exact T1|]. split; [exact T2|]. split; [eapply copied_same; eassumption|]. rewrite P2, P1, W2, W1. auto.
Qed.

(** ** Updates *)
Lemma charges_turned M hb hb' : orthogonal M -> turned M hb hb' -> alike (charges_of hb) (charges_of hb').
Proof.
  intros H (_ & _ & At & P & W). unfold charges_of, get_q.
  change (particles (fst hb) (snd hb)) with (parts hb). change (particles (fst hb') (snd hb')) with (parts hb').
  change (rd (fst hb) (b_w (snd hb))) with (weights hb). change (rd (fst hb') (b_w (snd hb'))) with (weights hb').
  destruct At as (_ & _ & _ & _ & _ & _ & _ & Eq & _). rewrite <- Eq, P, W, map_map.
  set (q := map _ (weights hb)). clearbody q. clear - H.
  assert (E : forall q, map key (combine (map (fun p => pos_of (turn M p)) (parts hb)) q) = map key (combine (map pos_of (parts hb)) q) /\
     forall g, qsum (combine (map (fun p => pos_of (turn M p)) (parts hb)) q) g = qsum (combine (map pos_of (parts hb)) q) g).
  { induction (parts hb) as [|p l IH]; intros [|v r]; try (split; reflexivity). destruct (IH r) as [I1 I2].
    assert (K : key (pos_of (turn M p), v) = key (pos_of p, v)).
    { cbn. f_equal. pose proof (sq_turn M (x p) (y p) H). lra. }
    split.
    - cbn [map combine]. rewrite I1, K. reflexivity.
    - intros g. specialize (I2 g). unfold qsum in *. cbn [map combine fold_right]. rewrite I2, K. reflexivity. }
  destruct (E q) as [E1 E2]. split; [intros k; rewrite E1; tauto|intros g; symmetry; apply E2].
Qed.
Section Updating.
  Variable to_main : Model_Laser.sparams -> nat * nat -> Model_Laser.carr2 -> Model_Laser.carr2.
  Variable to_sub : Model_Laser.sparams -> nat * nat -> (nat -> nat -> R) -> (nat -> nat -> R).
  Variables e_ch m_e eps_0 light : R.
  Variables (argsort : list R -> list nat) (skin_depth wave_breaking : R -> R).
  Notation uw := (update_wake to_main to_sub e_ch m_e eps_0 light argsort skin_depth wave_breaking).
  Lemma update_alike l l' : Forall2 alike l l' -> forall fields j, uw j fields l = uw j fields l'.
  Proof.
    intros H. induction fields as [|[env pl o|c] r IH]; intros j; cbn [update_wake]; [reflexivity| |rewrite IH; reflexivity].
    destruct j as [|j]; [|rewrite IH; reflexivity].
    unfold update, calculate_field. cbv zeta. destruct (if o_init o then _ else _) as [o'|]; [|reflexivity].
    destruct (x_density _ _); [|reflexivity]. destruct (seen (o_laser o')); [|reflexivity].
    rewrite (solve_alike argsort skin_depth wave_breaking e_ch light pl _ _ _ _ l l' H). reflexivity.
  Qed.
  (** Analytical fields stay. *)
  Lemma update_analytic l c : forall fields j fields', uw j fields l = Some fields' ->
    In (Analytic c) fields' <-> In (Analytic c) fields.
  Proof.
    induction fields as [|[env pl o|c0] r IH]; intros j fields' E; cbn [update_wake] in E.
    - injection E as <-. tauto.
    - destruct j as [|j].
      + destruct (update _ _ _ _ _ _ _ o l) as [o'|]; [|discriminate]. injection E as <-.
        cbn. split; (intros [X|X]; [discriminate|right; exact X]).
      + destruct (uw j r l) as [r'|] eqn:Er; [|discriminate]. injection E as <-. specialize (IH j r' Er).
        cbn. split; (intros [X|X]; [discriminate|right; apply IH, X]).
    - destruct (uw j r l) as [r'|] eqn:Er; [|discriminate]. injection E as <-. specialize (IH j r' Er).
      cbn. split; (intros [X|X]; [left; exact X|right; apply IH, X]).
  Qed.
  Lemma all_some_both {A} (r : A -> A -> Prop) l l' : Forall2 (both r) l l' -> both (Forall2 r) (all_some l) (all_some l').
  Proof.
    induction 1 as [|a b l l' Hab Hl IH]; [constructor|]. cbn [all_some].
    destruct a as [a|], b as [b|]; cbn in Hab; try contradiction; [|exact I].
    destruct (all_some l), (all_some l'); cbn in IH; try contradiction; [constructor; assumption|exact I].
  Qed.
  Notation su := (sim_update to_main to_sub e_ch m_e eps_0 light argsort skin_depth wave_breaking).
  Lemma sim_update_same (r : tracked -> tracked -> Prop) j f l l' :
    (forall u u', r u u' -> alike (charges_of u) (charges_of u')) ->
    Forall2 (both r) l l' -> su j f l = su j f l'.
  Proof.
    intros H Hl. unfold sim_update. destruct f as [f|]; [|reflexivity].
    apply all_some_both in Hl. destruct (all_some l) as [v|], (all_some l') as [v'|]; try contradiction; [|reflexivity].
    apply update_alike. cbn in Hl. clear - H Hl. induction Hl; cbn; constructor; auto.
  Qed.
  Definition ok_fields (P : list efield -> Prop) (f : option (list efield)) : Prop :=
    match f with Some l => P l | None => True end.
  Lemma sim_update_symmetric j f l : ok_fields symmetric_fields f -> ok_fields symmetric_fields (su j f l).
  Proof.
    intros H. unfold sim_update. destruct f as [f|]; [|exact I]. destruct (all_some l) as [v|]; [|exact I].
    destruct (uw j f (map charges_of v)) as [f'|] eqn:E; [|exact I]. cbn. intros c Hc. apply H.
    exact (proj1 (update_analytic _ c f j f' E) Hc).
  Qed.
End Updating.
Lemma adjust_symmetric T fields : symmetric_fields fields -> symmetric_fields (adjust_wakes T fields).
Proof.
  intros H c. revert H. induction fields as [|[env pl o|c0] r IH]; intros H Hc; cbn [adjust_wakes] in Hc.
  - destruct Hc.
  - destruct Hc as [X|X]; [discriminate|]. apply IH; [|exact X]. intros u Hu. apply H. right. exact Hu.
  - destruct Hc as [X|X]; [injection X as <-; apply H; left; reflexivity|].
    apply IH; [|exact X]. intros u Hu. apply H. right. exact Hu.
Qed.
Lemma map_some_both {A} (r : A -> A -> Prop) l l' : Forall2 r l l' -> Forall2 (both r) (map Some l) (map Some l').
Proof. induction 1; cbn; constructor; auto. Qed.

Section Runs.
  Variable to_main : Model_Laser.sparams -> nat * nat -> Model_Laser.carr2 -> Model_Laser.carr2.
  Variable to_sub : Model_Laser.sparams -> nat * nat -> (nat -> nat -> R) -> (nat -> nat -> R).
  Variables e_ch m_e eps_0 light : R.
  Variables (argsort : list R -> list nat) (skin_depth wave_breaking : R -> R).
  Variable pusher : string.
  Variable auto_dt : option tracked -> Q.
  Variable rnd : Q -> Q.
  Notation sim := (simulate to_main to_sub e_ch m_e eps_0 light argsort skin_depth wave_breaking pusher auto_dt rnd).
  Lemma run_turned M fuel c l l' fields : orthogonal M -> symmetric_fields fields ->
    (forall u u', turned M u u' -> auto_dt (Some u) = auto_dt (Some u')) ->
    Forall2 (turned M) l l' -> same_run eq (both (turned M)) (sim fuel c l fields) (sim fuel c l' fields).
  Proof.
    intros H A Ha Hl.
    apply (same_run_weaken (fun f f' => f = f' /\ ok_fields symmetric_fields f)); [tauto|].
    unfold simulate. apply run_related.
    - intros f f' b b' t dt [<- Hf] Hb. unfold sim_evolve. destruct f as [f|]; [|exact I].
      destruct b as [b|], b' as [b'|]; cbn in Hb; try contradiction; [|exact I]. apply push_turned; assumption.
    - intros j f f' u u' [<- Hf] Hu. split; [|apply sim_update_symmetric, Hf].
      apply (sim_update_same to_main to_sub e_ch m_e eps_0 light argsort skin_depth wave_breaking (turned M)); [|exact Hu].
      intros v v' Hv. apply (charges_turned M); assumption.
    - intros [b|] [b'|] Hb; cbn in Hb; try contradiction; [apply Ha, Hb|reflexivity].
    - intros [b|] [b'|] Hb; cbn in Hb; try contradiction; [apply copy_turned, Hb|exact I].
    - split; [reflexivity|]. apply adjust_symmetric, A.
    - apply map_some_both, Hl.
  Qed.
End Runs.
