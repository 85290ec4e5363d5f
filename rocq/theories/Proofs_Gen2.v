From Coq Require Import Reals ZArith String List Lia Lra.
Import ListNotations.
From Verif Require Import Model_Gen Spec_Gen Proofs_Gen.
Open Scope R_scope.

Lemma int_of_spec : forall x, (0 <= x -> IZR (int_of x) <= x < IZR (int_of x) + 1) /\
  (x < 0 -> IZR (int_of x) - 1 < x <= IZR (int_of x)).
Proof.
  intro x. unfold int_of. destruct (Rle_dec 0 x) as [H | H]; split; intro H'; try lra.
  - pose proof (base_Int_part x). lra.
  - pose proof (base_Int_part (- x)). rewrite opp_IZR. lra.
Qed.

Section G.
  Variable rng : Type.
  Variables (normal trunc : nat -> rng -> list R * rng) (light : R).
  Notation twiss := (get_gaussian_bunch_from_twiss rng normal trunc light).
  Notation size := (get_gaussian_bunch_from_size rng normal trunc light).

  Lemma size_twiss : forall P s_x s_y b_x b_y s, 0 < g_enx P -> 0 < g_eny P -> 0 < g_ene P ->
    0 <= s_x -> 0 <= s_y -> 0 <= b_x -> 0 <= b_y ->
    sqrt (g_enx P / g_ene P * b_x) = s_x -> sqrt (g_eny P / g_ene P * b_y) = s_y ->
    size P s_x s_y s = twiss P 0 0 b_x b_y s.
  Proof.
    intros P s_x s_y b_x b_y s E1 E2 E0 H1 H2 H3 H4 Q1 Q2. unfold get_gaussian_bunch_from_size.
    assert (forall en b s, 0 < en -> 0 <= b -> sqrt (en / g_ene P * b) = s -> s ^ 2 * g_ene P / en = b) as K.
    { intros en b q He Hb <-. replace (sqrt (en / g_ene P * b) ^ 2)
        with (sqrt (en / g_ene P * b) * sqrt (en / g_ene P * b)) by ring.
      rewrite sqrt_sqrt; [field; lra |]. apply Rmult_le_pos; [| assumption]. apply Rlt_le, Rdiv_lt_0_compat; lra. }
    rewrite (K (g_enx P) b_x s_x), (K (g_eny P) b_y s_y) by assumption. reflexivity.
  Qed.
  Lemma size_positions : forall P s_x s_y s b s', 0 < g_enx P -> 0 < g_eny P -> 0 < g_ene P ->
    0 <= s_x -> 0 <= s_y -> size P s_x s_y s = Done (b, s') ->
    exists d, drawn normal trunc (Z.to_nat (int_of (g_npart P))) s d s' /\
      b_x b = map (fun u => s_x * u + g_xoff P) (r_ux d) /\ b_y b = map (fun u => s_y * u + g_yoff P) (r_uy d).
  Proof.
    intros P s_x s_y s b s' E1 E2 E0 H1 H2 H. unfold get_gaussian_bunch_from_size in H.
    destruct (twiss_done _ _ _ _ _ _ _ _ _ _ _ _ H) as (_ & _ & _ & d & D & ->). exists d. split; [exact D |].
    unfold result_of. cbn [b_x b_y]. unfold positions.
    assert (forall en s, 0 < en -> 0 <= s -> sqrt (en / g_ene P * (s ^ 2 * g_ene P / en)) = s) as K.
    { intros en q He Hq. replace (en / g_ene P * (q ^ 2 * g_ene P / en)) with (Rsqr q) by (unfold Rsqr; field; lra).
      apply sqrt_Rsqr, Hq. }
    rewrite (K (g_enx P) s_x), (K (g_eny P) s_y) by assumption. split; reflexivity.
  Qed.

  Lemma sensible_ok : forall P, sensible P -> 0 < light -> (0 <= int_of (g_npart P))%Z /\ 0 <= g_st P * 1e-15 * light /\
    0 <= g_enesp P / 100 * g_ene P.
  Proof.
    intros P [E1 E2 E0 E3 E4 E5 E6] Hl. repeat split; [lia | |].
    - apply Rmult_le_pos; lra.
    - apply Rmult_le_pos; lra.
  Qed.
  Lemma drawn_lengths : forall n s d s', gives normal -> gives trunc -> drawn normal trunc n s d s' ->
    length (r_ux d) = n /\ length (r_vx d) = n /\ length (r_uy d) = n /\ length (r_vy d) = n /\
    length (r_t d) = n /\ length (r_z d) = n.
  Proof.
    intros n s d s' G T (s1 & s2 & s3 & s4 & s5 & E1 & E2 & E3 & E4 & E5 & E6).
    pose proof (G n s) as K1. pose proof (G n s1) as K2. pose proof (G n s2) as K3. pose proof (G n s3) as K4.
    pose proof (T n s4) as K5. pose proof (G n s5) as K6. rewrite E1 in K1. rewrite E2 in K2. rewrite E3 in K3.
    rewrite E4 in K4. rewrite E5 in K5. rewrite E6 in K6. cbn in *. auto 7.
  Qed.
  Lemma counts : forall P a_x a_y b_x b_y s b s', gives normal -> gives trunc -> twiss P a_x a_y b_x b_y s = Done (b, s') ->
    let n := Z.to_nat (int_of (g_npart P)) in
    length (b_w b) = n /\ length (Model_Gen.b_x b) = n /\ length (Model_Gen.b_y b) = n /\ length (b_xi b) = n /\
    length (b_px b) = n /\ length (b_py b) = n /\ length (b_pz b) = n /\ b_prop b = 0.
  Proof.
    intros P a_x a_y be_x be_y s b s' G T H n.
    destruct (twiss_done _ _ _ _ _ _ _ _ _ _ _ _ H) as (_ & _ & _ & d & D & ->).
    destruct (drawn_lengths _ _ _ _ G T D) as (L1 & L2 & L3 & L4 & L5 & L6). unfold result_of.
    cbn [b_w b_x b_y b_xi b_px b_py b_pz b_prop]. unfold positions, slopes.
    rewrite repeat_length, !map_length.
    rewrite !zip_length; rewrite ?zip_length, ?map_length; rewrite ?L1, ?L2, ?L3, ?L4, ?L5, ?L6; auto 10.
  Qed.

  Lemma plane_made : forall em a b off p0 pz u v i, 0 < em -> 0 < b -> length u = length v -> length u = length pz ->
    (i < length u)%nat -> nth i pz 0 <> 0 ->
    made_of em a b off p0 (positions em b off u) (zip_with (fun xp pz => xp * pz + p0) (slopes em a b u v) pz) pz u v i.
  Proof.
    intros em a b off p0 pz u v i He Hb L L' Hi Hz. unfold made_of. cbv zeta.
    assert (Sx : sqrt (em * b) = sqrt (em / b) * b).
    { rewrite <- (sqrt_Rsqr b) at 3 by lra. rewrite <- sqrt_mult_alt by (apply Rlt_le, Rdiv_lt_0_compat; lra).
      f_equal. unfold Rsqr. field. lra. }
    rewrite slopes_eq by assumption.
    assert (Ls : length (zip_with (fun u v => sqrt (em / b) * (v - a * u)) u v) = length u) by (apply zip_length, L).
    rewrite (zip_nth _ _ _ i 0 0) by lia.
    rewrite (zip_nth _ _ _ i 0 0) by lia.
    assert (X : nth i (positions em b off u) 0 - off = sqrt (em * b) * nth i u 0).
    { unfold positions. rewrite (nth_indep _ 0 ((fun u => sqrt (em * b) * u + off) 0)) by (rewrite map_length; assumption).
      rewrite (map_nth (fun u => sqrt (em * b) * u + off)). ring. }
    split; [exact X |]. rewrite X, Sx. field. assumption.
  Qed.
  Lemma particles : forall P a_x a_y be_x be_y s b s', gives normal -> gives trunc ->
    0 < g_enx P -> 0 < g_eny P -> 0 < g_ene P -> 0 < be_x -> 0 < be_y ->
    twiss P a_x a_y be_x be_y s = Done (b, s') ->
    exists d, drawn normal trunc (Z.to_nat (int_of (g_npart P))) s d s' /\
    forall i, (i < Z.to_nat (int_of (g_npart P)))%nat ->
      nth i (b_xi b) 0 = g_xic P + g_st P * 1e-15 * light * nth i (r_t d) 0 /\
      nth i (b_pz b) 0 = g_ene P * (1 + g_enesp P / 100 * nth i (r_z d) 0) /\
      (nth i (b_pz b) 0 <> 0 ->
       made_of (g_enx P / g_ene P) a_x be_x (g_xoff P) (g_thx P * g_ene P) (b_x b) (b_px b) (b_pz b) (r_ux d) (r_vx d) i /\
       made_of (g_eny P / g_ene P) a_y be_y (g_yoff P) (g_thy P * g_ene P) (b_y b) (b_py b) (b_pz b) (r_uy d) (r_vy d) i).
  Proof.
    intros P a_x a_y be_x be_y s b s' G T E1 E2 E0 Hbx Hby H.
    destruct (twiss_done _ _ _ _ _ _ _ _ _ _ _ _ H) as (_ & _ & _ & d & D & ->). exists d. split; [exact D |].
    destruct (drawn_lengths _ _ _ _ G T D) as (L1 & L2 & L3 & L4 & L5 & L6).
    intros i Hi. unfold result_of. cbn [b_x b_y b_xi b_px b_py b_pz].
    assert (nm : forall f l, (i < length l)%nat -> nth i (map f l) 0 = f (nth i l 0)).
    { intros f l Hl. rewrite (nth_indep _ 0 (f 0)) by (rewrite map_length; assumption). apply map_nth. }
    split; [rewrite nm by lia; reflexivity |]. split; [rewrite nm by lia; field |].
    intro Hz. split; apply plane_made; rewrite ?map_length; try (apply Rdiv_lt_0_compat; assumption); try assumption; try congruence;
      lia.
  Qed.
  Lemma moments : forall P a_x a_y be_x be_y s b s', gives normal -> gives trunc -> sensible P ->
    0 < be_x -> 0 < be_y -> twiss P a_x a_y be_x be_y s = Done (b, s') ->
    List.Forall (fun p => p <> 0) (b_pz b) ->
    exists d, drawn normal trunc (Z.to_nat (int_of (g_npart P))) s d s' /\
    (standard (r_ux d) (r_vx d) ->
      let x := b_x b in let xp := slopes_of (g_thx P * g_ene P) (b_px b) (b_pz b) in
      mean x = g_xoff P /\ mean xp = 0 /\ has_twiss x xp (g_enx P / g_ene P) a_x be_x) /\
    (standard (r_uy d) (r_vy d) ->
      let y := b_y b in let yp := slopes_of (g_thy P * g_ene P) (b_py b) (b_pz b) in
      mean y = g_yoff P /\ mean yp = 0 /\ has_twiss y yp (g_eny P / g_ene P) a_y be_y) /\
    (let x := b_x b in let xp := slopes_of (g_thx P * g_ene P) (b_px b) (b_pz b) in
      covariance x x * covariance xp xp - covariance x xp ^ 2
      = (g_enx P / g_ene P) ^ 2 * (covariance (r_ux d) (r_ux d) * covariance (r_vx d) (r_vx d)
          - covariance (r_ux d) (r_vx d) ^ 2)) /\
    (let y := b_y b in let yp := slopes_of (g_thy P * g_ene P) (b_py b) (b_pz b) in
      covariance y y * covariance yp yp - covariance y yp ^ 2
      = (g_eny P / g_ene P) ^ 2 * (covariance (r_uy d) (r_uy d) * covariance (r_vy d) (r_vy d)
          - covariance (r_uy d) (r_vy d) ^ 2)).
  Proof.
    intros P a_x a_y be_x be_y s b s' G T [E1 E2 E0 E3 E4 E5 E6] Hbx Hby H Fz.
    destruct (twiss_done _ _ _ _ _ _ _ _ _ _ _ _ H) as (_ & _ & _ & d & D & ->). exists d. split; [exact D |].
    destruct (drawn_lengths _ _ _ _ G T D) as (L1 & L2 & L3 & L4 & L5 & L6).
    unfold result_of in *. cbn [b_x b_y b_xi b_px b_py b_pz] in *.
    set (pz := map (fun z => g_ene P + g_enesp P / 100 * g_ene P * z) (r_z d)) in *.
    assert (Lz : length pz = Z.to_nat (int_of (g_npart P))) by (unfold pz; rewrite map_length; exact L6).
    assert (Lxp : forall em a be u v, length u = length v -> length (slopes em a be u v) = length u)
      by (intros; unfold slopes; cbv zeta; apply zip_length; assumption).
    rewrite !slopes_back by (try assumption; rewrite Lxp by congruence; congruence).
    assert (Hx : 0 < g_enx P / g_ene P) by (apply Rdiv_lt_0_compat; assumption).
    assert (Hy : 0 < g_eny P / g_ene P) by (apply Rdiv_lt_0_compat; assumption).
    set (ex := g_enx P / g_ene P) in *. set (ey := g_eny P / g_ene P) in *.
    destruct (plane ex a_x be_x (g_xoff P) (r_ux d) (r_vx d) Hx Hbx ltac:(congruence) ltac:(rewrite L1; lia))
      as (X1 & X2 & X3 & X4 & X5).
    destruct (plane ey a_y be_y (g_yoff P) (r_uy d) (r_vy d) Hy Hby ltac:(congruence) ltac:(rewrite L3; lia))
      as (Y1 & Y2 & Y3 & Y4 & Y5).
    assert (K : forall em a be u v x xp, 0 < be -> covariance x x = em * be * covariance u u ->
      covariance x xp = em * (covariance u v - a * covariance u u) ->
      covariance xp xp = em / be * (covariance v v - 2 * a * covariance u v + a * a * covariance u u) ->
      covariance x x * covariance xp xp - covariance x xp ^ 2
      = em ^ 2 * (covariance u u * covariance v v - covariance u v ^ 2)).
    { intros em a be u v x xp Hb -> -> ->. field. lra. }
    split; [| split; [| split]].
    - intros (M1 & M2 & M3 & M4 & M5). unfold has_twiss.
      assert (C1 : covariance (r_ux d) (r_ux d) = 1) by (unfold covariance; rewrite M3, M1; ring).
      assert (C2 : covariance (r_vx d) (r_vx d) = 1) by (unfold covariance; rewrite M4, M2; ring).
      assert (C3 : covariance (r_ux d) (r_vx d) = 0) by (unfold covariance; rewrite M5, M1, M2; ring).
      rewrite X1, X2, X3, X4, X5, C1, C2, C3, M1, M2. repeat split; field; lra.
    - intros (M1 & M2 & M3 & M4 & M5). unfold has_twiss.
      assert (C1 : covariance (r_uy d) (r_uy d) = 1) by (unfold covariance; rewrite M3, M1; ring).
      assert (C2 : covariance (r_vy d) (r_vy d) = 1) by (unfold covariance; rewrite M4, M2; ring).
      assert (C3 : covariance (r_uy d) (r_vy d) = 0) by (unfold covariance; rewrite M5, M1, M2; ring).
      rewrite Y1, Y2, Y3, Y4, Y5, C1, C2, C3, M1, M2. repeat split; field; lra.
    - cbv zeta. eapply K; [exact Hbx | exact X3 | exact X4 | exact X5].
    - cbv zeta. eapply K; [exact Hby | exact Y3 | exact Y4 | exact Y5].
  Qed.
  Lemma within_three : forall P a_x a_y be_x be_y s b s',
    (forall n s, List.Forall (fun t => -3 <= t <= 3) (fst (trunc n s))) ->
    twiss P a_x a_y be_x be_y s = Done (b, s') ->
    List.Forall (fun xi => Rabs (xi - g_xic P) <= 3 * (g_st P * 1e-15 * light)) (b_xi b).
  Proof.
    intros P a_x a_y be_x be_y s b s' T H.
    destruct (twiss_done _ _ _ _ _ _ _ _ _ _ _ _ H) as (_ & Hs & _ & d & D & ->).
    destruct D as (s1 & s2 & s3 & s4 & s5 & _ & _ & _ & _ & E5 & _). pose proof (T (Z.to_nat (int_of (g_npart P))) s4) as F. rewrite E5 in F. cbn in F.
    unfold result_of. cbn [b_xi]. set (q := g_st P * 1e-15 * light) in *. clearbody q. clear H E5. revert F.
    induction (r_t d) as [| t l IH]; intro F; [constructor |]. cbn [map]. inversion F as [| ? ? F1 F2]; subst.
    constructor; [apply Rabs_le; nra | apply IH; assumption].
  Qed.
  Lemma when_done : forall P a_x a_y be_x be_y s, 0 < light -> 0 < g_ene P ->
    let ok := (0 <= int_of (g_npart P))%Z /\ 0 <= g_st P /\ 0 <= g_enesp P in
    (ok -> exists b s', twiss P a_x a_y be_x be_y s = Done (b, s')) /\
    (~ ok -> twiss P a_x a_y be_x be_y s = Raised ValueError).
  Proof.
    intros P a_x a_y be_x be_y s Hl He ok. split.
    - intros (H1 & H2 & H3). destruct (drawn_exists rng normal trunc (Z.to_nat (int_of (g_npart P))) s) as (d & s' & D).
      exists (result_of light P a_x a_y be_x be_y d), s'. apply twiss_drawn; try assumption.
      + apply Rmult_le_pos; lra.
      + apply Rmult_le_pos; lra.
    - intro N. unfold get_gaussian_bunch_from_twiss.
      destruct (Z.ltb_spec (int_of (g_npart P)) 0) as [C | Hn]; [reflexivity |].
      cbv zeta. destruct (normal _ s) as [? sa]. destruct (normal _ sa) as [? sb]. destruct (normal _ sb) as [? sc].
      destruct (normal _ sc) as [? sd]. destruct (Rlt_dec _ 0) as [C | Hs]; [reflexivity |].
      destruct (trunc _ sd) as [? se]. destruct (Rlt_dec _ 0) as [C | Hp]; [reflexivity |].
      exfalso. apply N. split; [assumption |]. split.
      + apply Rnot_lt_le in Hs. destruct (Rle_or_lt 0 (g_st P)) as [K | K]; [assumption |]. nra.
      + apply Rnot_lt_le in Hp. destruct (Rle_or_lt 0 (g_enesp P)) as [K | K]; [assumption |]. nra.
  Qed.
End G.

Lemma rotate_lengths : forall b ph x xp, length x = length xp ->
  length (fst (rotate b ph x xp)) = length x /\ length (snd (rotate b ph x xp)) = length x.
Proof.
  intros b ph; induction x as [| u x IH]; intros [| v xp] L; cbn in *; try discriminate; auto.
  destruct (IH xp ltac:(lia)) as [I1 I2]. destruct (rotate b ph x xp) as [l m]. cbn in *. auto.
Qed.
Lemma rotate_sums : forall b ph x xp, length x = length xp -> b <> 0 ->
  let l := fst (rotate b ph x xp) in let m := snd (rotate b ph x xp) in let c := cos ph in let s := sin ph in
  S1 l = c * S1 x + b * s * S1 xp /\ S1 m = - (s / b) * S1 x + c * S1 xp /\
  S2 l l = c * c * S2 x x + 2 * b * c * s * S2 x xp + b * b * s * s * S2 xp xp /\
  S2 l m = - (c * s / b) * S2 x x + (c * c - s * s) * S2 x xp + b * c * s * S2 xp xp /\
  S2 m m = (s / b) * (s / b) * S2 x x - 2 * (c * s / b) * S2 x xp + c * c * S2 xp xp.
Proof.
  intros b ph x xp L Hb; revert xp L; induction x as [| u x IH]; intros [| v xp] L; try discriminate.
  - cbn. repeat split; ring.
  - destruct (IH xp ltac:(cbn in L; lia)) as (I1 & I2 & I3 & I4 & I5). cbn [rotate].
    destruct (rotate b ph x xp) as [l m]. cbn [fst snd] in *. unfold S1, S2 in *. cbn [products fold_right].
    rewrite I1, I2, I3, I4, I5. repeat split; field; assumption.
Qed.
Lemma matched_stays : forall x xp em b ph, length x = length xp -> (0 < length x)%nat -> 0 < b ->
  has_twiss x xp em 0 b -> has_twiss (fst (rotate b ph x xp)) (snd (rotate b ph x xp)) em 0 b.
Proof.
  intros x xp em b ph L Hl Hb. unfold has_twiss.
  destruct (rotate_lengths b ph x xp L) as [L1 L2].
  destruct (rotate_sums b ph x xp L ltac:(lra)) as (I1 & I2 & I3 & I4 & I5). cbv zeta in *.
  assert (Hn : INR (length x) <> 0) by (apply not_0_INR; lia).
  assert (CS : cos ph * cos ph = 1 - sin ph * sin ph) by (pose proof (sin2_cos2 ph); unfold Rsqr in *; lra).
  set (l := fst (rotate b ph x xp)) in *. set (m := snd (rotate b ph x xp)) in *.
  set (c := cos ph) in *. set (s := sin ph) in *. clearbody l m c s.
  intros (H1 & H2 & H3).
  assert (V : forall p q, length p = length q -> length p = length x ->
    covariance p q = S2 p q / INR (length x) - S1 p / INR (length x) * (S1 q / INR (length x))).
  { intros p q Lq Lx. unfold covariance. rewrite mean2_S2, !mean_S1 by assumption. rewrite <- Lq, Lx. reflexivity. }
  assert (A1 : covariance l l = c * c * covariance x x + 2 * b * c * s * covariance x xp + b * b * s * s * covariance xp xp).
  { rewrite !V by congruence. rewrite I1, I3. field. assumption. }
  assert (A2 : covariance l m = - (c * s / b) * covariance x x + (c * c - s * s) * covariance x xp + b * c * s * covariance xp xp).
  { rewrite !V by congruence. rewrite I1, I2, I4. field. split; [assumption | lra]. }
  assert (A3 : covariance m m = (s / b) * (s / b) * covariance x x - 2 * (c * s / b) * covariance x xp + c * c * covariance xp xp).
  { rewrite !V by congruence. rewrite I2, I5. field. split; [assumption | lra]. }
  rewrite A1, A2, A3, H1, H2, H3. repeat split.
  - replace (c * c * (em * b) + 2 * b * c * s * - (em * 0) + b * b * s * s * (em * ((1 + 0 ^ 2) / b)))
      with (em * b * (c * c + s * s)) by (field; lra). rewrite CS. ring.
  - field. lra.
  - replace (s / b * (s / b) * (em * b) - 2 * (c * s / b) * - (em * 0) + c * c * (em * ((1 + 0 ^ 2) / b)))
      with (em / b * (c * c + s * s)) by (field; lra). rewrite CS. field. lra.
Qed.

(** ** Files *)
Section F.
  Variables (path disk : Type).
  Variable save : distribution -> path -> string -> option string -> disk -> outcome disk.
  Variable read : path -> string -> option string -> disk -> outcome distribution.
  Variable species : path -> disk -> list string.
  Notation get := (get_from_file path disk read species).
  Notation put := (save_bunch_to_file path disk save).

  Lemma get_named : forall p f pres nm sp d, f <> "openpmd"%string \/ sp <> None ->
    get p f pres nm sp d =
    match read p f (if String.eqb f "openpmd" then sp else None) d with
    | Raised e => Raised e
    | Done D => match average (d_z D) (d_w D) with
        | Raised e => Raised e
        | Done z => Done (mkb (d_w D) (d_x D) (d_y D) (map (fun x => x - z) (d_z D)) (d_px D) (d_py D) (d_pz D)
            (match nm with Some _ => nm | None => if String.eqb f "openpmd" then sp else None end)
            (d_q D) (d_m D) (if pres then z else 0))
        end
    end.
  Proof.
    intros p f pres nm sp d H. unfold get_from_file. destruct (String.eqb_spec f "openpmd") as [-> | E].
    - destruct sp as [s |]; [| destruct H; congruence]. destruct nm; reflexivity.
    - destruct nm; reflexivity.
  Qed.
  Lemma get_unnamed : forall p pres nm d,
    get p "openpmd" pres nm None d
    = match species p d with [s] => get p "openpmd" pres nm (Some s) d | _ => Raised ValueError end.
  Proof. intros p pres nm d. unfold get_from_file. cbn [String.eqb]. destruct (species p d) as [| s [| t l]]; reflexivity. Qed.
  Lemma get_ok : forall p f pres nm sp d b, get p f pres nm sp d = Done b ->
    exists D, (exists s, read p f s d = Done D) /\
      b_w b = d_w D /\ b_x b = d_x D /\ b_y b = d_y D /\ b_px b = d_px D /\ b_py b = d_py D /\ b_pz b = d_pz D /\
      b_q b = d_q D /\ b_m b = d_m D /\
      b_xi b = map (fun z => z - weighted_mean (d_z D) (d_w D)) (d_z D) /\
      b_prop b = (if pres then weighted_mean (d_z D) (d_w D) else 0) /\ fold_right Rplus 0 (d_w D) <> 0.
  Proof.
    intros p f pres nm sp d b H. unfold get_from_file in H.
    destruct (if String.eqb f "openpmd" then _ else _) as [k | e]; [| discriminate].
    destruct (read p f k d) as [D | e] eqn:ED; [| discriminate].
    destruct (average (d_z D) (d_w D)) as [z | e] eqn:EA; [| discriminate].
    apply average_iff in EA. destruct EA as [EA ->].
    match type of H with Done ?m = _ => assert (b = m) as -> by congruence end.
    exists D. cbn. split; [exists k; exact ED |]. auto 12.
  Qed.
  Lemma round_trip : forall b nm f p sp d d' pres n' (Hf : faithful save read species),
    put b nm f p sp d = Done d' -> fold_right Rplus 0 (b_w b) <> 0 ->
    get p f pres n' None d' = Done (mkb (b_w b) (b_x b) (b_y b)
      (map (fun z => z - weighted_mean (b_xi b) (b_w b)) (b_xi b)) (b_px b) (b_py b) (b_pz b)
      (match n' with Some _ => n' | None =>
         if String.eqb f "openpmd" then Some (match sp with Some s => s | None => nm end) else None end)
      (b_q b) (b_m b) (if pres then weighted_mean (b_xi b) (b_w b) else 0)).
  Proof.
    intros b nm f p sp d d' pres n' Hf H W. unfold save_bunch_to_file in H. cbv zeta in H.
    destruct (String.eqb_spec f "openpmd") as [-> | E].
    - destruct (Hf _ _ _ _ _ _ H) as [Hr Hs]. rewrite get_unnamed, (Hs _ eq_refl).
      rewrite get_named by (right; discriminate). cbn [String.eqb]. cbn.
      rewrite Hr. cbn [d_z d_w]. rewrite average_ok by assumption. reflexivity.
    - destruct (Hf _ _ _ _ _ _ H) as [Hr _]. rewrite get_named by (left; assumption).
      destruct (String.eqb_spec f "openpmd") as [C | _]; [contradiction |]. rewrite Hr. cbn [d_z d_w].
      rewrite average_ok by assumption. reflexivity.
  Qed.
End F.

(** ** Analysis *)
Section A.
  Variable slicing : Type.
  Variable tw : list R -> list R -> list R -> list R -> list R -> R * R * R.
  Variables (me re : list R -> list R -> list R -> list R -> R).
  Variable se : list R -> list R -> list R -> list R -> list R -> slicing -> R.
  Variable em : list R -> list R -> list R -> list R -> list R -> R.
  Variable sem : list R -> list R -> list R -> list R -> list R -> list R -> slicing -> R.
  Variables (rl rs : list R -> list R -> R).
  Variable pc : list R -> list R -> slicing -> R.
  Notation one := (analyze_bunch slicing tw me re se em sem rl rs pc).
  Notation all := (analyze_bunch_list slicing tw me re se em sem rl rs pc).
  Notation prm := (params_of slicing tw me re se em sem rl rs pc).

  Lemma charges_sum : forall b, fold_right Rplus 0 (charges b) = total_charge b.
  Proof.
    intro b. unfold charges, total_charge. induction (b_w b) as [| w l IH]; cbn [map fold_right]; [ring |]. rewrite IH. ring.
  Qed.
  Lemma charge_mean : forall x b, total_charge b <> 0 -> weighted_mean x (charges b) = weighted_mean x (b_w b).
  Proof.
    intros x b H. unfold weighted_mean. rewrite charges_sum. unfold charges, total_charge in *.
    assert (E : fold_right Rplus 0 (products x (map (fun w => w * b_q b) (b_w b))) = b_q b * fold_right Rplus 0 (products x (b_w b))).
    { clear H. revert x. induction (b_w b) as [| w l IH]; intros [| u x]; cbn [products map fold_right]; try ring. rewrite IH. ring. }
    rewrite E. field. split; intro C; apply H; rewrite C; ring.
  Qed.
  Lemma average_fail : forall x w, fold_right Rplus 0 w = 0 -> average x w = Raised ZeroDivisionError.
  Proof. intros x w H. unfold average. destruct (Req_EM_T (sum w) 0) as [_ | C]; [reflexivity | contradiction]. Qed.
  Lemma params_fail : forall b sl, total_charge b = 0 -> prm b sl = Raised ZeroDivisionError.
  Proof.
    intros b sl H. unfold params_of, get_distribution_parameters.
    destruct (tw _ _ _ _ _) as [[? ?] ?]. destruct (tw _ _ _ _ _) as [[? ?] ?].
    rewrite average_fail by (rewrite charges_sum; exact H). reflexivity.
  Qed.
  Lemma params_ok : forall b sl, total_charge b <> 0 -> exists l, prm b sl = Done l.
  Proof.
    intros b sl H. unfold params_of, get_distribution_parameters.
    destruct (tw _ _ _ _ _) as [[? ?] ?]. destruct (tw _ _ _ _ _) as [[? ?] ?].
    rewrite !average_ok by (rewrite charges_sum; exact H). eexists. reflexivity.
  Qed.
  Lemma all_rows : forall l sl rows, all_params slicing tw me re se em sem rl rs pc l sl = Done rows ->
    length rows = length l /\ forall i b, nth_error l i = Some b -> prm b sl = Done (nth i rows []).
  Proof.
    induction l as [| b l IH]; intros sl rows H; cbn in H.
    - assert (rows = []) by congruence. subst. split; [reflexivity |]. intros [|]; discriminate.
    - destruct (prm b sl) as [v |] eqn:E; [| discriminate].
      destruct (all_params slicing tw me re se em sem rl rs pc l sl) as [r |] eqn:E'; [| discriminate].
      assert (rows = v :: r) by congruence. subst rows. destruct (IH sl r E') as [L I].
      split; [cbn; congruence |]. intros [| i] c Hc; cbn in *; [congruence | apply I, Hc].
  Qed.
  Lemma all_done : forall l sl, (forall b, In b l -> total_charge b <> 0) ->
    exists rows, all_params slicing tw me re se em sem rl rs pc l sl = Done rows.
  Proof.
    induction l as [| b l IH]; intros sl H; [eexists; reflexivity |]. cbn.
    destruct (params_ok b sl (H b (or_introl eq_refl))) as [v ->].
    destruct (IH sl (fun c Hc => H c (or_intror Hc))) as [r ->]. eexists; reflexivity.
  Qed.
  Lemma list_ok : forall l sl D, all l sl = Done D -> forall i b, nth_error l i = Some b ->
    exists A, one b sl = Done A /\ forall k, lookup k A = option_map (fun v => nth i v 0) (lookup k D).
  Proof.
    intros l sl D H i b Hb. unfold analyze_bunch_list in H.
    destruct (all_params slicing tw me re se em sem rl rs pc l sl) as [rows |] eqn:E; [| discriminate].
    destruct (all_rows l sl rows E) as [L I]. unfold analyze_bunch. rewrite (I i b Hb). eexists. split; [reflexivity |].
    cbv zeta in H. match type of H with Done ?m = _ => assert (D = m) as -> by congruence end. intro k.
    assert (Hi : (i < length rows)%nat) by (rewrite L; apply nth_error_Some; congruence).
    assert (R1 : forall j, nth i (map (fun r : list R => nth j r 0) rows) 0 = nth j (nth i rows []) 0).
    { intro j. rewrite (nth_indep _ 0 ((fun r : list R => nth j r 0) [])) by (rewrite map_length; exact Hi).
      rewrite (map_nth (fun r : list R => nth j r 0)). reflexivity. }
    assert (R2 : nth i (map b_prop l) 0 = b_prop b).
    { rewrite (nth_indep _ 0 (b_prop b)) by (rewrite map_length; lia). rewrite (map_nth b_prop).
      f_equal. apply nth_error_nth, Hb. }
    unfold store_bunch_parameters_into_dict. cbn [lookup].
    repeat match goal with |- context [if String.eqb k ?s then _ else _] => destruct (String.eqb k s);
      [cbn [option_map]; f_equal; first [symmetry; apply R1 | symmetry; exact R2] |] end. reflexivity.
  Qed.
  Lemma list_keys : forall l sl D, all l sl = Done D -> forall k v, lookup k D = Some v -> length v = length l.
  Proof.
    intros l sl D H k v. unfold analyze_bunch_list in H.
    destruct (all_params slicing tw me re se em sem rl rs pc l sl) as [rows |] eqn:E; [| discriminate].
    destruct (all_rows l sl rows E) as [L I]. cbv zeta in H. match type of H with Done ?m = _ => assert (D = m) as -> by congruence end.
    unfold store_bunch_parameters_into_dict. cbn [lookup].
    repeat match goal with |- context [if String.eqb k ?s then _ else _] => destruct (String.eqb k s);
      [intro K; assert (Kv := f_equal (fun o => match o with Some w => w | None => v end) K); cbn in Kv; rewrite <- Kv, map_length; congruence |] end.
    discriminate.
  Qed.
End A.
