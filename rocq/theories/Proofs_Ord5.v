(** Lemmas: functions of time and particle that are linear near a curve up to a quadratic remainder. *)
From Coq Require Import Reals List Lia Lra Psatz.
From Coquelicot Require Import Coquelicot.
From Verif Require Import Model_Push Spec_Push Proofs_Push Spec_Conv Proofs_Conv Proofs_Conv2 Proofs_Conv3 Proofs_Conv4 Proofs_Ord.
Import ListNotations.
Open Scope R_scope.

Definition dot (j p p' : part) : R :=
  x j * (x p - x p') + y j * (y p - y p') + xi j * (xi p - xi p') +
  px j * (px p - px p') + py j * (py p - py p') + pz j * (pz p - pz p').

Section Lin.
  Variables T rho : R.
  Hypothesis rho0 : 0 < rho <= 1.
  Variable Y : R -> part.

  (** Functions of time. *)
  Definition bl (g : R -> R) : Prop :=
    (exists C, 0 <= C /\ forall s, 0 <= s <= T -> Rabs (g s) <= C) /\
    (exists C, 0 <= C /\ forall s s', 0 <= s <= T -> 0 <= s' <= T -> Rabs (g s - g s') <= C * Rabs (s - s')).
  Lemma bl_ext g g' : (forall s, 0 <= s <= T -> g s = g' s) -> bl g -> bl g'.
  Proof.
    intros E ((C & C0 & H) & (D & D0' & K)). split.
    - exists C. split; [exact C0|]. intros s Hs. rewrite <- E by exact Hs. apply H, Hs.
    - exists D. split; [exact D0'|]. intros s s' Hs Hs'. rewrite <- !E by assumption. apply K; assumption.
  Qed.
  Lemma blc k : bl (fun _ => k).
  Proof.
    split; [exists (Rabs k)|exists 0].
    - split; [apply Rabs_pos|]. intros. lra.
    - split; [lra|]. intros. rewrite Rminus_eq_0, Rabs_R0. lra.
  Qed.
  Lemma bl_plus g k : bl g -> bl k -> bl (fun s => g s + k s).
  Proof.
    intros ((C & C0 & H) & (D & D0' & K)) ((C' & C0' & H') & (D' & D0'' & K')). split.
    - exists (C + C'). split; [lra|]. intros s Hs. eapply Rle_trans; [apply Rabs_triang|]. specialize (H s Hs). specialize (H' s Hs). lra.
    - exists (D + D'). split; [lra|]. intros s s' Hs Hs'. specialize (K s s' Hs Hs'). specialize (K' s s' Hs Hs').
      replace (g s + k s - (g s' + k s')) with ((g s - g s') + (k s - k s')) by ring. eapply Rle_trans; [apply Rabs_triang|]. lra.
  Qed.
  Lemma blm g k : bl g -> bl k -> bl (fun s => g s * k s).
  Proof.
    intros ((C & C0 & H) & (D & D0' & K)) ((C' & C0' & H') & (D' & D0'' & K')). split.
    - exists (C * C'). split; [apply Rmult_le_pos; assumption|]. intros s Hs. rewrite Rabs_mult.
      apply Rmult_le_compat; try apply Rabs_pos; [apply H, Hs|apply H', Hs].
    - exists (C * D' + C' * D). split; [apply Rplus_le_le_0_compat; apply Rmult_le_pos; assumption|]. intros s s' Hs Hs'.
      specialize (K s s' Hs Hs'). specialize (K' s s' Hs Hs').
      replace (g s * k s - g s' * k s') with (g s * (k s - k s') + k s' * (g s - g s')) by ring.
      eapply Rle_trans; [apply Rabs_triang|]. rewrite !Rabs_mult.
      assert (Rabs (g s) * Rabs (k s - k s') <= C * (D' * Rabs (s - s'))) by (apply Rmult_le_compat; try apply Rabs_pos; [apply H, Hs|exact K']).
      assert (Rabs (k s') * Rabs (g s - g s') <= C' * (D * Rabs (s - s'))) by (apply Rmult_le_compat; try apply Rabs_pos; [apply H', Hs'|exact K]).
      lra.
  Qed.
  Lemma bl_opp g : bl g -> bl (fun s => - g s).
  Proof. intros H. apply (bl_ext (fun s => -1 * g s)); [intros; ring|]. apply (blm (fun _ => -1)); [apply blc|exact H]. Qed.
  Lemma bl_inv g : (forall s, 1 <= g s) -> bl g -> bl (fun s => / g s).
  Proof.
    intros L (_ & (D & D0' & K)).
    assert (I : forall s, 0 < / g s <= 1).
    { intros s. specialize (L s). split; [apply Rinv_0_lt_compat; lra|]. rewrite <- Rinv_1. apply Rinv_le_contravar; lra. }
    split.
    - exists 1. split; [lra|]. intros s _. specialize (I s). rewrite Rabs_right; lra.
    - exists D. split; [exact D0'|]. intros s s' Hs Hs'. eapply Rle_trans; [|apply (K s s' Hs Hs')].
      pose proof (L s) as L1. pose proof (L s') as L2.
      replace (/ g s - / g s') with (- ((g s - g s') * (/ g s * / g s'))) by (field; lra).
      rewrite Rabs_Ropp, Rabs_mult. rewrite <- (Rmult_1_r (Rabs (g s - g s'))) at 2. apply Rmult_le_compat_l; [apply Rabs_pos|].
      pose proof (I s). pose proof (I s'). rewrite Rabs_right; [|apply Rle_ge, Rmult_le_pos; lra].
      rewrite <- (Rmult_1_r 1). apply Rmult_le_compat; lra.
  Qed.
  Lemma bl_root g : (forall s, 1 <= g s) -> bl (fun s => g s * g s) -> bl g.
  Proof.
    intros L ((C & C0 & H) & (D & D0' & K)). split.
    - exists C. split; [exact C0|]. intros s Hs. eapply Rle_trans; [|apply H, Hs]. specialize (L s). rewrite Rabs_mult.
      rewrite <- (Rmult_1_r (Rabs (g s))) at 1. apply Rmult_le_compat_l; [apply Rabs_pos|]. rewrite Rabs_right; lra.
    - exists D. split; [exact D0'|]. intros s s' Hs Hs'. eapply Rle_trans; [|apply (K s s' Hs Hs')].
      pose proof (L s). pose proof (L s'). replace (g s * g s - g s' * g s') with ((g s - g s') * (g s + g s')) by ring.
      rewrite Rabs_mult. rewrite <- (Rmult_1_r (Rabs (g s - g s'))) at 1. apply Rmult_le_compat_l; [apply Rabs_pos|]. rewrite Rabs_right; lra.
  Qed.

  (** Of the order of the [k]-th power of the distance to the curve. *)
  Definition Rem (k : nat) (F : R -> part -> R) : Prop :=
    exists C, 0 <= C /\ forall s p, 0 <= s <= T -> pdist p (Y s) <= rho -> Rabs (F s p) <= C * pdist p (Y s) ^ k.
  Lemma rem_ext k F G : (forall s p, 0 <= s <= T -> pdist p (Y s) <= rho -> F s p = G s p) -> Rem k F -> Rem k G.
  Proof. intros E (C & C0 & H). exists C. split; [exact C0|]. intros s p Hs Hp. rewrite <- E by assumption. apply H; assumption. Qed.
  Lemma rem_plus k F G : Rem k F -> Rem k G -> Rem k (fun s p => F s p + G s p).
  Proof.
    intros (C & C0 & H) (D & D0 & K). exists (C + D). split; [lra|]. intros s p Hs Hp.
    eapply Rle_trans; [apply Rabs_triang|]. specialize (H s p Hs Hp). specialize (K s p Hs Hp). lra.
  Qed.
  Lemma rem_mult j k F G : Rem j F -> Rem k G -> Rem (j + k) (fun s p => F s p * G s p).
  Proof.
    intros (C & C0 & H) (D & D0 & K). exists (C * D). split; [apply Rmult_le_pos; assumption|]. intros s p Hs Hp.
    rewrite Rabs_mult, pow_add. replace (C * D * (pdist p (Y s) ^ j * pdist p (Y s) ^ k)) with ((C * pdist p (Y s) ^ j) * (D * pdist p (Y s) ^ k)) by ring.
    apply Rmult_le_compat; try apply Rabs_pos; [apply H|apply K]; assumption.
  Qed.
  Lemma rem_less k F : Rem (S k) F -> Rem k F.
  Proof.
    intros (C & C0 & H). exists C. split; [exact C0|]. intros s p Hs Hp. eapply Rle_trans; [apply H; assumption|].
    apply Rmult_le_compat_l; [exact C0|]. cbn [pow]. pose proof (pdist_pos p (Y s)) as P.
    rewrite <- (Rmult_1_l (pdist p (Y s) ^ k)) at 2. apply Rmult_le_compat_r; [apply pow_le, P|lra].
  Qed.
  Lemma rem_time g : bl g -> Rem 0 (fun s _ => g s).
  Proof. intros ((C & C0 & H) & _). exists C. split; [exact C0|]. intros s p Hs _. cbn. rewrite Rmult_1_r. apply H, Hs. Qed.
  Lemma rem_le k F G : Rem k G -> (forall s p, 0 <= s <= T -> pdist p (Y s) <= rho -> Rabs (F s p) <= Rabs (G s p)) -> Rem k F.
  Proof. intros (C & C0 & H) L. exists C. split; [exact C0|]. intros s p Hs Hp. eapply Rle_trans; [apply L; assumption|apply H; assumption]. Qed.
  Lemma rem_coord u : In u coords -> Rem 1 (fun s p => u p - u (Y s)).
  Proof. intros Hu. exists 1. split; [lra|]. intros s p _ _. cbn. rewrite Rmult_1_l, Rmult_1_r. apply coord_le, Hu. Qed.
  Definition bls (J : R -> part) : Prop := forall u, In u coords -> bl (fun s => u (J s)).
  Lemma rem_dot J : bls J -> Rem 1 (fun s p => dot (J s) p (Y s)).
  Proof.
    intros HJ. assert (E : forall u, In u coords -> Rem 1 (fun s p => u (J s) * (u p - u (Y s)))).
    { intros u Hu. apply (rem_mult 0 1 (fun s _ => u (J s))); [apply rem_time, HJ, Hu|apply rem_coord, Hu]. }
    unfold dot. repeat (match goal with |- Rem 1 (fun s p => @?F s p + @?G s p) => apply (rem_plus 1 F G) end); apply E; unfold coords; cbn; tauto.
  Qed.

  (** Linear up to a quadratic remainder. *)
  Definition DL (phi : R -> part -> R) : Prop :=
    bl (fun s => phi s (Y s)) /\ exists J, bls J /\ Rem 2 (fun s p => phi s p - phi s (Y s) - dot (J s) p (Y s)).
  Lemma dl_near phi : DL phi -> Rem 1 (fun s p => phi s p - phi s (Y s)).
  Proof.
    intros (_ & J & HJ & HR). apply (rem_ext 1 (fun s p => (phi s p - phi s (Y s) - dot (J s) p (Y s)) + dot (J s) p (Y s))); [intros; ring|].
    apply rem_plus; [apply rem_less, HR|apply rem_dot, HJ].
  Qed.
  Lemma dl_ext phi psi : (forall s p, phi s p = psi s p) -> DL phi -> DL psi.
  Proof.
    intros E (B & J & HJ & HR). split.
    - apply (bl_ext (fun s => phi s (Y s))); [intros; apply E|exact B].
    - exists J. split; [exact HJ|]. apply (rem_ext 2 (fun s p => phi s p - phi s (Y s) - dot (J s) p (Y s))); [|exact HR].
      intros s p _ _. rewrite !E. reflexivity.
  Qed.
  Lemma dl_time g : bl g -> DL (fun s _ => g s).
  Proof.
    intros H. split; [exact H|]. exists (fun _ => mkp 0 0 0 0 0 0). split.
    - intros u Hu. each Hu; apply blc.
    - exists 0. split; [lra|]. intros s p _ _. unfold dot. cbn [x y xi px py pz].
      match goal with |- Rabs ?v <= _ => replace v with 0 by ring end. rewrite Rabs_R0. lra.
  Qed.
  Lemma dl_plus phi psi : DL phi -> DL psi -> DL (fun s p => phi s p + psi s p).
  Proof.
    intros (B & J & HJ & HR) (B' & J' & HJ' & HR'). split; [apply (bl_plus (fun s => phi s (Y s))); assumption|].
    exists (fun s => padd (J s) (J' s)). split.
    - intros u Hu. apply (bl_ext (fun s => u (J s) + u (J' s))); [intros; each Hu; reflexivity|]. apply bl_plus; [apply HJ|apply HJ']; exact Hu.
    - apply (rem_ext 2 (fun s p => (phi s p - phi s (Y s) - dot (J s) p (Y s)) + (psi s p - psi s (Y s) - dot (J' s) p (Y s)))).
      + intros s p _ _. unfold dot, padd. cbn [x y xi px py pz]. ring.
      + apply rem_plus; assumption.
  Qed.
  Lemma bls_comb g k J J' : bl g -> bl k -> bls J -> bls J' -> bls (fun s => padd (pscal (g s) (J s)) (pscal (k s) (J' s))).
  Proof.
    intros Hg Hk HJ HJ' u Hu. apply (bl_ext (fun s => g s * u (J s) + k s * u (J' s))); [intros; each Hu; reflexivity|].
    apply bl_plus; apply blm; try assumption; [apply HJ|apply HJ']; exact Hu.
  Qed.
  Lemma dot_comb a b j j' p p' : dot (padd (pscal a j) (pscal b j')) p p' = a * dot j p p' + b * dot j' p p'.
  Proof. unfold dot, padd, pscal. cbn [x y xi px py pz]. ring. Qed.
  Lemma dl_mult phi psi : DL phi -> DL psi -> DL (fun s p => phi s p * psi s p).
  Proof.
    intros H1 H2. pose proof (dl_near _ H1) as N1. pose proof (dl_near _ H2) as N2.
    destruct H1 as (B & J & HJ & HR), H2 as (B' & J' & HJ' & HR'). split; [apply (blm (fun s => phi s (Y s))); assumption|].
    exists (fun s => padd (pscal (phi s (Y s)) (J' s)) (pscal (psi s (Y s)) (J s))). split; [apply bls_comb; assumption|].
    apply (rem_ext 2 (fun s p => (phi s (Y s) * (psi s p - psi s (Y s) - dot (J' s) p (Y s)) + psi s (Y s) * (phi s p - phi s (Y s) - dot (J s) p (Y s)))
      + (phi s p - phi s (Y s)) * (psi s p - psi s (Y s)))).
    - intros s p _ _. rewrite dot_comb. ring.
    - apply rem_plus; [apply rem_plus|].
      + apply (rem_mult 0 2 (fun s _ => phi s (Y s))); [apply (rem_time (fun s => phi s (Y s))), B|exact HR'].
      + apply (rem_mult 0 2 (fun s _ => psi s (Y s))); [apply (rem_time (fun s => psi s (Y s))), B'|exact HR].
      + apply (rem_mult 1 1); assumption.
  Qed.
  Lemma dl_inv phi : (forall s p, 1 <= phi s p) -> DL phi -> DL (fun s p => / phi s p).
  Proof.
    intros L H1. pose proof (dl_near _ H1) as N1. destruct H1 as (B & J & HJ & HR).
    assert (Bi : bl (fun s => / phi s (Y s))) by (apply (bl_inv (fun s => phi s (Y s))); [intros; apply L|exact B]).
    assert (Bq : bl (fun s => - (/ phi s (Y s) * / phi s (Y s)))) by (apply bl_opp, blm; exact Bi).
    split; [exact Bi|].
    exists (fun s => padd (pscal (- (/ phi s (Y s) * / phi s (Y s))) (J s)) (pscal 0 (J s))).
    split; [apply (bls_comb (fun s => - (/ phi s (Y s) * / phi s (Y s))) (fun _ => 0)); try assumption; apply blc|].
    assert (Ri : Rem 0 (fun s p => / phi s p)).
    { exists 1. split; [lra|]. intros s p _ _. specialize (L s p). cbn. rewrite Rabs_right; [|apply Rle_ge, Rlt_le, Rinv_0_lt_compat; lra].
      rewrite Rmult_1_r, <- Rinv_1. apply Rinv_le_contravar; lra. }
    apply (rem_ext 2 (fun s p => - (/ phi s (Y s) * / phi s (Y s)) * (phi s p - phi s (Y s) - dot (J s) p (Y s))
      + (/ phi s (Y s) * / phi s (Y s)) * (/ phi s p * ((phi s p - phi s (Y s)) * (phi s p - phi s (Y s)))))).
    - intros s p _ _. rewrite dot_comb. pose proof (L s p). pose proof (L s (Y s)). field. lra.
    - apply rem_plus.
      + apply (rem_mult 0 2 (fun s _ => - (/ phi s (Y s) * / phi s (Y s)))); [apply (rem_time (fun s => - (/ phi s (Y s) * / phi s (Y s)))), Bq|exact HR].
      + apply (rem_mult 0 2 (fun s _ => / phi s (Y s) * / phi s (Y s))); [apply (rem_time (fun s => / phi s (Y s) * / phi s (Y s))), blm; exact Bi|].
        apply (rem_mult 0 2 (fun s p => / phi s p)); [exact Ri|]. apply (rem_mult 1 1); exact N1.
  Qed.
  Lemma dl_root phi : (forall s p, 1 <= phi s p) -> DL (fun s p => phi s p * phi s p) -> DL phi.
  Proof.
    intros L H1. pose proof (dl_near _ H1) as N1. destruct H1 as (B & J & HJ & HR).
    assert (B0 : bl (fun s => phi s (Y s))) by (apply bl_root; [intros; apply L|exact B]).
    assert (Bi : bl (fun s => / (2 * phi s (Y s)))).
    { apply (bl_inv (fun s => 2 * phi s (Y s))); [intros s; specialize (L s (Y s)); lra|]. apply (blm (fun _ => 2)); [apply blc|exact B0]. }
    split; [exact B0|].
    exists (fun s => padd (pscal (/ (2 * phi s (Y s))) (J s)) (pscal 0 (J s))).
    split; [apply (bls_comb (fun s => / (2 * phi s (Y s))) (fun _ => 0)); try assumption; apply blc|].
    assert (N : Rem 1 (fun s p => phi s p - phi s (Y s))).
    { apply (rem_le 1 _ _ N1). intros s p _ _. cbv beta. pose proof (L s p). pose proof (L s (Y s)).
      replace (phi s p * phi s p - phi s (Y s) * phi s (Y s)) with ((phi s p - phi s (Y s)) * (phi s p + phi s (Y s))) by ring.
      rewrite Rabs_mult. rewrite <- (Rmult_1_r (Rabs (phi s p - phi s (Y s)))) at 1. apply Rmult_le_compat_l; [apply Rabs_pos|]. rewrite Rabs_right; lra. }
    apply (rem_ext 2 (fun s p => / (2 * phi s (Y s)) * ((phi s p * phi s p - phi s (Y s) * phi s (Y s) - dot (J s) p (Y s))
      + (-1) * ((phi s p - phi s (Y s)) * (phi s p - phi s (Y s)))))).
    - intros s p _ _. rewrite dot_comb. pose proof (L s (Y s)). field. lra.
    - apply (rem_mult 0 2 (fun s _ => / (2 * phi s (Y s)))); [apply (rem_time (fun s => / (2 * phi s (Y s)))), Bi|].
      apply rem_plus; [exact HR|]. apply (rem_mult 0 2 (fun _ _ => -1)); [apply (rem_time (fun _ => -1)), blc|]. apply (rem_mult 1 1); exact N.
  Qed.
  Hypothesis HY : bls Y.
  Lemma dl_coord u : In u coords -> DL (fun _ p => u p).
  Proof.
    intros Hu. split; [apply HY, Hu|].
    assert (E : exists J : part, forall p p', u p - u p' = dot J p p').
    { unfold dot. each Hu; [exists (mkp 1 0 0 0 0 0)|exists (mkp 0 1 0 0 0 0)|exists (mkp 0 0 1 0 0 0)|exists (mkp 0 0 0 1 0 0)
        |exists (mkp 0 0 0 0 1 0)|exists (mkp 0 0 0 0 0 1)]; intros p p'; cbn [x y xi px py pz]; ring. }
    destruct E as [J E]. exists (fun _ => J). split; [intros v _; apply blc|].
    exists 0. split; [lra|]. intros s p _ _. rewrite E, Rminus_eq_0, Rabs_R0. lra.
  Qed.
  Lemma dl_gamma : DL (fun _ p => gamma p).
  Proof.
    apply (dl_root (fun _ p => gamma p)); [intros; rewrite gamma_gam; apply gam_ge1|].
    apply (dl_ext (fun s p => 1 + (px p * px p + py p * py p + pz p * pz p))).
    - intros s p. rewrite gamma_gam. unfold gam. symmetry. apply sqrt_sqrt.
      pose proof (Rle_0_sqr (px p)). pose proof (Rle_0_sqr (py p)). pose proof (Rle_0_sqr (pz p)). unfold Rsqr in *. lra.
    - apply (dl_plus (fun _ _ => 1)); [apply (dl_time (fun _ => 1)), blc|]. apply dl_plus; [apply dl_plus|]; apply dl_mult; apply dl_coord; unfold coords; cbn; tauto.
  Qed.
  Lemma dl_v : DL (fun _ p => vx p) /\ DL (fun _ p => vy p) /\ DL (fun _ p => vz p).
  Proof.
    assert (E : forall u, In u coords -> DL (fun _ p => c_SI * / gamma p * u p)).
    { intros u Hu. apply (dl_mult (fun s p => c_SI * / gamma p)); [|apply dl_coord, Hu].
      apply (dl_mult (fun _ _ => c_SI)); [apply (dl_time (fun _ => c_SI)), blc|].
      apply (dl_inv (fun _ p => gamma p)); [intros; rewrite gamma_gam; apply gam_ge1|apply dl_gamma]. }
    split; [|split]; [apply (E px)|apply (E py)|apply (E pz)]; unfold coords; cbn; tauto.
  Qed.
  Variable G : pos -> R -> em.
  Hypothesis HF : forall e, In e components -> DL (fun s p => e (G (pos_of p) s)).
  Lemma dl_lorentz q m u : In u coords -> DL (fun s p => u (lorentz q m G s p)).
  Proof.
    intros Hu. destruct dl_v as (Vx & Vy & Vz).
    assert (Op : forall phi, DL phi -> DL (fun s p => - phi s p)).
    { intros phi H. apply (dl_ext (fun s p => -1 * phi s p)); [intros; ring|]. apply (dl_mult (fun _ _ => -1)); [apply (dl_time (fun _ => -1)), blc|exact H]. }
    set (qm := q / (m * c_SI)).
    assert (Fo : forall a b c v1 v2, In a components -> In b components -> In c components -> DL (fun _ p => v1 p) -> DL (fun _ p => v2 p) ->
      DL (fun s p => qm * (a (G (pos_of p) s) + (v1 p * b (G (pos_of p) s) + - (v2 p * c (G (pos_of p) s)))))).
    { intros a b c v1 v2 Ha Hb Hc H1 H2. apply (dl_mult (fun _ _ => qm)); [apply (dl_time (fun _ => qm)), blc|].
      apply (dl_plus (fun s p => a (G (pos_of p) s))); [apply HF, Ha|].
      apply (dl_plus (fun s p => v1 p * b (G (pos_of p) s)) (fun s p => - (v2 p * c (G (pos_of p) s)))).
      - apply (dl_mult (fun _ p => v1 p)); [exact H1|apply HF, Hb].
      - apply (Op (fun s p => v2 p * c (G (pos_of p) s))), (dl_mult (fun _ p => v2 p)); [exact H2|apply HF, Hc]. }
    each Hu.
    - exact Vx.
    - exact Vy.
    - apply (dl_plus (fun _ p => vz p) (fun _ _ => - c_SI)); [exact Vz|apply (dl_time (fun _ => - c_SI)), blc].
    - apply (Fo ex bz by_ vy vz); unfold components; cbn [In]; tauto || assumption.
    - apply (Fo ey bx bz vz vx); unfold components; cbn [In]; tauto || assumption.
    - apply (Fo ez by_ bx vx vy); unfold components; cbn [In]; tauto || assumption.
  Qed.
End Lin.
