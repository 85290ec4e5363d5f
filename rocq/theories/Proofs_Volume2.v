(** Lemmas: gradients of functions of the coordinates of a particle. *)
From Coq Require Import Reals List Lra.
From Coquelicot Require Import Coquelicot.
From Verif Require Import Model_Push Spec_Push Spec_Conv Proofs_Conv Proofs_Conv2 Spec_Volume Proofs_Volume.
Import ListNotations.
Open Scope R_scope.

Section At.
  Variable p : part.
  Definition small (f : part -> R) : Prop := forall eps, 0 < eps -> exists d, 0 < d /\ forall p', pdist p' p <= d -> Rabs (f p') <= eps * pdist p' p.
  Definition big (f : part -> R) : Prop := exists B d, 0 < B /\ 0 < d /\ forall p', pdist p' p <= d -> Rabs (f p') <= B * pdist p' p.
  Lemma small_ext f g : (forall p', f p' = g p') -> small f -> small g.
  Proof. intros E H eps He. destruct (H eps He) as (d & d0 & Hd). exists d. split; [exact d0|]. intros p' Hp. rewrite <- E. apply Hd, Hp. Qed.
  Lemma small_plus f g : small f -> small g -> small (fun p' => f p' + g p').
  Proof.
    intros H K eps He. destruct (H (eps / 2) ltac:(lra)) as (d & d0 & Hd). destruct (K (eps / 2) ltac:(lra)) as (e & e0 & Hk).
    exists (Rmin d e). split; [apply Rmin_pos; assumption|]. intros p' Hp.
    pose proof (Rmin_l d e). pose proof (Rmin_r d e). specialize (Hd p' ltac:(lra)). specialize (Hk p' ltac:(lra)).
    eapply Rle_trans; [apply Rabs_triang|]. lra.
  Qed.
  Lemma small_scal k f : small f -> small (fun p' => k * f p').
  Proof.
    intros H eps He. assert (A : 0 < Rabs k + 1) by (pose proof (Rabs_pos k); lra).
    destruct (H (eps / (Rabs k + 1)) ltac:(apply Rdiv_lt_0_compat; lra)) as (d & d0 & Hd). exists d. split; [exact d0|]. intros p' Hp.
    specialize (Hd p' Hp). rewrite Rabs_mult. pose proof (Rabs_pos k). pose proof (pdist_pos p' p).
    apply Rle_trans with ((Rabs k + 1) * (eps / (Rabs k + 1) * pdist p' p)); [|right; field; lra].
    apply Rmult_le_compat; try apply Rabs_pos; lra.
  Qed.
  Lemma big_times f g : big f -> big g -> small (fun p' => f p' * g p').
  Proof.
    intros (A & d & A0 & d0 & H) (B & e & B0 & e0 & K) eps He. set (t := eps / (A * B)).
    assert (AB : 0 < A * B) by (apply Rmult_lt_0_compat; assumption). assert (t0 : 0 < t) by (apply Rdiv_lt_0_compat; assumption).
    exists (Rmin t (Rmin d e)). split; [repeat apply Rmin_pos; assumption|]. intros p' Hp.
    pose proof (Rmin_l t (Rmin d e)). pose proof (Rmin_r t (Rmin d e)). pose proof (Rmin_l d e). pose proof (Rmin_r d e).
    specialize (H p' ltac:(lra)). specialize (K p' ltac:(lra)). rewrite Rabs_mult. pose proof (pdist_pos p' p) as P.
    apply Rle_trans with (A * pdist p' p * (B * pdist p' p)); [apply Rmult_le_compat; try apply Rabs_pos; assumption|].
    replace (A * pdist p' p * (B * pdist p' p)) with (A * B * pdist p' p * pdist p' p) by ring. apply Rmult_le_compat_r; [exact P|].
    apply Rle_trans with (A * B * t); [apply Rmult_le_compat_l; lra|]. unfold t. right. field. split; apply Rgt_not_eq; assumption.
  Qed.
  Lemma big_sum f g : big f -> big g -> big (fun p' => f p' + g p').
  Proof.
    intros (A & d & A0 & d0 & H) (B & e & B0 & e0 & K). exists (A + B), (Rmin d e). split; [lra|]. split; [apply Rmin_pos; assumption|].
    intros p' Hp. pose proof (Rmin_l d e). pose proof (Rmin_r d e). specialize (H p' ltac:(lra)). specialize (K p' ltac:(lra)).
    eapply Rle_trans; [apply Rabs_triang|]. lra.
  Qed.
  Lemma big_abs' f : big f -> big (fun p' => Rabs (f p')).
  Proof. intros (A & d & A0 & d0 & H). exists A, d. do 2 (split; [assumption|]). intros p' Hp. rewrite Rabs_Rabsolu. apply H, Hp. Qed.
  Lemma small_of_big f (rem : part -> R) : big f -> (forall eps, 0 < eps -> exists a, 0 < a /\ forall p', Rabs (f p') <= a -> Rabs (rem p') <= eps * Rabs (f p')) -> small rem.
  Proof.
    intros (B & d & B0 & d0 & H) K eps He. destruct (K (eps / B) ltac:(apply Rdiv_lt_0_compat; assumption)) as (a & a0 & Ha).
    exists (Rmin d (a / B)). split; [apply Rmin_pos; [exact d0|apply Rdiv_lt_0_compat; assumption]|]. intros p' Hp.
    pose proof (Rmin_l d (a / B)). pose proof (Rmin_r d (a / B)). specialize (H p' ltac:(lra)).
    eapply Rle_trans; [apply Ha|].
    - eapply Rle_trans; [exact H|]. apply Rle_trans with (B * (a / B)); [apply Rmult_le_compat_l; lra|right; field; lra].
    - apply Rle_trans with (eps / B * (B * pdist p' p)); [apply Rmult_le_compat_l; [left; apply Rdiv_lt_0_compat; assumption|exact H]|right; field; lra].
  Qed.

  Notation gr phi j := (gradient phi p j).
  Lemma gr_small phi j : gr phi j <-> small (fun p' => phi p' - phi p - scalar j p p').
  Proof. unfold gradient, small. tauto. Qed.
  Lemma scalar_plus j j' k p' : scalar (j <+> k <*> j') p p' = scalar j p p' + k * scalar j' p p'.
  Proof. unfold scalar, padd, pscal. cbn [x y xi px py pz]. ring. Qed.
  Lemma coord_big k u : In u coords -> big (fun p' => k * (u p' - u p)).
  Proof.
    intros Hu. exists (Rabs k + 1), 1. pose proof (Rabs_pos k). split; [lra|]. split; [lra|]. intros p' _. rewrite Rabs_mult.
    pose proof (coord_le u p' p Hu). apply Rmult_le_compat; try apply Rabs_pos; lra.
  Qed.
  Lemma scalar_big j : big (fun p' => scalar j p p').
  Proof.
    unfold scalar. repeat (match goal with |- big (fun p' => @?f p' + @?g p') => apply (big_sum f g) end);
      [apply (coord_big _ x)|apply (coord_big _ y)|apply (coord_big _ xi)|apply (coord_big _ px)|apply (coord_big _ py)|apply (coord_big _ pz)];
      unfold coords; cbn [In]; tauto.
  Qed.
  Lemma small_big f : small f -> big f.
  Proof. intros H. destruct (H 1 ltac:(lra)) as (d & d0 & Hd). exists 1, d. split; [lra|]. split; assumption. Qed.
  Lemma big_ext' f g : (forall p', f p' = g p') -> big f -> big g.
  Proof. intros E (B & d & B0 & d0 & H). exists B, d. do 2 (split; [assumption|]). intros p' Hp. rewrite <- E. apply H, Hp. Qed.
  Lemma gr_big phi j : gr phi j -> big (fun p' => phi p' - phi p).
  Proof.
    intros H. apply (big_ext' (fun p' => (phi p' - phi p - scalar j p p') + scalar j p p')); [intros; ring|].
    apply big_sum; [apply small_big, H|apply scalar_big].
  Qed.

  Lemma gr_ext phi psi j : (forall p', phi p' = psi p') -> gr phi j -> gr psi j.
  Proof. intros E H. apply (small_ext (fun p' => phi p' - phi p - scalar j p p')); [intros; rewrite !E; reflexivity|exact H]. Qed.
  Lemma gr_coord phi : In phi coords -> exists j, gr phi j /\ forall u, In u coords -> (u = phi /\ u j = 1) \/ u j = 0.
  Proof.
    intros H. assert (E : forall j, (forall p', phi p' - phi p = scalar j p p') -> gr phi j).
    { intros j E. apply (small_ext (fun _ => 0)); [intros p'; rewrite E; ring|]. intros eps He. exists 1. split; [lra|]. intros p' _.
      rewrite Rabs_R0. apply Rmult_le_pos; [lra|apply pdist_pos]. }
    unfold scalar in E.
    each H; [exists (mkp 1 0 0 0 0 0)|exists (mkp 0 1 0 0 0 0)|exists (mkp 0 0 1 0 0 0)|exists (mkp 0 0 0 1 0 0)
        |exists (mkp 0 0 0 0 1 0)|exists (mkp 0 0 0 0 0 1)]; (split; [apply E; intros p'; cbn [x y xi px py pz]; ring|]);
      intros u Hu; each Hu; cbn [x y xi px py pz]; auto.
  Qed.
  Lemma gr_const k : gr (fun _ => k) Z.
  Proof.
    apply (small_ext (fun _ => 0)); [intros p'; unfold scalar, Z; cbn [x y xi px py pz]; ring|]. intros eps He. exists 1. split; [lra|]. intros p' _.
    rewrite Rabs_R0. apply Rmult_le_pos; [lra|apply pdist_pos].
  Qed.
  Lemma gr_plus phi psi j j' : gr phi j -> gr psi j' -> gr (fun p' => phi p' + psi p') (j <+> 1 <*> j').
  Proof.
    intros H K. apply (small_ext (fun p' => (phi p' - phi p - scalar j p p') + (psi p' - psi p - scalar j' p p'))).
    - intros p'. rewrite scalar_plus. ring.
    - apply small_plus; assumption.
  Qed.
  Lemma gr_mult phi psi j j' : gr phi j -> gr psi j' -> gr (fun p' => phi p' * psi p') ((Z <+> psi p <*> j) <+> phi p <*> j').
  Proof.
    intros H K. apply (small_ext (fun p' => (psi p * (phi p' - phi p - scalar j p p') + phi p * (psi p' - psi p - scalar j' p p'))
      + (phi p' - phi p) * (psi p' - psi p))).
    - intros p'. rewrite !scalar_plus. unfold scalar at 3. unfold Z. cbn [x y xi px py pz]. ring.
    - apply small_plus; [apply small_plus; apply small_scal; assumption|]. apply big_times; eapply gr_big; eassumption.
  Qed.
  Lemma gr_comp g l phi j : is_derive g (phi p) l -> gr phi j -> gr (fun p' => g (phi p')) (Z <+> l <*> j).
  Proof.
    intros D1 H. apply (small_ext (fun p' => (g (phi p') - g (phi p) - l * (phi p' - phi p)) + l * (phi p' - phi p - scalar j p p'))).
    - intros p'. rewrite scalar_plus. unfold scalar at 2. unfold Z. cbn [x y xi px py pz]. ring.
    - apply small_plus; [|apply small_scal, H]. apply (small_of_big (fun p' => phi p' - phi p)); [eapply gr_big, H|].
      intros eps He. apply is_derive_Reals in D1. destruct (D1 eps He) as (d & Hd). exists (d / 2). pose proof (cond_pos d) as d0.
      split; [lra|]. intros p' Hp. set (h := phi p' - phi p) in *.
      destruct (Req_dec h 0) as [E|N].
      + rewrite E. replace (phi p') with (phi p) by (unfold h in E; lra). rewrite Rmult_0_r, Rminus_0_r, Rminus_eq_0, Rabs_R0. lra.
      + specialize (Hd h N ltac:(lra)). assert (Eh : phi p + h = phi p') by (unfold h; ring). rewrite Eh in Hd.
        replace (g (phi p') - g (phi p) - l * h) with (((g (phi p') - g (phi p)) / h - l) * h) by (field; exact N).
        rewrite Rabs_mult. apply Rmult_le_compat_r; [apply Rabs_pos|lra].
  Qed.
  Lemma gr_field G s e F j1 j2 j3 : differentiable G s -> In e [ex; ey; ez; bx; by_; bz] ->
    gr (fun p' => x (F p')) j1 -> gr (fun p' => y (F p')) j2 -> gr (fun p' => xi (F p')) j3 ->
    exists d1 d2 d3, gr (fun p' => e (G (pos_of (F p')) s)) (Z <+> d1 <*> j1 <+> d2 <*> j2 <+> d3 <*> j3).
  Proof.
    intros HG He H1 H2 H3. destruct (HG (pos_of (F p)) e He) as (d & Hd). exists (fst (fst d)), (snd (fst d)), (snd d).
    set (r := pos_of (F p)). set (r' := fun p' => pos_of (F p')).
    apply (small_ext (fun p' => (e (G (r' p') s) - e (G r s) - inner d r (r' p')) +
      (fst (fst d) * (x (F p') - x (F p) - scalar j1 p p') + (snd (fst d) * (y (F p') - y (F p) - scalar j2 p p')
        + snd d * (xi (F p') - xi (F p) - scalar j3 p p'))))).
    - intros p'. rewrite !scalar_plus. unfold inner, r, r', pos_of. cbn [fst snd]. unfold scalar at 4. unfold Z. cbn [x y xi px py pz]. ring.
    - apply small_plus; [|apply small_plus; [|apply small_plus]; apply small_scal; assumption].
      apply (small_of_big (fun p' => rdist (r' p') r)).
      + unfold rdist, r', r, pos_of. cbn [fst snd].
        apply (big_sum (fun p' => Rabs (x (F p') - x (F p)) + Rabs (y (F p') - y (F p)))); [apply big_sum|];
          apply big_abs'; [eapply (gr_big (fun p' => x (F p'))), H1|eapply (gr_big (fun p' => y (F p'))), H2|eapply (gr_big (fun p' => xi (F p'))), H3].
      + intros eps E0. destruct (Hd eps E0) as (a & a0 & Ha). exists a. split; [exact a0|]. intros p' Hp.
        assert (P : 0 <= rdist (r' p') r) by (unfold rdist; repeat apply Rplus_le_le_0_compat; apply Rabs_pos).
        rewrite (Rabs_right (rdist (r' p') r)) in * by lra. apply Ha, Hp.
  Qed.
End At.
