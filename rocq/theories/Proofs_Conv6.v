(** Lemmas: the error of a particle along a whole tracking run. *)
From Coq Require Import Reals QArith Qreals String List Bool Arith ZArith Lia Lqa Lra.
From Coquelicot Require Import Coquelicot.
From Verif Require Proofs_Run.
From Verif Require Import Model_Push Spec_Push Proofs_Push Model_Bunch Spec_Bunch Proofs_Bunch
  Model_Tracker Spec_Tracker Proofs_Tracker Properties_Tracker Model_Run Spec_Run Proofs_Run Spec_Split Proofs_Split Proofs_Split2
  Spec_Conv Proofs_Conv Proofs_Conv2 Proofs_Conv3 Proofs_Conv4 Proofs_Conv5.
Import ListNotations.
Open Scope Q_scope.

(** As Proofs_Keep.along_any, for pushes of bounded length. *)
Section Along.
  Variables B F : Type.
  Variable evolve : F -> B -> Q -> Q -> B.
  Variable update : nat -> F -> list B -> F.
  Variable auto_dt : B -> Q.
  Variable copy : B -> B.
  Variable fs0 : F.
  Hypothesis Hupd : forall n f l, update n f l = f.
  Variable T d : Q.
  Variable P : Q -> B -> Prop.
  Hypothesis Pext : forall t t' b, t == t' -> P t b -> P t' b.
  Hypothesis Pstep : forall t t' h b, t' == t -> 0 <= t -> 0 <= h -> h <= d -> t + h <= T ->
    P t b -> P (t + h) (evolve fs0 b t' h).
  Definition short (p : Q * Q) : Prop := 0 <= snd p /\ fst p + snd p <= T /\ snd p <= d.

  Lemma replay_short i l : forall t0 t bs b, List.Forall short (Spec_Tracker.pushes i l) ->
    chain t0 (Spec_Tracker.pushes i l) t -> 0 <= t0 ->
    nth_error bs i = Some b -> P t0 b ->
    exists b', nth_error (snd (replay B F evolve update l (fs0, bs))) i = Some b' /\ P t b'.
  Proof.
    unfold replay. induction l as [|e l IH]; intros t0 t bs b Hs Hc H0 Hb HP.
    - cbn in *. inversion Hc; subst. exists b. split; [assumption|]. eapply Pext; eassumption.
    - cbn [fold_left]. destruct e as [k s h y|j s|s sn]; cbn [effect Spec_Tracker.pushes] in *.
      + destruct (nth_error bs k) as [bk|] eqn:Ek.
        * assert (Hk : (k < length bs)%nat) by (apply nth_error_Some; congruence).
          destruct (Nat.eqb_spec k i) as [->|Hne].
          -- inversion Hc as [|? ? ? ? ? Es Hc']; subst. inversion Hs as [|? ? (S1 & S2 & S3) Hs']; subst. cbn [fst snd] in *.
             apply (IH (t0 + h) t _ (evolve fs0 bk s h)).
             ++ assumption.
             ++ assumption.
             ++ Lqa.lra.
             ++ rewrite Proofs_Run.nth_error_replace_at, Nat.eqb_refl by assumption. reflexivity.
             ++ apply Pstep; try assumption; [Lqa.lra|congruence].
          -- apply (IH t0 t _ b); try assumption.
             rewrite Proofs_Run.nth_error_replace_at by assumption.
             destruct (Nat.eqb_spec i k); [congruence|assumption].
        * destruct (Nat.eqb_spec k i) as [->|Hne]; [congruence|].
          apply (IH t0 t _ b); assumption.
      + rewrite Hupd. apply (IH t0 t _ b); assumption.
      + apply (IH t0 t _ b); assumption.
  Qed.

  Variable c : config.
  Variable bs0 : list B.
  Hypothesis Hgood : good_config c bs0.
  Variable m : Q.
  Hypothesis Hauto : bounded_below auto_dt m.
  Hypothesis Hpb : c_push_before c = true.
  Hypothesis HT : c_tfinal c == T.

  Lemma along_short fuel s i b : steps_at_most auto_dt c i d ->
    do_tracking B F evolve update auto_dt copy exact fuel c bs0 fs0 = Done s ->
    nth_error bs0 i = Some b -> P 0 b ->
    (exists b', nth_error (bs s) i = Some b' /\ P T b') /\
    (exists o, nth_error (out s) i = Some o /\ length o = S (c_ndiags c) /\
       forall k, (k <= c_ndiags c)%nat ->
       exists b', nth_error o k = Some (copy b') /\
         P (inject_Z (Z.of_nat k) * (T / inject_Z (Z.of_nat (c_ndiags c)))) b').
  Proof.
    intros Hd H Hb HP.
    assert (Hi : (i < length bs0)%nat) by (apply nth_error_Some; congruence).
    pose proof (C03_pushes_tile_the_interval B F evolve update auto_dt copy c bs0 fs0 m fuel s i
                    Hgood Hauto H Hi Hpb) as (Hc & Hl & Hf & Ha).
    assert (Hs : List.Forall short (Spec_Tracker.pushes i (log s))).
    { assert (L : List.Forall (fun p => snd p <= d) (Spec_Tracker.pushes i (log s))).
      { unfold steps_at_most in Hd. destruct (nth_error (c_dtb c) i) as [[d'|]|] eqn:Ed; [|apply Ha; auto|contradiction].
        specialize (Hf d' eq_refl). rewrite Forall_forall in *. intros p Hp. specialize (Hf p Hp). cbn in Hf. Lqa.lra. }
      rewrite Forall_forall in *. intros p Hp. destruct (Hl p Hp) as [H1 H2]. split; [exact H1|].
      split; [rewrite <- HT; exact H2|apply L, Hp]. }
    split.
    - pose proof (C06_log_explains_state B F evolve update auto_dt copy c bs0 fs0 fuel s exact
                    Hgood H) as E.
      destruct (replay_short i (log s) 0 (c_tfinal c) bs0 b Hs Hc (Qle_refl 0) Hb HP) as (b' & E' & HP').
      exists b'. rewrite <- E in E'. split; [exact E'|]. eapply Pext; [exact HT|exact HP'].
    - pose proof (C05_one_output_list_per_bunch B F evolve update auto_dt copy c bs0 fs0 m fuel s
                    exact Hgood Hauto H) as [Lo _].
      destruct (nth_error (out s) i) as [o|] eqn:Eo; [|apply nth_error_None in Eo; lia].
      destruct (C05_outputs_are_synchronous B F evolve update auto_dt copy c bs0 fs0 m fuel s i o
                  Hgood Hauto H Hpb Eo) as [Ln Ho].
      exists o. split; [reflexivity|]. split; [exact Ln|]. intros k Hk.
      destruct (nth_error o k) as [x|] eqn:Ex; [|apply nth_error_None in Ex; lia].
      destruct (Ho k x Ex) as (l1 & t & sn & l2 & b0 & El & _ & Et & E0 & -> & Hc1).
      destruct (replay_short i l1 0 t bs0 b) as (b' & E' & HP').
      + rewrite El, pushes_app in Hs. apply Forall_app in Hs as [Hs _]. exact Hs.
      + exact Hc1.
      + apply Qle_refl.
      + exact Hb.
      + exact HP.
      + exists b'. split; [congruence|]. eapply Pext; [|exact HP']. rewrite Et, HT. reflexivity.
  Qed.
End Along.

Lemma Q2R_0' : Q2R 0 = 0%R.
Proof. unfold Q2R. cbn. lra. Qed.

(** The particle number [j] of a bunch is near [Y]. *)
Definition near (q m : R) (Y : R -> part) (e : R -> R) (j : nat) (t : Q) (b : tracked) : Prop :=
  ready b /\ z_injection (snd b) = None /\ q_species (snd b) = q /\ m_species (snd b) = m /\
  exists p, nth_error (particles (fst b) (snd b)) j = Some p /\ (pdist p (Y (Q2R t)) <= e (Q2R t))%R.

Lemma near_step pusher fields G q m Y e j (T d : Q) : known pusher -> gathers fields G ->
  (forall t h p, 0 <= h <= Q2R d -> 0 <= t -> t + h <= Q2R T -> pdist p (Y t) <= e t ->
    pdist (push1 pusher q m G t h p) (Y (t + h)) <= e (t + h))%R ->
  forall t t' h b, t' == t -> 0 <= t -> 0 <= h -> h <= d -> t + h <= T ->
  near q m Y e j t b -> near q m Y e j (t + h) (evolve_tracked pusher fields b t' h).
Proof.
  intros K HG Hp t t' h b Et H0 Hh Hd HT (Hr & Hz & Hq & Hm & p & Ep & Dp).
  destruct (evolve_view pusher fields G b t' h K HG Hr) as (fs & G' & A & _ & _ & Rr & V).
  unfold acting in A. rewrite Hz in A. injection A as <-.
  cbv zeta in Rr, V. set (r := evolve_tracked pusher fields b t' h) in *.
  rewrite (fresh_push1 pusher _ _ fields G _ _ _ K HG), Hq, Hm in V.
  unfold view, seen, contents in V. injection V as V1 V2 V3 V4 V5 V6.
  split; [exact Rr|]. split; [congruence|]. split; [congruence|]. split; [congruence|].
  rewrite V1.
  exists (push1 pusher q m G (Q2R t') (Q2R h) p). split; [apply map_nth_error, Ep|].
  rewrite (Qeq_eqR _ _ Et), Q2R_plus. apply Qle_Rle in H0, Hh, Hd, HT. rewrite Q2R_0' in H0, Hh. rewrite Q2R_plus in HT.
  apply Hp; try assumption. split; assumption.
Qed.

Open Scope R_scope.
Lemma pdist_sym p q : pdist p q = pdist q p.
Proof.
  unfold pdist. rewrite (Rabs_minus_sym (x p)), (Rabs_minus_sym (y p)), (Rabs_minus_sym (xi p)),
    (Rabs_minus_sym (px p)), (Rabs_minus_sym (py p)), (Rabs_minus_sym (pz p)). reflexivity.
Qed.
Lemma pdist_zero p q : pdist p q <= 0 -> p = q.
Proof.
  unfold pdist. intros H.
  assert (Z : forall a, Rabs a <= 0 -> a = 0).
  { intros a Ha. unfold Rabs in Ha. destruct (Rcase_abs a); lra. }
  pose proof (Rabs_pos (x p - x q)). pose proof (Rabs_pos (y p - y q)). pose proof (Rabs_pos (xi p - xi q)).
  pose proof (Rabs_pos (px p - px q)). pose proof (Rabs_pos (py p - py q)). pose proof (Rabs_pos (pz p - pz q)).
  apply Proofs_Split2.part_eq; apply Rminus_diag_uniq, Z; lra.
Qed.

(** Fields linear in position and time. *)
Definition affine (f : pos -> R -> R) : Prop :=
  exists a b c d e, forall r t, f r t = a * fst (fst r) + b * snd (fst r) + c * snd r + d * t + e.
Lemma affine_lip f : affine f -> exists L, 0 <= L /\ forall r r' t t', Rabs (f r t - f r' t') <= L * (rdist r r' + Rabs (t - t')).
Proof.
  intros (a & b & c & d & e & E). exists (Rabs a + Rabs b + Rabs c + Rabs d).
  pose proof (Rabs_pos a). pose proof (Rabs_pos b). pose proof (Rabs_pos c). pose proof (Rabs_pos d).
  split; [lra|]. intros r r' t t'. rewrite !E. unfold rdist.
  set (u1 := fst (fst r) - fst (fst r')). set (u2 := snd (fst r) - snd (fst r')). set (u3 := snd r - snd r'). set (u4 := t - t').
  replace (a * fst (fst r) + b * snd (fst r) + c * snd r + d * t + e -
           (a * fst (fst r') + b * snd (fst r') + c * snd r' + d * t' + e)) with (a * u1 + b * u2 + c * u3 + d * u4)
    by (unfold u1, u2, u3, u4; ring).
  pose proof (Rabs_pos u1). pose proof (Rabs_pos u2). pose proof (Rabs_pos u3). pose proof (Rabs_pos u4).
  apply Rle_trans with (Rabs a * Rabs u1 + Rabs b * Rabs u2 + Rabs c * Rabs u3 + Rabs d * Rabs u4).
  - rewrite <- !Rabs_mult. eapply Rle_trans; [apply Rabs_triang|]. apply Rplus_le_compat_r.
    eapply Rle_trans; [apply Rabs_triang|]. apply Rplus_le_compat_r. apply Rabs_triang.
  - set (S := Rabs u1 + Rabs u2 + Rabs u3 + Rabs u4).
    assert (Hm : forall k u, 0 <= k -> u <= S -> k * u <= k * S) by (intros; apply Rmult_le_compat_l; assumption).
    pose proof (Hm (Rabs a) (Rabs u1)). pose proof (Hm (Rabs b) (Rabs u2)). pose proof (Hm (Rabs c) (Rabs u3)). pose proof (Hm (Rabs d) (Rabs u4)).
    assert (Rabs u1 <= S /\ Rabs u2 <= S /\ Rabs u3 <= S /\ Rabs u4 <= S) as (? & ? & ? & ?) by (unfold S; repeat split; lra).
    replace ((Rabs a + Rabs b + Rabs c + Rabs d) * (Rabs u1 + Rabs u2 + Rabs u3 + Rabs u4)) with
      (Rabs a * S + Rabs b * S + Rabs c * S + Rabs d * S) by (unfold S; ring).
    intuition lra.
Qed.
Lemma affine_regular w T G : affine (fun r t => ex (G r t)) -> affine (fun r t => ey (G r t)) -> affine (fun r t => ez (G r t)) ->
  affine (fun r t => bx (G r t)) -> affine (fun r t => by_ (G r t)) -> affine (fun r t => bz (G r t)) -> regular w T G.
Proof.
  intros A1 A2 A3 A4 A5 A6.
  destruct (affine_lip _ A1) as (L1 & P1 & H1). destruct (affine_lip _ A2) as (L2 & P2 & H2). destruct (affine_lip _ A3) as (L3 & P3 & H3).
  destruct (affine_lip _ A4) as (L4 & P4 & H4). destruct (affine_lip _ A5) as (L5 & P5 & H5). destruct (affine_lip _ A6) as (L6 & P6 & H6).
  exists (L1 + L2 + L3 + L4 + L5 + L6). split; [lra|]. intros r r' t t' _ _ _ _. unfold em_dist.
  specialize (H1 r r' t t'). specialize (H2 r r' t t'). specialize (H3 r r' t t').
  specialize (H4 r r' t t'). specialize (H5 r r' t t'). specialize (H6 r r' t t'). cbv beta in *. lra.
Qed.

Lemma above_any a : exists n : nat, a < INR n.
Proof.
  destruct (archimed (Rabs a)) as [H _]. exists (Z.to_nat (up (Rabs a))).
  assert (Z0 : (0 <= up (Rabs a))%Z).
  { apply le_IZR. pose proof (Rabs_pos a). lra. }
  rewrite INR_IZR_INZ, Z2Nat.id by exact Z0. pose proof (Rle_abs a). lra.
Qed.
