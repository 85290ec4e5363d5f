(** Lemmas: fixed steps that fit between the outputs. *)
From Coq Require Import Reals QArith Qreals String List Bool Arith ZArith Lia Lqa Lra.
From Verif Require Import Model_Push Spec_Push Proofs_Push Model_Bunch Spec_Bunch Proofs_Bunch
  Model_Tracker Spec_Tracker Proofs_Tracker Properties_Tracker Model_Run Spec_Run Proofs_Run Spec_Split.
Import ListNotations.
Open Scope Q_scope.

(** Every push before an output ends at the time of an output. *)
Section Sync.
  Variables B F : Type.
  Variable evolve : F -> B -> Q -> Q -> B.
  Variable update : nat -> F -> list B -> F.
  Variable auto_dt : B -> Q.
  Variable copy : B -> B.
  Variable rnd : Q -> Q.
  Hypothesis rnd_mono : monotone rnd.
  Variable c : config.
  Variable bs0 : list B.
  Variable fs0 : F.
  Hypothesis Hgood : good_config c bs0.
  Variable m : Q.
  Hypothesis Hauto : bounded_below auto_dt m.
  Notation state := (Model_Tracker.state B F).

  Definition sync_ends (s : state) : Prop := forall i t x, In (EPush i t x true) (log s) ->
    exists tn, In tn (diag_times (log s)) /\ tn == t + x.

  Lemma sync_ends_more (l l' : list (event B)) :
    (forall i t x, In (EPush i t x true) l -> exists tn, In tn (diag_times l) /\ tn == t + x) ->
    (forall i t x, In (EPush i t x true) l' -> exists tn, In tn (diag_times l') /\ tn == t + x) ->
    forall i t x, In (EPush i t x true) (l ++ l') -> exists tn, In tn (diag_times (l ++ l')) /\ tn == t + x.
  Proof.
    intros H H' i t x Hin. rewrite diag_times_app. apply in_app_iff in Hin as [Hin|Hin].
    - destruct (H i t x Hin) as (tn & I & E). exists tn. split; [apply in_app_iff; left; exact I|exact E].
    - destruct (H' i t x Hin) as (tn & I & E). exists tn. split; [apply in_app_iff; right; exact I|exact E].
  Qed.

  Lemma step_sync_ends now s s' : Inv B F auto_dt rnd c bs0 now s -> sync_ends s ->
    step B F evolve update auto_dt copy rnd c s = Continue s' -> sync_ends s'.
  Proof.
    intros H HS Hs. apply step_inv in Hs; [|apply H].
    destruct Hs as [i tn Hi Ht Hmin Hfst Hf|j tn Hj Ht Hmin Hfst Hf|tn Hdg Ht Hmin Hfst Hf].
    - unfold sync_ends. rewrite push_log by (apply H || assumption). apply sync_ends_more; [exact HS|].
      intros i' t x [E|[]]. discriminate.
    - unfold sync_ends. cbn [log Model_Tracker.advance Model_Tracker.update_field]. apply sync_ends_more; [exact HS|].
      intros i' t x [E|[]]. discriminate.
    - assert (Hj' : (nb c + nf c < nobj c)%nat).
      { unfold nobj. rewrite objects_length. apply Nat.ltb_lt in Hdg. rewrite Hdg. unfold nb, nf in *. lia. }
      assert (Hn : rnd now <= rnd tn) by (subst tn; apply (I_nx _ _ _ _ _ _ _ _ H); assumption).
      assert (H' : Inv B F auto_dt rnd c bs0 tn s) by (eapply Inv_later; eassumption).
      destruct (sync_spec B F evolve auto_dt rnd rnd_mono c bs0 m Hauto (nb c) tn s H' (Nat.le_refl _)) as (J1 & J2 & J3 & J4).
      unfold sync_ends. cbn [log Model_Tracker.advance Model_Tracker.generate_diagnostics].
      destruct (c_push_before c).
      + rewrite J4, <- app_assoc. apply sync_ends_more; [exact HS|]. intros i t x Hin.
        exists tn. rewrite diag_times_app. split; [apply in_app_iff; right; left; reflexivity|].
        apply in_app_iff in Hin as [Hin|[E|[]]]; [|discriminate].
        apply in_map_iff in Hin as (k & E & _). injection E as <- <- <-. Lqa.lra.
      + apply sync_ends_more; [exact HS|]. intros i t x [E|[]]. discriminate.
  Qed.
  Lemma loop_sync_ends fuel : forall now s s', Inv B F auto_dt rnd c bs0 now s -> begun B F c s -> sync_ends s ->
    loop B F evolve update auto_dt copy rnd fuel c s = Done s' -> sync_ends s'.
  Proof.
    induction fuel as [|fuel IH]; intros now s s' H Hb HS Hl; cbn [Model_Tracker.loop] in Hl; [discriminate|].
    destruct (step B F evolve update auto_dt copy rnd c s) as [s1|s1|e s1] eqn:E.
    - destruct (step_Inv B F evolve update auto_dt copy rnd rnd_mono c bs0 m Hauto now s s1 H Hb E) as (Hb' & now' & _ & H').
      apply (IH now' s1 s' H' Hb' (step_sync_ends now s s1 H HS E) Hl).
    - injection Hl as ->. destruct (step_done B F evolve update auto_dt copy rnd c s s' (I_wf _ _ _ _ _ _ _ _ H) E) as [-> _]. exact HS.
    - discriminate.
  Qed.
  Lemma run_sync_ends fuel s : do_tracking B F evolve update auto_dt copy rnd fuel c bs0 fs0 = Done s -> sync_ends s.
  Proof.
    intros H. apply tracking_cases in H as [Hdg H].
    eapply loop_sync_ends; [apply (initial_Inv B F update auto_dt copy rnd rnd_mono c bs0 fs0 Hgood m Hauto)|apply initial_begun| |exact H].
    intros i t x Hin. exfalso. rewrite init_log in Hin. apply in_app_iff in Hin as [Hin|Hin].
    - apply in_map_iff in Hin as (k & E & _). discriminate.
    - destruct (Nat.ltb 0 (c_ndiags c)); [destruct Hin as [E|[]]; discriminate|destruct Hin].
  Qed.
End Sync.

(** Lengths of the pushes. *)
Lemma times_S n d : times (S n) d == times n d + d.
Proof. unfold times. rewrite Nat2Z.inj_succ. unfold Z.succ. rewrite inject_Z_plus. ring. Qed.
Lemma times_mul n k d : times n (times k d) == times (n * k) d.
Proof. unfold times. rewrite Nat2Z.inj_mul, inject_Z_mult. ring. Qed.
Lemma times_0 d : times 0 d == 0.
Proof. unfold times. cbn [Z.of_nat]. ring. Qed.
Lemma times_inj a b d : 0 < d -> times a d == times b d -> a = b.
Proof.
  unfold times. intros Hd E. apply Qmult_inj_r in E; [|intros E0; rewrite E0 in Hd; apply (Qlt_irrefl 0), Hd].
  unfold Qeq in E. cbn in E. lia.
Qed.
Lemma grid_step (j e : nat) d x : 0 < d -> 0 <= x <= d -> times j d + x == times e d -> x == 0 \/ x == d.
Proof.
  unfold times. intros Hd [H0 H1] E.
  assert (E' : x == inject_Z (Z.of_nat e - Z.of_nat j) * d).
  { unfold Z.sub. rewrite inject_Z_plus, inject_Z_opp. Lqa.lra. }
  set (z := (Z.of_nat e - Z.of_nat j)%Z) in *.
  assert (Hz : (0 <= z <= 1)%Z).
  { rewrite E' in H0, H1. split; apply Z.nlt_ge; intros L.
    - assert (L' : inject_Z z <= inject_Z (-1)) by (rewrite <- Zle_Qle; lia).
      assert (inject_Z z * d <= inject_Z (-1) * d) by (apply Qmult_le_compat_r; [exact L'|Lqa.lra]).
      change (inject_Z (-1)) with (-(1))%Q in *. Lqa.lra.
    - assert (L' : inject_Z 2 <= inject_Z z) by (rewrite <- Zle_Qle; lia).
      assert (inject_Z 2 * d <= inject_Z z * d) by (apply Qmult_le_compat_r; [exact L'|Lqa.lra]).
      change (inject_Z 2) with 2%Q in *. Lqa.lra. }
  assert (z = 0 \/ z = 1)%Z as [Ez|Ez] by lia; rewrite Ez in E'; [left|right]; rewrite E'.
  - change (inject_Z 0) with 0%Q. ring.
  - change (inject_Z 1) with 1%Q. ring.
Qed.

Lemma pushes_in {B} i (l : list (event B)) t x : In (t, x) (Spec_Tracker.pushes i l) ->
  exists y, In (EPush i t x y) l.
Proof.
  induction l as [|e l IH]; cbn [Spec_Tracker.pushes]; [intros []|].
  destruct e as [k s d y|j s|s sn]; intros H.
  - destruct (Nat.eqb_spec k i) as [->|N].
    + destruct H as [E|H]; [injection E as -> ->; exists y; left; reflexivity|].
      destruct (IH H) as [y' I]. exists y'. right. exact I.
    + destruct (IH H) as [y' I]. exists y'. right. exact I.
  - destruct (IH H) as [y' I]. exists y'. right. exact I.
  - destruct (IH H) as [y' I]. exists y'. right. exact I.
Qed.
Lemma in_pushes {B} i (l : list (event B)) t x y : In (EPush i t x y) l -> In (t, x) (Spec_Tracker.pushes i l).
Proof.
  induction l as [|e l IH]; [intros []|]. intros [E|H].
  - rewrite E. cbn [Spec_Tracker.pushes]. rewrite Nat.eqb_refl. left. reflexivity.
  - specialize (IH H). cbn [Spec_Tracker.pushes]. destruct e as [k s d z|j s|s sn]; try exact IH.
    destruct (Nat.eqb k i); [right; exact IH|exact IH].
Qed.

Definition on_grid (d : Q) (l : list (Q * Q)) : Prop :=
  forall t x j, In (t, x) l -> t == times j d -> x == 0 \/ x == d.

Lemma grid_pushes d : forall l (j e : nat), 0 < d -> on_grid d l -> chain (times j d) l (times e d) ->
  (j + length (real_pushes l) = e)%nat /\
  (forall k t x, nth_error (real_pushes l) k = Some (t, x) -> t == times (j + k) d /\ x == d) /\
  forall t x, In (t, x) l -> x == 0 \/ x == d.
Proof.
  induction l as [|[t x] l IH]; intros j e Hd Hg Hc.
  - inversion Hc; subst. cbn. split; [|split].
    + rewrite Nat.add_0_r. apply (times_inj _ _ d Hd). assumption.
    + intros [|k] t x; discriminate.
    + intros t x [].
  - inversion Hc as [|? ? ? ? ? Et Hc']; subst.
    assert (Hx : x == 0 \/ x == d) by (apply (Hg t x j); [left; reflexivity|exact Et]).
    assert (Hg' : on_grid d l) by (intros t' x' j' I; apply Hg; right; exact I).
    unfold real_pushes. cbn [filter snd].
    destruct (Qeq_bool x 0) eqn:Q0; cbn [negb].
    + apply Qeq_bool_iff in Q0.
      destruct (IH j e Hd Hg') as (L & N & A).
      { eapply chain_ext; [| |exact Hc']; [rewrite Q0; ring|reflexivity]. }
      split; [exact L|]. split; [exact N|]. intros t' x' [E|I]; [injection E as <- <-; exact Hx|apply (A t' x' I)].
    + assert (Hxd : x == d).
      { destruct Hx as [Hx|Hx]; [|exact Hx]. apply Qeq_bool_iff in Hx. congruence. }
      destruct (IH (S j) e Hd Hg') as (L & N & A).
      { eapply chain_ext; [| |exact Hc']; [rewrite Hxd, times_S; reflexivity|reflexivity]. }
      split; [cbn [length]; unfold real_pushes in L; lia|]. split.
      * intros [|k] t' x' E.
        -- cbn in E. injection E as <- <-. rewrite Nat.add_0_r. split; assumption.
        -- cbn [nth_error] in E. destruct (N k t' x' E) as [N1 N2]. split; [|exact N2].
           rewrite N1. replace (j + S k)%nat with (S j + k)%nat by lia. reflexivity.
      * intros t' x' [E|I]; [injection E as <- <-; exact Hx|apply (A t' x' I)].
Qed.

Section Fixed.
  Variables B F : Type.
  Variable evolve : F -> B -> Q -> Q -> B.
  Variable update : nat -> F -> list B -> F.
  Variable auto_dt : B -> Q.
  Variable copy : B -> B.
  Variable c : config.
  Variable bs0 : list B.
  Variable fs0 : F.
  Hypothesis Hgood : good_config c bs0.
  Variable m : Q.
  Hypothesis Hauto : bounded_below auto_dt m.
  Hypothesis Hpb : c_push_before c = true.
  Variables (fuel : nat) (s : Model_Tracker.state B F).
  Hypothesis Hrun : do_tracking B F evolve update auto_dt copy exact fuel c bs0 fs0 = Done s.
  Variables (i : nat) (d : Q) (k : nat).
  Hypothesis Hi : (i < length bs0)%nat.
  Hypothesis Hd : nth_error (c_dtb c) i = Some (Some d).
  Hypothesis Hk : c_tfinal c / inject_Z (Z.of_nat (c_ndiags c)) == times k d.

  Lemma d_pos : 0 < d.
  Proof. destruct Hgood as (_ & _ & G & _). apply (G d). eapply nth_error_In, Hd. Qed.
  Lemma n_pos : (0 < c_ndiags c)%nat.
  Proof. apply tracking_cases in Hrun as [H _]. exact H. Qed.
  Lemma final_time : c_tfinal c == times (c_ndiags c * k) d.
  Proof.
    rewrite <- times_mul. unfold times at 1. rewrite <- Hk. field.
    clear Hi. intros E. pose proof n_pos. unfold Qeq in E. cbn in E. lia.
  Qed.
  Lemma push_on_grid : on_grid d (Spec_Tracker.pushes i (log s)).
  Proof.
    intros t x j I Et.
    pose proof (C03_pushes_tile_the_interval B F evolve update auto_dt copy c bs0 fs0 m fuel s i Hgood Hauto Hrun Hi Hpb)
      as (_ & Hb & Hl & _).
    rewrite Forall_forall in Hb. pose proof (Hb _ I) as [L0 _]. cbn [fst snd] in *.
    pose proof (Hl d Hd) as H1. rewrite Forall_forall in H1. pose proof (H1 _ I) as L1. cbn [fst snd] in L1.
    destruct (pushes_in _ _ _ _ I) as [y Iy]. destruct y.
    - destruct (run_sync_ends B F evolve update auto_dt copy exact exact_mono c bs0 fs0 Hgood m Hauto fuel s Hrun i t x Iy)
        as (tn & It & En).
      pose proof (C04_output_times B F evolve update auto_dt copy c bs0 fs0 m fuel s Hgood Hauto Hrun) as [_ M].
      apply In_nth_error in It as [q Eq]. specialize (M q tn Eq).
      apply (grid_step j (q * k) d x d_pos (conj L0 L1)). rewrite <- times_mul, <- Et, <- En. unfold times at 1.
      rewrite <- Hk. exact M.
    - apply in_split in Iy as (l1 & l2 & El).
      destruct (C03_own_steps_have_requested_length B F evolve update auto_dt copy c bs0 fs0 m fuel s l1 i t x l2 Hgood Hauto Hrun El)
        as (b & _ & Hx).
      cbv zeta in Hx. rewrite Hd in Hx. destruct Hx as [Hx|[_ Hx]]; [right; exact Hx|].
      apply (grid_step j (c_ndiags c * k) d x d_pos (conj L0 L1)). rewrite <- final_time, <- Et. exact Hx.
  Qed.

  Lemma fixed_pushes :
    length (real_pushes (Spec_Tracker.pushes i (log s))) = (c_ndiags c * k)%nat /\
    (forall j t x, nth_error (real_pushes (Spec_Tracker.pushes i (log s))) j = Some (t, x) -> t == times j d /\ x == d) /\
    (forall t x, In (t, x) (Spec_Tracker.pushes i (log s)) -> x == 0 \/ x == d).
  Proof.
    pose proof (C03_pushes_tile_the_interval B F evolve update auto_dt copy c bs0 fs0 m fuel s i Hgood Hauto Hrun Hi Hpb)
      as (Hc & _).
    apply (grid_pushes d _ 0 (c_ndiags c * k) d_pos push_on_grid).
    eapply chain_ext; [| |exact Hc]; [symmetry; apply times_0|apply final_time].
  Qed.

  (** Invariants counted in steps. *)
  Hypothesis Hupd : forall j f l, update j f l = f.
  Variable P : nat -> B -> Prop.
  Hypothesis Pstep : forall j t x b, t == times j d -> x == d -> P j b -> P (S j) (evolve fs0 b t x).
  Hypothesis Pzero : forall j t x b, t == times j d -> x == 0 -> P j b -> P j (evolve fs0 b t x).

  Lemma replay_steps l : forall j e (bl : list B) b, on_grid d (Spec_Tracker.pushes i l) ->
    chain (times j d) (Spec_Tracker.pushes i l) (times e d) ->
    nth_error bl i = Some b -> P j b ->
    exists b', nth_error (snd (replay B F evolve update l (fs0, bl))) i = Some b' /\ P e b'.
  Proof.
    unfold replay. induction l as [|ev l IH]; intros j e bl b Hg Hc Hb HP.
    - cbn in *. inversion Hc; subst. exists b. split; [assumption|].
      replace e with j; [exact HP|]. apply (times_inj _ _ d d_pos). assumption.
    - cbn [fold_left]. destruct ev as [q t x y|q t|t sn]; cbn [effect Spec_Tracker.pushes] in *.
      + destruct (nth_error bl q) as [bq|] eqn:Eq.
        * assert (Hq : (q < length bl)%nat) by (apply nth_error_Some; congruence).
          destruct (Nat.eqb_spec q i) as [->|Hne].
          -- inversion Hc as [|? ? ? ? ? Et Hc']; subst. assert (bq = b) by congruence. subst bq.
             assert (Hg' : on_grid d (Spec_Tracker.pushes i l)) by (intros t' x' j' I; apply Hg; right; exact I).
             destruct (Hg t x j (or_introl eq_refl) Et) as [Ex|Ex].
             ++ apply (IH j e _ (evolve fs0 b t x) Hg').
                ** eapply chain_ext; [| |exact Hc']; [rewrite Ex; ring|reflexivity].
                ** rewrite Proofs_Run.nth_error_replace_at, Nat.eqb_refl by assumption. reflexivity.
                ** apply Pzero; assumption.
             ++ apply (IH (S j) e _ (evolve fs0 b t x) Hg').
                ** eapply chain_ext; [| |exact Hc']; [rewrite Ex, times_S; reflexivity|reflexivity].
                ** rewrite Proofs_Run.nth_error_replace_at, Nat.eqb_refl by assumption. reflexivity.
                ** apply Pstep; assumption.
          -- apply (IH j e _ b); try assumption.
             rewrite Proofs_Run.nth_error_replace_at by assumption.
             destruct (Nat.eqb_spec i q); [congruence|assumption].
        * destruct (Nat.eqb_spec q i) as [->|Hne]; [congruence|].
          apply (IH j e _ b); assumption.
      + rewrite Hupd. apply (IH j e _ b); assumption.
      + apply (IH j e _ b); assumption.
  Qed.

  Lemma along_steps b : nth_error bs0 i = Some b -> P 0 b ->
    (exists b', nth_error (bs s) i = Some b' /\ P (c_ndiags c * k) b') /\
    (exists o, nth_error (out s) i = Some o /\ length o = S (c_ndiags c) /\
       forall q, (q <= c_ndiags c)%nat -> exists b', nth_error o q = Some (copy b') /\ P (q * k) b').
  Proof.
    intros Hb HP. split.
    - pose proof (C06_log_explains_state B F evolve update auto_dt copy c bs0 fs0 fuel s exact Hgood Hrun) as E.
      pose proof (C03_pushes_tile_the_interval B F evolve update auto_dt copy c bs0 fs0 m fuel s i Hgood Hauto Hrun Hi Hpb)
        as (Hc & _).
      destruct (replay_steps (log s) 0 (c_ndiags c * k) bs0 b push_on_grid) as (b' & E' & HP').
      + eapply chain_ext; [| |exact Hc]; [symmetry; apply times_0|apply final_time].
      + exact Hb.
      + exact HP.
      + exists b'. rewrite <- E in E'. auto.
    - pose proof (C05_one_output_list_per_bunch B F evolve update auto_dt copy c bs0 fs0 m fuel s
                    exact Hgood Hauto Hrun) as [Lo _].
      destruct (nth_error (out s) i) as [o|] eqn:Eo; [|apply nth_error_None in Eo; lia].
      destruct (C05_outputs_are_synchronous B F evolve update auto_dt copy c bs0 fs0 m fuel s i o
                  Hgood Hauto Hrun Hpb Eo) as [Ln Ho].
      exists o. split; [reflexivity|]. split; [exact Ln|]. intros q Hq.
      destruct (nth_error o q) as [x|] eqn:Ex; [|apply nth_error_None in Ex; lia].
      destruct (Ho q x Ex) as (l1 & t & sn & l2 & b0 & El & _ & Et & E0 & -> & Hc).
      destruct (replay_steps l1 0 (q * k) bs0 b) as (b' & E' & HP').
      + intros t' x' j' I. apply push_on_grid. rewrite El, pushes_app. apply in_app_iff. left. exact I.
      + eapply chain_ext; [| |exact Hc]; [symmetry; apply times_0|].
        rewrite Et, <- times_mul. unfold times at 1. rewrite <- Hk. reflexivity.
      + exact Hb.
      + exact HP.
      + exists b'. split; [congruence|exact HP'].
  Qed.
End Fixed.
