(** Tracking with rounded times: how many ticks there are, and where the bunches arrive. *)
From Coq Require Import QArith Qround List Bool Arith ZArith Lia Lqa Qabs.
From Verif Require Import Model_Tracker Spec_Tracker Proofs_Tracker Model_TrackFl Spec_TrackFl Proofs_TrackFl.
Import ListNotations.
Open Scope Q_scope.

Lemma iz_le a b : (a <= b)%nat -> inject_Z (Z.of_nat a) <= inject_Z (Z.of_nat b).
Proof. intros. rewrite <- Zle_Qle. lia. Qed.

Section Rounded.
  Variables T e : Q.
  Variables fl rnd : Q -> Q.
  Hypothesis HT : 0 < T.
  Hypothesis He : 0 <= e.
  Hypothesis Het : e <= T * (1 # 1000000000000).
  Hypothesis Hfl : rounds_times T e fl.
  Hypothesis Hct : compares_times T rnd.

  Lemma fl_nonneg x : 0 <= x -> 0 <= fl x.
  Proof. intros H. pose proof (rt_mono _ _ _ Hfl 0 x H). pose proof (rt_zero _ _ _ Hfl). lra. Qed.
  Lemma fl_near x : - (3 * T) <= x -> x <= 3 * T -> x - e <= fl x /\ fl x <= x + e.
  Proof. intros A1 A2. apply (rt_error _ _ _ Hfl). auto. Qed.
  (** A time that passes the end test is not beyond the end. *)
  Lemma not_above x : rnd x <= rnd T -> x < T * (1 + (1 # 1000000)).
  Proof.
    intros H. apply Qnot_le_lt. intros Hle. pose proof (ct_above _ _ Hct x Hle). lra.
  Qed.
  Lemma not_below x : rnd x == rnd T -> T * (1 - (1 # 1000000)) < x.
  Proof.
    intros H. apply Qnot_le_lt. intros Hle. pose proof (ct_below _ _ Hct x Hle). lra.
  Qed.
  Lemma fl_below x y : fl x <= y -> - (3 * T) <= x -> y <= T * (3 # 2) -> x <= y + e.
  Proof.
    intros H Hx Hy. destruct (Qlt_le_dec (3 * T) x) as [Hl|Hl].
    - pose proof (rt_mono _ _ _ Hfl (3 * T) x ltac:(lra)) as M.
      destruct (fl_near (3 * T)); lra.
    - destruct (fl_near x); lra.
  Qed.

  (** [n] ticks of a [n]-th of the total time. *)
  Variable n : nat.
  Hypothesis Hn : (1 <= n)%nat.
  Hypothesis Hn' : (Z.of_nat n <= 100000)%Z.
  Notation iz k := (inject_Z (Z.of_nat k)).
  Notation q := (T / iz n).
  Notation d := (fl (T / iz n)).
  Lemma iz_n : 1 <= iz n /\ iz n <= 100000.
  Proof.
    split.
    - apply (iz_le 1 n). lia.
    - change 100000 with (inject_Z 100000). rewrite <- Zle_Qle. lia.
  Qed.
  Lemma q_pos : iz n * q == T /\ 0 < q /\ q <= T /\ T <= q * 100000.
  Proof.
    destruct iz_n as [N1 N2]. assert (E : iz n * q == T) by (field; lra).
    assert (0 < q) by (apply Qlt_shift_div_l; lra). repeat split; auto.
    - apply Qle_shift_div_r; [lra|]. nra.
    - set (qq := q) in *. clearbody qq. nra.
  Qed.
  Lemma d_near : q - e <= d /\ d <= q + e.
  Proof. destruct q_pos as (E & P & P2 & _). apply fl_near; lra. Qed.

  Lemma ticks_near k : (k <= S n)%nat ->
    iz k * q - 2 * iz k * e <= ticks fl d k /\ ticks fl d k <= iz k * q + 2 * iz k * e.
  Proof.
    induction k as [|k IH]; intros Hk.
    - cbn [ticks]. change (iz 0) with 0. split; [setoid_replace (0 * q - 2 * 0 * e) with 0 by ring|
        setoid_replace (0 * q + 2 * 0 * e) with 0 by ring]; lra.
    - cbn [ticks]. specialize (IH ltac:(lia)). destruct q_pos as (E & P & P2 & P3). destruct d_near as [D1 D2].
      destruct iz_n as [N1 N2].
      assert (K : iz k <= iz n) by (apply iz_le; lia). assert (K0 : 0 <= iz k) by (apply (iz_le 0 k); lia).
      rewrite inject_S. set (x := ticks fl d k) in *. set (dd := d) in *. set (qq := q) in *.
      set (Kk := iz k) in *. set (N := iz n) in *. clearbody x dd qq Kk N.
      assert (M1 : Kk * qq <= T) by nra. assert (M2 : 0 <= Kk * qq) by nra.
      assert (M3 : Kk * e <= T * (1 # 1000000)) by nra. assert (M4 : 0 <= Kk * e) by nra.
      set (p := Kk * qq) in *. set (r := Kk * e) in *.
      assert (E1 : (Kk + 1) * qq == p + qq) by (unfold p; ring).
      assert (E2 : 2 * (Kk + 1) * e == 2 * r + 2 * e) by (unfold r; ring).
      assert (E3 : 2 * Kk * e == 2 * r) by (unfold r; ring).
      rewrite E1, E2. rewrite E3 in IH. clearbody p r. clear E1 E2 E3.
      destruct (fl_near (x + dd)); [lra|lra|]. lra.
  Qed.

  Lemma count_lemma N l : all_ticks fl rnd T d N l -> N = (n - 1)%nat \/ N = n.
  Proof.
    intros (_ & Hle & Hlt). destruct q_pos as (E & P & P2 & P3). destruct iz_n as [N1 N2].
    assert (L1 : (N <= n)%nat).
    { destruct (le_lt_dec N n) as [|Hl]; [assumption|exfalso].
      pose proof (not_above _ (Hle (S n) ltac:(lia))) as A. destruct (ticks_near (S n) (Nat.le_refl _)) as [B _].
      rewrite inject_S in B. set (x := ticks fl d (S n)) in *. set (qq := q) in *. set (K := iz n) in *.
      clearbody x qq K.
      assert (E1 : (K + 1) * qq == T + qq) by (rewrite <- E; ring). rewrite E1 in B.
      assert (2 * (K + 1) * e <= T * (3 # 10000000)) by nra. lra. }
    destruct (le_lt_dec n (S N)) as [|Hl]; [lia|exfalso].
    destruct (ticks_near (S N) ltac:(lia)) as [_ B].
    assert (K : iz (S N) + 1 <= iz n).
    { rewrite <- inject_S. apply iz_le. lia. }
    assert (K0 : 0 <= iz (S N)) by (apply (iz_le 0); lia).
    set (x := ticks fl d (S N)) in *. set (qq := q) in *. set (k := iz (S N)) in *. set (K' := iz n) in *.
    clearbody x qq k K'. assert (k * qq <= T - qq) by nra. assert (2 * k * e <= T * (3 # 10000000)) by nra.
    assert (x <= T) by lra. pose proof (ct_mono _ _ Hct x T H1). lra.
  Qed.

  Lemma count_all N l : clear_of_jumps rnd T ((2 * iz n + 4) * e) -> all_ticks fl rnd T d N l -> N = n.
  Proof.
    intros Hj Ha. destruct (count_lemma N l Ha) as [->|]; [exfalso|assumption].
    destruct Ha as (_ & _ & Hlt). replace (S (n - 1)) with n in Hlt by lia.
    destruct (ticks_near n ltac:(lia)) as [A B]. destruct q_pos as (E & _). rewrite E in A, B.
    assert (rnd (ticks fl d n) == rnd T) by (apply Hj; split; lra). lra.
  Qed.

  Lemma all_near N l k t : all_ticks fl rnd T d N l -> nth_error l k = Some t ->
    iz k * q - 2 * iz k * e <= t /\ t <= iz k * q + 2 * iz k * e.
  Proof.
    intros Ha Hk. pose proof (count_lemma N l Ha) as Hc. destruct Ha as (-> & _).
    assert (Hl : (k < S N)%nat).
    { rewrite <- (seq_length (S N) 0), <- (map_length (ticks fl d)). apply nth_error_Some. congruence. }
    rewrite nth_error_map, (nth_error_nth' _ 0%nat) in Hk by (rewrite seq_length; exact Hl).
    rewrite seq_nth in Hk by exact Hl. injection Hk as <-. apply ticks_near. lia.
  Qed.
End Rounded.

(** [adjust_dt] divides the time in as many parts as it needs. *)
Lemma adjust_parts fl T dt : (1 <= Qceiling (fl (T / dt)%Q))%Z ->
  adjust_dt_fl fl true T dt = fl (T / inject_Z (Z.of_nat (Z.to_nat (Qceiling (fl (T / dt)))))).
Proof. intros H. unfold adjust_dt_fl. rewrite Z2Nat.id by lia. reflexivity. Qed.

Section Arrive.
  Variables B F : Type.
  Variable evolve : F -> B -> Q -> Q -> B.
  Variable update : nat -> F -> list B -> F.
  Variable auto_dt : B -> Q.
  Variable copy : B -> B.
  Variable fl rnd : Q -> Q.
  Variable c : config.
  Variable bs0 : list B.
  Variable fs0 : F.
  Variables e : Q.
  Notation T := (c_tfinal c).
  Notation nb := (n_bunches c).
  Hypothesis Hg : good_config c bs0.
  Hypothesis Hnd : (0 < c_ndiags c)%nat.
  Hypothesis Hnd' : (Z.of_nat (c_ndiags c) <= 100000)%Z.
  Hypothesis Hauto : forall b, 0 <= auto_dt b.
  Hypothesis He : 0 <= e.
  Hypothesis Het : e <= T * (1 # 1000000000000).
  Hypothesis Hfl : rounds_times T e fl.
  Hypothesis Hct : compares_times T rnd.
  Notation begin := (generate_diagnostics B F copy 0 (start_fl B F update auto_dt fl c bs0 fs0)).
  Notation step := (step_fl B F evolve update auto_dt copy fl rnd).
  Notation loop := (loop_fl B F evolve update auto_dt copy fl rnd).
  Notation Inv := (Inv B F fl rnd c).
  Let HT : 0 < T := proj1 Hg.
  Let Hlen : length bs0 = length (c_dtb c) := proj1 (proj2 Hg).

  Definition sum_push (p : list (Q * Q)) : Q := fold_right (fun p acc => snd p + acc) 0 p.
  Lemma sum_snoc p x : sum_push (p ++ [x]) == sum_push p + snd x.
  Proof.
    induction p as [|y p IH]; [cbn; ring|].
    change (snd y + sum_push (p ++ [x]) == snd y + sum_push p + snd x). rewrite IH. ring.
  Qed.
  Notation len p := (inject_Z (Z.of_nat (length p))).

  (** Clock [t], next step [d] and pushes [p] of a bunch. *)
  Definition sound (t d : Q) (p : list (Q * Q)) : Prop :=
    0 <= t /\ t <= T * (3 # 2) /\ 0 <= d /\
    sum_push p <= t + len p * e /\ t <= sum_push p + len p * e.

  Lemma new_step_nonneg i tn d d' : new_step B auto_dt fl rnd c i tn d d' -> 0 <= d -> rnd tn <= rnd T -> 0 <= d'.
  Proof.
    intros (a & Ha & ->) Hd Hr.
    assert (Pa : 0 <= a) by (destruct Ha as [[-> _]|(_ & b & ->)]; auto).
    destruct (Qeq_bool (rnd tn) (rnd T)) eqn:E; cbn; [exact Pa|]. apply Qeqb_false in E.
    destruct (Qltb T _); [|exact Pa]. apply (fl_nonneg T e fl Hfl).
    destruct (Qlt_le_dec tn T) as [|Hl]; [lra|]. pose proof (ct_mono _ _ Hct T tn Hl). lra.
  Qed.

  Lemma own_sound i t d d' p : sound t d p -> rnd (fl (t + d)) <= rnd T ->
    new_step B auto_dt fl rnd c i (fl (t + d)) d d' -> sound (fl (t + d)) d' (p ++ [(t, d)]).
  Proof.
    intros (A1 & A2 & A3 & A4 & A5) Hr Hs.
    pose proof (not_above T rnd Hct _ Hr) as Hab.
    assert (Hb : t + d <= fl (t + d) + e) by (apply (fl_below T e fl HT Het Hfl); lra).
    destruct (fl_near T e fl Hfl (t + d)); [lra|lra|].
    repeat split.
    - apply (fl_nonneg T e fl Hfl). lra.
    - lra.
    - eapply new_step_nonneg; eauto.
    - rewrite sum_snoc, app_length, Nat.add_1_r, inject_S. cbn [snd]. lra.
    - rewrite sum_snoc, app_length, Nat.add_1_r, inject_S. cbn [snd]. lra.
  Qed.
  Lemma sync_near t tn : 0 <= t -> t <= T * (3 # 2) -> 0 <= tn -> tn <= T * (3 # 2) ->
    let d := fl (tn - t) in
    fl (t + d) <= t + d + e /\ t + d - e <= fl (t + d) /\ tn - 2 * e <= fl (t + d) /\ fl (t + d) <= tn + 2 * e.
  Proof.
    intros A1 A2 A3 A4 d. destruct (fl_near T e fl Hfl (tn - t)); [lra|lra|].
    subst d. set (d := fl (tn - t)) in *. clearbody d. destruct (fl_near T e fl Hfl (t + d)); [lra|lra|].
    repeat split; lra.
  Qed.
  Lemma sync_sound i t tn d d' p : sound t d p -> rnd tn <= rnd T -> 2 * e <= tn ->
    new_step B auto_dt fl rnd c i tn d d' -> sound (fl (t + fl (tn - t))) d' (p ++ [(t, fl (tn - t))]).
  Proof.
    intros (A1 & A2 & A3 & A4 & A5) Hr Htn Hs.
    pose proof (not_above T rnd Hct _ Hr) as Hab.
    destruct (sync_near t tn) as (B1 & B2 & B3 & B4); [lra..|].
    repeat split; try lra.
    - eapply new_step_nonneg; eauto.
    - rewrite sum_snoc, app_length, Nat.add_1_r, inject_S. cbn [snd]. lra.
    - rewrite sum_snoc, app_length, Nat.add_1_r, inject_S. cbn [snd]. lra.
  Qed.

  (** ** Arrival, when the end is clear of the jumps of the coarser type *)
  Section Clear.
    Hypothesis Hclear : clear_of_jumps rnd T ((2 * inject_Z (Z.of_nat (c_ndiags c)) + 4) * e).
    Let N1 : 1 <= inject_Z (Z.of_nat (c_ndiags c)).
    Proof. change 1 with (inject_Z 1). rewrite <- Zle_Qle. lia. Qed.
    Lemma below_end x : x <= T + 6 * e -> rnd x <= rnd T.
    Proof.
      intros H. destruct (Qlt_le_dec T x) as [Hl|Hl]; [|apply (ct_mono _ _ Hct); lra].
      assert (rnd x == rnd T); [|lra]. apply Hclear. split; [nra|]. nra.
    Qed.
    (** The bunch is at the end, or its next step is made. *)
    Definition under_way (t d : Q) : Prop := rnd t == rnd T \/ rnd (fl (t + d)) <= rnd T.

    Lemma own_under_way i t d d' : 0 <= t -> 0 <= d -> rnd (fl (t + d)) <= rnd T ->
      new_step B auto_dt fl rnd c i (fl (t + d)) d d' -> under_way (fl (t + d)) d'.
    Proof.
      intros Pt Pd Hr (a & Ha & ->). pose proof (not_above T rnd Hct _ Hr) as Hab.
      assert (Ptn : 0 <= fl (t + d)) by (apply (fl_nonneg T e fl Hfl); lra).
      set (tn := fl (t + d)) in *. clearbody tn.
      destruct (Qeq_bool (rnd tn) (rnd T)) eqn:E; cbn.
      { left. apply Qeqb_true. exact E. }
      right. destruct (Qltb T (fl (tn + a))) eqn:Eb.
      - destruct (fl_near T e fl Hfl (T - tn)); [lra|lra|].
        set (x := fl (T - tn)) in *. clearbody x. destruct (fl_near T e fl Hfl (tn + x)); [lra|lra|].
        apply below_end. lra.
      - apply Qltb_false in Eb. apply (ct_mono _ _ Hct). exact Eb.
    Qed.
    Lemma sync_under_way i t tn d d' : 0 <= t -> t <= T * (3 # 2) -> 0 <= d -> 2 * e <= tn -> rnd tn <= rnd T ->
      (rnd tn == rnd T -> T - 2 * inject_Z (Z.of_nat (c_ndiags c)) * e <= tn /\
                          tn <= T + 2 * inject_Z (Z.of_nat (c_ndiags c)) * e) ->
      new_step B auto_dt fl rnd c i tn d d' -> under_way (fl (t + fl (tn - t))) d'.
    Proof.
      intros Pt Pt2 Pd Ptn Hr Hfin (a & Ha & ->). pose proof (not_above T rnd Hct _ Hr) as Hab.
      destruct (sync_near t tn) as (B1 & B2 & B3 & B4); [lra..|].
      set (t' := fl (t + fl (tn - t))) in *. clearbody t'.
      assert (Pa : 0 <= a) by (destruct Ha as [[-> _]|(_ & b & ->)]; auto).
      destruct (Qeq_bool (rnd tn) (rnd T)) eqn:E; cbn.
      { left. apply Qeqb_true in E. destruct (Hfin E). apply Hclear. split; lra. }
      right. destruct (Qltb T (fl (tn + a))) eqn:Eb.
      - destruct (fl_near T e fl Hfl (T - tn)); [lra|lra|].
        set (x := fl (T - tn)) in *. clearbody x. destruct (fl_near T e fl Hfl (t' + x)); [lra|lra|].
        apply below_end. lra.
      - apply Qltb_false in Eb.
        assert (tn + a <= T + e) by (apply (fl_below T e fl HT Het Hfl); lra).
        destruct (fl_near T e fl Hfl (t' + a)); [lra|lra|]. apply below_end. lra.
    Qed.
  End Clear.

  Notation n := (c_ndiags c).
  Notation clear := (clear_of_jumps rnd T ((2 * inject_Z (Z.of_nat n) + 4) * e)).
  Lemma tick_facts k : (forall m, (1 <= m <= S k)%nat -> rnd (ticks fl (dt_diags_fl fl c) m) <= rnd T) ->
    let tn := ticks fl (dt_diags_fl fl c) (S k) in
    2 * e <= tn /\ (rnd tn == rnd T -> T - 2 * inject_Z (Z.of_nat n) * e <= tn /\
                                       tn <= T + 2 * inject_Z (Z.of_nat n) * e).
  Proof.
    intros H tn. unfold dt_diags_fl in *.
    destruct (q_pos T e HT He Het n Hnd Hnd') as (E & P & P2 & P3). destruct (iz_n n Hnd Hnd') as [N1 N2].
    assert (Hk : (S k <= n)%nat).
    { destruct (le_lt_dec (S k) n) as [|Hl]; [assumption|exfalso].
      pose proof (not_above T rnd Hct _ (H (S n) ltac:(lia))) as A.
      destruct (ticks_near T e fl HT He Het Hfl n Hnd Hnd' (S n) (Nat.le_refl _)) as [B' _].
      rewrite inject_S in B'. set (x := ticks fl _ (S n)) in *. set (qq := T / _) in *.
      set (K := inject_Z (Z.of_nat n)) in *. clearbody x qq K.
      assert (E1 : (K + 1) * qq == T + qq) by (rewrite <- E; ring). rewrite E1 in B'.
      assert (2 * (K + 1) * e <= T * (3 # 10000000)) by nra. lra. }
    destruct (ticks_near T e fl HT He Het Hfl n Hnd Hnd' (S k) ltac:(lia)) as [B1 B2]. fold tn in B1, B2.
    assert (K1 : 1 <= inject_Z (Z.of_nat (S k))) by (apply (iz_le 1 (S k)); lia).
    assert (K2 : inject_Z (Z.of_nat (S k)) <= inject_Z (Z.of_nat n)) by (apply iz_le; lia).
    split.
    - clearbody tn. set (qq := T / _) in *. set (K := inject_Z (Z.of_nat n)) in *.
      set (k' := inject_Z (Z.of_nat (S k))) in *. clearbody qq K k'. nra.
    - intros Hr. destruct (Nat.eq_dec (S k) n) as [En|Hne].
      + rewrite En, E in B1, B2. split; assumption.
      + exfalso. pose proof (not_below T rnd Hct tn Hr) as A.
        assert (K3 : inject_Z (Z.of_nat (S k)) + 1 <= inject_Z (Z.of_nat n)).
        { rewrite <- inject_S. apply iz_le. lia. }
        clearbody tn. set (qq := T / _) in *. set (K := inject_Z (Z.of_nat n)) in *.
        set (k' := inject_Z (Z.of_nat (S k))) in *. clearbody qq K k'.
        assert (k' * qq <= T - qq) by nra. assert (2 * k' * e <= T * (3 # 10000000)) by nra. lra.
  Qed.

  Definition short (i : nat) : Prop := nth i (initial_dt_fl B auto_dt fl c bs0) 0 <= T.
  Definition bunch_ok (s : state B F) (i : nat) : Prop :=
    let t := nth i (tobj s) 0 in let d := nth i (dtobj s) 0 in let p := pushes i (log s) in
    sound t d p /\ (clear -> p <> [] \/ short i -> under_way t d) /\
    (c_push_before c = true -> (1 < length (diag_times (log s)))%nat -> p <> []).
  Definition JInv (s : state B F) : Prop := Inv s /\ forall i, (i < nb)%nat -> bunch_ok s i.

  Lemma snoc_ne {A} (l : list A) x : l ++ [x] <> [].
  Proof. destruct l; discriminate. Qed.

  Lemma JInv_begin : JInv begin.
  Proof.
    split; [apply Inv_begin; assumption|]. intros i Hi.
    destruct (begin_props B F update auto_dt copy fl c bs0 fs0 Hlen Hnd) as (S1 & T1 & D1 & P1 & G1 & F1).
    unfold bunch_ok. rewrite T1, D1, P1, G1.
    rewrite (map_nth (fun _ : Q => 0) (initial_dt_fl B auto_dt fl c bs0) 0 i).
    assert (Pd : 0 <= nth i (initial_dt_fl B auto_dt fl c bs0) 0).
    { destruct (nth_error (c_dtb c) i) as [d|] eqn:Ed; [|apply nth_error_None in Ed; unfold n_bunches in Hi; lia].
      destruct (nth_error bs0 i) as [b|] eqn:Eb; [|apply nth_error_None in Eb; unfold n_bunches in Hi; lia].
      rewrite (initial_bunch B auto_dt fl c bs0 Hlen Hnd i d b Ed Eb). destruct d as [q|]; [|apply Hauto].
      pose proof (proj1 (proj2 (proj2 Hg))) as Hd. apply nth_error_In in Ed. specialize (Hd q Ed). lra. }
    split; [|split].
    - unfold sound. cbn [sum_push fold_right length]. change (inject_Z (Z.of_nat 0)) with 0. repeat split; lra.
    - intros Hc [Hp|Hs]; [congruence|]. right. unfold short in Hs. set (d := nth i _ 0) in *. clearbody d.
      apply (below_end Hc). destruct (fl_near T e fl Hfl (0 + d)); lra.
    - cbn. intros _ A. lia.
  Qed.

  Lemma JInv_step s s' : JInv s -> step c s = Continue s' -> JInv s'.
  Proof.
    intros (I1 & B1) H. split; [exact (Inv_step _ _ _ _ _ _ _ _ _ bs0 Hlen Hnd s s' I1 H)|]. intros i Hi.
    specialize (B1 i Hi). unfold bunch_ok in *. cbv zeta in *.
    destruct B1 as (Bs & Bu & Bp). pose proof Bs as (S1 & S2 & S3 & _).
    pose proof I1 as (Sh & _ & (G0 & k & G1 & G2 & G3)).
    destruct (step_happens _ _ _ _ _ _ _ _ _ bs0 Hlen Hnd s s' Sh H) as (Sh' & Hh).
    destruct Hh as [i' Hi' Hr [P1 P2 P3 P4 P5]|j tn Hj Et Hr P1 P2 P3 P4|tn Et Hr P1 P2 P3 P4 P5 P6].
    - assert (Ed : diag_times (log s') = diag_times (log s)) by (rewrite P5, diag_times_app; cbn; apply app_nil_r).
      rewrite Ed. destruct (Nat.eq_dec i i') as [<-|Hne].
      + assert (Ep : pushes i (log s') = pushes i (log s) ++ [(nth i (tobj s) 0, nth i (dtobj s) 0)]).
        { rewrite P5, pushes_app. cbn. rewrite Nat.eqb_refl. reflexivity. }
        rewrite Ep, P1. split; [|split].
        * eapply own_sound; eauto.
        * intros Hc _. eapply own_under_way; eauto.
        * intros _ _. apply snoc_ne.
      + assert (Ep : pushes i (log s') = pushes i (log s)).
        { rewrite P5, pushes_app. cbn. destruct (Nat.eqb_spec i' i); [congruence|]. apply app_nil_r. }
        rewrite Ep, P2, P4 by assumption. auto.
    - assert (Ed : diag_times (log s') = diag_times (log s)) by (rewrite P4, diag_times_app; cbn; apply app_nil_r).
      assert (Ep : pushes i (log s') = pushes i (log s)) by (rewrite P4, pushes_app; cbn; apply app_nil_r).
      rewrite Ed, Ep, P3, P2 by lia. auto.
    - specialize (P6 i Hi). cbv zeta in P6. destruct (c_push_before c) eqn:Epb.
      + destruct P6 as (Q1 & Q2 & Q3). rewrite Q1, Q3.
        assert (Et' : tn = ticks fl (dt_diags_fl fl c) (S k)) by (rewrite Et, G0, G1; reflexivity).
        destruct (tick_facts k) as (F1 & F2).
        { intros m Hm. destruct (Nat.eq_dec m (S k)) as [->|]; [rewrite <- Et'; exact Hr|apply G3; lia]. }
        rewrite <- Et' in F1, F2. split; [|split].
        * eapply sync_sound; eauto.
        * intros Hc _. eapply sync_under_way; eauto.
        * intros _ _. apply snoc_ne.
      + destruct P6 as (Q1 & Q2 & Q3). rewrite Q1, Q2, Q3. repeat split; auto; try apply Bs. discriminate.
  Qed.

  (** The clock of every bunch follows its pushes; at the end it is the end, to the coarser precision. *)
  Lemma arrive_lemma fuel s i : loop fuel c begin = Done s -> (i < length bs0)%nat ->
    exists t, total_push i (log s) <= t + inject_Z (Z.of_nat (length (pushes i (log s)))) * e /\
      t <= total_push i (log s) + inject_Z (Z.of_nat (length (pushes i (log s)))) * e /\
      t <= T * (3 # 2) /\
      (clear -> c_push_before c = true \/ short i -> rnd t == rnd T).
  Proof.
    intros H Hi. assert (Hi' : (i < nb)%nat) by (unfold n_bunches; lia).
    destruct (loop_end B F evolve update auto_dt copy fl rnd c bs0 Hlen Hnd JInv JInv_step (fun s h => proj1 (proj1 h)) fuel begin s
                JInv_begin H) as ((I1 & B1) & E).
    destruct (B1 i Hi') as (Bs & Bu & Bp). cbv zeta in *. destruct Bs as (S1 & S2 & S3 & S4 & S5).
    exists (nth i (tobj s) 0). split; [exact S4|]. split; [exact S5|]. split; [exact S2|].
    intros Hc Hor. pose proof (obj_len B c bs0 Hlen Hnd) as L. specialize (E i ltac:(lia)).
    destruct (Bu Hc) as [A|A]; [|exact A|lra].
    destruct Hor as [Hpb|Hs]; [left|right; exact Hs]. apply (Bp Hpb).
    destruct (ticks_lemma B F evolve update auto_dt copy fl rnd c bs0 fs0 Hlen Hnd fuel s H) as ((N & Ha) & _).
    pose proof (count_all T e fl rnd HT He Het Hfl Hct n Hnd Hnd' N _ Hc Ha) as EN. destruct Ha as (-> & _).
    rewrite map_length, seq_length. lia.
  Qed.
End Arrive.
