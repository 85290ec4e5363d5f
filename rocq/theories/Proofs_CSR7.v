(** Proofs about the formulas of the kernel and of the kick. *)
From Coq Require Import QArith Qround Qreals Reals List Arith Lqa Lra Lia ZArith.
From Verif Require Import Model_Float32 Model_Push Model_Bunch Model_CSR Spec_CSR Proofs_CSR
  Proofs_CSR2 Proofs_CSR3 Proofs_CSR4 Proofs_CSR5 Proofs_CSR6.
Import ListNotations.
Open Scope R_scope.

(** ** The integrand *)
Lemma kern_field gamma cur p : 1 < gamma -> kern gamma cur p = field_of gamma cur p.
Proof.
  intros Hg. destruct (beta_range gamma Hg) as (B1 & _). unfold kern, field_of, dot, vminus, vscale, pos, tan, retard.
  cbn [fst snd]. cbv zeta. set (b := sqrt (1 - 1 / gamma ^ 2)).
  assert (Bq : b ^ 2 = 1 - 1 / gamma ^ 2) by (unfold b; rewrite pow2_sqrt; lra).
  fold (dist cur p). set (r := dist cur p). rewrite Bq. clearbody r. set (ig := 1 / gamma ^ 2).
  set (w := t_s p - t_s cur + b * r). clearbody w ig. unfold Rdiv. rewrite !Rmult_1_l.
  set (ri := / r). set (wi := / w). clearbody ri wi. ring.
Qed.
(** ** The integral *)
Lemma trapz_eq f cur pts :
  suffix_sums (map2 Rmult (add_next (map f pts))
    (map (Rmult 0.5) (diff0 (map (fun p => t_s p - t_s cur) pts)))) =
  map (fun j => trapz f cur (skipn j pts)) (seq 0 (length pts)).
Proof.
  assert (S0 : forall pts, sum (map2 Rmult (add_next (map f pts))
    (map (Rmult 0.5) (diff0 (map (fun p => t_s p - t_s cur) pts)))) = trapz f cur pts).
  { clear. induction pts as [|p r IH]; [reflexivity|]. cbn [map add_next diff0 map2].
    unfold sum in *. cbn [fold_right]. rewrite IH. cbn [trapz]. f_equal.
    destruct r as [|q r]; cbn [map hd]; lra. }
  induction pts as [|p r IH]; [reflexivity|].
  pose proof (S0 (p :: r)) as S1. cbn [map add_next diff0 map2] in *. cbn [suffix_sums length seq map skipn].
  unfold sum in S1. cbn [fold_right] in S1. fold sum in S1. f_equal; [exact S1|].
  rewrite IH. rewrite <- seq_shift, map_map. reflexivity.
Qed.
(** The points: those before the current one, from the last one that is further back than
    the window; all of them if there is none. *)
Lemma long_range_spec i t wmin gamma : increasing t -> (0 < i < length t)%nat -> 1 < gamma -> wmin < 0 ->
  exists j0, (j0 < i)%nat /\
    (j0 = 0%nat \/ retard (beta_r gamma) (nth i t origin) (nth j0 t origin) <= wmin) /\
    (forall j, (j0 < j < i)%nat -> wmin < retard (beta_r gamma) (nth i t origin) (nth j t origin)) /\
    let pts := firstn (i - j0) (skipn j0 t) in
    long_range i t wmin gamma =
      (map (retard (beta_r gamma) (nth i t origin)) pts,
       map (fun j => trapz (field_of gamma (nth i t origin)) (nth i t origin) (skipn j pts))
         (seq 0 (i - j0))).
Proof.
  intros It Hi Hg Hw. rewrite estimate_free by (try assumption; lia). unfold long_range_from.
  cbn [skipn]. rewrite Nat.sub_0_r. set (cur := nth i t origin).
  set (l := map (retard (beta_r gamma) cur) (firstn i t)).
  pose proof (last_le_cases wmin l) as C.
  assert (Hl : length (firstn i t) = i) by (rewrite firstn_length; lia).
  assert (Hn : forall j, (j < i)%nat -> nth j l 0 = retard (beta_r gamma) cur (nth j t origin)).
  { intros j Hj. unfold l. rewrite (nth_indep _ 0 (retard (beta_r gamma) cur origin)) by
      (rewrite map_length; lia). rewrite map_nth. f_equal.
    rewrite <- (firstn_skipn i t) at 2. rewrite app_nth1 by lia. reflexivity. }
  assert (KF : forall pts, map (kern gamma cur) pts = map (field_of gamma cur) pts)
    by (intros pts; apply map_ext; intros p; apply kern_field; exact Hg).
  destruct (last_le wmin l) as [j|] eqn:E.
  - destruct C as [C1 C2]. unfold l in C1. rewrite map_length in C1.
    exists j. split; [lia|]. split; [right; rewrite <- Hn by lia; exact C2|]. split.
    + intros j' Hj'. rewrite <- Hn by lia. apply Rnot_le_lt. intros F.
      destruct (last_le_skipn wmin l j') as (u & _ & U2); [unfold l; rewrite map_length; lia|exact F|].
      rewrite U2 in E. injection E as E. lia.
    + cbv zeta. rewrite <- skipn_firstn_comm. rewrite KF, trapz_eq. rewrite skipn_length, Hl. reflexivity.
  - exists 0%nat. split; [lia|]. split; [left; reflexivity|]. split.
    + intros j' Hj'. rewrite <- Hn by lia. apply C. apply nth_In. unfold l. rewrite map_length. lia.
    + cbv zeta. cbn [skipn]. rewrite Nat.sub_0_r. rewrite KF, trapz_eq, Hl. reflexivity.
Qed.

(** ** The kernel *)
Lemma short_map i t l gamma :
  short_range i t l gamma = map (short_at i t gamma (nth 0 l 0) (nth 1 l 0)) l.
Proof. reflexivity. Qed.
Lemma wr_nth n bs k : (k < n)%nat -> nth k (w_range n bs) 0 = (INR k - INR n) * bs.
Proof.
  intros H. unfold w_range.
  rewrite (nth_indep _ 0 ((fun k => (INR k - INR n) * bs) 0%nat)) by (rewrite map_length, seq_length; exact H).
  rewrite (map_nth (fun k => (INR k - INR n) * bs)), seq_nth by exact H. reflexivity.
Qed.
Lemma wr_length n bs : length (w_range n bs) = n.
Proof. unfold w_range. rewrite map_length, seq_length. reflexivity. Qed.
(** The entries below a bound are the first ones. *)
Lemma below_prefix a bs n : 0 < bs -> exists m, (m <= n)%nat /\
  length (filter (fun v => if Rlt_dec v a then true else false) (w_range n bs)) = m /\
  forall k, (k < n)%nat -> ((INR k - INR n) * bs < a <-> (k < m)%nat).
Proof.
  intros Hb.
  assert (G : forall len st c, exists m, (m <= len)%nat /\
    length (filter (fun v => if Rlt_dec v a then true else false)
      (map (fun k => (INR k - c) * bs) (seq st len))) = m /\
    forall k, (k < len)%nat -> ((INR (st + k) - c) * bs < a <-> (k < m)%nat)).
  { induction len as [|len IH]; intros st c.
    - exists 0%nat. split; [lia|]. split; [reflexivity|]. intros k Hk. lia.
    - destruct (IH (S st) c) as (m & M1 & M2 & M3). cbn [seq map filter].
      destruct (Rlt_dec ((INR st - c) * bs) a) as [F|F].
      + exists (S m). split; [lia|]. split; [cbn; rewrite M2; reflexivity|]. intros [|k] Hk.
        * rewrite Nat.add_0_r. split; [lia|intros _; exact F].
        * replace (st + S k)%nat with (S st + k)%nat by lia. rewrite M3 by lia. lia.
      + assert (m = 0%nat) as ->.
        { destruct m as [|m]; [reflexivity|]. exfalso.
          assert ((INR (S st + 0) - c) * bs < a) by (apply M3; lia).
          rewrite Nat.add_0_r, S_INR in H. nra. }
        exists 0%nat. split; [lia|]. split; [exact M2|]. intros k Hk. split; [|lia].
        intros H. exfalso. apply F. pose proof (pos_INR k). rewrite plus_INR in H. nra. }
  destruct (G n 0%nat (INR n)) as (m & M1 & M2 & M3). exists m. auto.
Qed.
Lemma nth_removelast {A} (l : list A) a d k : (k < length l)%nat -> nth k (removelast (l ++ [a])) d = nth k l d.
Proof. intros _. rewrite removelast_last. reflexivity. Qed.

Definition diff0_nth := fun l k => nth k (diff0 l) 0 = nth (S k) l 0 - nth k l 0.
Lemma diff0_eq l k : (k < length l)%nat -> diff0_nth l k.
Proof.
  unfold diff0_nth. revert k. induction l as [|a r IH]; intros k Hk; [cbn in Hk; lia|].
  destruct k as [|k]; cbn [diff0 nth]; [destruct r; reflexivity|]. cbn in Hk.
  apply IH. lia.
Qed.
Lemma diff0_length l : length (diff0 l) = length l.
Proof. induction l; cbn; auto. Qed.

Lemma kernel_spec i t n bs gamma : (0 < i < length t)%nat -> increasing t -> 1 < gamma ->
  (0 < n)%nat -> 0 < bs ->
  let w0 := - INR n * bs in
  let '(w, ks) := long_range i t w0 gamma in
  let f k := if Nat.ltb k n
    then from_distance i t gamma w0 (Rmin ((1 - INR n) * bs) (list_min w)) w ks ((INR k - INR n) * bs)
    else 0 in
  kernel i t n bs gamma =
  map (fun k => (f (k + 2)%nat - 2 * f (k + 1)%nat + f k) / bs / four_pi_eps0) (seq 0 n).
Proof.
  intros Hi It Hg Hn Hb. cbv zeta.
  assert (HnR : 0 < INR n) by (apply lt_0_INR; exact Hn).
  assert (H0 : hd 0 (w_range n bs) = - INR n * bs).
  { replace (hd 0 (w_range n bs)) with (nth 0 (w_range n bs) 0) by (destruct (w_range n bs); reflexivity).
    rewrite wr_nth by exact Hn. cbn [INR]. ring. }
  unfold kernel. rewrite H0.
  destruct (used_points i t (- INR n * bs) gamma Hi ltac:(nra)) as (pts & P1 & P2 & E).
  destruct (long_range i t (- INR n * bs) gamma) as [w ks]. injection E as Ew _.
  assert (WM : list_min w < 0).
  { assert (In (list_min w) w) as I.
    { apply list_min_in. rewrite Ew. intros X. apply map_eq_nil in X. contradiction. }
    rewrite Ew in I at 2. apply in_map_iff in I as (p & E' & Hp). rewrite <- E'.
    destruct (P2 p Hp) as (j & Hj & <-). apply retard_neg; [exact It|exact Hg|lia]. }
  set (F := if Rlt_dec (- INR n * bs) (list_min w) then _ else _).
  assert (FS : length F = n /\ forall k, (k < n)%nat -> nth k F 0 =
    from_distance i t gamma (- INR n * bs) (Rmin ((1 - INR n) * bs) (list_min w)) w ks ((INR k - INR n) * bs)).
  { unfold F. clear F. destruct (below_prefix (list_min w) bs n Hb) as (m & M1 & M2 & M3).
    destruct (Rlt_dec (- INR n * bs) (list_min w)) as [L|L].
    - assert (Hm : (0 < m)%nat) by (apply (M3 0%nat Hn); cbn [INR]; lra).
      unfold last_lt. rewrite M2. replace (S (m - 1)) with m by lia.
      set (l := firstn m (w_range n bs) ++ [list_min w]).
      assert (Lf : length (firstn m (w_range n bs)) = m) by (rewrite firstn_length, wr_length; lia).
      assert (Nf : forall k, (k < m)%nat -> nth k (firstn m (w_range n bs)) 0 = (INR k - INR n) * bs).
      { intros k Hk. rewrite <- wr_nth by lia. rewrite <- (firstn_skipn m (w_range n bs)) at 2.
        rewrite app_nth1 by lia. reflexivity. }
      assert (L0 : nth 0 l 0 = - INR n * bs).
      { unfold l. rewrite app_nth1 by lia. rewrite Nf by lia. cbn [INR]. ring. }
      assert (L1 : nth 1 l 0 = Rmin ((1 - INR n) * bs) (list_min w)).
      { unfold l. destruct (Nat.eq_dec m 1) as [->|Nm].
        - rewrite app_nth2 by lia. rewrite Lf. cbn [Nat.sub nth]. symmetry. apply Rmin_right.
          destruct (Nat.eq_dec n 1) as [->|Nn]; [cbn [INR]; lra|].
          apply Rnot_lt_le. intros X. assert (1 < 1)%nat by (apply (M3 1%nat ltac:(lia)); exact X). lia.
        - rewrite app_nth1 by lia. rewrite Nf by lia. symmetry. apply Rmin_left. left.
          apply (M3 1%nat); lia. }
      rewrite short_map, L0, L1. set (sh := short_at _ _ _ _ _).
      assert (La : last (map sh l) 0 = sh (list_min w)).
      { unfold l. rewrite map_app. cbn [map]. apply last_last. }
      rewrite La. rewrite map_map. unfold l. rewrite map_app. cbn [map]. rewrite removelast_last.
      split; [rewrite app_length, !map_length, Lf, skipn_length, wr_length; lia|].
      intros k Hk. unfold from_distance. fold sh. destruct (Rlt_dec _ _) as [X|X].
      + assert (Km : (k < m)%nat) by (apply M3; assumption).
        rewrite app_nth1 by (rewrite map_length; lia).
        rewrite (nth_indep _ 0 ((fun x => sh (list_min w) - sh x + hd 0 ks) 0)) by (rewrite map_length; lia).
        rewrite (map_nth (fun x => sh (list_min w) - sh x + hd 0 ks)). rewrite Nf by exact Km. reflexivity.
      + assert (Km : (m <= k)%nat) by (apply Nat.nlt_ge; intros Y; apply X, M3; assumption).
        rewrite app_nth2 by (rewrite map_length; lia). rewrite map_length, Lf.
        rewrite (nth_indep _ 0 (interp w ks 0)) by (rewrite map_length, skipn_length, wr_length; lia).
        rewrite map_nth. f_equal. rewrite <- wr_nth by lia.
        rewrite <- (firstn_skipn m (w_range n bs)) at 2. rewrite app_nth2 by lia. rewrite Lf. reflexivity.
    - split; [rewrite map_length, wr_length; reflexivity|]. intros k Hk.
      rewrite (nth_indep _ 0 (interp w ks 0)) by (rewrite map_length, wr_length; exact Hk).
      rewrite map_nth, wr_nth by exact Hk. unfold from_distance. destruct (Rlt_dec _ _) as [X|X]; [|reflexivity].
      exfalso. apply L. pose proof (pos_INR k). nra. }
  destruct FS as [F1 F2]. clearbody F.
  apply (nth_ext _ _ 0 0); [rewrite !map_length, seq_length, !diff0_length; exact F1|].
  rewrite map_length, !diff0_length, F1. intros k Hk.
  rewrite (nth_indep _ 0 ((fun v => v / bs / four_pi_eps0) 0)) by (rewrite map_length, !diff0_length; lia).
  rewrite (map_nth (fun v => v / bs / four_pi_eps0)).
  match goal with |- context [map ?f (seq 0 n)] =>
    rewrite (nth_indep (map f (seq 0 n)) 0 (f 0%nat)) by (rewrite map_length, seq_length; exact Hk);
    rewrite (map_nth f), seq_nth by exact Hk end.
  cbn [Nat.add]. do 2 f_equal.
  assert (D2 : nth k (diff0 (diff0 F)) 0 = nth (k + 2) F 0 - 2 * nth (k + 1) F 0 + nth k F 0).
  { rewrite (diff0_eq (diff0 F) k) by (rewrite diff0_length; lia).
    rewrite (diff0_eq F k) by lia. replace (k + 1)%nat with (S k) by lia. replace (k + 2)%nat with (S (S k)) by lia.
    destruct (Nat.eq_dec (S k) n) as [El|Nl].
    - rewrite (nth_overflow (diff0 F)) by (rewrite diff0_length; lia).
      rewrite (nth_overflow F 0 (n:=S k)) by lia. rewrite (nth_overflow F 0 (n:=S (S k))) by lia. ring.
    - rewrite (diff0_eq F (S k)) by lia. ring. }
  assert (V : forall k', (if Nat.ltb k' n then from_distance i t gamma (- INR n * bs)
     (Rmin ((1 - INR n) * bs) (list_min w)) w ks ((INR k' - INR n) * bs) else 0) = nth k' F 0).
  { intros k'. destruct (Nat.ltb_spec k' n) as [X|X]; [symmetry; apply F2; exact X|].
    symmetry. apply nth_overflow. lia. }
  rewrite !V. exact D2.
Qed.
