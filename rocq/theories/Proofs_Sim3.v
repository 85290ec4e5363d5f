(** A push of a bunch, particle by particle. *)
From Coq Require Import QArith Reals Qreals String List Arith Lia Lra.
From Coquelicot Require Import Coquelicot.
From Verif Require Import Model_Push Spec_Push Proofs_Push Model_Bunch Spec_Bunch Proofs_Bunch
  Model_Interp Model_Tracker Model_Run Model_RZ Model_Sim Spec_Sim.
Import ListNotations.
Open Scope R_scope.

Fixpoint travo {A B} (f : A -> option B) (l : list A) : option (list B) :=
  match l with
  | [] => Some []
  | a :: r => match f a, travo f r with Some b, Some r' => Some (b :: r') | _, _ => None end
  end.
Definition to_opt {A} (m : result A) : option A := match m with Ok v => Some v | Fault _ => None end.
Lemma travo_some {A B} (f : A -> option B) l l' : travo f l = Some l' -> map f l = map Some l'.
Proof.
  revert l'. induction l as [|a l IH]; cbn; intros l' H; [injection H as <-; reflexivity|].
  destruct (f a) as [b|]; [|discriminate]. destruct (travo f l) as [r|]; [|discriminate].
  injection H as <-. cbn. f_equal. apply IH. reflexivity.
Qed.
Lemma travo_length {A B} (f : A -> option B) l l' : travo f l = Some l' -> length l' = length l.
Proof. intros H. apply travo_some in H. apply (f_equal (@length _)) in H. rewrite !map_length in H. auto. Qed.
Lemma travo_ext {A B} (f g : A -> option B) l : (forall a, In a l -> f a = g a) -> travo f l = travo g l.
Proof.
  induction l as [|a l IH]; intros H; [reflexivity|]. cbn. rewrite (H a), IH; auto; [|left; reflexivity].
  intros u Hu. apply H. right. exact Hu.
Qed.
Lemma travo_map {A B D} (f : B -> option D) (g : A -> B) l : travo f (map g l) = travo (fun a => f (g a)) l.
Proof. induction l as [|a l IH]; cbn; [reflexivity|]. rewrite IH. reflexivity. Qed.
Lemma travo_none {A B} (f : A -> option B) l : travo f l = None <-> exists a, In a l /\ f a = None.
Proof.
  induction l as [|a l IH]; cbn; [split; [discriminate|intros (a & [] & _)]|].
  destruct (f a) as [b|] eqn:E.
  - destruct (travo f l) as [r|].
    + split; [discriminate|]. intros (u & [<-|Hu] & Hn); [congruence|].
      assert (X : Some r = None) by (apply IH; exists u; auto). discriminate X.
    + split; [intros _|reflexivity]. destruct (proj1 IH eq_refl) as (u & Hu & Hn). exists u. auto.
  - split; [intros _; exists a; auto|reflexivity].
Qed.
Lemma travo_all {A B} (f : A -> option B) (d : A -> B) l :
  travo f l = match travo f l with
              | Some _ => Some (map (fun a => match f a with Some b => b | None => d a end) l)
              | None => None end.
Proof.
  induction l as [|a l IH]; cbn; [reflexivity|]. destruct (f a); [|reflexivity].
  destruct (travo f l); [|reflexivity]. injection IH as <-. reflexivity.
Qed.

(** ** Gathering *)
Definition analytic1 (c : components) (p : pos) (t : R) (f : em) : em :=
  mke (c_ex c p t (ex f)) (c_ey c p t (ey f)) (c_ez c p t (ez f))
      (c_bx c p t (bx f)) (c_by c p t (by_ f)) (c_bz c p t (bz f)).
Definition wake1 (o : wake) (p : pos) (f : em) : option em :=
  to_opt (gather_main1 (Model_Interp.e_r (as_rz o)) (Model_Interp.e_z (as_rz o)) (Model_Interp.b_t (as_rz o))
            (w_geom (as_rz o)) p f).
Fixpoint gather1 (fields : list efield) (p : pos) (t : R) (f : em) : option em :=
  match fields with
  | [] => Some f
  | Analytic c :: r => gather1 r p t (analytic1 c p t f)
  | Wake _ _ o :: r => match wake1 o p f with Some f' => gather1 r p t f' | None => None end
  end.
Lemma traverse_opt {A B} (f : A -> result B) l : to_opt (traverse f l) = travo (fun a => to_opt (f a)) l.
Proof.
  induction l as [|a l IH]; [reflexivity|]. cbn [traverse travo]. rewrite <- IH.
  destruct (f a); cbn; [|reflexivity]. destruct (traverse f l); reflexivity.
Qed.
Lemma travo_then {A B} (g h : A -> B -> option B) ps : forall b, length ps = length b ->
  match travo (fun pf => g (fst pf) (snd pf)) (combine ps b) with
  | Some b' => travo (fun pf => h (fst pf) (snd pf)) (combine ps b')
  | None => None
  end = travo (fun pf => match g (fst pf) (snd pf) with Some v => h (fst pf) v | None => None end) (combine ps b).
Proof.
  induction ps as [|p ps IH]; intros [|v b] H; try discriminate; [reflexivity|]. cbn [combine travo fst snd].
  specialize (IH b ltac:(cbn in H; lia)).
  destruct (g p v) as [v'|]; [|reflexivity].
  destruct (travo (fun pf => g (fst pf) (snd pf)) (combine ps b)) as [b'|].
  - cbn [combine travo fst snd]. rewrite <- IH. reflexivity.
  - rewrite <- IH. destruct (h p v'); reflexivity.
Qed.
Lemma combine_map2 {A B D} (f : A -> B -> D) ps : forall b, length ps = length b ->
  combine ps (map2 f ps b) = map (fun pf => (fst pf, f (fst pf) (snd pf))) (combine ps b).
Proof. induction ps as [|p ps IH]; intros [|v b] H; try discriminate; [reflexivity|]. cbn. rewrite IH; auto. Qed.
Lemma travo_snd {A B} (ps : list A) : forall b : list B, length ps = length b ->
  travo (fun pf => Some (snd pf)) (combine ps b) = Some b.
Proof. induction ps as [|p ps IH]; intros [|v b] H; try discriminate; [reflexivity|]. cbn. rewrite IH; auto. Qed.
Lemma gather_each_pt fields : forall ps t b, length ps = length b ->
  to_opt (gather_each fields ps t b) = travo (fun pf => gather1 fields (fst pf) t (snd pf)) (combine ps b).
Proof.
  induction fields as [|[env pl o|c] r IH]; intros ps t b H; cbn [gather_each gather1].
  - cbn. symmetry. apply travo_snd. exact H.
  - set (G := fun p f => wake1 o p f).
    change (travo (fun pf => match wake1 o (fst pf) (snd pf) with Some f' => gather1 r (fst pf) t f' | None => None end)
              (combine ps b))
      with (travo (fun pf => match G (fst pf) (snd pf) with Some v => (fun p f => gather1 r p t f) (fst pf) v | None => None end)
              (combine ps b)).
    rewrite <- (travo_then G (fun p f => gather1 r p t f) ps b H).
    assert (E : to_opt (w_gather (as_rz o) ps b) = travo (fun pf => G (fst pf) (snd pf)) (combine ps b)).
    { unfold w_gather, gather_main_fields_cyl_linear. rewrite traverse_opt. reflexivity. }
    rewrite <- E. destruct (w_gather (as_rz o) ps b) as [b'|f] eqn:Ew; cbn [to_opt bind]; [|reflexivity].
    apply IH. cbn [to_opt] in E. symmetry in E. apply travo_length in E. rewrite combine_length in E. lia.
  - rewrite IH.
    + unfold analytical. rewrite (combine_map2 _ ps b H), travo_map. reflexivity.
    + unfold analytical. rewrite map2_length; [reflexivity|exact H].
Qed.
Lemma gather_all_pt fields ps t b : length ps = length b ->
  to_opt (gather_all fields ps t b) = travo (fun p => gather1 fields p t em0) ps.
Proof.
  intros H. unfold gather_all, reset_particle_fields. rewrite gather_each_pt by (rewrite map_length; exact H).
  revert b H. induction ps as [|p ps IH]; intros [|v b] H; try discriminate; [reflexivity|].
  cbn. rewrite IH by (cbn in H; lia). reflexivity.
Qed.

(** ** Pushing *)
Definition boris1 (fields : list efield) (qm t dt : R) (p : part) : option part :=
  let p1 := half_position_push1 dt p in
  match gather1 fields (pos_of p1) (t + dt / 2) em0 with
  | Some f => Some (half_position_push1 dt (push_momentum1 dt qm p1 f))
  | None => None
  end.
Lemma push_pt {D} (k : part -> em -> D) fields t l b : length l = length b ->
  match gather_all fields (map pos_of l) t b with
  | Ok f => Some (map2 k l f, length f)
  | Fault _ => None
  end =
  match travo (fun p => match gather1 fields (pos_of p) t em0 with Some f => Some (k p f) | None => None end) l with
  | Some r => Some (r, length l)
  | None => None
  end.
Proof.
  intros H. pose proof (gather_all_pt fields (map pos_of l) t b ltac:(rewrite map_length; exact H)) as E.
  rewrite travo_map in E. destruct (gather_all _ _ _ _) as [f|e]; cbn [to_opt] in E.
  - symmetry in E. revert f E. clear H. induction l as [|p l IH]; cbn; intros f E; [injection E as <-; reflexivity|].
    destruct (gather1 fields (pos_of p) t em0) as [v|]; [|discriminate].
    destruct (travo _ l) as [r|]; [|discriminate]. injection E as <-. specialize (IH r eq_refl).
    destruct (travo _ l) as [r'|]; [|discriminate]. injection IH as I1 I2. cbn. rewrite I1, I2. reflexivity.
  - symmetry in E. apply travo_none in E as (p & Hp & Hn).
    assert (N : travo (fun p => match gather1 fields (pos_of p) t em0 with Some f => Some (k p f) | None => None end) l = None).
    { apply travo_none. exists p. split; [exact Hp|]. cbv beta. rewrite Hn. reflexivity. }
    rewrite N. reflexivity.
Qed.
Lemma boris_pt q m fields t dt l b : length l = length b ->
  match boris q m fields t dt l b with
  | Ok (l', f) => travo (boris1 fields (q / (m * c_SI)) t dt) l = Some l' /\ length f = length l
  | Fault _ => travo (boris1 fields (q / (m * c_SI)) t dt) l = None
  end.
Proof.
  intros H. unfold boris. cbv zeta. set (l1 := half_position_push dt l).
  assert (L1 : length l1 = length b) by (unfold l1, half_position_push; rewrite map_length; exact H).
  pose proof (push_pt (push_momentum1 dt (q / (m * c_SI))) fields (t + dt / 2) l1 b L1) as E.
  assert (X : travo (boris1 fields (q / (m * c_SI)) t dt) l =
    match travo (fun p => match gather1 fields (pos_of p) (t + dt / 2) em0 with
       Some f => Some (push_momentum1 dt (q / (m * c_SI)) p f) | None => None end) l1 with
    | Some r => Some (half_position_push dt r) | None => None end).
  { unfold l1, half_position_push. rewrite travo_map. clear. induction l as [|p l IH]; [reflexivity|].
    cbn [travo]. rewrite IH. unfold boris1 at 1. cbv zeta.
    destruct (gather1 _ _ _ _); [|reflexivity].
    match goal with |- context [travo ?f l] => destruct (travo f l) end; reflexivity. }
  destruct (gather_all _ _ _ _) as [f|e]; cbn [bind].
  - destruct (travo _ l1) as [r|]; [|discriminate]. injection E as E1 E2. rewrite X. unfold push_momentum. rewrite E1.
    split; [reflexivity|]. rewrite E2. unfold l1, half_position_push. apply map_length.
  - destruct (travo _ l1) as [r|]; [discriminate|]. exact X.
Qed.
Definition slope1 (fields : list efield) (qm t : R) (p : part) : option part :=
  match gather1 fields (pos_of p) t em0 with Some f => Some (calculate_k1 qm p f) | None => None end.
Definition bindo {A B} (m : option A) (k : A -> option B) : option B := match m with Some a => k a | None => None end.
Definition along (dt fac : R) (p k : part) : part := lift2 (fun x0 kx => x0 + dt * kx * fac) p k.
Definition rk4_1 (fields : list efield) (qm t dt : R) (p : part) : option part :=
  bindo (slope1 fields qm t p) (fun k1 =>
  bindo (slope1 fields qm (t + dt / 2) (along dt 0.5 p k1)) (fun k2 =>
  bindo (slope1 fields qm (t + dt / 2) (along dt 0.5 p k2)) (fun k3 =>
  bindo (slope1 fields qm (t + dt) (along dt 1 p k3)) (fun k4 =>
  let d := lift2 (fun dx kx => dx + kx * (1 / 6))
           (lift2 (fun dx kx => dx + kx * (2 / 6))
           (lift2 (fun dx kx => dx + kx * (2 / 6)) (lift1 (fun kx => kx * (1 / 6)) k1) k2) k3) k4 in
  Some (lift2 (fun x dx => x + dt * dx) p d))))).

Definition or_self (f : part -> option part) (p : part) : part := match f p with Some b => b | None => p end.
Lemma travo_or_self f l l' : travo f l = Some l' -> l' = map (or_self f) l /\ (forall p, In p l -> f p = Some (or_self f p)).
Proof.
  revert l'. induction l as [|a l IH]; cbn; intros l' H; [injection H as <-; split; [reflexivity|intros p []]|].
  unfold or_self at 1. destruct (f a) as [b|] eqn:E; [|discriminate]. destruct (travo f l) as [r|]; [|discriminate].
  injection H as <-. destruct (IH r eq_refl) as [-> I2]. split; [reflexivity|].
  intros p [<-|Hp]; [unfold or_self; rewrite E; reflexivity|apply I2, Hp].
Qed.
(** A pass after which all slopes are there. *)
Lemma pass_pt fields qm t l b : length l = length b ->
  match gather_all fields (map pos_of l) t b with
  | Ok f => travo (slope1 fields qm t) l = Some (map2 (calculate_k1 qm) l f) /\ length f = length l
  | Fault _ => travo (slope1 fields qm t) l = None
  end.
Proof.
  intros H. pose proof (push_pt (calculate_k1 qm) fields t l b H) as E.
  fold (slope1 fields qm t) in E.
  change (fun p => match gather1 fields (pos_of p) t em0 with Some f => Some (calculate_k1 qm p f) | None => None end)
    with (slope1 fields qm t) in E.
  destruct (gather_all _ _ _ _) as [f|e]; destruct (travo _ l) as [r|]; try discriminate; [|reflexivity].
  injection E as E1 E2. rewrite E1, E2. split; reflexivity.
Qed.
Lemma rk4_pt q m fields t dt l a : length l = length (Model_Push.r_fld a) ->
  match rk4 q m fields t dt l a with
  | Ok (l', a') => travo (rk4_1 fields (q / (m * c_SI)) t dt) l = Some l' /\
      length (Model_Push.r_fld a') = length l /\ length (r_coord a') = length l /\
      length (r_push a') = length l /\ length (r_k a') = length l
  | Fault _ => travo (rk4_1 fields (q / (m * c_SI)) t dt) l = None
  end.
Proof.
  intros H. unfold rk4. cbv zeta. set (qm := q / (m * c_SI)).
  set (K1 := slope1 fields qm t). set (h := fun k p => along dt 0.5 p (k p)).
  set (k1 := or_self K1). set (K2 := fun p => slope1 fields qm (t + dt / 2) (h k1 p)).
  set (k2 := or_self K2). set (K3 := fun p => slope1 fields qm (t + dt / 2) (h k2 p)).
  set (k3 := or_self K3). set (K4 := fun p => slope1 fields qm (t + dt) (along dt 1 p (k3 p))).
  set (k4 := or_self K4).
  assert (F1 : forall p, In p l -> K1 p = None -> travo (rk4_1 fields qm t dt) l = None).
  { intros p Hp Hn. apply travo_none. exists p. split; [exact Hp|]. unfold rk4_1. fold (K1 p). rewrite Hn. reflexivity. }
  unfold rk4_pass at 1. cbv beta iota.
  pose proof (pass_pt fields qm t l (Model_Push.r_fld a) H) as P1.
  destruct (gather_all fields (map pos_of l) t (Model_Push.r_fld a)) as [f1|e1]; cbn [bind].
  2: { apply travo_none in P1 as (p & Hp & Hn). apply (F1 p Hp Hn). }
  destruct P1 as [P1 L1]. fold K1 in P1. apply travo_or_self in P1 as [E1 S1]. fold k1 in E1, S1. rewrite E1.
  unfold rk4_pass at 1. cbv beta iota. cbn [r_k r_push r_coord Model_Push.r_fld].
  assert (C2 : update_coord l dt (map k1 l) 0.5 = map (h k1) l).
  { unfold update_coord. rewrite map2_map_r, map2_diag. reflexivity. }
  rewrite C2.
  pose proof (pass_pt fields qm (t + dt / 2) (map (h k1) l) f1 ltac:(rewrite map_length; lia)) as P2.
  destruct (gather_all fields (map pos_of (map (h k1) l)) (t + dt / 2) f1) as [f2|e2]; cbn [bind]; rewrite travo_map in P2.
  2: { apply travo_none in P2 as (p & Hp & Hn). apply travo_none. exists p. split; [exact Hp|].
       unfold rk4_1. fold (K1 p). rewrite (S1 p Hp). cbn [bindo]. fold (h k1 p). rewrite Hn. reflexivity. }
  destruct P2 as [P2 L2]. rewrite map_length in L2. fold K2 in P2. apply travo_or_self in P2 as [E2 S2].
  fold k2 in E2, S2. rewrite E2.
  unfold rk4_pass at 1. cbv beta iota. cbn [r_k r_push r_coord Model_Push.r_fld].
  assert (C3 : update_coord l dt (map k2 l) 0.5 = map (h k2) l).
  { unfold update_coord. rewrite map2_map_r, map2_diag. reflexivity. }
  rewrite C3.
  pose proof (pass_pt fields qm (t + dt / 2) (map (h k2) l) f2 ltac:(rewrite map_length; lia)) as P3.
  destruct (gather_all fields (map pos_of (map (h k2) l)) (t + dt / 2) f2) as [f3|e3]; cbn [bind]; rewrite travo_map in P3.
  2: { apply travo_none in P3 as (p & Hp & Hn). apply travo_none. exists p. split; [exact Hp|].
       unfold rk4_1. fold (K1 p). rewrite (S1 p Hp). cbn [bindo]. fold (h k1 p). fold (K2 p). rewrite (S2 p Hp).
       cbn [bindo]. fold (h k2 p). rewrite Hn. reflexivity. }
  destruct P3 as [P3 L3]. rewrite map_length in L3. fold K3 in P3. apply travo_or_self in P3 as [E3 S3].
  fold k3 in E3, S3. rewrite E3.
  unfold rk4_pass at 1. cbv beta iota. cbn [r_k r_push r_coord Model_Push.r_fld].
  assert (C4 : update_coord l dt (map k3 l) 1 = map (fun p => along dt 1 p (k3 p)) l).
  { unfold update_coord. rewrite map2_map_r, map2_diag. reflexivity. }
  rewrite C4.
  pose proof (pass_pt fields qm (t + dt) (map (fun p => along dt 1 p (k3 p)) l) f3 ltac:(rewrite map_length; lia)) as P4.
  destruct (gather_all fields (map pos_of (map (fun p => along dt 1 p (k3 p)) l)) (t + dt) f3) as [f4|e4]; cbn [bind];
    rewrite travo_map in P4.
  2: { apply travo_none in P4 as (p & Hp & Hn). apply travo_none. exists p. split; [exact Hp|].
       unfold rk4_1. fold (K1 p). rewrite (S1 p Hp). cbn [bindo]. fold (h k1 p). fold (K2 p). rewrite (S2 p Hp).
       cbn [bindo]. fold (h k2 p). fold (K3 p). rewrite (S3 p Hp). cbn [bindo]. rewrite Hn. reflexivity. }
  destruct P4 as [P4 L4]. rewrite map_length in L4. fold K4 in P4. apply travo_or_self in P4 as [E4 S4].
  fold k4 in E4, S4. rewrite E4. cbn [r_k r_push r_coord Model_Push.r_fld].
  unfold update_push, initialize_push, apply_push. rewrite !map_map.
  repeat rewrite ?map2_map_l, ?map2_map_r, ?map2_diag.
  split; [|rewrite !map_length; auto].
  clear - S1 S2 S3 S4. subst K1 K2 K3 K4.
  assert (G : forall l0, (forall p, In p l0 -> In p l) ->
    travo (rk4_1 fields qm t dt) l0 = Some (map (fun p => or_self (rk4_1 fields qm t dt) p) l0) /\
    (forall p, In p l0 -> rk4_1 fields qm t dt p =
      Some (lift2 (fun x dx => x + dt * dx) p
           (lift2 (fun dx kx => dx + kx * (1 / 6))
           (lift2 (fun dx kx => dx + kx * (2 / 6))
           (lift2 (fun dx kx => dx + kx * (2 / 6)) (lift1 (fun kx => kx * (1 / 6)) (k1 p)) (k2 p)) (k3 p)) (k4 p))))).
  { induction l0 as [|p l0 IH]; intros Hi; [split; [reflexivity|intros p []]|].
    destruct (IH (fun u Hu => Hi u (or_intror Hu))) as [I1 I2].
    assert (Hp : In p l) by (apply Hi; left; reflexivity).
    assert (E : rk4_1 fields qm t dt p =
      Some (lift2 (fun x dx => x + dt * dx) p
           (lift2 (fun dx kx => dx + kx * (1 / 6))
           (lift2 (fun dx kx => dx + kx * (2 / 6))
           (lift2 (fun dx kx => dx + kx * (2 / 6)) (lift1 (fun kx => kx * (1 / 6)) (k1 p)) (k2 p)) (k3 p)) (k4 p)))).
    { unfold rk4_1. rewrite (S1 p Hp). cbn [bindo]. fold (h k1 p). rewrite (S2 p Hp). cbn [bindo]. fold (h k2 p).
      rewrite (S3 p Hp). cbn [bindo]. rewrite (S4 p Hp). reflexivity. }
    split.
    - cbn [travo map]. rewrite I1. unfold or_self at 2. rewrite E. reflexivity.
    - intros u [<-|Hu]; [exact E|apply I2, Hu]. }
  destruct (G l (fun p Hp => Hp)) as [G1 G2]. rewrite G1. f_equal. apply map_ext_in. intros p Hp.
  unfold or_self. rewrite (G2 p Hp). reflexivity.
Qed.
