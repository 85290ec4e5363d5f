(** Lemmas: the Boris push and phase-space volume. *)
From Coq Require Import Reals List Lra.
From Coquelicot Require Import Coquelicot.
From Verif Require Import Model_Push Spec_Push Proofs_Push Spec_Conv Proofs_Conv Proofs_Conv2 Spec_Volume Proofs_Volume Proofs_Volume2.
Import ListNotations.
Open Scope R_scope.

Lemma x_padd a b : x (a <+> b) = x a + x b. Proof. reflexivity. Qed.
Lemma y_padd a b : y (a <+> b) = y a + y b. Proof. reflexivity. Qed.
Lemma xi_padd a b : xi (a <+> b) = xi a + xi b. Proof. reflexivity. Qed.
Lemma px_padd a b : px (a <+> b) = px a + px b. Proof. reflexivity. Qed.
Lemma py_padd a b : py (a <+> b) = py a + py b. Proof. reflexivity. Qed.
Lemma pz_padd a b : pz (a <+> b) = pz a + pz b. Proof. reflexivity. Qed.
Lemma x_pscal k a : x (k <*> a) = k * x a. Proof. reflexivity. Qed.
Lemma y_pscal k a : y (k <*> a) = k * y a. Proof. reflexivity. Qed.
Lemma xi_pscal k a : xi (k <*> a) = k * xi a. Proof. reflexivity. Qed.
Lemma px_pscal k a : px (k <*> a) = k * px a. Proof. reflexivity. Qed.
Lemma py_pscal k a : py (k <*> a) = k * py a. Proof. reflexivity. Qed.
Lemma pz_pscal k a : pz (k <*> a) = k * pz a. Proof. reflexivity. Qed.
Lemma comp_Z : x Z = 0 /\ y Z = 0 /\ xi Z = 0 /\ px Z = 0 /\ py Z = 0 /\ pz Z = 0.
Proof. repeat split. Qed.
Lemma part_ext a b : x a = x b -> y a = y b -> xi a = xi b -> px a = px b -> py a = py b -> pz a = pz b -> a = b.
Proof. destruct a as [a1 a2 a3 a4 a5 a6], b as [b1 b2 b3 b4 b5 b6]. cbn [x y xi px py pz]. intros -> -> -> -> -> ->. reflexivity. Qed.
Ltac comps :=
  repeat first [rewrite x_padd|rewrite y_padd|rewrite xi_padd|rewrite px_padd|rewrite py_padd|rewrite pz_padd
               |rewrite x_pscal|rewrite y_pscal|rewrite xi_pscal|rewrite px_pscal|rewrite py_pscal|rewrite pz_pscal];
  rewrite ?(proj1 comp_Z), ?(proj1 (proj2 comp_Z)), ?(proj1 (proj2 (proj2 comp_Z))), ?(proj1 (proj2 (proj2 (proj2 comp_Z)))),
    ?(proj1 (proj2 (proj2 (proj2 (proj2 comp_Z))))), ?(proj2 (proj2 (proj2 (proj2 (proj2 comp_Z))))).

(** The rotation of a Boris push, with the dependence of its angle on the energy, has determinant 1. *)
Lemma det_rot (u1 u2 u3 t1 t2 t3 mu : R) :
  let n := 1 + t1*t1 + t2*t2 + t3*t3 in n <> 0 ->
  let s := 2 / n in
    let ds := - s * s * (t1*t1+t2*t2+t3*t3) * mu in
  let c1 := u1 + u2*t3 - u3*t2 in let c2 := u2 + u3*t1 - u1*t3 in let c3 := u3 + u1*t2 - u2*t1 in
    let k1 := (u2*t3-u3*t2)*mu in let k2 := (u3*t1-u1*t3)*mu in let k3 := (u1*t2-u2*t1)*mu in
    let r1 := ds*(c2*t3-c3*t2) + s*(k2*t3-k3*t2) + s*mu*(c2*t3-c3*t2) in
  let r2 := ds*(c3*t1-c1*t3) + s*(k3*t1-k1*t3) + s*mu*(c3*t1-c1*t3) in
  let r3 := ds*(c1*t2-c2*t1) + s*(k1*t2-k2*t1) + s*mu*(c1*t2-c2*t1) in
    let a11 := 1 + s*(-t3*t3 - t2*t2) in let a12 := s*(t3 + t1*t2) in let a13 := s*(t1*t3 - t2) in
  let a21 := s*(t1*t2 - t3) in let a22 := 1 + s*(-t1*t1-t3*t3) in let a23 := s*(t1 + t2*t3) in
  let a31 := s*(t2+t1*t3) in let a32 := s*(t2*t3 - t1) in let a33 := 1 + s*(-t1*t1-t2*t2) in
  let C11 := a11 + r1*u1 in let C12 := a12 + r1*u2 in let C13 := a13 + r1*u3 in
  let C21 := a21 + r2*u1 in let C22 := a22 + r2*u2 in let C23 := a23 + r2*u3 in
  let C31 := a31 + r3*u1 in let C32 := a32 + r3*u2 in let C33 := a33 + r3*u3 in
  C11*(C22*C33-C23*C32) - C12*(C21*C33-C23*C31) + C13*(C21*C32-C22*C31) = 1.
Proof. intros. unfold C11,C12,C13,C21,C22,C23,C31,C32,C33,r1,r2,r3,k1,k2,k3,c1,c2,c3,a11,a12,a13,a21,a22,a23,a31,a32,a33,ds,s,n in *. field. exact H. Qed.

Section Rows.
  Variables p X1 X2 X3 P1 P2 P3 : part.
  Definition span (k : part) : part :=
    Z <+> px k <*> P1 <+> py k <*> P2 <+> pz k <*> P3 <+> x k <*> X1 <+> y k <*> X2 <+> xi k <*> X3.
  Definition SK (phi : part -> R) (k : part) : Prop := gradient phi p (span k).
  Ltac lin_span := unfold span; cbn [x y xi px py pz]; apply part_ext; comps; ring.
  Lemma sk_eq phi k k' : SK phi k -> k = k' -> SK phi k'.
  Proof. intros H <-. exact H. Qed.
  Lemma sk_ext phi psi k : (forall p', phi p' = psi p') -> SK phi k -> SK psi k.
  Proof. apply gr_ext. Qed.
  Lemma sk_of phi j k : gradient phi p j -> j = span k -> SK phi k.
  Proof. intros H ->. exact H. Qed.
  Lemma sk_const c : SK (fun _ => c) Z.
  Proof. eapply sk_of; [apply gr_const|]. lin_span. Qed.
  Lemma sk_plus phi psi k k' : SK phi k -> SK psi k' -> SK (fun p' => phi p' + psi p') (k <+> 1 <*> k').
  Proof. intros H K. eapply sk_of; [apply gr_plus; [exact H|exact K]|]. lin_span. Qed.
  Lemma sk_mult phi psi k k' : SK phi k -> SK psi k' -> SK (fun p' => phi p' * psi p') ((Z <+> psi p <*> k) <+> phi p <*> k').
  Proof. intros H K. eapply sk_of; [apply gr_mult; [exact H|exact K]|]. lin_span. Qed.
  Lemma sk_comp g l phi k : is_derive g (phi p) l -> SK phi k -> SK (fun p' => g (phi p')) (Z <+> l <*> k).
  Proof. intros H K. eapply sk_of; [apply gr_comp; [exact H|exact K]|]. lin_span. Qed.

  (** Functions of the momenta. *)
  Definition PO (phi : part -> R) : Prop := exists k, SK phi k /\ x k = 0 /\ y k = 0 /\ xi k = 0.
  Ltac zero := comps; repeat match goal with H : _ = 0 |- _ => rewrite H end; ring.
  Lemma po_const c : PO (fun _ => c).
  Proof. exists Z. split; [apply sk_const|]. repeat split. Qed.
  Lemma po_plus phi psi : PO phi -> PO psi -> PO (fun p' => phi p' + psi p').
  Proof. intros (k & H & ? & ? & ?) (k' & H' & ? & ? & ?). eexists. split; [apply sk_plus; [exact H|exact H']|]. repeat split; zero. Qed.
  Lemma po_mult phi psi : PO phi -> PO psi -> PO (fun p' => phi p' * psi p').
  Proof. intros (k & H & ? & ? & ?) (k' & H' & ? & ? & ?). eexists. split; [apply sk_mult; [exact H|exact H']|]. repeat split; zero. Qed.
  Lemma po_comp g l phi : is_derive g (phi p) l -> PO phi -> PO (fun p' => g (phi p')).
  Proof. intros D1 (k & H & ? & ? & ?). eexists. split; [apply (sk_comp g l); [exact D1|exact H]|]. repeat split; zero. Qed.
  Lemma po_ext phi psi : (forall p', phi p' = psi p') -> PO phi -> PO psi.
  Proof. intros E (k & H & Q). exists k. split; [apply (sk_ext phi); assumption|exact Q]. Qed.

  (** Dependence on the momenta, for fixed positions. *)
  Definition SC (phi : part -> R) (c : vec) : Prop := exists k, SK phi k /\ momentum k = c.
  Lemma sc_eq phi c c' : SC phi c -> c = c' -> SC phi c'.
  Proof. intros H <-. exact H. Qed.
  Lemma sc_ext phi psi c : (forall p', phi p' = psi p') -> SC phi c -> SC psi c.
  Proof. intros E (k & H & Q). exists k. split; [apply (sk_ext phi); assumption|exact Q]. Qed.
  Lemma sc_const a : SC (fun _ => a) (0, 0, 0).
  Proof. exists Z. split; [apply sk_const|reflexivity]. Qed.
  Lemma sc_plus phi psi c c' : SC phi c -> SC psi c' -> SC (fun p' => phi p' + psi p') (vadd3 c c').
  Proof.
    intros (k & H & <-) (k' & H' & <-). eexists. split; [apply sk_plus; [exact H|exact H']|]. unfold momentum, vadd3. comps.
    f_equal; [f_equal|]; ring.
  Qed.
  Lemma sc_mult phi psi c c' : SC phi c -> SC psi c' -> SC (fun p' => phi p' * psi p') (vadd3 (scal (psi p) c) (scal (phi p) c')).
  Proof.
    intros (k & H & <-) (k' & H' & <-). eexists. split; [apply sk_mult; [exact H|exact H']|]. unfold momentum, vadd3, scal. comps.
    f_equal; [f_equal|]; ring.
  Qed.
  Lemma sc_comp g l phi c : is_derive g (phi p) l -> SC phi c -> SC (fun p' => g (phi p')) (scal l c).
  Proof.
    intros D1 (k & H & <-). eexists. split; [apply (sk_comp g l); [exact D1|exact H]|]. unfold momentum, scal. comps.
    f_equal; [f_equal|]; ring.
  Qed.
  Lemma sc_scal a phi c : SC phi c -> SC (fun p' => a * phi p') (scal a c).
  Proof.
    intros H. eapply sc_eq; [apply (sc_mult (fun _ => a)); [apply sc_const|exact H]|]. destruct c as [[? ?] ?]. unfold vadd3, scal. f_equal; [f_equal|]; ring.
  Qed.
  Lemma sc_minus phi psi c c' : SC phi c -> SC psi c' -> SC (fun p' => phi p' - psi p') (vadd3 c (scal (-1) c')).
  Proof. intros H K. apply (sc_ext (fun p' => phi p' + -1 * psi p')); [intros; ring|]. apply sc_plus; [exact H|]. apply sc_scal, K. Qed.

  Variable F : part -> part.
  Hypothesis HJ : jacobian F p [X1; X2; X3; P1; P2; P3].
  Lemma rows : gradient (fun p' => x (F p')) p X1 /\ gradient (fun p' => y (F p')) p X2 /\ gradient (fun p' => xi (F p')) p X3 /\
    gradient (fun p' => px (F p')) p P1 /\ gradient (fun p' => py (F p')) p P2 /\ gradient (fun p' => pz (F p')) p P3.
  Proof.
    unfold jacobian in HJ. repeat match goal with H : Forall2 _ (_ :: _) _ |- _ => inversion H; clear H; subst end. auto 10.
  Qed.
  Lemma sk_rows : SK (fun p' => x (F p')) (mkp 1 0 0 0 0 0) /\ SK (fun p' => y (F p')) (mkp 0 1 0 0 0 0) /\ SK (fun p' => xi (F p')) (mkp 0 0 1 0 0 0) /\
    SK (fun p' => px (F p')) (mkp 0 0 0 1 0 0) /\ SK (fun p' => py (F p')) (mkp 0 0 0 0 1 0) /\ SK (fun p' => pz (F p')) (mkp 0 0 0 0 0 1).
  Proof.
    destruct rows as (R1 & R2 & R3 & R4 & R5 & R6).
    repeat split; (eapply sk_of; [eassumption|]); lin_span.
  Qed.
  Lemma po_p : PO (fun p' => px (F p')) /\ PO (fun p' => py (F p')) /\ PO (fun p' => pz (F p')).
  Proof. destruct sk_rows as (_ & _ & _ & K4 & K5 & K6). repeat split; (eexists; split; [eassumption|]; repeat split). Qed.
  Lemma sc_field G s e : differentiable G s -> In e [ex; ey; ez; bx; by_; bz] -> SC (fun p' => e (G (pos_of (F p')) s)) (0, 0, 0).
  Proof.
    intros HG He. destruct rows as (R1 & R2 & R3 & _). destruct (gr_field p G s e F X1 X2 X3 HG He R1 R2 R3) as (d1 & d2 & d3 & H).
    exists (mkp d1 d2 d3 0 0 0). split; [|reflexivity]. eapply sk_of; [exact H|]. lin_span.
  Qed.

  Definition gsq (a b c : R) : R := 1 + (a ^ 2 + b ^ 2 + c ^ 2).
  Lemma gsq_ge1 a b c : 1 <= gsq a b c.
  Proof. unfold gsq. pose proof (pow2_ge_0 a). pose proof (pow2_ge_0 b). pose proof (pow2_ge_0 c). lra. Qed.
  Lemma inv_root_derive k v : 1 <= v -> is_derive (fun z => k / sqrt z) v (k / sqrt v * (- / (2 * v))).
  Proof.
    intros Hv. assert (S0 : 0 < sqrt v) by (apply sqrt_lt_R0; lra). auto_derive; [split; [lra|split; [lra|exact I]]|].
    pose proof (sqrt_sqrt v ltac:(lra)) as Hr. revert S0 Hr. generalize (sqrt v). intros r S0 Hr. subst v. field. lra.
  Qed.

  Lemma volume_half dt : exists J, jacobian (fun p' => half_position_push1 dt (F p')) p J /\ det J = D X1 X2 X3 P1 P2 P3.
  Proof.
    destruct sk_rows as (K1 & K2 & K3 & _). destruct rows as (_ & _ & _ & R4 & R5 & R6). destruct po_p as (Q1 & Q2 & Q3).
    assert (Sq : forall phi, PO phi -> PO (fun p' => phi p' ^ 2)) by (intros phi H; apply (po_ext (fun p' => phi p' * phi p')); [intros; ring|apply po_mult; exact H]).
    assert (Cg : PO (fun p' => c_SI / sqrt (1 + (px (F p') ^ 2 + py (F p') ^ 2 + pz (F p') ^ 2)))).
    { eapply (po_comp (fun z => c_SI / sqrt z) _ (fun p' => 1 + (px (F p') ^ 2 + py (F p') ^ 2 + pz (F p') ^ 2))); [apply inv_root_derive, gsq_ge1|].
      apply (po_plus (fun _ => 1)); [apply po_const|]. repeat apply po_plus; apply Sq; assumption. }
    set (cg := fun p' => c_SI / sqrt (1 + (px (F p') ^ 2 + py (F p') ^ 2 + pz (F p') ^ 2))) in *.
    assert (Vx : PO (fun p' => 0.5 * px (F p') * dt * cg p')).
    { apply po_mult; [|exact Cg]. apply (po_mult (fun p' => 0.5 * px (F p')) (fun _ => dt)); [|apply po_const]. apply (po_mult (fun _ => 0.5)); [apply po_const|exact Q1]. }
    assert (Vy : PO (fun p' => 0.5 * py (F p') * dt * cg p')).
    { apply po_mult; [|exact Cg]. apply (po_mult (fun p' => 0.5 * py (F p')) (fun _ => dt)); [|apply po_const]. apply (po_mult (fun _ => 0.5)); [apply po_const|exact Q2]. }
    assert (Vz : PO (fun p' => 0.5 * (pz (F p') * cg p' - c_SI) * dt)).
    { apply (po_mult (fun p' => 0.5 * (pz (F p') * cg p' - c_SI)) (fun _ => dt)); [|apply po_const]. apply (po_mult (fun _ => 0.5)); [apply po_const|].
      apply (po_plus (fun p' => pz (F p') * cg p') (fun _ => - c_SI)); [|apply po_const]. apply po_mult; assumption. }
    destruct Vx as (k1 & V1 & a1 & a2 & a3), Vy as (k2 & V2 & b1 & b2 & b3), Vz as (k3 & V3 & c1 & c2 & c3).
    exists [X1 <+> px k1 <*> P1 <+> py k1 <*> P2 <+> pz k1 <*> P3; X2 <+> px k2 <*> P1 <+> py k2 <*> P2 <+> pz k2 <*> P3;
            X3 <+> px k3 <*> P1 <+> py k3 <*> P2 <+> pz k3 <*> P3; P1; P2; P3]. split; [|apply shears].
    assert (E : forall (v : R) (X : part) b1 b2 b3 k, span (mkp b1 b2 b3 0 0 0 <+> 1 <*> k) = X <+> px k <*> P1 <+> py k <*> P2 <+> pz k <*> P3 ->
      forall phi psi, SK phi (mkp b1 b2 b3 0 0 0) -> SK psi k ->
      gradient (fun p' => phi p' + psi p') p (X <+> px k <*> P1 <+> py k <*> P2 <+> pz k <*> P3)).
    { intros _ X e1 e2 e3 k Ek phi psi H1 H2. rewrite <- Ek. apply sk_plus; assumption. }
    repeat constructor; cbn [half_position_push1 x y xi px py pz]; try assumption.
    - apply (E 0 X1 1 0 0 k1) with (phi := fun p' => x (F p')); try assumption.
      unfold span. apply part_ext; comps; cbn [x y xi px py pz]; rewrite a1, a2, a3; ring.
    - apply (E 0 X2 0 1 0 k2) with (phi := fun p' => y (F p')); try assumption.
      unfold span. apply part_ext; comps; cbn [x y xi px py pz]; rewrite b1, b2, b3; ring.
    - apply (E 0 X3 0 0 1 k3) with (phi := fun p' => xi (F p')); try assumption.
      unfold span. apply part_ext; comps; cbn [x y xi px py pz]; rewrite c1, c2, c3; ring.
  Qed.

  Ltac vec_ring := unfold vadd3, scal; f_equal; [f_equal|]; ring.
  Lemma sc_rotation U1 U2 U3 t1 t2 t3 mu :
    SC U1 (1, 0, 0) -> SC U2 (0, 1, 0) -> SC U3 (0, 0, 1) ->
    (forall T, In T [t1; t2; t3] -> SC T (scal (T p * mu) (U1 p, U2 p, U3 p))) ->
    forall S, (forall p', S p' = 2 / (1 + t1 p' ^ 2 + t2 p' ^ 2 + t3 p' ^ 2)) ->
    exists v1 v2 v3, det3 v1 v2 v3 = 1 /\
      SC (fun p' => U1 p' + (U2 p' + U3 p' * t1 p' - U1 p' * t3 p') * (S p' * t3 p') - (U3 p' + U1 p' * t2 p' - U2 p' * t1 p') * (S p' * t2 p')) v1 /\
      SC (fun p' => U2 p' + (U3 p' + U1 p' * t2 p' - U2 p' * t1 p') * (S p' * t1 p') - (U1 p' + U2 p' * t3 p' - U3 p' * t2 p') * (S p' * t3 p')) v2 /\
      SC (fun p' => U3 p' + (U1 p' + U2 p' * t3 p' - U3 p' * t2 p') * (S p' * t2 p') - (U2 p' + U3 p' * t1 p' - U1 p' * t3 p') * (S p' * t1 p')) v3.
  Proof.
    intros H1 H2 H3 HT S HS.
    assert (K1 := HT t1 ltac:(cbn; auto)). assert (K2 := HT t2 ltac:(cbn; auto)). assert (K3 := HT t3 ltac:(cbn; auto)). clear HT.
    set (u := (U1 p, U2 p, U3 p)) in *.
    set (n := 1 + t1 p * t1 p + t2 p * t2 p + t3 p * t3 p).
    assert (Hn : 0 < n) by (unfold n; pose proof (Rle_0_sqr (t1 p)); pose proof (Rle_0_sqr (t2 p)); pose proof (Rle_0_sqr (t3 p)); unfold Rsqr in *; lra).
    set (q := t1 p * t1 p + t2 p * t2 p + t3 p * t3 p).
    assert (Sp : S p = 2 / n) by (rewrite HS; unfold n; f_equal; ring).
    assert (KS : SC S (scal (- (2 / n) * (2 / n) * q * mu) u)).
    { apply (sc_ext (fun p' => 2 / (1 + (t1 p' * t1 p' + t2 p' * t2 p' + t3 p' * t3 p')))); [intros p'; rewrite HS; f_equal; ring|].
      eapply sc_eq; [eapply (sc_comp (fun z => 2 / z) (- 2 / (n * n)) (fun p' => 1 + (t1 p' * t1 p' + t2 p' * t2 p' + t3 p' * t3 p')))|].
      - cbv beta. replace (1 + (t1 p * t1 p + t2 p * t2 p + t3 p * t3 p)) with n by (unfold n; ring). auto_derive; [lra|]. field. lra.
      - apply (sc_plus (fun _ => 1)); [apply sc_const|]. apply sc_plus; [apply sc_plus|]; apply sc_mult; eassumption.
      - unfold u, q. unfold vadd3, scal. f_equal; [f_equal|]; field; lra. }
    assert (KST : forall T, SC T (scal (T p * mu) u) ->
      SC (fun p' => S p' * T p') (scal (- (2 / n) * (2 / n) * q * mu * T p + 2 / n * T p * mu) u)).
    { intros T HT. eapply sc_eq; [apply sc_mult; [exact KS|exact HT]|]. rewrite Sp. unfold u. vec_ring. }
    assert (KC : forall A B C T T' va vb vc, SC A va -> SC B vb -> SC C vc -> SC T (scal (T p * mu) u) -> SC T' (scal (T' p * mu) u) ->
      SC (fun p' => A p' + B p' * T p' - C p' * T' p')
        (vadd3 (vadd3 va (vadd3 (scal (T p) vb) (scal (- T' p) vc))) (scal ((B p * T p - C p * T' p) * mu) u))).
    { intros A B C T T' va vb vc HA HB HC HT HT'. eapply sc_eq.
      - apply sc_minus; [apply sc_plus; [exact HA|apply sc_mult; [exact HB|exact HT]]|apply sc_mult; [exact HC|exact HT']].
      - destruct va as [[? ?] ?], vb as [[? ?] ?], vc as [[? ?] ?]. unfold u. vec_ring. }
    assert (C1 := KC U1 U2 U3 t3 t2 _ _ _ H1 H2 H3 K3 K2).
    assert (C2 := KC U2 U3 U1 t1 t3 _ _ _ H2 H3 H1 K1 K3).
    assert (C3 := KC U3 U1 U2 t2 t1 _ _ _ H3 H1 H2 K2 K1).
    assert (Sub : forall A B C S1 S2 va vb vc w1 w2, SC A va -> SC B vb -> SC C vc -> SC S1 w1 -> SC S2 w2 ->
      SC (fun p' => A p' + B p' * S1 p' - C p' * S2 p')
        (vadd3 va (vadd3 (vadd3 (scal (S1 p) vb) (scal (B p) w1)) (vadd3 (scal (- S2 p) vc) (scal (- C p) w2))))).
    { intros A B C S1 S2 va vb vc w1 w2 HA HB HC HS1 HS2. eapply sc_eq.
      - apply sc_minus; [apply sc_plus; [exact HA|apply sc_mult; [exact HB|exact HS1]]|apply sc_mult; [exact HC|exact HS2]].
      - destruct va as [[? ?] ?], vb as [[? ?] ?], vc as [[? ?] ?], w1 as [[? ?] ?], w2 as [[? ?] ?]. vec_ring. }
    eexists _, _, _. split; [|split; [|split]].
    2: exact (Sub _ _ _ (fun p' => S p' * t3 p') (fun p' => S p' * t2 p') _ _ _ _ _ H1 C2 C3 (KST _ K3) (KST _ K2)).
    2: exact (Sub _ _ _ (fun p' => S p' * t1 p') (fun p' => S p' * t3 p') _ _ _ _ _ H2 C3 C1 (KST _ K1) (KST _ K3)).
    2: exact (Sub _ _ _ (fun p' => S p' * t2 p') (fun p' => S p' * t1 p') _ _ _ _ _ H3 C1 C2 (KST _ K2) (KST _ K1)).
    cbv beta. rewrite Sp. clear - Hn. pose proof (det_rot (U1 p) (U2 p) (U3 p) (t1 p) (t2 p) (t3 p) mu ltac:(cbv zeta; fold n; lra)) as E.
    cbv zeta in E. fold n q in E. refine (eq_trans _ E). unfold u, det3, vadd3, scal. ring.
  Qed.

  Lemma volume_momentum dt qm G s : differentiable G s ->
    exists J, jacobian (fun p' => push_momentum1 dt qm (F p') (G (pos_of (F p')) s)) p J /\ det J = D X1 X2 X3 P1 P2 P3.
  Proof.
    intros HG. destruct sk_rows as (_ & _ & _ & K4 & K5 & K6). destruct rows as (R1 & R2 & R3 & _).
    set (f := fun p' => G (pos_of (F p')) s). set (k := qm * dt / 2).
    assert (HF : forall e, In e [ex; ey; ez; bx; by_; bz] -> SC (fun p' => e (f p')) (0, 0, 0)) by (intros e He; apply sc_field; assumption).
    assert (KE : forall e, In e [ex; ey; ez; bx; by_; bz] -> SC (fun p' => k * e (f p')) (0, 0, 0)).
    { intros e He. eapply sc_eq; [apply sc_scal, HF, He|]. vec_ring. }
    assert (M1 : SC (fun p' => px (F p') + k * ex (f p')) (1, 0, 0)).
    { eapply sc_eq; [apply sc_plus; [eexists; split; [exact K4|reflexivity]|apply KE; cbn; auto 10]|]. cbn. vec_ring. }
    assert (M2 : SC (fun p' => py (F p') + k * ey (f p')) (0, 1, 0)).
    { eapply sc_eq; [apply sc_plus; [eexists; split; [exact K5|reflexivity]|apply KE; cbn; auto 10]|]. cbn. vec_ring. }
    assert (M3 : SC (fun p' => pz (F p') + k * ez (f p')) (0, 0, 1)).
    { eapply sc_eq; [apply sc_plus; [eexists; split; [exact K6|reflexivity]|apply KE; cbn; auto 10]|]. cbn. vec_ring. }
    set (U1 := fun p' => px (F p') + k * ex (f p')) in *. set (U2 := fun p' => py (F p') + k * ey (f p')) in *.
    set (U3 := fun p' => pz (F p') + k * ez (f p')) in *.
    set (cg := fun p' => c_SI / sqrt (1 + (U1 p' ^ 2 + U2 p' ^ 2 + U3 p' ^ 2))).
    set (v := 1 + (U1 p ^ 2 + U2 p ^ 2 + U3 p ^ 2)).
    assert (Hv : 1 <= v) by apply gsq_ge1.
    assert (Kc : SC cg (scal (cg p * - / v) (U1 p, U2 p, U3 p))).
    { assert (Sq : SC (fun p' => 1 + (U1 p' ^ 2 + U2 p' ^ 2 + U3 p' ^ 2)) (scal 2 (U1 p, U2 p, U3 p))).
      { apply (sc_ext (fun p' => 1 + (U1 p' * U1 p' + U2 p' * U2 p' + U3 p' * U3 p'))); [intros; ring|].
        eapply sc_eq; [apply (sc_plus (fun _ => 1)); [apply sc_const|]; apply sc_plus; [apply sc_plus|]; apply sc_mult; eassumption|]. vec_ring. }
      eapply sc_eq; [apply (sc_comp (fun z => c_SI / sqrt z) (c_SI / sqrt v * (- / (2 * v))) (fun p' => 1 + (U1 p' ^ 2 + U2 p' ^ 2 + U3 p' ^ 2)) _ (inv_root_derive c_SI v Hv) Sq)|].
      unfold cg. fold v. pose proof (sqrt_lt_R0 v ltac:(lra)). unfold scal. f_equal; [f_equal|]; field; lra. }
    assert (KT : forall e, In e [ex; ey; ez; bx; by_; bz] ->
      SC (fun p' => k * cg p' * e (f p')) (scal (k * cg p * e (f p) * - / v) (U1 p, U2 p, U3 p))).
    { intros e He. eapply sc_eq; [apply (sc_mult (fun p' => k * cg p')); [apply sc_scal, Kc|apply HF, He]|]. vec_ring. }
    destruct (sc_rotation U1 U2 U3 (fun p' => k * cg p' * bx (f p')) (fun p' => k * cg p' * by_ (f p')) (fun p' => k * cg p' * bz (f p')) (- / v) M1 M2 M3)
      with (S := fun p' => 2 / (1 + (k * cg p' * bx (f p')) ^ 2 + (k * cg p' * by_ (f p')) ^ 2 + (k * cg p' * bz (f p')) ^ 2))
      as (v1 & v2 & v3 & Hd & N1 & N2 & N3).
    { intros T [<-|[<-|[<-|[]]]]; apply KT; cbn; auto 10. }
    { reflexivity. }
    assert (Last : forall phi w e, SC phi w -> In e [ex; ey; ez; bx; by_; bz] -> SC (fun p' => phi p' + k * e (f p')) w).
    { intros phi w e Hp He. eapply sc_eq; [apply sc_plus; [exact Hp|apply KE, He]|]. destruct w as [[? ?] ?]. vec_ring. }
    apply (fun H => Last _ _ ex H ltac:(cbn; auto 10)) in N1. apply (fun H => Last _ _ ey H ltac:(cbn; auto 10)) in N2.
    apply (fun H => Last _ _ ez H ltac:(cbn; auto 10)) in N3.
    destruct N1 as (k1 & N1 & E1), N2 as (k2 & N2 & E2), N3 as (k3 & N3 & E3).
    exists [X1; X2; X3; span k1; span k2; span k3]. split.
    - unfold jacobian. do 3 (apply Forall2_cons; [cbn [push_momentum1 x y xi]; assumption|]).
      apply Forall2_cons; [exact N1|]. apply Forall2_cons; [exact N2|]. apply Forall2_cons; [exact N3|]. constructor.
    - change (D X1 X2 X3 (span k1) (span k2) (span k3) = D X1 X2 X3 P1 P2 P3). unfold span. rewrite mixing.
      change (det3 (momentum k1) (momentum k2) (momentum k3) * D X1 X2 X3 P1 P2 P3 = D X1 X2 X3 P1 P2 P3). rewrite E1, E2, E3, Hd. ring.
  Qed.
End Rows.

Definition volume_preserving (F : part -> part) : Prop := forall p, exists J, jacobian F p J /\ det J = 1.
Lemma jacobian_six F p J : jacobian F p J -> exists a b c d e f, J = [a; b; c; d; e; f].
Proof.
  intros H. unfold jacobian in H. repeat match goal with H : Forall2 _ (_ :: _) _ |- _ => inversion H; clear H; subst end.
  match goal with H : Forall2 _ [] _ |- _ => inversion H; subst end. do 6 eexists. reflexivity.
Qed.
Lemma jacobian_ext F F' p J : (forall p', F p' = F' p') -> jacobian F p J -> jacobian F' p J.
Proof.
  intros E. unfold jacobian. generalize [x; y; xi; px; py; pz]. induction 1; constructor; [|assumption].
  revert H. apply gr_ext. intros p'. rewrite E. reflexivity.
Qed.
Lemma volume_push F qm G t dt : differentiable G (t + dt / 2) -> volume_preserving F ->
  volume_preserving (fun p => boris1 qm G t dt (F p)).
Proof.
  intros HG HF p. destruct (HF p) as (J0 & H0 & E0). destruct (jacobian_six _ _ _ H0) as (a & b & c & d & e & f & ->).
  destruct (volume_half p a b c d e f F H0 dt) as (J1 & H1 & E1). change (D a b c d e f = 1) in E0. rewrite E0 in E1.
  destruct (jacobian_six _ _ _ H1) as (a1 & b1 & c1 & d1 & e1 & f1 & ->).
  destruct (volume_momentum p _ _ _ _ _ _ _ H1 dt qm G _ HG) as (J2 & H2 & E2). change (D a1 b1 c1 d1 e1 f1 = 1) in E1. rewrite E1 in E2.
  destruct (jacobian_six _ _ _ H2) as (a2 & b2 & c2 & d2 & e2 & f2 & ->).
  destruct (volume_half p _ _ _ _ _ _ _ H2 dt) as (J3 & H3 & E3). change (D a2 b2 c2 d2 e2 f2 = 1) in E2. rewrite E2 in E3.
  exists J3. split; [|exact E3].
  eapply jacobian_ext; [|exact H3]. intros p'. unfold boris1. rewrite <- !half_push_vec. reflexivity.
Qed.
Lemma volume_id : volume_preserving (fun p => p).
Proof.
  intros p. exists [mkp 1 0 0 0 0 0; mkp 0 1 0 0 0 0; mkp 0 0 1 0 0 0; mkp 0 0 0 1 0 0; mkp 0 0 0 0 1 0; mkp 0 0 0 0 0 1]. split.
  - repeat constructor; intros eps He; (exists 1; split; [lra|]; intros p' _); unfold scalar; cbn [x y xi px py pz];
      (match goal with |- Rabs ?z <= _ => replace z with 0 by ring end; rewrite Rabs_R0; apply Rmult_le_pos; [lra|apply pdist_pos]).
  - unfold det. cbn [map row determinant expand without x y xi px py pz]. ring.
Qed.
