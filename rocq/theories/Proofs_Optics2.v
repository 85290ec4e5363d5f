(** Proofs about the second-order transfer map. *)
From Coq Require Import Reals List Arith Lra Lia Psatz.
From Coquelicot Require Import Coquelicot.
From Verif Require Import Model_Push Model_Bunch Model_Optics Spec_Optics Proofs_Optics.
Import ListNotations.
Open Scope R_scope.

(** ** The ingredients as functions of z *)
Definition J3 (k z : R) : R :=
  if rnonzero k
  then (15 * z - 22.5 * SX k z + 9 * SX k z * CX k z - 1.5 * SX k z * CX k z * CX k z
        + k * (SX k z * SX k z) * SX k z) / (6 * (k * k) * k)
  else z ^ 7 / 56.
Definition mden (k q : R) := k - 4 * q.
Definition Jc (k q z : R) : R :=
  if rnonzero (mden k q) then (2 * CX q z * CX q z - 1 - CX k z) / mden k q
  else 0.5 * (z * z).
Definition Js (k q z : R) : R :=
  if rnonzero (mden k q) then (CX q z * SX q z - SX k z) / mden k q else z * z * z / 6.
Definition Jd (k q z : R) : R :=
  if rnonzero (mden k q) then (0.5 * SX q z * SX q z - DX k z) / mden k q
  else z * z * z * z / 24.
Definition F2 (q z : R) : R :=
  if rnonzero q then (z - SX q z * CX q z) / q else z * z * z / 6.
Definition Jf (k q z : R) : R :=
  if rnonzero (mden k q) then (F2 q z - J1 k z) / mden k q else z * z * z * z * z / 120.

Lemma c2y_eq q z : Re (ccos (RtoC 2 * csqrt q * RtoC z)%C) = 2 * CX q z * CX q z - 1.
Proof.
  replace (RtoC 2 * csqrt q * RtoC z)%C with (RtoC (z + z) * csqrt q)%C.
  - change (Re (ccos (RtoC (z + z) * csqrt q)%C)) with (CX q (z + z)).
    destruct (CX_SX_add q z z) as [-> _]. pose proof (CX_SX q z). lra.
  - rewrite RtoC_plus. replace (RtoC 2) with (RtoC 1 + RtoC 1)%C.
    ring. rewrite <- RtoC_plus. reflexivity.
Qed.

Lemma ingr_nf z L th k1 k2 g :
  let h := th / L in let k := k1 + h * h in let q := - k1 in
  ingredients z L th k1 k2 g =
  mkingr h k1 k2 (beta_of g) (inv_gamma2 g) z k (CX k z) (SX k z) (CX q z) (SX q z)
    (DX k z) (J1 k z) (J2 k z) (J3 k z) (Jc k q z) (Js k q z) (Jd k q z) (Jf k q z).
Proof.
  intros h k q. unfold ingredients. fold h. fold k. fold q.
  rewrite !cnonzero_sqrt, c2y_eq.
  fold (CX k z) (SX k z) (CX q z) (SX q z).
  unfold DX, J1, J2, J3, Jc, Js, Jd, Jf, F2, mden. reflexivity.
Qed.

(** Where the singular formulas agree with their limits. *)
Definition good (k q : R) : Prop := mden k q <> 0 \/ (k = 0 /\ q = 0).

Lemma Jc_rel k q z : good k q -> Jc k q z = DX k z - 4 * q * Jd k q z.
Proof.
  intros G. unfold Jc, Jd. destruct (rnz (mden k q)) as [[N ->]|[N ->]].
  - pose proof (CX_DX k z). pose proof (CX_SX q z) as S. rewrite H.
    replace (2 * CX q z * CX q z) with (2 * (1 - q * SX q z ^ 2)) by lra.
    replace 0.5 with (/ 2) by lra.
    apply Rmult_eq_reg_r with (mden k q); [|exact N]. unfold mden in *. field. exact N.
  - destruct G as [G|[-> ->]]; [lra|]. unfold DX. rewrite rnz_false. lra.
Qed.
Lemma Jd_rel k q z : good k q -> SX q z * SX q z = 2 * DX k z + 2 * mden k q * Jd k q z.
Proof.
  intros G. unfold Jd. destruct (rnz (mden k q)) as [[N ->]|[N ->]].
  - replace 0.5 with (/ 2) by lra. field. exact N.
  - destruct G as [G|[-> ->]]; [lra|]. rewrite SX_0. unfold DX. rewrite rnz_false, N. field.
Qed.
Lemma Js_rel k q z : good k q -> CX q z * SX q z = SX k z + mden k q * Js k q z.
Proof.
  intros G. unfold Js. destruct (rnz (mden k q)) as [[N ->]|[N ->]].
  - field. exact N.
  - destruct G as [G|[-> ->]]; [lra|]. rewrite !SX_0, CX_0, N. ring.
Qed.

Lemma is_derive_Jd k q z : is_derive (Jd k q) z (Js k q z).
Proof.
  pose proof (is_derive_SX q z) as A. pose proof (is_derive_DX k z) as B.
  unfold Jd, Js. destruct (rnz (mden k q)) as [[N ->]|[N ->]].
  - auto_derive; [exd|]. der. replace 0.5 with (/ 2) by lra. field. exact N.
  - auto_derive; [exd|]. field.
Qed.
Lemma is_derive_Js k q z : is_derive (Js k q) z (Jc k q z).
Proof.
  pose proof (is_derive_SX q z) as A. pose proof (is_derive_CX q z) as A'.
  pose proof (is_derive_SX k z) as B. pose proof (CX_SX q z) as S.
  unfold Js, Jc. destruct (rnz (mden k q)) as [[N ->]|[N ->]].
  - auto_derive; [exd|]. der.
    replace (1 * (- q * SX q z) * SX q z) with (CX q z ^ 2 - 1) by lra.
    field. exact N.
  - auto_derive; [exd|]. replace 0.5 with (/ 2) by lra. field.
Qed.
Lemma ex_derive_Jc k q z : exists l, is_derive (Jc k q) z l.
Proof.
  pose proof (is_derive_CX q z) as A. pose proof (is_derive_CX k z) as B.
  unfold Jc. destruct (rnz (mden k q)) as [[N ->]|[N ->]]; eexists;
    (auto_derive; [exd|reflexivity]).
Qed.
Lemma is_derive_Jc k q z : good k q -> is_derive (Jc k q) z (SX k z - 4 * q * Js k q z).
Proof.
  intros G. eapply is_derive_ext; [intros t; symmetry; apply Jc_rel, G|].
  pose proof (is_derive_DX k z) as A. pose proof (is_derive_Jd k q z) as B.
  auto_derive; [exd|]. der. ring.
Qed.
Lemma ex_derive_Jf k q z : exists l, is_derive (Jf k q) z l.
Proof.
  pose proof (is_derive_SX q z) as A. pose proof (is_derive_CX q z) as A'.
  pose proof (is_derive_J1 k z) as B.
  unfold Jf, F2. destruct (rnz (mden k q)) as [[N ->]|[N ->]].
  - destruct (rnz q) as [[N' ->]|[N' ->]]; eexists; (auto_derive; [exd|reflexivity]).
  - eexists; (auto_derive; [exd|reflexivity]).
Qed.
(** The error of the formula for J3. *)
Definition E3 (k z : R) : R :=
  if rnonzero k then CX k z * (SX k z * SX k z) / (4 * (k * k)) else 0.
Lemma is_derive_J3 k z :
  is_derive (J3 k) z (DX k z * DX k z * DX k z + E3 k z).
Proof.
  pose proof (is_derive_SX k z) as A. pose proof (is_derive_CX k z) as B.
  pose proof (SX2 k z) as S. pose proof (CX_DX k z) as E.
  unfold J3, E3. destruct (rnz k) as [[N ->]|[N ->]].
  - auto_derive; [exd|]. der. replace 22.5 with (45 / 2) by lra. replace 1.5 with (3 / 2) by lra.
    set (s := SX k z) in *. set (c := CX k z) in *. set (D := DX k z) in *.
    clearbody s c D. assert (S' : s ^ 2 = 2 * D - k * D ^ 2)
      by (rewrite <- Rsqr_pow2; unfold Rsqr; lra).
    subst c. field [S']. exact N.
  - subst. auto_derive; [exd|]. unfold DX. rewrite rnz_false. field.
Qed.

(** ** The rows *)
(** The non-zero entries. *)
Definition rowsum (g : ingr) (i : nat) (x px y py d : R) : R :=
  let e := lookup (entries g) in
  match i with
  | 0%nat | 1%nat | 4%nat =>
      e i 0%nat 0%nat * x * x + e i 0%nat 1%nat * x * px + e i 1%nat 1%nat * px * px
      + e i 0%nat 5%nat * x * d + e i 1%nat 5%nat * px * d + e i 5%nat 5%nat * d * d
      + e i 2%nat 2%nat * y * y + e i 2%nat 3%nat * y * py + e i 3%nat 3%nat * py * py
  | 2%nat | 3%nat =>
      e i 0%nat 2%nat * x * y + e i 0%nat 3%nat * x * py + e i 1%nat 2%nat * px * y
      + e i 1%nat 3%nat * px * py + e i 2%nat 5%nat * y * d + e i 3%nat 5%nat * py * d
  | _ => 0
  end.
Lemma rowsum_eq g i x px y py ta d : (i < 6)%nat ->
  nth i (quad_form (lookup (entries g)) [x; px; y; py; ta; d]) 0 = rowsum g i x px y py d.
Proof.
  intros Hi. unfold quad_form, rowsum. destruct g as [h K1 K2 b ig L k cx sx cy sy dx j1 j2 j3 jc js jd jf].
  do 6 (destruct i as [|i]; [unfold sum6; cbn [seq map nth];
    set (l := entries _);
    repeat match goal with |- context [lookup l ?a ?b ?c] =>
       let t := eval cbv [l lookup entries ent Nat.eqb andb] in (lookup l a b c) in
       match t with
       | 0 => change (lookup l a b c) with 0
       | _ => let e := fresh "e" in set (e := lookup l a b c); clearbody e
       end end; ring|]). lia.
Qed.

Section Rows.
Variables h k1 k2 b ig : R.
Hypothesis Hb : b <> 0.
Let k := k1 + h * h.
Let q := - k1.
Definition gz (z : R) : ingr :=
  mkingr h k1 k2 b ig z k (CX k z) (SX k z) (CX q z) (SX q z)
    (DX k z) (J1 k z) (J2 k z) (J3 k z) (Jc k q z) (Js k q z) (Jd k q z) (Jf k q z).
Variables x px y py ta d : R.
(** The linear image of the column. *)
Definition im (z : R) : list R :=
  [CX k z * x + SX k z * px + h * DX k z / b * d;
   - k * SX k z * x + CX k z * px + SX k z * h / b * d;
   CX q z * y + SX q z * py;
   k1 * SX q z * y + CX q z * py;
   h * SX k z / b * x + h * DX k z / b * px + ta
     + (h * h * J1 k z / b ^ 2 - z / (b * b) * ig) * d;
   d].
Definition rows (z : R) : list R := map (fun i => rowsum (gz z) i x px y py d) (seq 0 6).
Definition rhs (z : R) (i : nat) : R :=
  nth i (lin h k1 b ig (rows z)) 0 + nth i (quad h k1 k2 b ig (im z)) 0.

Ltac exs :=
  repeat match goal with H : is_derive ?f ?t ?l |- _ =>
    lazymatch goal with
    | _ : ex_derive f t |- _ => fail
    | _ => let X := fresh "X" in assert (X : ex_derive f t) by (exists l; exact H)
    end end.
Ltac exd2 := repeat (apply conj); first [exact I | assumption].
Ltac setup z i :=
  unfold rhs, rows; cbn [map seq nth lin quad im];
  pose proof (is_derive_CX k z) as A1; pose proof (is_derive_SX k z) as A2;
  pose proof (is_derive_DX k z) as A3; pose proof (is_derive_J1 k z) as A4;
  pose proof (is_derive_CX q z) as A5; pose proof (is_derive_SX q z) as A6;
  pose proof (is_derive_J2 k z) as A7; pose proof (is_derive_J3 k z) as A8;
  pose proof (is_derive_Js k q z) as A9; pose proof (is_derive_Jd k q z) as A10;
  pose proof (CX_DX k z) as E1; pose proof (z_J1 k z) as E2; pose proof (SX2 k z) as E3';
  pose proof (J2_rel k z) as E4; pose proof (CX_SX q z) as E5;
  unfold rowsum; cbv [gz lookup entries ent Nat.eqb andb];
  replace 0.5 with (/ 2) by lra; replace 0.25 with (/ 4) by lra;
  replace 1.5 with (3 / 2) by lra.

Lemma row01_good z i : good k q -> (i < 2)%nat ->
  is_derive (fun z => rowsum (gz z) i x px y py d) z (rhs z i).
Proof.
  intros G Hi. destruct (ex_derive_Jf k q z) as [l12 A12]. pose proof (is_derive_Jc k q z G) as A11.
  pose proof (Jc_rel k q z G) as R1. pose proof (Jd_rel k q z G) as R2.
  pose proof (Js_rel k q z G) as R3. destruct i as [|[|i]]; [| |lia].
  - setup z 0%nat. exs. auto_derive; [exd2|]. der.
    repeat match goal with H : is_derive _ _ _ |- _ => clear H end;
    set (s := SX k z) in *; set (D := DX k z) in *; set (j1 := J1 k z) in *;
    set (j2 := J2 k z) in *; set (cy := CX q z) in *; set (sy := SX q z) in *;
    set (jc := Jc k q z) in *; set (js := Js k q z) in *; set (jd := Jd k q z) in *;
    set (jf := Jf k q z) in *; set (cx := CX k z) in *; unfold mden in *;
    clearbody s D j1 j2 cy sy jc js jd jf cx; unfold k, q in *; clear k q;
    assert (Q2 : s ^ 2 = 2 * D - (k1 + h * h) * (D * D)) by lra;
    assert (Q3 : sy ^ 2 = 2 * D + 2 * (k1 + h * h - 4 * - k1) * jd) by lra;
    assert (Q5 : cy ^ 2 = 1 + k1 * (2 * D + 2 * (k1 + h * h - 4 * - k1) * jd))
      by (rewrite <- Q3; lra);
    assert (Q1 : j1 = (2 * (k1 + h * h) * j2 + s * D) / 3) by lra;
    clear E3' E4 E5 R2; subst cx z jc j1;
    field [Q2 Q3 Q5 R3]; assumption.
  - setup z 1%nat. exs. auto_derive; [exd2|]. der.
    repeat match goal with H : is_derive _ _ _ |- _ => clear H end;
    set (s := SX k z) in *; set (D := DX k z) in *; set (j1 := J1 k z) in *;
    set (j2 := J2 k z) in *; set (cy := CX q z) in *; set (sy := SX q z) in *;
    set (jc := Jc k q z) in *; set (js := Js k q z) in *; set (jd := Jd k q z) in *;
    set (jf := Jf k q z) in *; set (cx := CX k z) in *; unfold mden in *;
    clearbody s D j1 j2 cy sy jc js jd jf cx; unfold k, q in *; clear k q;
    assert (Q2 : s ^ 2 = 2 * D - (k1 + h * h) * (D * D)) by lra;
    assert (Q3 : sy ^ 2 = 2 * D + 2 * (k1 + h * h - 4 * - k1) * jd) by lra;
    assert (Q5 : cy ^ 2 = 1 + k1 * (2 * D + 2 * (k1 + h * h - 4 * - k1) * jd))
      by (rewrite <- Q3; lra);
    assert (Q1 : j1 = (2 * (k1 + h * h) * j2 + s * D) / 3) by lra;
    clear E3' E4 E5 R2; subst cx z jc j1;
    field [Q2 Q3 Q5 R3]; assumption.
Qed.

Lemma row23_straight z i : h = 0 -> (2 <= i < 4)%nat ->
  is_derive (fun z => rowsum (gz z) i x px y py d) z (rhs z i).
Proof.
  intros H0 Hi. destruct (ex_derive_Jf k q z) as [l12 A12].
  assert (G : good k q).
  { unfold good, mden, k, q. rewrite H0. destruct (Req_dec k1 0); [right|left]; lra. }
  pose proof (is_derive_Jc k q z G) as A11.
  pose proof (Jc_rel k q z G) as R1. pose proof (Jd_rel k q z G) as R2.
  pose proof (Js_rel k q z G) as R3.
  destruct i as [|[|[|[|i]]]]; [lia|lia| | |lia]; clear Hi.
  - setup z 2%nat. exs. auto_derive; [exd2|]. der.
    repeat match goal with H : is_derive _ _ _ |- _ => clear H end;
    set (s := SX k z) in *; set (D := DX k z) in *; set (j1 := J1 k z) in *;
    set (j2 := J2 k z) in *; set (cy := CX q z) in *; set (sy := SX q z) in *;
    set (jc := Jc k q z) in *; set (js := Js k q z) in *; set (jd := Jd k q z) in *;
    set (jf := Jf k q z) in *; set (cx := CX k z) in *; unfold mden in *;
    clearbody s D j1 j2 cy sy jc js jd jf cx; unfold k, q in *; clear k q;
    assert (Q2 : s ^ 2 = 2 * D - (k1 + h * h) * (D * D)) by lra;
    assert (Q3 : sy ^ 2 = 2 * D + 2 * (k1 + h * h - 4 * - k1) * jd) by lra;
    assert (Q5 : cy ^ 2 = 1 + k1 * (2 * D + 2 * (k1 + h * h - 4 * - k1) * jd))
      by (rewrite <- Q3; lra);
    assert (Q1 : j1 = (2 * (k1 + h * h) * j2 + s * D) / 3) by lra;
    clear E3' E4 E5 R2; rewrite H0 in *; subst cx z jc j1;
    field [Q2 Q3 Q5 R3]; assumption.
  - setup z 3%nat. exs. auto_derive; [exd2|]. der.
    repeat match goal with H : is_derive _ _ _ |- _ => clear H end;
    set (s := SX k z) in *; set (D := DX k z) in *; set (j1 := J1 k z) in *;
    set (j2 := J2 k z) in *; set (cy := CX q z) in *; set (sy := SX q z) in *;
    set (jc := Jc k q z) in *; set (js := Js k q z) in *; set (jd := Jd k q z) in *;
    set (jf := Jf k q z) in *; set (cx := CX k z) in *; unfold mden in *;
    clearbody s D j1 j2 cy sy jc js jd jf cx; unfold k, q in *; clear k q;
    assert (Q2 : s ^ 2 = 2 * D - (k1 + h * h) * (D * D)) by lra;
    assert (Q3 : sy ^ 2 = 2 * D + 2 * (k1 + h * h - 4 * - k1) * jd) by lra;
    assert (Q5 : cy ^ 2 = 1 + k1 * (2 * D + 2 * (k1 + h * h - 4 * - k1) * jd))
      by (rewrite <- Q3; lra);
    assert (Q1 : j1 = (2 * (k1 + h * h) * j2 + s * D) / 3) by lra;
    clear E3' E4 E5 R2; rewrite H0 in *; subst cx z jc j1;
    field [Q2 Q3 Q5 R3]; assumption.
Qed.

Lemma row03_no_sextupole z i : k2 = 0 -> (i < 4)%nat ->
  is_derive (fun z => rowsum (gz z) i x px y py d) z (rhs z i).
Proof.
  intros K0 Hi. destruct (ex_derive_Jf k q z) as [l12 A12]. destruct (ex_derive_Jc k q z) as [l11 A11].
  destruct i as [|[|[|[|i]]]]; [| | | |lia]; clear Hi.
  - setup z 0%nat. exs. auto_derive; [exd2|]. der.
    repeat match goal with H : is_derive _ _ _ |- _ => clear H end;
    set (s := SX k z) in *; set (D := DX k z) in *; set (j1 := J1 k z) in *;
    set (j2 := J2 k z) in *; set (cy := CX q z) in *; set (sy := SX q z) in *;
    set (jc := Jc k q z) in *; set (js := Js k q z) in *; set (jd := Jd k q z) in *;
    set (jf := Jf k q z) in *; set (cx := CX k z) in *; unfold mden in *;
    clearbody s D j1 j2 cy sy jc js jd jf cx; unfold k, q in *; clear k q;
    assert (Q2 : s ^ 2 = 2 * D - (k1 + h * h) * (D * D)) by lra;
    assert (Q5 : cy ^ 2 = 1 + k1 * sy ^ 2) by lra;
    assert (Q1 : j1 = (2 * (k1 + h * h) * j2 + s * D) / 3) by lra;
    clear E3' E4 E5; rewrite K0 in *; subst cx z j1;
    field [Q2 Q5]; assumption.
  - setup z 1%nat. exs. auto_derive; [exd2|]. der.
    repeat match goal with H : is_derive _ _ _ |- _ => clear H end;
    set (s := SX k z) in *; set (D := DX k z) in *; set (j1 := J1 k z) in *;
    set (j2 := J2 k z) in *; set (cy := CX q z) in *; set (sy := SX q z) in *;
    set (jc := Jc k q z) in *; set (js := Js k q z) in *; set (jd := Jd k q z) in *;
    set (jf := Jf k q z) in *; set (cx := CX k z) in *; unfold mden in *;
    clearbody s D j1 j2 cy sy jc js jd jf cx; unfold k, q in *; clear k q;
    assert (Q2 : s ^ 2 = 2 * D - (k1 + h * h) * (D * D)) by lra;
    assert (Q5 : cy ^ 2 = 1 + k1 * sy ^ 2) by lra;
    assert (Q1 : j1 = (2 * (k1 + h * h) * j2 + s * D) / 3) by lra;
    clear E3' E4 E5; rewrite K0 in *; subst cx z j1;
    field [Q2 Q5]; assumption.
  - setup z 2%nat. exs. auto_derive; [exd2|]. der.
    repeat match goal with H : is_derive _ _ _ |- _ => clear H end;
    set (s := SX k z) in *; set (D := DX k z) in *; set (j1 := J1 k z) in *;
    set (j2 := J2 k z) in *; set (cy := CX q z) in *; set (sy := SX q z) in *;
    set (jc := Jc k q z) in *; set (js := Js k q z) in *; set (jd := Jd k q z) in *;
    set (jf := Jf k q z) in *; set (cx := CX k z) in *; unfold mden in *;
    clearbody s D j1 j2 cy sy jc js jd jf cx; unfold k, q in *; clear k q;
    assert (Q2 : s ^ 2 = 2 * D - (k1 + h * h) * (D * D)) by lra;
    assert (Q5 : cy ^ 2 = 1 + k1 * sy ^ 2) by lra;
    assert (Q1 : j1 = (2 * (k1 + h * h) * j2 + s * D) / 3) by lra;
    clear E3' E4 E5; rewrite K0 in *; subst cx z j1;
    field [Q2 Q5]; assumption.
  - setup z 3%nat. exs. auto_derive; [exd2|]. der.
    repeat match goal with H : is_derive _ _ _ |- _ => clear H end;
    set (s := SX k z) in *; set (D := DX k z) in *; set (j1 := J1 k z) in *;
    set (j2 := J2 k z) in *; set (cy := CX q z) in *; set (sy := SX q z) in *;
    set (jc := Jc k q z) in *; set (js := Js k q z) in *; set (jd := Jd k q z) in *;
    set (jf := Jf k q z) in *; set (cx := CX k z) in *; unfold mden in *;
    clearbody s D j1 j2 cy sy jc js jd jf cx; unfold k, q in *; clear k q;
    assert (Q2 : s ^ 2 = 2 * D - (k1 + h * h) * (D * D)) by lra;
    assert (Q5 : cy ^ 2 = 1 + k1 * sy ^ 2) by lra;
    assert (Q1 : j1 = (2 * (k1 + h * h) * j2 + s * D) / 3) by lra;
    clear E3' E4 E5; rewrite K0 in *; subst cx z j1;
    field [Q2 Q5]; assumption.
Qed.

Lemma row4_error z : k2 = 0 \/ h = 0 ->
  is_derive (fun z => rowsum (gz z) 4 x px y py d) z
    (rhs z 4 - h * h * h * (h * k1) / b ^ 3 * E3 k z * d ^ 2).
Proof.
  intros HH. destruct (ex_derive_Jf k q z) as [l12 A12]. destruct (ex_derive_Jc k q z) as [l11 A11].
    setup z 4%nat. exs. auto_derive; [exd2|]. der. 
    repeat match goal with H : is_derive _ _ _ |- _ => clear H end;
    set (s := SX k z) in *; set (D := DX k z) in *; set (j1 := J1 k z) in *;
    set (j2 := J2 k z) in *; set (cy := CX q z) in *; set (sy := SX q z) in *;
    set (jc := Jc k q z) in *; set (js := Js k q z) in *; set (jd := Jd k q z) in *;
    set (jf := Jf k q z) in *; set (cx := CX k z) in *; unfold mden in *;
    set (e3 := E3 k z) in *; set (j3 := J3 k z) in *; clearbody e3 j3; clearbody s D j1 j2 cy sy jc js jd jf cx; unfold k, q in *; clear k q;
    assert (Q2 : s ^ 2 = 2 * D - (k1 + h * h) * (D * D)) by lra;
    assert (Q5 : cy ^ 2 = 1 + k1 * sy ^ 2) by lra;
    assert (Q1 : j1 = (2 * (k1 + h * h) * j2 + s * D) / 3) by lra;
    clear E3' E4 E5; subst cx z j1;
    destruct HH as [HH|HH]; rewrite HH in *; field [Q2 Q5]; assumption.
Qed.
(** Without assumption on the strengths, away from the resonance. *)
Lemma row4_full z l : good k q -> is_derive (Jf k q) z l ->
  is_derive (fun z => rowsum (gz z) 4 x px y py d) z
    (rhs z 4 - h * h * h * (k2 + 2 * h * k1) / (2 * b ^ 3) * E3 k z * d ^ 2
     + h * k2 / b * (k1 * y ^ 2 + py ^ 2) * (l - Jd k q z)).
Proof.
  intros G A12. pose proof (is_derive_Jc k q z G) as A11.
  pose proof (Jc_rel k q z G) as R1. pose proof (Jd_rel k q z G) as R2.
  pose proof (Js_rel k q z G) as R3.
    setup z 4%nat. exs. auto_derive; [exd2|]. der. 
    repeat match goal with H : is_derive _ _ _ |- _ => clear H end;
    set (s := SX k z) in *; set (D := DX k z) in *; set (j1 := J1 k z) in *;
    set (j2 := J2 k z) in *; set (cy := CX q z) in *; set (sy := SX q z) in *;
    set (jc := Jc k q z) in *; set (js := Js k q z) in *; set (jd := Jd k q z) in *;
    set (jf := Jf k q z) in *; set (cx := CX k z) in *; unfold mden in *;
    set (e3 := E3 k z) in *; set (j3 := J3 k z) in *; clearbody e3 j3; clearbody s D j1 j2 cy sy jc js jd jf cx; unfold k, q in *; clear k q;
    assert (Q2 : s ^ 2 = 2 * D - (k1 + h * h) * (D * D)) by lra;
    assert (Q3 : sy ^ 2 = 2 * D + 2 * (k1 + h * h - 4 * - k1) * jd) by lra;
    assert (Q5 : cy ^ 2 = 1 + k1 * (2 * D + 2 * (k1 + h * h - 4 * - k1) * jd))
      by (rewrite <- Q3; lra);
    assert (Q1 : j1 = (2 * (k1 + h * h) * j2 + s * D) / 3) by lra;
    clear E3' E4 E5 R2; subst cx z jc j1;
    replace (-0.5) with (- / 2) by lra; field [Q2 Q3 Q5 R3]; assumption.
Qed.
Lemma row5 z : rowsum (gz z) 5 x px y py d = 0.
Proof. reflexivity. Qed.

(** The error of the formula for the second integral in the y plane. *)
Lemma row2_error z l : good k q -> q <> 0 -> is_derive (Jf k q) z l ->
  let de := Jf k q z - (J1 k z - Js k q z) / (4 * q) in
  let de' := l - Jd k q z in
  is_derive (fun z => rowsum (gz z) 2 x px y py d) z
    (rhs z 2 - 2 * h * k2 / b * d *
       (k1 * (2 * CX q z * de + SX q z * de') * y + (2 * k1 * SX q z * de + CX q z * de') * py)).
Proof.
  intros G Hq A12. cbv zeta. pose proof (is_derive_Jc k q z G) as A11.
  pose proof (Jc_rel k q z G) as R1. pose proof (Jd_rel k q z G) as R2.
  pose proof (Js_rel k q z G) as R3.
  setup z 2%nat. exs. auto_derive; [exd2|]. der.
    repeat match goal with H : is_derive _ _ _ |- _ => clear H end;
    set (s := SX k z) in *; set (D := DX k z) in *; set (j1 := J1 k z) in *;
    set (j2 := J2 k z) in *; set (cy := CX q z) in *; set (sy := SX q z) in *;
    set (jc := Jc k q z) in *; set (js := Js k q z) in *; set (jd := Jd k q z) in *;
    set (jf := Jf k q z) in *; set (cx := CX k z) in *; unfold mden in *;
    clearbody s D j1 j2 cy sy jc js jd jf cx; unfold k, q in *; clear k q;
    assert (Q2 : s ^ 2 = 2 * D - (k1 + h * h) * (D * D)) by lra;
    assert (Q3 : sy ^ 2 = 2 * D + 2 * (k1 + h * h - 4 * - k1) * jd) by lra;
    assert (Q5 : cy ^ 2 = 1 + k1 * (2 * D + 2 * (k1 + h * h - 4 * - k1) * jd))
      by (rewrite <- Q3; lra);
    assert (Q1 : j1 = (2 * (k1 + h * h) * j2 + s * D) / 3) by lra;
    clear E3' E4 E5 R2; subst cx z jc j1;
    assert (Hk1 : k1 <> 0) by (intros ->; apply Hq; ring);
    field [Q2 Q3 Q5 R3]; repeat split; assumption.
Qed.
End Rows.
