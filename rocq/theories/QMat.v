(** Rational 3-vectors and 3x3 matrices standing for [double v[3]], [double m[3][3]];
    rounding is not modelled. *)
From Coq Require Import ZArith QArith Qabs List Lia Lqa Bool Setoid.
From Verif Require Import Base Mat3.
Import ListNotations.
Open Scope Q_scope.

Inductive QV : Type := qv (x y z : Q).
Inductive QM : Type := qm (a00 a01 a02 a10 a11 a12 a20 a21 a22 : Q).

Definition qz (z : Z) : Q := inject_Z z.
Definition qv_of (v : V3) : QV := let '(v3 x y z) := v in qv (qz x) (qz y) (qz z).
(** c/lagrid.c:51-61 lagmat_cast_matrix_3l_to_3d *)
Definition qm_of (m : M3) : QM :=
  let '(m3 a b c d e f g h i) := m in
  qm (qz a) (qz b) (qz c) (qz d) (qz e) (qz f) (qz g) (qz h) (qz i).

Definition qvadd (u v : QV) : QV :=
  let '(qv a b c) := u in let '(qv x y z) := v in qv (a + x) (b + y) (c + z).
Definition qvsub (u v : QV) : QV :=
  let '(qv a b c) := u in let '(qv x y z) := v in qv (a - x) (b - y) (c - z).

(** c/bzgrid.c:303-312 multiply_matrix_vector_d3, 314-325 multiply_matrix_vector_ld3
    (with [qm_of]) *)
Definition qmulMV (m : QM) (v : QV) : QV :=
  let '(qm a b c d e f g h i) := m in
  let '(qv x y z) := v in
  qv (a * x + b * y + c * z) (d * x + e * y + f * z) (g * x + h * y + i * z).

Definition qmulMM (m n : QM) : QM :=
  let '(qm a b c d e f g h i) := m in
  let '(qm a' b' c' d' e' f' g' h' i') := n in
  qm (a*a' + b*d' + c*g') (a*b' + b*e' + c*h') (a*c' + b*f' + c*i')
     (d*a' + e*d' + f*g') (d*b' + e*e' + f*h') (d*c' + e*f' + f*i')
     (g*a' + h*d' + i*g') (g*b' + h*e' + i*h') (g*c' + h*f' + i*i').

(** c/lagrid.c:45-49 lagmat_get_determinant_d3 *)
Definition qdet (m : QM) : Q :=
  let '(qm a b c d e f g h i) := m in
  a * (e * i - f * h) + b * (f * g - d * i) + c * (d * h - e * g).

(** c/lagrid.c:117-138 lagmat_inverse_matrix_d3 with precision 0 *)
Definition qinv (m : QM) : QM :=
  let '(qm a b c d e f g h i) := m in
  let dt := qdet m in
  qm ((e*i - f*h) / dt) ((h*c - i*b) / dt) ((b*f - c*e) / dt)
     ((f*g - d*i) / dt) ((i*a - g*c) / dt) ((c*d - a*f) / dt)
     ((d*h - e*g) / dt) ((g*b - h*a) / dt) ((a*e - b*d) / dt).

(** c/bzgrid.c:351-353 norm_squared_d3 *)
Definition qnorm2 (v : QV) : Q := let '(qv x y z) := v in x * x + y * y + z * z.

Definition qltb (a b : Q) : bool := negb (Qle_bool b a).
Lemma qltb_lt : forall a b, qltb a b = true <-> a < b.
Proof.
  intros a b. unfold qltb. rewrite negb_true_iff. split; intros H.
  - apply Qnot_le_lt. intros K. apply Qle_bool_iff in K. congruence.
  - destruct (Qle_bool b a) eqn:E; auto. apply Qle_bool_iff in E. lra.
Qed.
Lemma qltb_ge : forall a b, qltb a b = false <-> b <= a.
Proof.
  intros a b. unfold qltb. rewrite negb_false_iff. apply Qle_bool_iff.
Qed.

(** C cast of a double to int64_t: truncation toward zero. *)
Definition qtrunc (q : Q) : Z := Z.quot (Qnum q) (Zpos (Qden q)).
(** c/lagrid.c:241-246 lagmat_Nint *)
Definition Nint (a : Q) : Z :=
  if qltb a 0 then qtrunc (a - (1 # 2)) else qtrunc (a + (1 # 2)).

(** Equality of vectors component by component. *)
Definition qveq (u v : QV) : Prop :=
  let '(qv a b c) := u in let '(qv x y z) := v in a == x /\ b == y /\ c == z.
Definition qmeq (m n : QM) : Prop :=
  let '(qm a b c d e f g h i) := m in
  let '(qm a' b' c' d' e' f' g' h' i') := n in
  a == a' /\ b == b' /\ c == c' /\ d == d' /\ e == e' /\ f == f' /\ g == g' /\ h == h' /\ i == i'.

Lemma qveq_refl : forall u, qveq u u.
Proof. intros []; cbn; repeat split; reflexivity. Qed.
Lemma qveq_sym : forall u v, qveq u v -> qveq v u.
Proof. intros [] [] [H1 [H2 H3]]; cbn; repeat split; symmetry; assumption. Qed.
Lemma qveq_trans : forall u v w, qveq u v -> qveq v w -> qveq u w.
Proof.
  intros [] [] [] [H1 [H2 H3]] [K1 [K2 K3]]; cbn.
  repeat split; etransitivity; eassumption.
Qed.

Add Parametric Relation : QV qveq
  reflexivity proved by qveq_refl
  symmetry proved by qveq_sym
  transitivity proved by qveq_trans as qveq_rel.

Add Parametric Morphism : qnorm2 with signature qveq ==> Qeq as qnorm2_m.
Proof. intros [] [] [H1 [H2 H3]]; cbn. rewrite H1, H2, H3. reflexivity. Qed.
Add Parametric Morphism : qmulMV with signature eq ==> qveq ==> qveq as qmulMV_m.
Proof. intros [] [] [] [H1 [H2 H3]]; cbn. rewrite H1, H2, H3. repeat split; reflexivity. Qed.
Add Parametric Morphism : qvadd with signature qveq ==> qveq ==> qveq as qvadd_m.
Proof. intros [] [] [H1 [H2 H3]] [] [] [K1 [K2 K3]]; cbn. rewrite H1, H2, H3, K1, K2, K3. repeat split; reflexivity. Qed.
Add Parametric Morphism : qvsub with signature qveq ==> qveq ==> qveq as qvsub_m.
Proof. intros [] [] [H1 [H2 H3]] [] [] [K1 [K2 K3]]; cbn. rewrite H1, H2, H3, K1, K2, K3. repeat split; reflexivity. Qed.

Lemma qz_add : forall a b, qz (a + b) == qz a + qz b.
Proof. intros; unfold qz; rewrite inject_Z_plus; reflexivity. Qed.
Lemma qz_mul : forall a b, qz (a * b) == qz a * qz b.
Proof. intros; unfold qz; rewrite inject_Z_mult; reflexivity. Qed.
Lemma qz_opp : forall a, qz (- a) == - qz a.
Proof. intros; unfold qz; rewrite inject_Z_opp; reflexivity. Qed.
Lemma qz_sub : forall a b, qz (a - b) == qz a - qz b.
Proof. intros; unfold Z.sub, Qminus, qz; rewrite inject_Z_plus, inject_Z_opp; reflexivity. Qed.
Lemma qz_inj : forall a b, qz a == qz b -> a = b.
Proof. intros a b H. unfold qz, inject_Z, Qeq in H. cbn in H. lia. Qed.
Lemma qz_le : forall a b, (a <= b)%Z <-> qz a <= qz b.
Proof. intros; unfold qz; rewrite <- Zle_Qle; reflexivity. Qed.
Lemma qz_lt : forall a b, (a < b)%Z <-> qz a < qz b.
Proof. intros; unfold qz; rewrite <- Zlt_Qlt; reflexivity. Qed.

Lemma qmulMV_of : forall m v, qveq (qmulMV (qm_of m) (qv_of v)) (qv_of (mulMV m v)).
Proof. intros [] []; cbn -[qz Z.add Z.mul]. rewrite !qz_add, !qz_mul. repeat split; reflexivity. Qed.
Lemma qmulMV_add : forall m u v, qveq (qmulMV m (qvadd u v)) (qvadd (qmulMV m u) (qmulMV m v)).
Proof. intros [] [] []; cbn; repeat split; ring. Qed.
Lemma qmulMV_sub : forall m u v, qveq (qmulMV m (qvsub u v)) (qvsub (qmulMV m u) (qmulMV m v)).
Proof. intros [] [] []; cbn; repeat split; ring. Qed.
Lemma qnorm2_nonneg : forall v, 0 <= qnorm2 v.
Proof. intros [x y z]; cbn. nra. Qed.

(** Distance of a rational to its nearest integer value. *)
Lemma qtrunc_spec : forall q, (0 <= q -> qz (qtrunc q) <= q /\ q < qz (qtrunc q) + 1) /\
  (q <= 0 -> q <= qz (qtrunc q) /\ qz (qtrunc q) - 1 < q).
Proof.
  intros [n d]. unfold qtrunc. cbn [Qnum Qden].
  pose proof (Z.quot_rem' n (Zpos d)) as E.
  split; intros H.
  - assert (0 <= n)%Z as Hn. { unfold Qle in H; cbn in H; lia. }
    pose proof (Z.rem_bound_pos n (Zpos d) Hn ltac:(lia)).
    unfold qz, inject_Z, Qle, Qlt, Qplus. cbn [Qnum Qden]. rewrite ?Pos.mul_1_r. cbn [Z.mul]. split; nia.
  - assert (n <= 0)%Z as Hn. { unfold Qle in H; cbn in H; lia. }
    pose proof (Z.rem_bound_pos_neg n (Zpos d) ltac:(lia) Hn).
    unfold qz, inject_Z, Qle, Qlt, Qminus, Qplus, Qopp. cbn [Qnum Qden]. rewrite ?Pos.mul_1_r. cbn [Z.mul Z.opp]. split; nia.
Qed.

Lemma Nint_near : forall q, Qabs (qz (Nint q) - q) <= 1 # 2.
Proof.
  intros q. unfold Nint. apply Qabs_Qle_condition.
  destruct (qltb q 0) eqn:E.
  - apply qltb_lt in E. destruct (qtrunc_spec (q - (1 # 2))) as [_ H].
    destruct (H ltac:(lra)). lra.
  - apply qltb_ge in E. destruct (qtrunc_spec (q + (1 # 2))) as [H _].
    destruct (H ltac:(lra)). lra.
Qed.

Lemma Nint_int : forall z q, q == qz z -> Nint q = z.
Proof.
  intros z q H. pose proof (Nint_near q) as N. rewrite H in N at 2.
  rewrite <- qz_sub in N. apply Qabs_Qle_condition in N. destruct N as [N1 N2].
  unfold qz, inject_Z, Qle in N1, N2. cbn in N1, N2. lia.
Qed.
