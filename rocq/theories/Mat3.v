(** Integer 3-vectors and 3x3 matrices (c/lagrid.c). *)
From Coq Require Import ZArith List Lia Bool.
Import ListNotations.
Open Scope Z_scope.

(** [int64_t v[3]] *)
Inductive V3 : Type := v3 (x y z : Z).
(** [int64_t m[3][3]], row by row. *)
Inductive M3 : Type := m3 (a00 a01 a02 a10 a11 a12 a20 a21 a22 : Z).

Definition vx (v : V3) := let '(v3 x _ _) := v in x.
Definition vy (v : V3) := let '(v3 _ y _) := v in y.
Definition vz (v : V3) := let '(v3 _ _ z) := v in z.

Definition vzero : V3 := v3 0 0 0.
Definition vadd (a b : V3) : V3 :=
  let '(v3 a0 a1 a2) := a in let '(v3 b0 b1 b2) := b in v3 (a0+b0) (a1+b1) (a2+b2).
Definition vneg (a : V3) : V3 := let '(v3 a0 a1 a2) := a in v3 (-a0) (-a1) (-a2).
Definition vsub (a b : V3) : V3 :=
  let '(v3 a0 a1 a2) := a in let '(v3 b0 b1 b2) := b in v3 (a0-b0) (a1-b1) (a2-b2).
(** Component-wise product (scaling by a diagonal matrix). *)
Definition vmul (a b : V3) : V3 :=
  let '(v3 a0 a1 a2) := a in let '(v3 b0 b1 b2) := b in v3 (a0*b0) (a1*b1) (a2*b2).
Definition veqb (a b : V3) : bool :=
  let '(v3 a0 a1 a2) := a in let '(v3 b0 b1 b2) := b in
  (a0 =? b0) && (a1 =? b1) && (a2 =? b2).

(** c/lagrid.c:154-164 lagmat_multiply_matrix_vector_l3 *)
Definition mulMV (m : M3) (v : V3) : V3 :=
  let '(m3 a b c d e f g h i) := m in
  let '(v3 x y z) := v in
  v3 (a*x + b*y + c*z) (d*x + e*y + f*z) (g*x + h*y + i*z).

(** c/lagrid.c:166-176 lagmat_multiply_matrix_l3 *)
Definition mulMM (m n : M3) : M3 :=
  let '(m3 a b c d e f g h i) := m in
  let '(m3 a' b' c' d' e' f' g' h' i') := n in
  m3 (a*a' + b*d' + c*g') (a*b' + b*e' + c*h') (a*c' + b*f' + c*i')
     (d*a' + e*d' + f*g') (d*b' + e*e' + f*h') (d*c' + e*f' + f*i')
     (g*a' + h*d' + i*g') (g*b' + h*e' + i*h') (g*c' + h*f' + i*i').

(** c/lagrid.c:140-152 lagmat_transpose_matrix_l3 *)
Definition transp (m : M3) : M3 :=
  let '(m3 a b c d e f g h i) := m in m3 a d g b e h c f i.

(** c/lagrid.c:39-43 lagmat_get_determinant_l3 *)
Definition det (m : M3) : Z :=
  let '(m3 a b c d e f g h i) := m in
  a * (e * i - f * h) + b * (f * g - d * i) + c * (d * h - e * g).

Definition I3 : M3 := m3 1 0 0 0 1 0 0 0 1.
Definition diag3 (d : V3) : M3 :=
  let '(v3 x y z) := d in m3 x 0 0 0 y 0 0 0 z.
Definition mneg (m : M3) : M3 :=
  let '(m3 a b c d e f g h i) := m in m3 (-a) (-b) (-c) (-d) (-e) (-f) (-g) (-h) (-i).

(** c/lagrid.c:88-97 lagmat_check_identity_matrix_l3: 0 iff some difference is
    non-zero. *)
Definition meqb (m n : M3) : bool :=
  let '(m3 a b c d e f g h i) := m in
  let '(m3 a' b' c' d' e' f' g' h' i') := n in
  (a =? a') && (b =? b') && (c =? c') && (d =? d') && (e =? e') && (f =? f')
  && (g =? g') && (h =? h') && (i =? i').

(** Adjugate: c/bzgrid.c:337-345 and c/lagrid.c:127-135 without the division. *)
Definition adj (m : M3) : M3 :=
  let '(m3 a b c d e f g h i) := m in
  m3 (e*i - f*h) (h*c - i*b) (b*f - c*e)
     (f*g - d*i) (i*a - g*c) (c*d - a*f)
     (d*h - e*g) (g*b - h*a) (a*e - b*d).

Lemma mulMM_assoc : forall a b c, mulMM a (mulMM b c) = mulMM (mulMM a b) c.
Proof. intros [] [] []; cbn -[Z.mul Z.add Z.sub Z.opp]; f_equal; ring. Qed.
Lemma mulMM_1_l : forall a, mulMM I3 a = a.
Proof. intros []; cbn -[Z.mul Z.add Z.sub Z.opp]; f_equal; ring. Qed.
Lemma mulMM_1_r : forall a, mulMM a I3 = a.
Proof. intros []; cbn -[Z.mul Z.add Z.sub Z.opp]; f_equal; ring. Qed.
Lemma mulMV_mulMM : forall a b v, mulMV (mulMM a b) v = mulMV a (mulMV b v).
Proof. intros [] [] []; cbn -[Z.mul Z.add Z.sub Z.opp]; f_equal; ring. Qed.
Lemma mulMV_1 : forall v, mulMV I3 v = v.
Proof. intros []; cbn -[Z.mul Z.add Z.sub Z.opp]; f_equal; ring. Qed.
Lemma mulMV_add : forall m u v, mulMV m (vadd u v) = vadd (mulMV m u) (mulMV m v).
Proof. intros [] [] []; cbn -[Z.mul Z.add Z.sub Z.opp]; f_equal; ring. Qed.
Lemma mulMV_neg : forall m u, mulMV m (vneg u) = vneg (mulMV m u).
Proof. intros [] []; cbn -[Z.mul Z.add Z.sub Z.opp]; f_equal; ring. Qed.
Lemma det_mulMM : forall a b, det (mulMM a b) = det a * det b.
Proof. intros [] []; cbn -[Z.mul Z.add Z.sub Z.opp]; ring. Qed.
Lemma det_transp : forall a, det (transp a) = det a.
Proof. intros []; cbn -[Z.mul Z.add Z.sub Z.opp]; ring. Qed.
Lemma transp_mulMM : forall a b, transp (mulMM a b) = mulMM (transp b) (transp a).
Proof. intros [] []; cbn -[Z.mul Z.add Z.sub Z.opp]; f_equal; ring. Qed.
Lemma transp_transp : forall a, transp (transp a) = a.
Proof. intros []; reflexivity. Qed.
Lemma det_I3 : det I3 = 1. Proof. reflexivity. Qed.
Lemma adj_l : forall a, mulMM (adj a) a = diag3 (v3 (det a) (det a) (det a)).
Proof. intros []; cbn -[Z.mul Z.add Z.sub Z.opp]; f_equal; ring. Qed.
Lemma adj_r : forall a, mulMM a (adj a) = diag3 (v3 (det a) (det a) (det a)).
Proof. intros []; cbn -[Z.mul Z.add Z.sub Z.opp]; f_equal; ring. Qed.

Lemma veqb_eq : forall a b, veqb a b = true <-> a = b.
Proof.
  intros [a0 a1 a2] [b0 b1 b2]; cbn.
  rewrite !andb_true_iff, !Z.eqb_eq. split.
  - intros [[-> ->] ->]; reflexivity.
  - intros H; inversion H; auto.
Qed.

Lemma meqb_eq : forall m n, meqb m n = true <-> m = n.
Proof.
  intros [a b c d e f g h i] [a' b' c' d' e' f' g' h' i']; cbn.
  rewrite !andb_true_iff, !Z.eqb_eq. split.
  - intros H. repeat match goal with Hx : _ /\ _ |- _ => destruct Hx end. subst. reflexivity.
  - intros H; inversion H; repeat split; auto.
Qed.

Definition V3_eq_dec : forall a b : V3, {a = b} + {a <> b}.
Proof. decide equality; apply Z.eq_dec. Defined.
Definition M3_eq_dec : forall a b : M3, {a = b} + {a <> b}.
Proof. decide equality; apply Z.eq_dec. Defined.
