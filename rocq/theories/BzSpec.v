(** Specification vocabulary for BZ grids: positions and lengths in reciprocal space,
    independent of the model's helpers. *)
From Coq Require Import ZArith QArith Qabs List Bool.
From Verif Require Import Base Mat3 QMat GridSpec.
Import ListNotations.
Open Scope Q_scope.

(** Position of grid address [a] in units of the grid's own periods: (2a + PS)/(2D). *)
Definition position (D PS a : V3) : QV :=
  let '(v3 x y z) := dbl a PS in
  let '(v3 d0 d1 d2) := D in
  qv (qz x / qz (2 * d0)) (qz y / qz (2 * d1)) (qz z / qz (2 * d2)).

(** Squared length of the reciprocal space vector of address [a]; [L] has the basis
    vectors as columns, [U] is the unimodular matrix of the grid. *)
Definition len2 (L : QM) (U : M3) (D PS a : V3) : Q :=
  qnorm2 (qmulMV L (qmulMV (qm_of U) (position D PS a))).

(** Squared length of the reciprocal lattice vector with grid-period indices [k]. *)
Definition G_len2 (L : QM) (U : M3) (k : V3) : Q :=
  qnorm2 (qmulMV L (qv_of (mulMV U k))).

(** Each component between -2 and 2: the 125 searched translations. *)
Definition box (v : V3) : Prop :=
  let '(v3 x y z) := v in (-2 <= x <= 2 /\ -2 <= y <= 2 /\ -2 <= z <= 2)%Z.

(** [n] is a nearest integer vector to [q]. *)
Definition nearest (q : QV) (n : V3) : Prop :=
  let '(qv a b c) := q in let '(v3 x y z) := n in
  Qabs (qz x - a) <= 1 # 2 /\ Qabs (qz y - b) <= 1 # 2 /\ Qabs (qz z - c) <= 1 # 2.

(** [a] is one of the searched translates of grid address [a0]: a0 + D k with U k
    within +-2 of the nearest-cell translation -n. *)
Definition candidate (D : V3) (U : M3) (n a0 a : V3) : Prop :=
  exists k, a = vadd a0 (vmul D k) /\ box (vadd (mulMV U k) n).

(** [reps] is a correct choice of BZ representatives of grid address [a0]: a
    duplicate-free list of translates, containing every translate that is less than
    [tol] longer (in squared length) than the shortest one, [a], and none that is
    [2 tol] or more longer. *)
Definition bz_representatives (L : QM) (U : M3) (D PS : V3) (tol : Q) (a0 : V3) (reps : list V3) : Prop :=
  NoDup reps /\
  exists n, nearest (qmulMV (qm_of U) (position D PS a0)) n /\
  exists a, In a reps /\ candidate D U n a0 a /\
    (forall b, candidate D U n a0 b -> len2 L U D PS a <= len2 L U D PS b) /\
    (forall b, In b reps -> candidate D U n a0 b /\ len2 L U D PS b < len2 L U D PS a + 2 * tol) /\
    (forall b, candidate D U n a0 b -> len2 L U D PS b < len2 L U D PS a + tol -> In b reps).
