(** Specification vocabulary for triplets. *)
From Coq Require Import ZArith QArith List Bool.
From Verif Require Import Base Mat3 QMat GridSpec.
Import ListNotations.
Open Scope Z_scope.

(** Second points [a] and [b] of triplets with first point [a0] are equivalent: an
    operation that fixes the first point (modulo the mesh) takes one to the other or,
    when the last two points may be exchanged, to its third point. *)
Definition tp_equiv (D : V3) (rots : list M3) (a0 : V3) (swap : bool) (a b : V3) : Prop :=
  exists R, In R rots /\ vcong D (mulMV R a0) a0 /\
    (vcong D b (mulMV R a) \/ (swap = true /\ vcong D b (vsub (vneg a0) (mulMV R a)))).

(** Squared length of the reciprocal vector with mesh indices [G]: L Q D^-1 G. *)
Definition G2 (L : QM) (U : M3) (D G : V3) : Q :=
  let '(v3 x y z) := G in let '(v3 d0 d1 d2) := D in
  qnorm2 (qmulMV L (qmulMV (qm_of U) (qv (qz x / qz d0) (qz y / qz d1) (qz z / qz d2)))).
