(** Specification vocabulary for grids, independent of the model. *)
From Coq Require Import ZArith List Bool.
From Verif Require Import Base Mat3.
Import ListNotations.
Open Scope Z_scope.

(** A usable mesh: three positive mesh numbers. *)
Definition pos_mesh (D : V3) : Prop := let '(v3 a b c) := D in 0 < a /\ 0 < b /\ 0 < c.

(** Number of points of the mesh. *)
Definition mesh_size (D : V3) : Z := let '(v3 a b c) := D in a * b * c.

(** Two addresses name the same grid point: they differ by whole periods. *)
Definition vcong (D a b : V3) : Prop := exists k, a = vadd b (vmul D k).

(** Address inside the first cell. *)
Definition in_cell (D a : V3) : Prop :=
  let '(v3 d0 d1 d2) := D in let '(v3 a0 a1 a2) := a in
  0 <= a0 < d0 /\ 0 <= a1 < d1 /\ 0 <= a2 < d2.

(** Twice the position of address [a] on the grid with half-step shift [PS], in
    units of the grid steps. *)
Definition dbl (a PS : V3) : V3 := vadd (vadd a a) PS.

Definition twice (D : V3) : V3 := vadd D D.

(** [R] maps mesh periods to mesh periods. *)
Definition compat (D : V3) (R : M3) : Prop :=
  forall k, exists k', mulMV R (vmul D k) = vmul D k'.

(** [R] maps the shifted grid to itself: R PS - PS is even. *)
Definition shift_ok (PS : V3) (R : M3) : Prop :=
  exists t, mulMV R PS = vadd PS (vadd t t).

(** A finite list of matrices that is a group under multiplication. *)
Definition is_group (G : list M3) : Prop :=
  In I3 G /\
  (forall a b, In a G -> In b G -> In (mulMM a b) G) /\
  (forall a, In a G -> exists b, In b G /\ mulMM a b = I3 /\ mulMM b a = I3).

(** [p] acts on 0..n-1 as a permutation. *)
Definition permutes (n : Z) (p : Z -> Z) : Prop :=
  (forall x, 0 <= x < n -> 0 <= p x < n) /\
  (forall x y, 0 <= x < n -> 0 <= y < n -> p x = p y -> x = y) /\
  (forall y, 0 <= y < n -> exists x, 0 <= x < n /\ p x = y).

(** [m] is the smallest of the values [act r x], [r] ranging over [G]. *)
Definition is_least_image {G : Type} (rots : list G) (act : G -> Z -> Z) (x m : Z) : Prop :=
  (exists r, In r rots /\ act r x = m) /\ (forall r, In r rots -> m <= act r x).
