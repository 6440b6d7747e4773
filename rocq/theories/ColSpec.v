(** Specification vocabulary for the collision matrix. *)
From Coq Require Import ZArith QArith List Bool.
From Verif Require Import Base Mat3 QMat GridSpec GridModel IseSpec.
Import ListNotations.
Open Scope Z_scope.

(** [R] is one of the operations, or minus one of them when time reversal is used, and keeps the first
    point [a0] modulo the mesh. *)
Definition keeps (D : V3) (rots : list M3) (tr : bool) (a0 : V3) (R : M3) : Prop :=
  (In R rots \/ (tr = true /\ In (mneg R) rots)) /\ vcong D (mulMV R a0) a0.
(** A quantity of triplets (q0, x, -q0-x), x a grid point, resolved by three bands, that has the
    symmetry of the crystal: equal at symmetry images of x and, when the last two points may be
    exchanged, at the third point with the last two bands exchanged. *)
Definition triplet_symmetric (D : V3) (rots : list M3) (tr sw : bool) (gp0 : Z) (S : Z -> Z -> Z -> Z -> Q) : Prop :=
  let adr x := get_grid_address_from_index x D in
  forall x y, 0 <= x < mesh_size D -> 0 <= y < mesh_size D ->
    (forall R, keeps D rots tr (adr gp0) R -> vcong D (adr y) (mulMV R (adr x)) -> forall j k l, Qeq (S y j k l) (S x j k l)) /\
    (sw = true -> vcong D (adr y) (vsub (vneg (adr gp0)) (adr x)) -> forall j k l, Qeq (S y j l k) (S x j k l)).
(** A band-resolved quantity of grid points that has the symmetry of the crystal. *)
Definition point_symmetric (D : V3) (rots : list M3) (tr : bool) (gp0 : Z) (F : Z -> Z -> Q) : Prop :=
  let adr x := get_grid_address_from_index x D in
  forall x y R, 0 <= x < mesh_size D -> 0 <= y < mesh_size D -> keeps D rots tr (adr gp0) R ->
    vcong D (adr y) (mulMV R (adr x)) -> forall i, Qeq (F y i) (F x i).
(** The element of the collision matrix between band j of q0 and band k of grid point x: the sum over
    the bands of the third point [x3], without use of symmetry. *)
Definition full_collision (ish : Q -> Q -> Q) (nb : Z) (S G : Z -> Z -> Z -> Z -> Q) (F : Z -> Z -> Q) (T unit cutoff : Q)
    (x x3 j k : Z) : Q :=
  Sum nb (fun l => S x j k l * G x j k l * (if qltb cutoff (F x3 l) then ish (F x3 l) T else 0) * unit)%Q.

(** [nrot] permutations of 0..ng-1, [r l] the l-th, closed under composition (with a product on the
    positions in the list that is injective in the second factor) and containing the identity and
    inverses. *)
Record is_action (nrot ng : Z) (r : Z -> Z -> Z) : Prop := {
  act_in : forall l x, 0 <= l < nrot -> 0 <= x < ng -> 0 <= r l x < ng;
  act_id : exists e, 0 <= e < nrot /\ forall x, 0 <= x < ng -> r e x = x;
  act_mul : exists mul : Z -> Z -> Z,
    (forall a b, 0 <= a < nrot -> 0 <= b < nrot -> 0 <= mul a b < nrot) /\
    (forall a b x, 0 <= a < nrot -> 0 <= b < nrot -> 0 <= x < ng -> r (mul a b) x = r a (r b x)) /\
    (forall a b b', 0 <= a < nrot -> 0 <= b < nrot -> 0 <= b' < nrot -> mul a b = mul a b' -> b = b');
  act_inv : forall a, 0 <= a < nrot -> exists b, 0 <= b < nrot /\
    (forall x, 0 <= x < ng -> r b (r a x) = x) /\ forall x, 0 <= x < ng -> r a (r b x) = x }.
(** [irs 0 .. irs (nir-1)] are grid points no two of which are images of each other *)
Definition representatives (nrot ng : Z) (r : Z -> Z -> Z) (nir : Z) (irs : Z -> Z) : Prop :=
  (forall k, 0 <= k < nir -> 0 <= irs k < ng) /\
  forall k k' l l', 0 <= k < nir -> 0 <= k' < nir -> 0 <= l < nrot -> 0 <= l' < nrot -> r l (irs k) = r l' (irs k') -> k = k'.
(** element of the array of shape (nsigma, ntemp, ng, nb, ng, nb) *)
Definition cm (nt ng nb : Z) (m : Z -> Q) (s t x j y k : Z) : Q :=
  m (((((s * nt + t) * ng + x) * nb + j) * ng + y) * nb + k).

(** The arrays that hold, for the irreducible triplets only (second points [irs], in this order),
    the strengths S, the third kind of integration weights G, and the frequencies F of grid points
    (stored per BZ grid point, [b2g] its grid point). *)
Definition holds_triplets (nb0 nb : Z) (irs : list Z) (S G : Z -> Z -> Z -> Z -> Q) (pp g : Z -> Q) : Prop :=
  forall i j k l, 0 <= i < Z.of_nat (length irs) -> 0 <= j < nb0 -> 0 <= k < nb -> 0 <= l < nb ->
    Qeq (arr4 nb0 nb nb pp i j k l) (S (nth (Z.to_nat i) irs 0) j k l) /\
    Qeq (arr5 (Z.of_nat (length irs)) nb0 nb nb g 2 i j k l) (G (nth (Z.to_nat i) irs 0) j k l).
Definition holds_frequencies (nb size : Z) (b2g : Z -> Z) (F : Z -> Z -> Q) (freq : Z -> Q) : Prop :=
  forall b i, 0 <= b < size -> 0 <= i < nb -> Qeq (freq (b * nb + i)) (F (b2g b) i).
