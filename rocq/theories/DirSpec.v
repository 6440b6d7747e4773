(** What the properties of the direct solution are stated with. *)
From Coq Require Import ZArith List Bool.
From Verif Require Import Base DirModel.
Import ListNotations.
Open Scope Z_scope.

(** A finite group of g operations (positions 0 .. g-1, product [mul], inverse
    [inv]) acting on grid points 0 .. n-1 by [r] and on Cartesian vectors by the
    orthogonal matrices [cart]. *)
Record point_group (K : numbers) (g n : Z) (r : Z -> Z -> Z) (cart : Z -> Z -> Z -> K)
  (mul : Z -> Z -> Z) (inv : Z -> Z) : Prop := {
  pg_pos : 0 < g;
  pg_in : forall l q, 0 <= l < g -> 0 <= q < n -> 0 <= r l q < n;
  pg_mul_in : forall l m, 0 <= l < g -> 0 <= m < g -> 0 <= mul l m < g;
  pg_inv_in : forall l, 0 <= l < g -> 0 <= inv l < g;
  pg_mul_inj : forall l m m', 0 <= l < g -> 0 <= m < g -> 0 <= m' < g -> mul l m = mul l m' -> m = m';
  pg_inv_inj : forall l m, 0 <= l < g -> 0 <= m < g -> inv l = inv m -> l = m;
  pg_mul : forall l m q, 0 <= l < g -> 0 <= m < g -> 0 <= q < n -> r (mul l m) q = r l (r m q);
  pg_inv : forall l q, 0 <= l < g -> 0 <= q < n -> r (inv l) (r l q) = q;
  pg_cart_mul : forall l m a b, 0 <= l < g -> 0 <= m < g -> 0 <= a < 3 -> 0 <= b < 3 ->
    neq K (cart (mul l m) a b) (Sm K 3 (fun c => nmul K (cart l a c) (cart m c b)));
  pg_cart_inv : forall l a b, 0 <= l < g -> 0 <= a < 3 -> 0 <= b < 3 ->
    neq K (cart (inv l) a b) (cart l b a);
  pg_cart_orth : forall l a b, 0 <= l < g -> 0 <= a < 3 -> 0 <= b < 3 ->
    neq K (Sm K 3 (fun c => nmul K (cart l c a) (cart l c b))) (if a =? b then n1 K else n0 K) }.

(** irs 0 .. irs (nir-1): one grid point of each orbit. *)
Definition one_of_each (g n nir : Z) (r : Z -> Z -> Z) (irs : Z -> Z) : Prop :=
  (forall i, 0 <= i < nir -> 0 <= irs i < n) /\
  (forall q, 0 <= q < n -> exists i l, 0 <= i < nir /\ 0 <= l < g /\ r l (irs i) = q) /\
  (forall i i' l l', 0 <= i < nir -> 0 <= i' < nir -> 0 <= l < g -> 0 <= l' < g ->
     r l (irs i) = r l' (irs i') -> i = i').

(** q is an image of x. *)
Definition in_star (g : Z) (r : Z -> Z -> Z) (x q : Z) : bool :=
  existsb (fun l => r l x =? q) (zrange g).

(** [w] are the eigenvalues and [v] the orthogonal matrix of eigenvectors (v p l:
    component p of the l-th) of the matrix A of order n. *)
Definition diagonalizes (K : numbers) (n : Z) (A : Z -> Z -> K) (w : Z -> K) (v : Z -> Z -> K) : Prop :=
  (forall p p', 0 <= p < n -> 0 <= p' < n ->
     neq K (A p p') (Sm K n (fun l => nmul K (nmul K (v p l) (w l)) (v p' l)))) /\
  (forall l l', 0 <= l < n -> 0 <= l' < n ->
     neq K (Sm K n (fun p => nmul K (v p l) (v p l'))) (if l =? l' then n1 K else n0 K)) /\
  (forall p p', 0 <= p < n -> 0 <= p' < n ->
     neq K (Sm K n (fun l => nmul K (v p l) (v p' l))) (if p =? p' then n1 K else n0 K)).

(** The two forms in which the same problem is given: [mo], [dg], [gv], [fs] are
    the off-diagonal part of the collision matrix, its diagonal, the group
    velocities and the factors of X at all grid points, and have the symmetry of
    the crystal; [mi], [di], [gvi], [fsi] are the same at the irreducible grid
    points, the first summed over the operations (C33_irreducible_matrix). The
    first grid point of both is the Gamma point. *)
Record two_forms (K : numbers) (g n nir nb : Z) (r : Z -> Z -> Z) (irs : Z -> Z)
  (cart : Z -> Z -> Z -> K) (mo : Z -> Z -> Z -> Z -> K) (dg : Z -> Z -> K)
  (gv : Z -> Z -> Z -> K) (fs : Z -> Z -> K)
  (mi : Z -> Z -> Z -> Z -> Z -> Z -> K) (di : Z -> Z -> K)
  (gvi : Z -> Z -> Z -> K) (fsi : Z -> Z -> K) : Prop := {
  tf_gamma : 0 < nir /\ irs 0 = 0 /\ forall l, 0 <= l < g -> r l 0 = 0;
  tf_mo : forall l q j q' j', 0 <= l < g -> 0 <= q < n -> 0 <= j < nb -> 0 <= q' < n -> 0 <= j' < nb ->
    neq K (mo (r l q) j (r l q') j') (mo q j q' j');
  tf_dg : forall l q j, 0 <= l < g -> 0 <= q < n -> 0 <= j < nb -> neq K (dg (r l q) j) (dg q j);
  tf_gv : forall l q j a, 0 <= l < g -> 0 <= q < n -> 0 <= j < nb -> 0 <= a < 3 ->
    neq K (gv (r l q) j a) (Sm K 3 (fun b => nmul K (cart l a b) (gv q j b)));
  tf_fs : forall l q j, 0 <= l < g -> 0 <= q < n -> 0 <= j < nb -> neq K (fs (r l q) j) (fs q j);
  tf_mi : forall i j a i' j' b, 0 <= i < nir -> 0 <= j < nb -> 0 <= a < 3 -> 0 <= i' < nir -> 0 <= j' < nb -> 0 <= b < 3 ->
    neq K (mi i j a i' j' b) (Sm K g (fun l => nmul K (mo (irs i) j (r l (irs i')) j') (cart l a b)));
  tf_di : forall i j, 0 <= i < nir -> 0 <= j < nb -> neq K (di i j) (dg (irs i) j);
  tf_gvi : forall i j a, 0 <= i < nir -> 0 <= j < nb -> 0 <= a < 3 -> neq K (gvi i j a) (gv (irs i) j a);
  tf_fsi : forall i j, 0 <= i < nir -> 0 <= j < nb -> neq K (fsi i j) (fs (irs i) j) }.

(** What the diagonalization by a solver leaves in the C-ordered array: solvers
    1, 2, 4 and 5 hand the array to LAPACK, which takes the (symmetric) matrix in
    column-major order and leaves the eigenvectors one after the other; solver 3
    (numpy.linalg.eigh, also used for 6) writes them as the columns of the array. *)
Definition diagonalized_by (K : numbers) (solver n : Z) (A : Z -> Z -> K) (w mem : Z -> K) : Prop :=
  ((solver = 1 \/ solver = 2 \/ solver = 4 \/ solver = 5) /\ diagonalizes K n A w (fun p l => mem (l * n + p))) \/
  ((solver = 3 \/ solver = 6) /\ diagonalizes K n A w (fun p l => mem (p * n + l))).
(** The test of eigenvalues sees only their values, and nothing kept is zero. *)
Definition sound_test (K : numbers) (test : K -> bool) : Prop :=
  (forall x y, neq K x y -> test x = test y) /\ forall x, test x = true -> ~ neq K x (n0 K).
(** Product of two matrices of order n. *)
Definition matmul (K : numbers) (n : Z) (A B : Z -> Z -> K) (p p' : Z) : K := Sm K n (fun m => nmul K (A p m) (B m p')).
Definition same_matrix (K : numbers) (n : Z) (A B : Z -> Z -> K) : Prop :=
  forall p p', 0 <= p < n -> 0 <= p' < n -> neq K (A p p') (B p p').
(** u.M.u *)
Definition quadratic (K : numbers) (u : Z -> K) (M : Z -> Z -> K) : K :=
  Sm K 3 (fun a => Sm K 3 (fun b => nmul K (nmul K (u a) (M a b)) (u b))).
(** Which numbers count as not negative. *)
Record nonneg (K : numbers) (P : K -> Prop) : Prop := {
  nn_ext : forall x y, neq K x y -> P x -> P y;
  nn_add : forall x y, P x -> P y -> P (nadd K x y);
  nn_mul : forall x y, P x -> P y -> P (nmul K x y);
  nn_square : forall x, P (nmul K x x) }.
(** The full and the reduced calculation: any of the solvers, any results that
    it can give. *)
Section Calculations.
Variables (K : numbers) (g n nir nb : Z) (r : Z -> Z -> Z) (irs : Z -> Z) (cart : Z -> Z -> Z -> K) (root : K -> K)
  (absn : K -> K) (ltbn : K -> K -> bool) (method : Z) (cutoff : K).
Definition full_run (mo : Z -> Z -> Z -> Z -> K) (dg : Z -> Z -> K) (gv : Z -> Z -> Z -> K) (fs : Z -> Z -> K)
  (X Y : Z -> Z -> K) : Prop :=
  exists solver w mem, diagonalized_by K solver (n * nb) (red_matrix K nb mo dg) w mem /\
    X = get_X K nb gv fs (fun _ => n1 K) /\
    get_Y K absn ltbn true solver method cutoff (n * nb) w mem X Y.
Definition reduced_run (mi : Z -> Z -> Z -> Z -> Z -> Z -> K) (di : Z -> Z -> K) (gvi : Z -> Z -> Z -> K) (fsi : Z -> Z -> K)
  (X Y : Z -> Z -> K) : Prop :=
  exists solver w mem, diagonalized_by K solver (nir * nb * 3) (ir_matrix K g nb (fun i l => r l (irs i)) irs cart root mi di) w mem /\
    X = get_X K nb gvi fsi (dir_weight K g (fun i l => r l (irs i)) root) /\
    get_Y K absn ltbn false solver method cutoff (nir * nb * 3) w mem X Y.
End Calculations.
