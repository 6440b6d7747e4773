(** Direct solution of the linearized Boltzmann equation: from the parts of the
    collision matrix to the conductivity, with the full collision matrix and
    with the symmetry-reduced one.

    Sources: phono3py/conductivity/direct_solution.py, c/lapack_wrapper.c.

    The numbers are those of any field in which a sum of squares vanishes only
    if its terms do (e.g. the rational or the real numbers): the weights of the
    symmetry-reduced matrix are square roots.  Arrays are functions of their
    indices. *)
From Coq Require Import ZArith QArith List Bool Setoid Morphisms Ring_theory Field_theory.
From Verif Require Import Base Par Par2.
Import ListNotations.
Open Scope Z_scope.

(** ** Numbers *)

Record numbers := Numbers {
  num :> Type;
  n0 : num; n1 : num;
  nadd : num -> num -> num; nmul : num -> num -> num; nsub : num -> num -> num;
  nopp : num -> num; ndiv : num -> num -> num; ninv : num -> num;
  neq : num -> num -> Prop;
  n_equiv : Equivalence neq;
  n_ext : ring_eq_ext nadd nmul nopp neq;
  n_inv_ext : forall x y, neq x y -> neq (ninv x) (ninv y);
  n_field : field_theory n0 n1 nadd nmul nsub nopp ndiv ninv neq;
  n_squares : forall l : list num,
    neq (fold_right (fun x s => nadd (nmul x x) s) n0 l) n0 ->
    forall x, In x l -> neq x n0
}.

Section Direct.
Variable K : numbers.
Notation "0" := (n0 K).
Notation "1" := (n1 K).
Infix "+" := (nadd K).
Infix "*" := (nmul K).
Infix "/" := (ndiv K).
Infix "==" := (neq K).

(** Sum over 0 .. n-1. *)
Definition ks {X} (l : list X) (f : X -> K) : K :=
  fold_right (fun x s => f x + s) 0 l.
Definition Sm (n : Z) (f : Z -> K) : K := ks (zrange n) f.
Definition of_nat (n : nat) : K := ks (repeat tt n) (fun _ => 1).

(** ** Collision matrix and weights

    [g]: number of point group operations; [cart l a b]: their Cartesian
    matrices; [rot i l]: image of the i-th irreducible grid point by operation
    l; [irs i]: the irreducible grid points.  Grid points are numbered as in
    the regular grid: the code has BZ grid indices here, which are images of
    the former by grg2bzg in both self._ir_grid_points and
    self._rot_grid_points, so that comparisons are the same. *)
Variables (g nir n nb : Z) (rot : Z -> Z -> Z) (irs : Z -> Z)
  (cart : Z -> Z -> Z -> K).

(** direct_solution.py 657-694 (_get_weights) without the warning (C64);
    [root] is np.sqrt. *)
Variable root : K -> K.
Definition num_arms (i : Z) : nat :=
  length (nodup Z.eq_dec (map (rot i) (zrange g))).
Definition dir_weight (i : Z) : K :=
  root (of_nat (num_arms i)) / root (of_nat (Z.to_nat g)).

(** 579-592 (_combine_collisions); [diag i j] is _get_main_diagonal. *)
Definition combine (m : Z -> Z -> Z -> Z -> Z -> Z -> K) (diag : Z -> Z -> K)
  (i j a i' j' b : Z) : K :=
  if ((i =? i') && (j =? j'))%bool
  then fold_left (fun s l => if rot i l =? irs i
                             then s + diag i j * cart l a b else s)
                 (zrange g) (m i j a i' j' b)
  else m i j a i' j' b.
(** 572-577 (_multiply_weights_to_collisions). *)
Definition weighted (m : Z -> Z -> Z -> Z -> Z -> Z -> K)
  (i j a i' j' b : Z) : K :=
  m i j a i' j' b * (dir_weight i * dir_weight i').
(** 594-603 (_combine_reducible_collisions). *)
Definition combine_reducible (m : Z -> Z -> Z -> Z -> K) (diag : Z -> Z -> K)
  (q j q' j' : Z) : K :=
  if ((q =? q') && (j =? j'))%bool then m q j q' j' + diag q j
  else m q j q' j'.
(** 696-728 (_symmetrize_collision_matrix; C31 for the C version) on the
    matrix reshaped to (size, size). *)
Definition symmetrized (m : Z -> Z -> K) (p p' : Z) : K :=
  (m p p' + m p' p) / (1 + 1).
(** Reshaping of the axes (grid point, band, Cartesian component), 832, and of
    (grid point, band). *)
Definition flat_ir (m : Z -> Z -> Z -> Z -> Z -> Z -> K) (p p' : Z) : K :=
  m (p / 3 / nb)%Z (p / 3 mod nb) (p mod 3)
    (p' / 3 / nb)%Z (p' / 3 mod nb) (p' mod 3).
Definition flat_red (m : Z -> Z -> Z -> Z -> K) (p p' : Z) : K :=
  m (p / nb)%Z (p mod nb) (p' / nb)%Z (p' mod nb).

(** The two matrices that are inverted (539-570 _prepare_collision_matrix).  The averages over
    degenerate bands (C34) are left out: they do nothing unless frequencies at
    a grid point are equal.  The expansion of the full matrix (C32) and the
    matrix elements (C33) are inputs. *)
Definition ir_matrix m diag : Z -> Z -> K :=
  symmetrized (flat_ir (weighted (combine m diag))).
Definition red_matrix m diag : Z -> Z -> K :=
  symmetrized (flat_red (combine_reducible m diag)).

(** ** X *)
(** 791-817 (_get_X) for a temperature above zero: [fs i j] is the element of
    freqs_sinh of mode j at the i-th grid point (irreducible, or all of the
    regular grid), [gv] the group velocities, [w] the weights. *)
Definition get_X (gv : Z -> Z -> Z -> K) (fs : Z -> Z -> K) (w : Z -> K)
  (p a : Z) : K :=
  let i := (p / nb)%Z in let j := p mod nb in
  gv i j a * w i * fs i j.

(** ** Y = (Omega^-1, X) *)
(** 910-922 (_get_eigvals_pinv).  [absn] is abs(), [ltbn] the comparison; the
    division is by the eigenvalue. *)
Variables (absn : K -> K) (ltbn : K -> K -> bool).
Definition kept (method : Z) (cutoff val : K) : bool :=
  ltbn cutoff (if method =? 0 then absn val else val).
Definition eigvals_pinv (method : Z) (cutoff : K) (w : Z -> K) (l : Z) : K :=
  if kept method cutoff (w l) then 1 / w l else 0.

(** 832-835: the memory after the diagonalization, [mem], read as [v].  The
    solvers 1, 2, 4, 5 leave the eigenvectors in the rows of the C-ordered
    array (column-major LAPACK), 3 (and 6) in the columns. *)
Definition eigvecs (solver size : Z) (mem : Z -> K) (i l : Z) : K :=
  if existsb (Z.eqb solver) [1; 2; 4; 5]%Z then mem (l * size + i)%Z
  else mem (i * size + l)%Z.

(** 855-860 (solvers 0 to 5), full matrix: one column of X for each Cartesian
    component. *)
Definition solve_red (size : Z) (v : Z -> Z -> K) (e : Z -> K)
  (X : Z -> Z -> K) (p a : Z) : K :=
  Sm size (fun l => v p l * (Sm size (fun m => v m l * X m a) * e l)).
(** 862: symmetry-reduced matrix: X as one vector of length size. *)
Definition solve_ir (size : Z) (v : Z -> Z -> K) (e : Z -> K)
  (X : Z -> Z -> K) (p a : Z) : K :=
  Sm size (fun l => v (p * 3 + a)%Z l *
                   (e l * Sm size (fun m => v m l * X (m / 3)%Z (m mod 3)))).

(** 863-881 (solver 6): c/lapack_wrapper.c 206-292 pinv_from_eigensolution.
    [tmp] is the copy of the eigenvectors, l[0..max_l) the kept eigenvalues. *)
Definition kept_list (method : Z) (cutoff : K) (w : Z -> K) (size : Z) : list Z :=
  filter (fun i => kept method cutoff (w i)) (zrange size).
Definition pinv_elem (tmp : Z -> K) (w : Z -> K) (ls : list Z)
  (size i j : Z) : K :=
  fold_left (fun s l => s + tmp (i * size + l)%Z * tmp (j * size + l)%Z / w l)
            ls 0.
(** row i: the loop over j from i on (245-255, 257-268, 274-284) *)
Definition pinv_row (tmp w : Z -> K) (ls : list Z) (size i : Z) : @prog Z K :=
  pfor (map (fun k => i + k)%Z (zrange (size - i))) (fun j =>
    let s := pinv_elem tmp w ls size i j in
    Wr (i * size + j)%Z s (Wr (j * size + i)%Z s Ret)).
(** 243-269: iterations of the parallel loop, from front and from back *)
Definition pinv_iterations (tmp w : Z -> K) (ls : list Z) (size : Z)
  : list (@prog Z K) :=
  map (fun i => pseq (pinv_row tmp w ls size i)
                     (pinv_row tmp w ls size (size - i - 1)))
      (zrange (size / 2)).
(** 206-292: some schedule of the loop, then the middle row (271-285).  The
    offset of the matrix of a smearing width and temperature is left out. *)
Definition builtin_pinv (method : Z) (cutoff : K) (w : Z -> K) (size : Z)
  (data data' : Z -> K) : Prop :=
  let ls := kept_list method cutoff w size in
  exists m, finishes Z.eq_dec (pinv_iterations data w ls size) data m /\
    data' = if size mod 2 =? 1
            then run Z.eq_dec (pinv_row data w ls size ((size - 1) / 2)) m
            else m.
(** direct_solution.py 878-881 and 883-886 (solver 7): the inverse times X *)
Definition mul_red (size : Z) (inv : Z -> Z -> K) (X : Z -> Z -> K)
  (p a : Z) : K := Sm size (fun m => inv p m * X m a).
Definition mul_ir (size : Z) (inv : Z -> Z -> K) (X : Z -> Z -> K)
  (p a : Z) : K :=
  Sm size (fun m => inv (p * 3 + a)%Z m * X (m / 3)%Z (m mod 3)).

(** 839-850: number of dimensions that the log says are ignored. *)
Definition null_space (cutoff : K) (w : Z -> K) (size : Z) : Z :=
  Z.of_nat (length (filter (fun l => ltbn (absn (w l)) cutoff) (zrange size))).

(** 819-896 (_get_Y) without the log: possible values of Y; [mem] is the array
    that the diagonalization left, of which solver 6 makes the inverse in place.
    Solver 7 (np.linalg.pinv of NumPy) is left out. *)
Definition get_Y (reducible : bool) (solver method : Z) (cutoff : K) (size : Z)
  (w mem : Z -> K) (X Y : Z -> Z -> K) : Prop :=
  if solver =? 6 then
    exists data', builtin_pinv method cutoff w size mem data' /\
      Y = (if reducible then mul_red else mul_ir) size (fun p m => data' (p * size + m)%Z) X
  else if existsb (Z.eqb solver) [0; 1; 2; 3; 4; 5]%Z then
    Y = (if reducible then solve_red else solve_ir) size (eigvecs solver size mem)
          (eigvals_pinv method cutoff w) X
  else False.

(** 898-908 (_set_f_vectors). *)
Definition f_vector (w : Z -> K) (Y : Z -> Z -> K) (p a : Z) : K :=
  Y p a / (1 + 1) / w (p / nb)%Z.

(** ** Conductivity *)
(** 1052-1092 (_set_mode_kappa), element (a, b) of the tensor of mode j at the
    i-th grid point.  Only BZ grid address 0 is the Gamma point, hence the
    test of 1076 is on i; [factor] is conversion_factor * Kb * t**2. *)
Definition rotv (l : Z) (v : Z -> K) (a : Z) : K := Sm 3 (fun b => cart l a b * v b).
Definition mode_kappa (factor : K) (X Y : Z -> Z -> K) (i j a b : Z) : K :=
  if ((i =? 0)%Z && (j <? 3)%Z)%bool then 0
  else
    let p := (i * nb + j)%Z in
    let sum_k a b := Sm g (fun l => rotv l (X p) a * rotv l (Y p) b) in
    (sum_k a b + sum_k b a) * factor.
(** 273 and 297-298: sum over grid points and bands divided by N; for the full
    matrix also divided by the number of operations. *)
Definition kappa_ir (factor N : K) (X Y : Z -> Z -> K) (a b : Z) : K :=
  Sm nir (fun i => Sm nb (fun j => mode_kappa factor X Y i j a b)) / N.
Definition mode_kappa_red (factor : K) (X Y : Z -> Z -> K) (q j a b : Z) : K :=
  mode_kappa factor X Y q j a b / of_nat (Z.to_nat g).
Definition kappa_red (factor N : K) (X Y : Z -> Z -> K) (a b : Z) : K :=
  Sm n (fun q => Sm nb (fun j => mode_kappa_red factor X Y q j a b)) / N.

End Direct.
