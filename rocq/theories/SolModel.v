(** Solvers of the direct solution: which routine a request is given to, what
    the routine leaves in the array of the collision matrices of all smearing
    widths and temperatures, and what is written to files afterwards.

    Sources: phono3py/conductivity/utils.py, phono3py/conductivity/
    direct_solution.py, c/_phono3py.cpp, c/lapack_wrapper.c,
    phono3py/file_IO.py.

    Arrays are functions of their indices or, for the array of the collision
    matrices, of the position in memory. *)
From Coq Require Import ZArith List Bool.
From Verif Require Import Base Par Par2 DirModel.
Import ListNotations.
Open Scope Z_scope.

Inductive error := RuntimeErr | UnboundLocalErr | ImportErr | AttributeErr.
Inductive res (A : Type) := Ok (a : A) | Err (e : error).
Arguments Ok {A}. Arguments Err {A}.

(** What is installed: the C extension, whether it was compiled with LAPACKE,
    the value of its default_colmat_solver(), SciPy. *)
Record build := Build { ext : bool; lapacke : bool; default_solver : Z; scipy : bool }.

(** c/_phono3py.cpp 893-899, 903-906.  MKL_BLAS is defined by CMakeLists.txt
    (488-497) only if NO_INCLUDE_LAPACKE is not, SCIPY_MKL_H nowhere. *)
Definition compiled_default (with_lapacke : bool) : Z := if with_lapacke then 1 else 4.

Definition is_in (x : Z) (l : list Z) : bool := existsb (Z.eqb x) l.

(** utils.py 679-714 (select_colmat_solver).  If the import fails (685-687),
    the name phono3c is not bound in 689. *)
Definition select_solver (b : build) (pinv_solver : Z) : res Z :=
  if negb (ext b) then Err UnboundLocalErr
  else if negb (lapacke b) && is_in pinv_solver [1; 2; 6] then Err RuntimeErr
  else
    let solver := if pinv_solver =? 6 then 3 else pinv_solver in
    Ok (if solver =? 0 then
          if is_in (default_solver b) [3; 4; 5]
          then (if scipy b then default_solver b else 1)
          else default_solver b
        else if is_in solver [1; 2; 3; 4; 5; 6; 7] then solver
        else default_solver b).

Section Solve.
Variable K : numbers.
Notation "0" := (n0 K).

(** Eigensolvers: [eig r n A] are the eigenvalues and the eigenvectors (column
    l is the l-th) that routine r returns for the matrix A of order n; r is 1
    or 2 for LAPACKE's dsyev and dsyevd, 3 for numpy.linalg.eigh, 4 and 5 for
    SciPy's dsyev and dsyevd.  [npinv n A] is numpy.linalg.pinv. *)
Variables (eig : Z -> Z -> (Z -> Z -> K) -> (Z -> K) * (Z -> Z -> K))
  (npinv : Z -> (Z -> Z -> K) -> Z -> Z -> K).

(** Number of smearing widths and temperatures, order of the matrices. *)
Variables (nsig ntemp size : Z).

(** Position of the matrix of a smearing width and temperature: c/_phono3py.cpp
    934-935 (and 968-969), and the view collision_matrices[i_sigma, i_temp]
    of the C-ordered array in direct_solution.py. *)
Definition adrs_shift (i_sigma i_temp : Z) : Z :=
  i_sigma * size * size * ntemp + i_temp * size * size.
(** Writing of one matrix given by the elements in the order of memory. *)
Definition put (mem : Z -> K) (shift : Z) (elem : Z -> K) (a : Z) : K :=
  if (shift <=? a) && (a <? shift + size * size) then elem (a - shift) else mem a.

(** direct_solution.py 1841-1957 (diagonalize_collision_matrix) without the
    log: eigenvalues (None for solver 7) and the array afterwards.
    Solvers 1, 2 (1902-1919; c/_phono3py.cpp 907-947, which exists only if
    compiled with LAPACKE; c/lapack_wrapper.c 141-204: (solver + 1) mod 2 is
    the algorithm, LAPACK_COL_MAJOR) and 4, 5 (1926-1939: the transposed view
    is handed over and overwritten) take the matrix by columns and leave the
    eigenvectors one after the other; solver 3 (1920-1924) takes it by rows
    and the eigenvectors are copied to the columns; solver 7 (1940-1950) copies
    the inverse.  That a matrix is symmetric is not used here. *)
Definition diagonalize (b : build) (pinv_solver i_sigma i_temp : Z)
  (mem : Z -> K) : res (option (Z -> K) * (Z -> K)) :=
  match select_solver b pinv_solver with
  | Err e => Err e
  | Ok solver =>
    let s := adrs_shift i_sigma i_temp in
    let by_rows := fun p q => mem (s + p * size + q)%Z in
    let by_columns := fun p q => mem (s + q * size + p)%Z in
    let column_major := fun r =>
      let '(w, v) := eig r size by_columns in
      Ok (Some w, put mem s (fun a => v (a mod size) (a / size)%Z)) in
    if is_in solver [1; 2] then
      if lapacke b
      then column_major (if (solver + 1) mod 2 =? 0 then 1 else 2)%Z
      else Err AttributeErr
    else if solver =? 3 then
      let '(w, v) := eig 3 size by_rows in
      Ok (Some w, put mem s (fun a => v (a / size)%Z (a mod size)))
    else if is_in solver [4; 5] then
      if scipy b then column_major solver else Err ImportErr
    else if solver =? 7 then
      Ok (None, put mem s (fun a => npinv size by_rows (a / size)%Z (a mod size)))
    else Err UnboundLocalErr
  end.

Variables (absn : K -> K) (ltbn : K -> K -> bool) (method : Z) (cutoff : K).
(** Kind of the collision matrix, number of bands, weights of the grid points,
    X at a temperature (C111). *)
Variables (reducible : bool) (nb : Z) (weight : Z -> K) (X : Z -> Z -> Z -> K).

(** What the object holds: the array of the collision matrices, the eigenvalues
    (sigma, temperature, index), the f-vectors; [sols] are the Y, from which
    mode kappa is made at once (DirModel). *)
Record state := State {
  mem : Z -> K; coleigs : Z -> Z -> Z -> K; f_vecs : Z -> Z -> K;
  sols : Z -> Z -> Z -> Z -> K }.

(** direct_solution.py 819-896 (_get_Y): Y and the array afterwards, which
    solver 6 changes (c/_phono3py.cpp 949-977 adds the same shift).  For
    solvers 0 to 6 the possible values of Y are those of DirModel.get_Y. *)
Definition solve_at (b : build) (pinv_solver j k : Z) (w m : Z -> K)
  (Y : Z -> Z -> K) (m' : Z -> K) : Prop :=
  match select_solver b pinv_solver with
  | Err _ => False
  | Ok s0 =>
    let solver := if pinv_solver =? 6 then 6 else s0 in
    let s := adrs_shift j k in
    let view := fun a => m (s + a)%Z in
    if solver =? 7 then
      Y = (if reducible then mul_red K else mul_ir K) size
            (fun p q => view (p * size + q)%Z) (X k) /\ m' = m
    else if solver =? 6 then
      exists data', builtin_pinv K absn ltbn method cutoff w size view data' /\
        Y = (if reducible then mul_red K else mul_ir K) size
              (fun p q => data' (p * size + q)%Z) (X k) /\
        m' = (fun a => data' (a - s)%Z)
    else get_Y K absn ltbn reducible solver method cutoff size w view (X k) Y /\ m' = m
  end.

Definition set2 {A} (f : Z -> Z -> A) (j k : Z) (x : A) (j' k' : Z) : A :=
  if (j' =? j) && (k' =? k) then x else f j' k'.

(** 1350-1379 (_set_kappa_at_sigmas), body of the loops for a temperature above
    zero, without kappa in RTA; 1371-1372: eigenvalues are kept unless solver
    is 7.  The sum over collective phonons (_set_mode_kappa_Chaput) is not
    taken here. *)
Definition step (b : build) (pinv_solver : Z) (jk : Z * Z) (s : state)
  (out : res state) : Prop :=
  let '(j, k) := jk in
  match diagonalize b pinv_solver j k (mem s) with
  | Err e => out = Err e
  | Ok (ow, m) =>
    let ce := match ow with Some w => set2 (coleigs s) j k w | None => coleigs s end in
    exists Y m', solve_at b pinv_solver j k (ce j k) m Y m' /\
      out = Ok {| mem := m'; coleigs := ce; f_vecs := f_vector K nb weight Y;
                  sols := set2 (sols s) j k Y |}
  end.
Fixpoint loop (b : build) (pinv_solver : Z) (l : list (Z * Z)) (s : state)
  (out : res state) : Prop :=
  match l with
  | [] => out = Ok s
  | jk :: l => exists o, step b pinv_solver jk s o /\
      match o with Ok s' => loop b pinv_solver l s' out | Err e => out = Err e end
  end.
(** 1352, 1361-1362: all smearing widths and the temperatures above zero;
    [above k]: t > 0 for the k-th temperature. *)
Variable above : Z -> bool.
Definition pairs : list (Z * Z) :=
  flat_map (fun j => map (fun k => (j, k)) (filter above (zrange ntemp))) (zrange nsig).
Definition run_all (b : build) (pinv_solver : Z) (s : state) (out : res state) : Prop :=
  loop b pinv_solver pairs s out.

(** utils.py 540-676 (write_kappa) after the run, for write_LBTE_solution: for
    the i-th smearing width, coleigs-*.hdf5 (652-661) and unitary-*.hdf5
    (663-676; file_IO.py 818-862); the latter holds the whole array. *)
Record unitary_file := Unitary { u_matrix : Z -> K; u_solver : Z }.
Definition write_coleigs (s : state) (i : Z) : Z -> Z -> K := coleigs s i.
Definition write_unitary (b : build) (pinv_solver : Z) (s : state) (i : Z) :
  res (option unitary_file) :=
  match select_solver b pinv_solver with
  | Err e => Err e
  | Ok solver => Ok (if is_in solver [1; 2; 3; 4; 5]
                     then Some {| u_matrix := mem s; u_solver := solver |} else None)
  end.
(** f_vector of kappa-*.hdf5 (548, 637): the same for every smearing width. *)
Definition write_f_vector (s : state) (i : Z) : Z -> Z -> K := f_vecs s.
End Solve.
