(** Interaction strength from fc3 in reciprocal space: c/reciprocal_to_normal.c 74-316, c/interaction.c 49-50, 189-281, and the
    Python version phono3py/phonon3/reciprocal_to_normal.py 86-121 with interaction.py 1004-1013.
    Simplifications: 1/sqrt(mass) is the function argument [isq] (one value per atom); the local arrays e_12 and e0, e1, e2 are
    written as functions of their index (each element is assigned once before use); cblas calls are their definition. *)
From Coq Require Import ZArith QArith List Bool.
From Verif Require Import Base QMat Par IseModel Cplx.
Import ListNotations.
Open Scope Z_scope.

Definition csum_loop (n : Z) (f : Z -> cplx) : cplx := fold_left (fun s i => cadd s (f i)) (zrange n) c0.
(** 273-316 (get_fc3_sum_blas_like) *)
Definition fc3_sum_blas_like (e0 e1 e2 fc : Z -> cplx) (nb : Z) : Q :=
  let e12 := fun ij => cmul (e1 (Z.quot ij nb)) (e2 (Z.rem ij nb)) in
  cnorm2 (csum_loop nb (fun i => cmul (e0 i) (csum_loop (nb * nb) (fun j => cmul (fc (i * nb * nb + j)) (e12 j))))).
(** 235-271 (get_fc3_sum_blas): zscal, zgemv, zdotu *)
Definition fc3_sum_blas (e0 e1 e2 fc : Z -> cplx) (nb : Z) : Q :=
  let e12 := fun ij => cmul (e1 (Z.quot ij nb)) (e2 (Z.rem ij nb)) in
  let fc3_e12 := fun i => csum_loop (nb * nb) (fun j => cmul (fc (i * (nb * nb) + j)) (e12 j)) in
  cnorm2 (csum_loop nb (fun i => cmul (e0 i) (fc3_e12 i))).
(** 200-233 (get_fc3_sum) *)
Definition fc3_sum (e0 e1 e2 fc : Z -> cplx) (nb : Z) : Q :=
  let e12 := fun ij => cmul (e1 (Z.quot ij nb)) (e2 (Z.rem ij nb)) in
  cnorm2 (fold_left (fun s i => fold_left (fun s jk => cadd s (cmul (e0 i) (cmul (fc (i * nb * nb + jk)) (e12 jk)))) (zrange (nb * nb)) s) (zrange nb) c0).

(** 92-128: transposed eigenvectors divided by the square roots of masses *)
Definition scaled (isq : Z -> Q) (nb : Z) (ev : Z -> cplx) (ij : Z) : cplx :=
  let i := Z.quot ij nb in let j := Z.rem ij nb in
  let v := ev (j * nb + i) in let s := isq (Z.quot j 3) in C (re v * s) (im v * s).
(** 152-182: value stored for one entry of g_pos *)
Definition r2n_value (isq : Z -> Q) (nb : Z) (cutoff : Q) (bi : Z -> Z) (fc : Z -> cplx) (f0 f1 f2 : Z -> Q) (ev0 ev1 ev2 : Z -> cplx) (b0 b1 b2 : Z) : Q :=
  if qltb cutoff (f0 (bi b0)) && qltb cutoff (f1 b1) && qltb cutoff (f2 b2) then
    (fc3_sum_blas_like (fun x => scaled isq nb ev0 (bi b0 * nb + x)) (fun x => scaled isq nb ev1 (b1 * nb + x)) (fun x => scaled isq nb ev2 (b2 * nb + x)) fc nb /
      (f0 (bi b0) * f1 b1 * f2 b2))%Q
  else 0%Q.
(** 143-185: the loop over g_pos, parallel unless the triplets are *)
Definition r2n_progs (isq : Z -> Q) (nb : Z) (cutoff : Q) (bi : Z -> Z) (fc : Z -> cplx) (f0 f1 f2 : Z -> Q) (ev0 ev1 ev2 : Z -> cplx) (gp : list gpos) : list (@prog Z Q) :=
  map (fun e => let '(b0, b1, b2, p) := e in wprog [(p, r2n_value isq nb cutoff bi fc f0 f1 f2 ev0 ev1 ev2 b0 b1 b2)]) gp.

(** ** c/interaction.c. [rec] is r2r_real_to_reciprocal (see R2rModel.v): fc3 in reciprocal space from three q-vectors. *)
Section Interaction.
Context {V : Type}.
Variable rec : V -> V -> V -> Z -> cplx.
Variable isq : Z -> Q.
Variable nb : Z.
Variable cutoff : Q.
Variable bi : Z -> Z.
(** 189-223 *)
Definition real_to_normal (gp : list gpos) (f0 f1 f2 : Z -> Q) (ev0 ev1 ev2 : Z -> cplx) (q0 q1 q2 : V) : list (@prog Z Q) :=
  r2n_progs isq nb cutoff bi (rec q0 q1 q2) f0 f1 f2 ev0 ev1 ev2 gp.
(** 49-50 *)
Definition index_exchange (i j : Z) : Z := nth (Z.to_nat j) (nth (Z.to_nat i) [[0; 1; 2]; [2; 0; 1]; [1; 2; 0]; [2; 1; 0]; [0; 2; 1]; [1; 0; 2]] []) 0.
(** 247-259: the call for the i-th order *)
Definition sym_call (gp : list gpos) (f : Z -> Z -> Q) (ev : Z -> Z -> cplx) (q : Z -> V) (i : Z) : list (@prog Z Q) :=
  let x := index_exchange i in
  real_to_normal gp (f (x 0)) (f (x 1)) (f (x 2)) (ev (x 0)) (ev (x 1)) (ev (x 2)) (q (x 0)) (q (x 1)) (q (x 2)).
(** 260-277 *)
Definition sym_add (nb0 i : Z) (ex m : Z -> Q) : Z -> Q :=
  fold_left (fun m j => fold_left (fun m k => fold_left (fun m l =>
    let b := fun y => if y =? 0 then bi j else if y =? 1 then k else l in
    let x := index_exchange i in
    upd m (j * nb * nb + k * nb + l) (m (j * nb * nb + k * nb + l)%Z + ex (b (x 0) * nb * nb + b (x 1) * nb + b (x 2))%Z / 6)%Q)
    (zrange nb) m) (zrange nb) m) (zrange nb0) m.
(** 225-281: [ex 0] is what malloc returned, [ex (i + 1)] the buffer after the i-th call *)
Definition sym_q (gp : list gpos) (f : Z -> Z -> Q) (ev : Z -> Z -> cplx) (q : Z -> V) (nb0 : Z) (ex : Z -> Z -> Q) (m m' : Z -> Q) : Prop :=
  (forall i, 0 <= i < 6 -> finishes Z.eq_dec (sym_call gp f ev q i) (ex i) (ex (i + 1))) /\
  m' = fold_left (fun m i => sym_add nb0 i (ex (i + 1)) m) (zrange 6) (fold_left (fun m i => upd m i 0%Q) (zrange (nb0 * nb * nb)) m).
End Interaction.

(** ** Python: reciprocal_to_normal.py 86-121, interaction.py 1011-1013 before unit conversion.
    [sq] is np.sqrt; [fc] is indexed as (i, j, k, l, m, n) of shape (n, n, n, 3, 3, 3). *)
Section Python.
Variable sq : Q -> Q.
Variable mass : Z -> Q.
Variable nat_ : Z.
Definition py_sum_in_atoms (fc : Z -> Z -> Z -> Z -> Z -> Z -> cplx) (e1 e2 e3 : Z -> cplx) : cplx :=
  let nb := nat_ * 3 in
  fold_left (fun s i => fold_left (fun s j => fold_left (fun s k =>
    let cart := fold_left (fun s l => fold_left (fun s m => fold_left (fun s n =>
        cadd s (cmul (cmul (cmul (e1 (i * 3 + l)) (e2 (j * 3 + m))) (e3 (k * 3 + n))) (fc i j k l m n))) (zrange 3) s) (zrange 3) s) (zrange 3) c0 in
    cadd s (cscale (/ sq (mass i * mass j * mass k)%Q) cart))
    (zrange nat_) s) (zrange nat_) s) (zrange nat_) c0.
Definition py_strength (fc : Z -> Z -> Z -> Z -> Z -> Z -> cplx) (cutoff : Q) (f1 f2 f3 : Z -> Q) (e1 e2 e3 : Z -> Z -> cplx) (b1 b2 b3 : Z) : Q :=
  if qltb cutoff (f1 b1) && qltb cutoff (f2 b2) && qltb cutoff (f3 b3) then
    cnorm2 (cscale (/ sq (f1 b1 * f2 b2 * f3 b3)%Q) (py_sum_in_atoms fc (fun x => e1 x b1) (fun x => e2 x b2) (fun x => e3 x b3)))
  else 0%Q.
End Python.
