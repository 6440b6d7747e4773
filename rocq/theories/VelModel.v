(** Velocity operators by finite differences of the square root of the dynamical matrix.

    Source: phono3py/phonon/velocity_operator.py.

    Matrices are functions of two indices 0 .. n-1 with complex rational elements; q-points are functions of 0 .. 2.
    [eigh] stands for np.linalg.eigh, [csqrt] for the square root of complex numbers of numpy, [D q dir] for
    dynmat.run(q, q_direction=dir) followed by dynmat.dynamical_matrix. *)
From Coq Require Import ZArith QArith List Bool.
From Verif Require Import Base QMat Cplx.
Import ListNotations.
Open Scope Z_scope.

Definition mat := Z -> Z -> cplx.
Definition vec := Z -> Q.
Section Vel.
Variable n : Z.
Variable eigh : mat -> (Z -> Q) * mat.
Variable csqrt : cplx -> cplx.
(** np.matmul and .T.conj() *)
Definition matmul (A B : mat) : mat := fun p q => CSum n (fun k => cmul (A p k) (B k q)).
Definition adj (A : mat) : mat := fun p q => conj (A q p).
(** np.diag(np.diag(A)) *)
Definition diag_part (A : mat) : mat := fun p q => if p =? q then A p p else c0.

(** velocity_operator.py: _sqrt_dynamical_matrix 176-202. The frequencies set to zero are used only in a warning. *)
Definition sqrt_dm (flag_gamma : bool) (dm : mat) : mat :=
  let v := snd (eigh dm) in
  let v := if flag_gamma then (fun p l => if l <? 3 then c0 else v p l) else v in
  let omega := diag_part (fun p q => csqrt (matmul (adj v) (matmul dm v) p q)) in
  matmul v (matmul omega (adj v)).

Variable D : vec -> option vec -> mat.
Variable gonze : bool.
Definition norm2 (q : vec) : Q := (q 0%Z * q 0%Z + q 1%Z * q 1%Z + q 2%Z * q 2%Z)%Q.
(** q / np.linalg.norm(q) *)
Variable unit_of : vec -> vec.
(** _delta_sqrt_dynamical_matrix 204-234; the comparison of norms 207 is that of their squares. *)
Definition delta_sqrt (q dq : vec) : mat :=
  let flag_gamma := qltb (norm2 q) (norm2 dq) in
  let m := (fun i => q i - dq i)%Q in let p := (fun i => q i + dq i)%Q in
  let dir x := if gonze && flag_gamma then Some (unit_of x) else None in
  let s1 := sqrt_dm flag_gamma (D m (dir m)) in
  let s2 := sqrt_dm flag_gamma (D p (dir p)) in
  fun i j => csub (s2 i j) (s1 i j).
(** _get_dsqrtD_FD 161-174: [cell] is the primitive cell (reciprocal_lattice_inv), h q_length. *)
Variables (cell : Z -> Z -> Q) (h : Q).
Definition step (dir : vec) : vec := fun i => (cell i 0%Z * (dir 0%Z * h) + cell i 1%Z * (dir 1%Z * h) + cell i 2%Z * (dir 2%Z * h))%Q.
Definition dsqrtD (q dir : vec) : mat := fun i j => cscale (/ h / 2)%Q (delta_sqrt q (step dir) i j).
(** 81-97: the directions; the first one is that of [run] 104-123, of which no use is made. *)
Definition axis (a : Z) : vec := fun i => if i =? a then 1%Q else 0%Q.
Definition directions (first : vec) : list vec := [first; axis 0; axis 1; axis 2].
(** _calculate_velocity_operator_at_q 132-159: elements (s, s', direction). [factor] is frequency_factor_to_THz;
    [cutoff] is kept in the object and not used. *)
Definition velocity (first : vec) (factor cutoff : Q) (q : vec) (s s' d : Z) : cplx :=
  let v := snd (eigh (D q None)) in
  let ddms := map (dsqrtD q) (directions first) in
  let g := fun s s' => cscale factor (matmul (adj v) (matmul (nth (Z.to_nat (d + 1)) ddms (fun _ _ => c0)) v) s s') in
  cscale (1 # 2) (cadd (conj (g s' s)) (g s s')).
(** 138: frequencies at q *)
Definition frequency (root : Q -> Q) (factor : Q) (q : vec) (l : Z) : Q :=
  let w := fst (eigh (D q None)) l in
  (if qltb 0 w then root w * factor else if qltb w 0 then - (root (- w)) * factor else 0)%Q.
End Vel.
