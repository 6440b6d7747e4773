(** Rotations in the grid basis: c/grgrid.c:106-136, grid.py:471-522. Doubles are
    exact rationals. *)
From Coq Require Import ZArith QArith Qabs List Bool.
From Verif Require Import Base Mat3 QMat.
Import ListNotations.
Open Scope Q_scope.

(** c/grgrid.c:45 *)
Definition IDENTITY_TOL : Q := 1 # 100000.

(** c/lagrid.c:75-86 lagmat_get_similar_matrix_ld3 (precision 0: |det| < 0 never
    holds, so the inverse is always formed) *)
Definition similar_matrix_ld3 (a : M3) (b : QM) : QM := qmulMM (qinv b) (qmulMM (qm_of a) b).

(** c/grgrid.c:122-127, [r[j][k] *= D[j]; r[j][k] /= D[k]] *)
Definition scale_by_D (r : QM) (D : V3) : QM :=
  let '(qm a b c d e f g h i) := r in
  let '(v3 x y z) := D in
  let s := fun v dj dk => v * qz dj / qz dk in
  qm (s a x x) (s b x y) (s c x z) (s d y x) (s e y y) (s f y z)
     (s g z x) (s h z y) (s i z z).

(** c/lagrid.c:63-73 lagmat_cast_matrix_3d_to_3l *)
Definition cast_3d_to_3l (r : QM) : M3 :=
  let '(qm a b c d e f g h i) := r in
  m3 (Nint a) (Nint b) (Nint c) (Nint d) (Nint e) (Nint f) (Nint g) (Nint h) (Nint i).

(** c/lagrid.c:99-115 lagmat_check_identity_matrix_ld3: true is return value 1 *)
Definition check_identity_ld3 (a : M3) (b : QM) (symprec : Q) : bool :=
  let '(m3 a0 a1 a2 a3 a4 a5 a6 a7 a8) := a in
  let '(qm b0 b1 b2 b3 b4 b5 b6 b7 b8) := b in
  let bad := fun x y => qltb symprec (Qabs (qz x - y)) in
  negb (bad a0 b0 || bad a1 b1 || bad a2 b2 || bad a3 b3 || bad a4 b4 || bad a5 b5
        || bad a6 b6 || bad a7 b7 || bad a8 b8).

(** c/grgrid.c:121-133, one rotation *)
Definition transform_rotation (D : V3) (Q : M3) (R : M3) : option M3 :=
  let r := scale_by_D (similar_matrix_ld3 R (qm_of Q)) D in
  let t := cast_3d_to_3l r in
  if check_identity_ld3 t r IDENTITY_TOL then Some t else None.

(** c/grgrid.c:106-136 grg_transform_rotations; [None] is return value 0 *)
Fixpoint transform_rotations (D : V3) (Q : M3) (rots : list M3) : option (list M3) :=
  match rots with
  | [] => Some []
  | R :: l =>
      match transform_rotation D Q R with
      | None => None
      | Some t => match transform_rotations D Q l with
                  | None => None
                  | Some tl => Some (t :: tl)
                  end
      end
  end.

(** phono3py/phonon/grid.py:514-522 _satisfy_shift_symmetry; [np.rint(np.linalg.inv(P))]
    for an integer matrix of determinant 1 is its adjugate, and the assertion
    det(Pinv) == 1 makes any other case raise ([None]). *)
Definition even3 (v : V3) : bool :=
  let '(v3 x y z) := v in ((x mod 2 =? 0) && (y mod 2 =? 0) && (z mod 2 =? 0))%Z.
Definition satisfy_shift_symmetry (P : M3) (S : V3) (rots : list M3) : option bool :=
  if (det P =? 1)%Z then
    Some (forallb (fun r => even3 (vsub S (mulMV (mulMM (adj P) (mulMM r P)) S))) rots)
  else None.

(** phono3py/phonon/grid.py:471-512 _set_rotations after the reciprocal operations
    are known: [None] is any of the exceptions. [S = None] is is_shift None. *)
Definition set_rotations (D : V3) (P Q : M3) (S : option V3) (rec_ops : list M3) : option (list M3) :=
  match transform_rotations D Q rec_ops with
  | None => None
  | Some rots =>
      match S with
      | None => Some rots
      | Some s =>
          match satisfy_shift_symmetry P s rots with
          | Some true => Some rots
          | _ => None
          end
      end
  end.
