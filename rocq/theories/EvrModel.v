(** Phonons on all grid points of the Brillouin zone made from those on the irreducible ones by rotating
    eigenvectors: phono3py/phonon3/interaction.py 711-721, 754-896 *)
From Coq Require Import ZArith QArith List Bool.
From Verif Require Import Base Mat3 QMat Cplx BzModel DynModel.
Import ListNotations.
Open Scope Z_scope.

(** self._phonon_done, self._frequencies (grid point, band), self._eigenvectors (grid point, row, band) *)
Record phonons := mkph { done : Z -> bool; freq : Z -> Z -> Q; eig : Z -> Z -> Z -> cplx }.
Definition write (s : phonons) (gp : Z) (f : Z -> Q) (e : Z -> Z -> cplx) : phonons :=
  mkph (fun g => if g =? gp then true else done s g) (fun g => if g =? gp then f else freq s g) (fun g => if g =? gp then e else eig s g).
Definition listed (gp : Z) (l : list Z) : bool := existsb (fun g => g =? gp) l.

Definition mentry (m : M3) (a b : Z) : Z :=
  let '(m3 x00 x01 x02 x10 x11 x12 x20 x21 x22) := m in
  match a, b with
  | 0, 0 => x00 | 0, 1 => x01 | 0, _ => x02
  | 1, 0 => x10 | 1, 1 => x11 | 1, _ => x12
  | _, 0 => x20 | _, 1 => x21 | _, _ => x22 end.
Definition qmentry (m : QM) (a b : Z) : Q :=
  let '(qm x00 x01 x02 x10 x11 x12 x20 x21 x22) := m in
  match a, b with
  | 0, 0 => x00 | 0, 1 => x01 | 0, _ => x02
  | 1, 0 => x10 | 1, 1 => x11 | 1, _ => x12
  | _, 0 => x20 | _, 1 => x21 | _, _ => x22 end.
Definition ventry (v : V3) (a : Z) : Z := let '(v3 x y z) := v in match a with 0 => x | 1 => y | _ => z end.
(** phonopy's similarity_transformation(lattice, r) = lattice r lattice^-1, called at phono3py/phonon/grid.py 492-497 *)
Definition similarity (L : QM) (r : M3) : QM := qmulMM L (qmulMM (qm_of r) (qinv L)).

Section Evr.
(** np.exp(2 i pi x) *)
Variable cis : Q -> cplx.
(** frequencies and eigenvectors of the dynamical matrix at a grid point (the solver in C, C53, C66, C74), and what
    numpy's eigh makes of the untouched matrices of points that were not asked for when LAPACK is not linked in C
    (phono3py/phonon/solver.py 136-140, 172-175): only the points asked for are marked done *)
Variable solve : Z -> (Z -> Q) * (Z -> Z -> cplx).
Variable other : phonons -> Z -> (Z -> Q) * (Z -> Z -> cplx).
(** the BZ grid, its rotations and reciprocal_operations (same order), rotations_cartesian, QDinv *)
Variable B : BzIn.
Variable o : BzOut.
Variable ty : Z.
Variable grots recs : list M3.
Variable L : QM.
Variable QDinv : Z -> Z -> Q.
(** symmetry_dataset: rotations and translations; compute_all_sg_permutations of phonopy *)
Variable rots : list M3.
Variable tau : Z -> Z -> Q.
Variable perms : Z -> Z -> Z.

(** 711-721 with grid points given: _run_phonon_solver_c changes nothing at done points *)
Definition run_phonon_solver (gps : list Z) (s : phonons) : phonons :=
  mkph (fun g => done s g || listed g gps)
       (fun g => if done s g then freq s g else if listed g gps then fst (solve g) else fst (other s g))
       (fun g => if done s g then eig s g else if listed g gps then snd (solve g) else snd (other s g)).
(** 812-832: [None] is the assertion *)
Fixpoint d2r_map (rs : list M3) : option (list Z) :=
  match rs with
  | [] => Some []
  | r :: t =>
      match find_first (fun i => meqb (transp (nth (Z.to_nat i) recs I3)) r) (zrange (Z.of_nat (length recs))), d2r_map t with
      | Some i, Some l => Some (i :: l)
      | _, _ => None
      end
  end.
(** 834-849 *)
Definition rotate_eigvecs (s : phonons) (orig_gp bzgp : Z) (r_cart : Z -> Z -> Q) (perm : Z -> Z) (t_i : Z) : phonons :=
  let Rq := grid_q QDinv (ventry (o_addr o bzgp)) in
  let phase := cis (- (Rq 0%Z * tau t_i 0%Z + Rq 1%Z * tau t_i 1%Z + Rq 2%Z * tau t_i 2%Z))%Q in
  write s bzgp (freq s orig_gp)
    (fun z b => let v k := cmul (eig s orig_gp (perm (z / 3) * 3 + k)%Z b) phase in
       cadd (cadd (cscale (r_cart (z mod 3) 0) (v 0)) (cscale (r_cart (z mod 3) 1) (v 1))) (cscale (r_cart (z mod 3) 2) (v 2))).
(** 785-799, one pair of an operation of the crystal and its index of rotation, one irreducible grid point *)
Definition rotate_one (d_i r_i : Z) (s : phonons) (irgp : Z) : phonons :=
  let bzgp := bz_rotate_grid_index B o ty irgp (nth (Z.to_nat r_i) grots I3) in
  if done s bzgp then s
  else rotate_eigvecs s irgp bzgp (qmentry (similarity L (nth (Z.to_nat r_i) recs I3))) (perms d_i) d_i.
Fixpoint rotate_all (irs : list Z) (d_i : Z) (map : list Z) (s : phonons) : phonons :=
  match map with
  | [] => s
  | r_i :: t => rotate_all irs (d_i + 1) t (fold_left (rotate_one d_i r_i) irs s)
  end.
(** 851-896; the list of points solved, only printed, is left out *)
Definition minus_one (s : phonons) (bzgp : Z) : phonons :=
  if done s bzgp then s
  else
    let bzgp_mq := bz_rotate_grid_index B o ty bzgp (mneg I3) in
    let s := if done s bzgp_mq then s else run_phonon_solver [bzgp_mq] s in
    write s bzgp (freq s bzgp_mq) (fun z b => conj (eig s bzgp_mq z b)).
Definition get_phonons_at_minus_q (s : phonons) : option phonons :=
  let s := fold_left minus_one (zrange (o_size o)) s in
  if forallb (done s) (zrange (o_size o)) then Some s else None.
(** 754-800; [irs] is bz_grid.grg2bzg[ir_grid_points] *)
Definition run_phonon_solver_with_eigvec_rotation (irs : list Z) (s : phonons) : option phonons :=
  let s := mkph (fun _ => false) (freq s) (eig s) in
  let s := run_phonon_solver irs s in
  match d2r_map rots with
  | None => None
  | Some map => get_phonons_at_minus_q (rotate_all irs 0 map s)
  end.
End Evr.
