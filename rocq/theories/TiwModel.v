(** The Python implementation of the integration weights of triplets: phono3py/phonon3/triplets.py 148-226 (get_triplets_integration_weights),
    373-407 (_set_triplets_integration_weights_py), 410-424 (_get_tetrahedra_vertices). The C implementation is in IwModel.v. Doubles are
    rationals; [gauss] is gaussian of phonon/func.py; [engine f0 ts] is what phonopy's TetrahedronMethod returns at f0 for the
    tetrahedra with values ts; [rel] its relative grid addresses (thm.tetrahedra) after the product with P (line 383). *)
From Coq Require Import ZArith QArith List Bool.
From Verif Require Import Base Mat3 QMat GridModel BzModel BzProps TripletModel TripletProps TetraModel Par IwModel KaccumModel.
Import ListNotations.
Open Scope Z_scope.

(** 410-424: vertices of side j (0: +, 1: -) of a triplet, from the regular grid; [grg2bzg] is BZGrid.grg2bzg *)
Definition py_vertices (g : bzgrid) (rel : list (list V3)) (triplet : Z * Z * Z) (j : Z) : list (list Z) :=
  map (map (fun r => grg2bzg (k_out g) (k_ty g)
    (grid_point_from_address_py (vadd (o_addr (k_out g) (tp_nth triplet (j + 1))) (if j =? 0 then r else vneg r)) (bD (k_B g))))) rel.
Section Py.
Variable g : bzgrid.
Variable rel : list (list V3).
Variable engine : Q -> list T4 -> Q.
Variable gauss : Q -> Q -> Q.
Variable triplets : Z -> Z * Z * Z.
Variable nb : Z.
Variable freq_points freq : Z -> Q.
(** the three planes from g0, g1, g2 (205-212 and 399-406) *)
Definition py_planes (g0 g1 g2 : Q) (plane : Z) : Q := if plane =? 0 then g0 else if plane =? 1 then (g1 - g2)%Q else (g0 + g1 + g2)%Q.
(** 388-406 *)
Definition py_tetra_weight (plane i j b1 b2 : Z) : Q :=
  let v0 := py_vertices g rel (triplets i) 0 in
  let v1 := py_vertices g rel (triplets i) 1 in
  let omegas (op : Q -> Q -> Q) := combine_with (fun r0 r1 => to_t4 (combine_with (fun x y => op (freq (x * nb + b1)) (freq (y * nb + b2))) r0 r1)) v0 v1 in
  py_planes (engine (freq_points j) (omegas (fun f1 f2 => f1 + f2)%Q)) (engine (freq_points j) (omegas (fun f1 f2 => - f1 + f2)%Q)) (engine (freq_points j) (omegas (fun f1 f2 => f1 - f2)%Q)) plane.
(** 199-212 *)
Definition py_sigma_weight (sigma : Q) (plane i j b1 b2 : Z) : Q :=
  let f1 := freq (tp_nth (triplets i) 1 * nb + b1) in
  let f2 := freq (tp_nth (triplets i) 2 * nb + b2) in
  let f0 := freq_points j in
  py_planes (gauss (f0 - f1 - f2)%Q sigma) (gauss (f0 + f1 - f2)%Q sigma) (gauss (f0 - f1 + f2)%Q sigma) plane.
(** `if sigma:` (187) *)
Definition smeared_by (sigma : option Q) : option Q := match sigma with Some s => if Qeq_bool s 0 then None else Some s | None => None end.
(** lang="Py": g[plane, i, j, b1, b2]; sigma_cutoff is not used *)
Definition py_weight (sigma : option Q) (sigma_cutoff : option Q) : Z -> Z -> Z -> Z -> Z -> Q :=
  match smeared_by sigma with Some s => py_sigma_weight s | None => py_tetra_weight end.
(** lang="C": the body of the loops of the C function called (187-198, 213-221); the third argument of planes is the number of planes of g *)
Definition c_body (eps : Q) (Qg : M3) (rl : QM) (sigma : option Q) (sigma_cutoff : option Q) (is_collision_matrix : bool) : Z -> Z -> Z -> Z * list Q :=
  let tp := if is_collision_matrix then 3 else 2 in
  match smeared_by sigma with
  | Some s => sigma_weight gauss s (match sigma_cutoff with None => (-1)%Q | Some c => c end) tp triplets nb freq_points freq
  | None => tetra_weight eps (tp_grid (k_B g) (k_out g) (k_ty g) Qg rl) tp rel triplets nb nb freq_points freq freq
  end.
End Py.
