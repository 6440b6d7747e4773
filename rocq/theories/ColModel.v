(** Collision matrix: c/collision_matrix.c, c/phono3py.c 486-587,
    phono3py/phonon3/collision_matrix.py and parts of phono3py/conductivity/direct_solution.py.
    Doubles are rationals; [ish f T] stands for funcs_inv_sinh_occupation (c/funcs.c). *)
From Coq Require Import ZArith QArith List Bool.
From Verif Require Import Base QMat Par Par2 IseModel.
Import ListNotations.
Open Scope Z_scope.

(** ** Lookup of the triplet of a grid point *)
(** c/collision_matrix.c 325-342 create_gp2tp_map; [init] is the malloc'ed array *)
Definition gp2tp_step (tm : Z -> Z) (s : (Z -> Z) * Z) (i : Z) : (Z -> Z) * Z :=
  let '(m, num_ir) := s in
  if tm i =? i then (upd m i num_ir, num_ir + 1) else (upd m i (-1), num_ir).
Definition create_gp2tp_map (tm : Z -> Z) (num_gp : Z) (init : Z -> Z) : Z -> Z :=
  fst (fold_left (gp2tp_step tm) (zrange num_gp) (init, 0)).
(** 300-309 of get_inv_sinh: the flag and the point whose frequencies are used *)
Definition swapped (tm map_q : Z -> Z) (gp : Z) : bool := negb (tm gp =? map_q gp).
Definition third_of (t : tp3) (sw : bool) : Z := if sw then tp_at t 1 else tp_at t 2.

(** collision_matrix.py 250-307 _get_gp2tp_map; state (gp2tp, tp2s, swapped, num_tps); [None] is an
    AssertionError. The unset value of gp2tp and tp2s is -1, of swapped false. *)
Definition py_state := ((Z -> Z) * (Z -> Z) * (Z -> bool) * Z)%type.
Definition py_step (tm map_q b2g : Z -> Z) (triplets : Z -> tp3) (s : option py_state) (gp1 : Z) : option py_state :=
  match s with
  | None => None
  | Some (gp2tp, tp2s, sw, num) =>
      if map_q gp1 =? gp1 then
        if gp1 =? tm gp1 then
          if b2g (tp_at (triplets num) 1) =? gp1
          then Some (upd gp2tp gp1 num, upd tp2s gp1 (tp_at (triplets num) 2), sw, num + 1)
          else None
        else
          let ti := gp2tp (tm gp1) in
          if map_q (b2g (tp_at (triplets ti) 2)) =? gp1
          then Some (upd gp2tp gp1 ti, upd tp2s gp1 (tp_at (triplets ti) 1), upd sw gp1 true, num)
          else None
      else Some (upd gp2tp gp1 (gp2tp (map_q gp1)), upd tp2s gp1 (tp2s (map_q gp1)), upd sw gp1 (sw (map_q gp1)), num)
  end.
Definition py_gp2tp_map (tm map_q b2g : Z -> Z) (triplets : Z -> tp3) (n : Z) : option py_state :=
  fold_left (py_step tm map_q b2g triplets) (zrange n) (Some (fun _ => -1, fun _ => -1, fun _ => false, 0)).

(** ** Collision matrix at a grid point *)
Section Col.
Variable ish : Q -> Q -> Q.
Variable sinh_ : Q -> Q -> Q.
Variables (nb0 nb ntrip : Z) (pp freq g : Z -> Q) (triplets : Z -> tp3) (tm map_q : Z -> Z).
Variables (T unit cutoff : Q).

(** c/collision_matrix.c 311-318: inv_sinh[i] at point gp2 *)
Definition inv_sinh (gp2 i : Z) : Q :=
  let f := freq (gp2 * nb + i) in if qltb cutoff f then ish f T else 0%Q.
(** 173-196 and 259-279: the sum over the band of the third phonon for first band [k], second band
    [l]; g points to plane 2 (94 and 119) *)
Definition collision (ti : Z) (sw : bool) (gp2 k l : Z) : Q :=
  fold_left (fun c m =>
    let a := if sw then ti * nb0 * nb * nb + k * nb * nb + m * nb + l
             else ti * nb0 * nb * nb + k * nb * nb + l * nb + m in
    (c + pp a * g (2 * ntrip * nb0 * nb * nb + a)%Z * inv_sinh gp2 m * unit)%Q) (zrange nb) 0%Q.
Definition add_to (a : Z) (v : Q) : @prog Z Q := Rd a (fun x => Wr a (x + v)%Q Ret).
(** 243-288 get_reducible_collision_matrix_at_gp *)
Definition reducible_at_gp (num_gp : Z) (gp2tp : Z -> Z) (i : Z) : @prog Z Q :=
  let ti := gp2tp (tm i) in
  let sw := swapped tm map_q i in
  let gp2 := third_of (triplets ti) sw in
  pfor (zrange nb0) (fun j => pfor (zrange nb) (fun k =>
    add_to (j * num_gp * nb + i * nb + k) (collision ti sw gp2 j k))).
(** 217-241: iterations of the parallel loop *)
Definition reducible_iterations (num_gp : Z) (gp2tp : Z -> Z) : list (@prog Z Q) :=
  map (reducible_at_gp num_gp gp2tp) (zrange num_gp).
(** 156-215 get_collision_matrix_at_gp; [rot] is rot_grid_points, [cart] rotations_cartesian *)
Definition irreducible_at_gp (num_ir_gp num_rot : Z) (rot : Z -> Z) (cart : Z -> Q) (gp2tp : Z -> Z) (i : Z) : @prog Z Q :=
  pfor (zrange num_rot) (fun j =>
    let r_gp := rot (i * num_rot + j) in
    let ti := gp2tp (tm r_gp) in
    let sw := swapped tm map_q r_gp in
    let gp2 := third_of (triplets ti) sw in
    pfor (zrange nb0) (fun k => pfor (zrange nb) (fun l =>
      pfor (zrange 3) (fun m => pfor (zrange 3) (fun n =>
        add_to (k * 3 * num_ir_gp * nb * 3 + m * num_ir_gp * nb * 3 + i * nb * 3 + l * 3 + n)
               (collision ti sw gp2 k l * cart (j * 9 + m * 3 + n)%Z)%Q))))).
(** 126-154: iterations of the parallel loop *)
Definition irreducible_iterations (num_ir_gp num_rot : Z) (rot : Z -> Z) (cart : Z -> Q) (gp2tp : Z -> Z) : list (@prog Z Q) :=
  map (irreducible_at_gp num_ir_gp num_rot rot cart gp2tp) (zrange num_ir_gp).

(** collision_matrix.py 309-319 _get_inv_sinh; [sinh_ f T] is np.sinh(f * THzToEv / (2 * Kb * T)) *)
Definition py_inv_sinh (gp i : Z) : Q :=
  let f := freq (gp * nb + i) in
  let s := if qltb cutoff f then sinh_ f T else (-1)%Q in
  if qltb 0 s then (1 / s)%Q else 0%Q.
(** 193-204 and 232-242: the sum for bands j, k of grid point gp *)
Definition py_collision (st : py_state) (gp j k : Z) : Q :=
  let '(gp2tp, tp2s, sw, _) := st in
  let ti := gp2tp gp in
  let at_ l := if sw gp : bool then ((ti * nb0 + j) * nb + l) * nb + k else ((ti * nb0 + j) * nb + k) * nb + l in
  (fold_left (fun c l => (c + pp (at_ l) * py_inv_sinh (tp2s gp) l * g (2 * (ntrip * nb0 * nb * nb) + at_ l)%Z)%Q) (zrange nb) 0 * unit)%Q.
(** 213-243 _run_py_reducible_collision_matrix on the array of shape (nb0, n, nb) *)
Definition py_reducible (st : py_state) (n : Z) (m : Z -> Q) : Z -> Q :=
  fold_left (fun m gp1 => fold_left (fun m j => fold_left (fun m k =>
    upd m ((j * n + gp1) * nb + k) (m ((j * n + gp1) * nb + k)%Z + py_collision st gp1 j k)%Q) (zrange nb) m) (zrange nb0) m) (zrange n) m.
(** 180-211 _run_py_collision_matrix on the array of shape (nb0, 3, nir, nb, 3) *)
Definition py_irreducible (st : py_state) (nir nrot : Z) (rot : Z -> Z) (cart : Z -> Q) (m : Z -> Q) : Z -> Q :=
  fold_left (fun m i => fold_left (fun m r => fold_left (fun m j => fold_left (fun m k =>
    fold_left (fun m a => fold_left (fun m b =>
      let adr := (((j * 3 + a) * nir + i) * nb + k) * 3 + b in
      upd m adr (m adr + py_collision st (rot (i * nrot + r)%Z) j k * cart (r * 9 + a * 3 + b)%Z)%Q)
    (zrange 3) m) (zrange 3) m) (zrange nb) m) (zrange nb0) m) (zrange nrot) m) (zrange nir) m.
End Col.

(** Parallel loops run one after another: each starts from the memory the previous one left. *)
Inductive phases : list (list (@prog Z Q)) -> (Z -> Q) -> (Z -> Q) -> Prop :=
| P_nil : forall m, phases [] m m
| P_cons : forall ps l m m1 m2, finishes Z.eq_dec ps m m1 -> phases l m1 m2 -> phases (ps :: l) m m2.
(** the sequential loops over sigmas i and temperatures j *)
Definition sigma_temps (ns nt : Z) : list (Z * Z) := flat_map (fun i => map (fun j => (i, j)) (zrange nt)) (zrange ns).

(** ** Symmetrization, c/phono3py.c 486-512 *)
Definition adrs_shift (nc nt i j : Z) : Z := i * nc * nc * nt + j * nc * nc.
(** iteration k of the parallel loop *)
Definition sym_iteration (nc shift k : Z) : @prog Z Q :=
  pfor (zseq (k + 1) nc) (fun l =>
    Rd (shift + k * nc + l) (fun x => Rd (shift + l * nc + k) (fun y =>
      Wr (shift + k * nc + l) ((x + y) / 2)%Q (Wr (shift + l * nc + k) ((x + y) / 2)%Q Ret)))).
Definition symmetrize_loops (nc nt ns : Z) : list (list (@prog Z Q)) :=
  map (fun ij => map (sym_iteration nc (adrs_shift nc nt (fst ij) (snd ij))) (zrange nc)) (sigma_temps ns nt).

(** ** Expansion, c/phono3py.c 514-587 *)
(** 533-545: multi[i] (a parallel loop writing only its own element) *)
Definition multi (rot : Z -> Z) (ng nrot ir : Z) : Z := zcount (fun j => rot (j * ng + ir) =? ir) (zrange nrot).
(** 558-562: copy divided by multi, row set to zero *)
Fixpoint take_row (d : Q) (l : list Z) (k : list Q -> @prog Z Q) : @prog Z Q :=
  match l with
  | [] => k []
  | a :: t => Rd a (fun v => Wr a 0%Q (take_row d t (fun vs => k ((v / d)%Q :: vs))))
  end.
(** 553-578: iteration k of the parallel loop *)
Definition expand_iteration (rot irs : Z -> Z) (ng nrot nb shift k : Z) : @prog Z Q :=
  let nbgb := nb * ng * nb in
  let ir := irs k in
  take_row (inject_Z (multi rot ng nrot ir)) (map (fun l => shift + ir * nbgb + l) (zrange nbgb)) (fun copy =>
    pfor (zrange nrot) (fun l =>
      let gp_r := rot (l * ng + ir) in
      pfor (zrange nb) (fun m => pfor (zrange ng) (fun n => pfor (zrange nb) (fun p =>
        add_to (shift + gp_r * nbgb + m * ng * nb + rot (l * ng + n) * nb + p)
               (nth (Z.to_nat (m * ng * nb + n * nb + p)) copy 0%Q)))))).
(** 547-552 *)
Definition expand_loops (rot irs : Z -> Z) (nir ng nrot ns nt nb : Z) : list (list (@prog Z Q)) :=
  map (fun ij => map (expand_iteration rot irs ng nrot nb (adrs_shift (ng * nb) nt (fst ij) (snd ij))) (zrange nir))
      (sigma_temps ns nt).

(** direct_solution.py 636-655 _expand_local_values, one quantity of shape (grid, width): the values
    at ir_gp divided by multi are added at every image; [f l v] is what operation l does to the value
    (identity for cv and gamma, v R^T for the group velocity), given per component *)
Definition expand_values (rot irs : Z -> Z) (nir ng nrot w : Z) (f : Z -> (Z -> Q) -> Z -> Q) (m : Z -> Q) : Z -> Q :=
  fold_left (fun m k =>
    let ir := irs k in
    let copy := fun c => m (ir * w + c) in
    let m1 := fold_left (fun m c => upd m (ir * w + c) 0%Q) (zrange w) m in
    fold_left (fun m l => fold_left (fun m c =>
        upd m (rot (l * ng + ir) * w + c) (m (rot (l * ng + ir) * w + c)%Z + f l copy c / inject_Z (multi rot ng nrot ir))%Q)
      (zrange w) m) (zrange nrot) m1) (zrange nir) m.
(** direct_solution.py 657-694 _get_weights: number of arms of star i, and the test behind the warning
    "Symmetry of grid is broken" (np.unique of non-negative integers below [bound]) *)
Definition arms (rot : Z -> Z) (nrot bound i : Z) : list Z :=
  filter (fun gp => existsb (fun j => rot (i * nrot + j) =? gp) (zrange nrot)) (zrange bound).
Definition sym_broken (rot : Z -> Z) (nrot bound i : Z) : bool :=
  existsb (fun gp => negb (zcount (fun j => rot (i * nrot + j) =? gp) (zrange nrot) =? nrot / Z.of_nat (length (arms rot nrot bound i))))
          (arms rot nrot bound i).
