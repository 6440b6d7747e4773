(** Phonons on the grid: c/phonon.c, phono3py/phonon/solver.py, and the handling of the Gamma point in
    interaction.py, joint_dos.py, isotope.py. *)
From Coq Require Import ZArith List Bool.
From Verif Require Import Base Par Par2.
Import ListNotations.
Open Scope Z_scope.

(** phonon.c: collect_undone_grid_points 162-178. State: (undone list so far, phonon_done). *)
Definition collect_undone (done : Z -> Z) (gps : list Z) : list Z * (Z -> Z) :=
  fold_left (fun st gp => if snd st gp =? 0 then (fst st ++ [gp], upd (snd st) gp 1) else st) gps ([], done).

Section Solver.
Context {V : Type}.
(** elements of the arrays frequencies and eigenvectors *)
Inductive adr := Fr (i : Z) | Ev (i : Z).
Definition adr_dec : forall a b : adr, {a = b} + {a <> b}.
Proof. decide equality; apply Z.eq_dec. Defined.
Variable nb : Z.
(** the dynamical matrix of a grid point (element e of its block), LAPACK zheev (matrix to eigenvalues and
    eigenvectors), and sqrt(fabs(x)) * sign(x) * factor *)
Variable dm : Z -> Z -> V.
Variable zheev : list V -> list V * list V.
Variable conv : V -> V.
Variable zero : V.
Definition block (gp : Z) : list adr := map (fun e => Ev (nb * nb * gp + e)) (zrange (nb * nb)).
(** phonon.c: get_undone_phonons 201-219, first loop (also get_gonze_undone_phonons 264-280): build the
    dynamical matrix of gp in its block of eigenvectors. (The dynamical matrix code itself reads and writes this
    block only; it is modelled in DynModel.v.) *)
Definition build (gp : Z) : prog := wprog (map (fun e => (Ev (nb * nb * gp + e), dm gp e)) (zrange (nb * nb))).
(** phonon.c: get_undone_phonons 222-238, second loop (gonze 282-302): diagonalize in place, then convert the
    eigenvalues in place. *)
Definition diagonalize (gp : Z) : prog :=
  rds (block gp) (fun vs =>
    let r := zheev vs in
    pseq (wprog (map (fun j => (Fr (nb * gp + j), nth (Z.to_nat j) (fst r) zero)) (zrange nb)
              ++ map (fun e => (Ev (nb * nb * gp + e), nth (Z.to_nat e) (snd r) zero)) (zrange (nb * nb))))
         (pfor (zrange nb) (fun j => Rd (Fr (nb * gp + j)) (fun v => Wr (Fr (nb * gp + j)) (conv v) Ret)))).
(** phonon.c: phn_get_phonons_at_gridpoints 101-128 (gonze 130-160): the two parallel loops one after the other,
    each under any schedule. *)
Definition get_undone (undone : list Z) (m m' : adr -> V) : Prop :=
  exists m1, finishes adr_dec (map build undone) m m1 /\ finishes adr_dec (map diagonalize undone) m1 m'.
Definition get_phonons (gps : list Z) (st st' : (Z -> Z) * (adr -> V)) : Prop :=
  let r := collect_undone (fst st) gps in
  (forall g, fst st' g = snd r g) /\ get_undone (fst r) (snd st) (snd st').
(** solver.py: run_phonon_solver_c 40-181 without LAPACKE: the C code only builds the matrices; then all points
    that were undone before the call (np.where(phonon_done == 0)) are diagonalized in Python, one after the other.
    [n] is the number of grid points. (The conversion of frequencies is done for all of them at the end.) *)
Definition get_phonons_nolapack (n : Z) (gps : list Z) (st st' : (Z -> Z) * (adr -> V)) : Prop :=
  let r := collect_undone (fst st) gps in
  let before := filter (fun g => fst st g =? 0) (zrange n) in
  (forall g, fst st' g = snd r g) /\
  exists m1, finishes adr_dec (map build (fst r)) (snd st) m1 /\
             snd st' = fold_left (fun m g => run adr_dec (diagonalize g) m) before m1.
(** a sequence of calls run_phonon_solver(grid_points) *)
Inductive calls (call : list Z -> (Z -> Z) * (adr -> V) -> (Z -> Z) * (adr -> V) -> Prop) : list (list Z) -> (Z -> Z) * (adr -> V) -> (Z -> Z) * (adr -> V) -> Prop :=
| calls_nil : forall st, calls call [] st st
| calls_cons : forall gps l st st1 st2, call gps st st1 -> calls call l st1 st2 -> calls call (gps :: l) st st2.
End Solver.

(** interaction.py: set_phonon_data 692-709. Addresses as lists of triples; true: accepted. numpy .all() is true
    when every element of the difference is non-zero. *)
Definition shape_same (a b : list (Z * Z * Z)) : bool := Nat.eqb (length a) (length b).
Definition diffs (a b : list (Z * Z * Z)) : list Z :=
  flat_map (fun p => let '((x, y, z), (u, v, w)) := p in [x - u; y - v; z - w]) (combine a b).
Definition accepts_phonons (bz given : list (Z * Z * Z)) : bool :=
  if negb (shape_same given bz) then false else negb (forallb (fun d => negb (d =? 0)) (diffs bz given)).
