(** Force constants of a Phono3py object through a sequence of calls: datasets that are set, produce_fc3, produce_fc2, cutoff and
    symmetrization.

    Source: phono3py/api_phono3py.py. The solvers, the symmetrization of arrays (modelled in Fc3Model.v) and the cutoff are arguments
    here. Arrays are values: that an array given by the user is changed in place is left out. *)
From Coq Require Import ZArith QArith List Bool.
From Verif Require Import Base.
Import ListNotations.

(** fc_calculator: None or "traditional", or another name; whether "|" is in fc_calculator, whether it is in fc_calculator_options *)
Record calculator (X : Type) := Calculator { other : option X; name_bar : bool; options_bar : bool }.
Arguments other {X}. Arguments name_bar {X}. Arguments options_bar {X}. Arguments Calculator {X}.

(** [F2] [F3] force constants, [D] datasets, [C] cells with their symmetry, [X] names and options of calculators *)
Record solvers (F2 F3 D C X : Type) := Solvers {
  (** forces_in_dataset (phonon3/dataset.py 118-124) of a dataset that is not None *)
  has_forces : D -> bool;
  (** FC3Solver: fc2 and fc3 from a dataset, is_compact_fc; None: an exception (forces are missing, unknown name and the like) *)
  solve3 : C -> D -> calculator X -> bool -> option (F2 * F3);
  (** phonopy get_fc2 *)
  solve2 : C -> D -> calculator X -> bool -> option F2;
  (** translational invariance, then permutation symmetry; compact or not *)
  trans3 : bool -> F3 -> F3; perm3 : bool -> F3 -> F3;
  (** phonopy symmetrize_force_constants, symmetrize_compact_force_constants *)
  sym2 : C -> bool -> F2 -> F2;
  (** methods set_permutation_symmetry, set_translational_invariance *)
  perm2 : F2 -> F2; trans2 : F2 -> F2;
  cut3 : C -> Q -> F3 -> F3 }.
Arguments has_forces {F2 F3 D C X}. Arguments solve3 {F2 F3 D C X}. Arguments solve2 {F2 F3 D C X}. Arguments trans3 {F2 F3 D C X}.
Arguments perm3 {F2 F3 D C X}. Arguments sym2 {F2 F3 D C X}. Arguments perm2 {F2 F3 D C X}. Arguments trans2 {F2 F3 D C X}. Arguments cut3 {F2 F3 D C X}.

(** the object. [cell], [phonon_cell]: (phonon) supercell, primitive cell and symmetry; [has_matrix]: phonon_supercell_matrix is given *)
Record object (F2 F3 D C : Type) := Object { cell : C; phonon_cell : C; has_matrix : bool; data : option D; phonon_data : option D; fc2 : option F2; fc3 : option F3 }.
Arguments cell {F2 F3 D C}. Arguments phonon_cell {F2 F3 D C}. Arguments has_matrix {F2 F3 D C}. Arguments data {F2 F3 D C}. Arguments phonon_data {F2 F3 D C}.
Arguments fc2 {F2 F3 D C}. Arguments fc3 {F2 F3 D C}. Arguments Object {F2 F3 D C}.

Section Fcs.
Context {F2 F3 D C X : Type}.
Variable T : solvers F2 F3 D C X.
Notation obj := (object F2 F3 D C).
Definition with_fc (s : obj) (a : option F2) (b : option F3) : obj := Object (cell s) (phonon_cell s) (has_matrix s) (data s) (phonon_data s) a b.

(** 1499 and 1577: fc_calculator is None or "traditional" *)
Definition built_in (k : calculator X) : bool := match other k with None => true | Some _ => false end.
(** 1456-1526 (produce_fc3); None: an exception, nothing is changed (solver, the first statement, with dataset None as well) *)
Definition produce_fc3 (sym compact : bool) (k : calculator X) (s : obj) : option obj :=
  match match data s with None => None | Some d => solve3 T (cell s) d k compact end with
  | None => None
  | Some (a, b) =>
      let none := match fc2 s with None => true | Some _ => false end in
      let '(a, b) :=
        if built_in k && sym then (if none then sym2 T (cell s) compact a else a, perm3 T compact (trans3 T compact b)) else (a, b) in
      let a := if name_bar k then None else Some a in
      let a := if options_bar k then None else a in
      let a := if has_matrix s then None else a in
      Some (with_fc s (if none then a else fc2 s) (Some b))
  end.
(** 1528-1584 (produce_fc2) *)
Definition produce_fc2 (sym compact : bool) (k : calculator X) (s : obj) : option obj :=
  match match phonon_data s with None => data s | Some d => Some d end with
  | None => None
  | Some d =>
      if negb (has_forces T d) then None else
      match solve2 T (phonon_cell s) d k compact with
      | None => None
      | Some a => Some (with_fc s (Some (if built_in k && sym then sym2 T (phonon_cell s) compact a else a)) (fc3 s))
      end
  end.

(** calls of the user *)
Inductive call :=
| SetData (d : option D) | SetPhononData (d : option D) | SetFc2 (x : option F2) | SetFc3 (x : option F3)
| ProduceFc3 (sym compact : bool) (k : calculator X) | ProduceFc2 (sym compact : bool) (k : calculator X)
| Cutoff (d : Q) | SetPermutation | SetTranslation.
(** The second component: no exception. 344-363, 624-638 and 670-684 (setters, datasets of a good format), 1586-1610 (cutoff_fc3_by_zero of
    the fc3 of the object; without one, an exception), 1612-1629: these two are for full arrays *)
Definition step (s : obj) (c : call) : obj * bool :=
  match c with
  | SetData d => (Object (cell s) (phonon_cell s) (has_matrix s) d (phonon_data s) (fc2 s) (fc3 s), true)
  | SetPhononData d => (Object (cell s) (phonon_cell s) (has_matrix s) (data s) d (fc2 s) (fc3 s), true)
  | SetFc2 x => (with_fc s x (fc3 s), true)
  | SetFc3 x => (with_fc s (fc2 s) x, true)
  | ProduceFc3 sym compact k => match produce_fc3 sym compact k s with Some s' => (s', true) | None => (s, false) end
  | ProduceFc2 sym compact k => match produce_fc2 sym compact k s with Some s' => (s', true) | None => (s, false) end
  | Cutoff d => match fc3 s with Some x => (with_fc s (fc2 s) (Some (cut3 T (cell s) d x)), true) | None => (s, false) end
  | SetPermutation => (with_fc s (option_map (perm2 T) (fc2 s)) (option_map (perm3 T false) (fc3 s)), true)
  | SetTranslation => (with_fc s (option_map (trans2 T) (fc2 s)) (option_map (trans3 T false) (fc3 s)), true)
  end.
Fixpoint exec (s : obj) (l : list call) : obj :=
  match l with [] => s | c :: l => exec (fst (step s c)) l end.
End Fcs.
