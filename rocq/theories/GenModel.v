(** Generation of displacements (Phono3py.generate_displacements, generate_fc2_displacements) and of the supercell files by the command
    (-d, --rd, --rd-fc2).

    Sources: phono3py/api_phono3py.py, phono3py/cui/create_supercells.py. The functions of phonopy (random displacements, least
    displacements, number of supercells needed by symfc, default distance of an interface) and the systematic displacements of
    phonon3/displacement_fc3.py are arguments here (the latter are modelled in DispModel.v). Logs are left out. *)
From Coq Require Import ZArith QArith List Bool.
From Verif Require Import Base.
Import ListNotations.
Open Scope Z_scope.

(** is_plusminus: True, False or "auto" *)
Inductive plusminus := PM_true | PM_false | PM_auto.
(** number_of_snapshots: None, a number or "auto" *)
Inductive snapshots := NoSnapshots | Snapshots (n : Z) | AutoSnapshots.
(** where the random numbers come from: a seed, or the system ([e] stands for its state) *)
Inductive source (E : Type) := Seed (n : Z) | System (e : E).
Arguments Seed {E}. Arguments System {E}.

(** [C] cells, [S] symmetries, [R] displacements of all atoms of one supercell, [D3] [D2] systematic datasets, [E] states of the system *)
Record tools (C S R D3 D2 E : Type) := Tools {
  natom : C -> Z;
  (** phonopy get_random_displacements_dataset(number, natom, distance, random_seed, is_plusminus, max_distance) *)
  random : Z -> Z -> Q -> source E -> bool -> option Q -> list R;
  (** get_third_order_displacements followed by direction_to_displacement *)
  systematic3 : C -> S -> plusminus -> bool -> Q -> option Q -> D3;
  (** get_least_displacements followed by directions_to_displacement_dataset *)
  systematic2 : C -> S -> plusminus -> bool -> Q -> D2;
  (** SymfcFCSolver(cell, symmetry, options).estimate_numbers_of_supercells: cutoff of fc3, order *)
  estimate : C -> S -> option Q -> Z -> Z;
  (** supercells of a dataset; None: the pair of displacements is left out *)
  cells3 : C -> D3 -> list (option C);
  cells2 : C -> D2 -> list C;
  displaced : C -> R -> C }.
Arguments natom {C S R D3 D2 E}. Arguments random {C S R D3 D2 E}. Arguments systematic3 {C S R D3 D2 E}. Arguments systematic2 {C S R D3 D2 E}.
Arguments estimate {C S R D3 D2 E}. Arguments cells3 {C S R D3 D2 E}. Arguments cells2 {C S R D3 D2 E}. Arguments displaced {C S R D3 D2 E}.

(** a dataset: random (the seed if recorded, and displacements of each supercell) or systematic *)
Inductive dataset (R D : Type) := Random (seed : option Z) (rows : list R) | Systematic (d : D).
Arguments Random {R D}. Arguments Systematic {R D}.

(** the object: supercell, phonon supercell (the same as the supercell if no phonon supercell matrix is given, api_phono3py.py
    2391-2406), their symmetries, whether the matrix is given, and the two datasets *)
Record object (C S R D3 D2 : Type) := Object {
  supercell : C; symmetry : S; phonon_supercell : C; phonon_symmetry : S; has_matrix : bool;
  data3 : option (dataset R D3); data2 : option (dataset R D2) }.
Arguments supercell {C S R D3 D2}. Arguments symmetry {C S R D3 D2}. Arguments phonon_supercell {C S R D3 D2}.
Arguments phonon_symmetry {C S R D3 D2}. Arguments has_matrix {C S R D3 D2}. Arguments data3 {C S R D3 D2}. Arguments data2 {C S R D3 D2}.
Arguments Object {C S R D3 D2}.

Section Gen.
Context {C S R D3 D2 E : Type}.
Variable T : tools C S R D3 D2 E.
Notation obj := (object C S R D3 D2).

(** api_phono3py.py 2678-2702 (_generate_random_displacements) *)
Definition generate_random {D} (e : E) (number number_of_atoms : Z) (distance : Q) (pm : bool) (random_seed : option Z) (max_distance : option Q) : dataset R D :=
  let seed := match random_seed with Some n => if (0 <=? n) && (n <? 2 ^ 32) then Some n else None | None => None end in
  Random seed (random T number number_of_atoms distance (match seed with Some n => Seed n | None => System e end) pm max_distance).

(** arguments of the two methods, in the order distance, cutoff_pair_distance, is_plusminus, is_diagonal, number_of_snapshots,
    random_seed, max_distance; generate_fc2_displacements has no cutoff *)
Record options := Options { distance : option Q; cutoff : option Q; pm : plusminus; diagonal : bool; number : snapshots; seed : option Z; max_distance : option Q }.
(** 1309-1312 and 1417-1420 *)
Definition the_distance (o : options) : Q := match distance o with Some d => d | None => (3 # 100)%Q end.
Definition is_true (p : plusminus) : bool := match p with PM_true => true | _ => false end.
(** 1314-1316 and 1422-1424 *)
Definition at_random (n : snapshots) : bool := match n with NoSnapshots => false | Snapshots n => 0 <? n | AutoSnapshots => true end.

(** 1360-1452 (generate_fc2_displacements) *)
Definition generate_fc2_displacements (e : E) (o : options) (s : obj) : obj :=
  let d :=
    if at_random (number o) then
      let n := match number o with Snapshots n => n | _ => estimate T (supercell s) (symmetry s) None 2 * 2 end in
      generate_random e n (natom T (phonon_supercell s)) (the_distance o) (is_true (pm o)) (seed o) (max_distance o)
    else Systematic (systematic2 T (phonon_supercell s) (phonon_symmetry s) (pm o) (diagonal o) (the_distance o)) in
  Object (supercell s) (symmetry s) (phonon_supercell s) (phonon_symmetry s) (has_matrix s) (data3 s) (Some d).
(** 1227-1358 (generate_displacements) *)
Definition generate_displacements (e : E) (o : options) (s : obj) : obj :=
  let d :=
    if at_random (number o) then
      let n := match number o with Snapshots n => n | _ => estimate T (supercell s) (symmetry s) (cutoff o) 3 * 2 end in
      generate_random e n (natom T (supercell s)) (the_distance o) (is_true (pm o)) (seed o) (max_distance o)
    else Systematic (systematic3 T (supercell s) (symmetry s) (pm o) (diagonal o) (the_distance o) (cutoff o)) in
  let s' := Object (supercell s) (symmetry s) (phonon_supercell s) (phonon_symmetry s) (has_matrix s) (Some d) (data2 s) in
  match has_matrix s, data2 s with
  | true, None => generate_fc2_displacements e (Options (Some (the_distance o)) None (pm o) false NoSnapshots None None) s'
  | _, _ => s'
  end.

(** supercells_with_displacements and phonon_supercells_with_displacements after generation (caches are modelled in DsModel.v and
    MlpModel.v); displacements of all atoms: one supercell for each *)
Definition supercells (s : obj) : list (option C) :=
  match data3 s with
  | Some (Random _ rows) => map (fun r => Some (displaced T (supercell s) r)) rows
  | Some (Systematic d) => cells3 T (supercell s) d
  | None => []
  end.
Definition phonon_supercells (s : obj) : option (list C) :=
  match data2 s with
  | Some (Random _ rows) => Some (map (displaced T (phonon_supercell s)) rows)
  | Some (Systematic d) => Some (cells2 T (phonon_supercell s) d)
  | None => None
  end.

(** what create_phono3py_supercells looks at: settings, and cell_info["phonon_supercell_matrix"] is in the new object.
    [random_fc2]: settings.random_displacements_fc2; [matrix_setting]: settings.phonon_supercell_matrix is not None *)
Record settings := Settings {
  s_distance : option Q; s_cutoff : option Q; s_pm : plusminus; s_diagonal : bool; s_random : snapshots; s_seed : option Z;
  s_pm_fc2 : plusminus; s_random_fc2 : snapshots; matrix_setting : bool }.
(** truth value of settings.random_displacements_fc2 *)
Definition truthy (n : snapshots) : bool := match n with NoSnapshots => false | Snapshots n => negb (n =? 0) | AutoSnapshots => true end.
(** create_supercells.py 66-96: [default] is get_default_displacement_distance(interface_mode); the object is new (71-79), its
    datasets are None; [e], [e'] are the states of the system at the two calls *)
Definition command_generate (e e' : E) (default : Q) (x : settings) (s : obj) : obj :=
  let d := match s_distance x with None => default | Some d => d end in
  let s := generate_displacements e (Options (Some d) (s_cutoff x) (s_pm x) (s_diagonal x) (s_random x) (s_seed x) None) s in
  if truthy (s_random_fc2 x) || matrix_setting x then
    generate_fc2_displacements e' (Options (Some d) None (s_pm_fc2 x) false (s_random_fc2 x) (s_seed x) None) s
  else s.
(** create_supercells.py 113-118: numbers and cells of the files *)
Definition enumerate (l : list (option C)) : list (Z * C) :=
  flat_map (fun p => match snd p with Some c => [(fst p + 1, c)] | None => [] end) (combine (zrange (Z.of_nat (length l))) l).
(** 113-158: the files of fc3 and, if there is a phonon supercell matrix, those of fc2 (numbered from 1); the outer None is
    len(None), an exception *)
Definition command_files (s : obj) : option (list (Z * C) * option (list (Z * C))) :=
  if has_matrix s then
    match phonon_supercells s with
    | None => None
    | Some l => Some (enumerate (supercells s), Some (enumerate (map Some l)))
    end
  else Some (enumerate (supercells s), None).
End Gen.
