(** Collecting forces: FORCES_FC3, FORCES_FC2 and phono3py_params.yaml out of calculator output files. *)
From Coq Require Import ZArith QArith List Bool String.
From Verif Require Import Base DsModel ForcesModel.
Import ListNotations.
Open Scope Z_scope.

(** Exceptions by name; EExit is sys.exit(1). *)
Inductive exc := EExit | ERuntime | EKey | EIndex | EType | EUnbound | EValue.
Inductive out (X : Type) := Done (x : X) | Raises (e : exc).
Arguments Done {X} x. Arguments Raises {X} e.
Definition obind {X Y} (o : out X) (f : X -> out Y) : out Y := match o with Done x => f x | Raises e => Raises e end.
Notation "'do' x <- e ; f" := (obind e (fun x => f)) (at level 200, x binder, e at level 100, f at level 200).
Definition from_opt {X} (o : option X) (e : exc) : out X := match o with Some x => Done x | None => Raises e end.
Definition guard (b : bool) (e : exc) : out unit := if b then Done tt else Raises e.
(** for x in l: body, stopping at the first exception *)
Fixpoint oall {X Y} (f : X -> out Y) (l : list X) : out (list Y) :=
  match l with
  | [] => Done []
  | x :: t => do y <- f x; do r <- oall f t; Done (y :: r)
  end.

(** What phonopy's get_calc_dataset returns: the keys forces, supercell_energies and points; the last two
    depend on the calculator. *)
Record calc := Calc { c_forces : list conf; c_energies : option (list Q); c_points : option (list conf) }.
(** The options that are read here; an option left out is the empty list or None. *)
Record settings := Settings { st_calc : option string; st_cf3 : list string; st_cf3_file : option string; st_cf2 : list string;
                              st_sub : option string; st_sub2 : option string; st_save : bool }.
(** The parts of Phono3pyYaml used. C is the type of supercells, N of the NAC parameters. *)
Record yaml (C N : Type) := Yaml { y_calc : option string; y_data : option dataset; y_cell : C; y_pdata : option dataset; y_pcell : C; y_nac : option N }.
Arguments Yaml {C N} _ _ _ _ _ _. Arguments y_calc {C N} _. Arguments y_data {C N} _. Arguments y_cell {C N} _.
Arguments y_pdata {C N} _. Arguments y_pcell {C N} _. Arguments y_nac {C N} _.

(** numpy fs -= zero: the arrays have the same number of atoms, otherwise ValueError (broadcasting an array with one
    row is not modelled). *)
Definition vsub (a b : vec) : vec := let '(x, y, z) := a in let '(u, v, w) := b in (x - u, y - v, z - w)%Q.
Definition csub (zero fs : conf) : out conf :=
  if Nat.eqb (List.length fs) (List.length zero) then Done (map (fun p => vsub (fst p) (snd p)) (combine fs zero)) else Raises EValue.

Section Collect.
Context {C N : Type}.
(** phonopy: files present, lines of the file with the list of names, get_calc_dataset, the Wien2k variant
    (interface/wien2k.py 41-60), check_agreements_of_displacements (true: some file does not match),
    check_agreement_of_supercell_positions (true: does not match), get_nac_params. *)
Variables (present : string -> bool) (names_in : string -> list string).
Variable get_calc : option string -> Z -> list string -> calc.
Variable get_wien2k : list string -> C -> dataset -> list conf.
Variables (moved : C -> dataset -> list conf -> list string -> bool) (cell_moved : C -> conf -> bool).
Variable get_nac : option N.

Definition present_all (l : list string) : out unit := guard (forallb present l) EExit.
(** create_force_sets.py: _get_force_sets_fc3 358-369, _get_force_sets_fc2 274-281: number of atoms and of displacements. *)
Definition shape_fc3 (d : dataset) : out (Z * Z) :=
  match d with
  | Type1 natom fs => Done (natom, Z.of_nat (List.length fs) + zcount included (flat_map f_second fs))
  | Type2 (Some disps) _ _ => match disps with [] => Raises EIndex | c :: _ => Done (Z.of_nat (List.length c), Z.of_nat (List.length disps)) end
  | Type2 None _ _ => Raises ERuntime
  end.
Definition shape_fc2 (d : dataset) : out Z :=
  match d with
  | Type1 natom _ => Done natom
  | Type2 (Some disps) _ _ => match disps with [] => Raises EIndex | c :: _ => Done (Z.of_nat (List.length c)) end
  | Type2 None _ _ => Raises ERuntime
  end.
Definition is_type1 (d : dataset) : bool := match d with Type1 _ _ => true | Type2 _ _ _ => false end.
(** create_force_sets.py 414-436 and 306-330: forces of the perfect supercell taken off. None for force_sets is
    the variable not being set. *)
Definition take_off (mode : option string) (natom : Z) (cell : C) (fname : option string) (sets : option (list conf)) : out (option (list conf)) :=
  match fname with
  | None => Done sets
  | Some f =>
      do _ <- present_all [f];
      let z := get_calc mode natom [f] in
      do zero <- from_opt (nth_error (c_forces z) 0) EIndex;
      do _ <- match c_points z with
              | None => Done tt
              | Some pts => do p <- from_opt (nth_error pts 0) EIndex; guard (negb (cell_moved cell p)) ERuntime
              end;
      do fs <- from_opt sets EUnbound;
      do r <- oall (csub zero) fs; Done (Some r)
  end.
(** create_force_sets.py: _get_force_sets_fc3 347-450. force_sets are the arrays inside calc_dataset, so the
    subtraction changes what is returned. Log output is left out. *)
Definition collect_fc3 (s : settings) (d : option dataset) (cell : C) (mode : option string) : out calc :=
  do d <- from_opt d EType;
  do sh <- shape_fc3 d;
  let '(natom, ndisp) := sh in
  do names <- match st_cf3_file s with
              | Some f => do _ <- present_all [f]; Done (names_in f)
              | None => Done (st_cf3 s)
              end;
  do _ <- present_all names;
  if is_type1 d && negb (ndisp =? Z.of_nat (List.length names)) then
    do _ <- take_off mode natom cell (st_sub s) None; Done (Calc [] None None)
  else
    let c := match mode with
             | Some "wien2k"%string => Calc (get_wien2k names cell d) None None
             | _ => get_calc mode natom names
             end in
    do _ <- match c_points c with None => Done tt | Some pts => guard (negb (moved cell d pts names)) ERuntime end;
    do fs <- take_off mode natom cell (st_sub s) (Some (c_forces c));
    Done (Calc (match fs with Some l => l | None => [] end) (c_energies c) (c_points c)).
(** create_force_sets.py: _get_force_sets_fc2 262-344. The argument interface_mode is overwritten by
    settings.calculator (270). *)
Definition collect_fc2 (s : settings) (d : option dataset) (cell : C) (mode : option string) : out calc :=
  let mode := st_calc s in
  do d <- from_opt d EType;
  do natom <- shape_fc2 d;
  let names := st_cf2 s in
  do _ <- present_all names;
  let c := get_calc mode natom names in
  do _ <- match c_points c with None => Done tt | Some pts => guard (negb (moved cell d pts names)) ERuntime end;
  do fs <- take_off mode natom cell (match st_sub2 s with Some f => Some f | None => st_sub s end) (Some (c_forces c));
  Done (Calc (match fs with Some l => l | None => [] end) (c_energies c) (c_points c)).

(** create_force_sets.py: _set_forces_and_nac_params 453-515, type-1 loops. The count runs over the included
    pairs only. *)
Definition energy_at (c : calc) (i : nat) (old : option Q) : out (option Q) :=
  match c_energies c with None => Done old | Some l => do e <- from_opt (nth_error l i) EIndex; Done (Some e) end.
Fixpoint put_secs (c : calc) (count : nat) (ss : list sec) : out (list sec * nat) :=
  match ss with
  | [] => Done ([], count)
  | x :: t =>
      if included x then
        do f <- from_opt (nth_error (c_forces c) count) EIndex;
        do e <- energy_at c count (s_energy x);
        do r <- put_secs c (S count) t;
        Done (Sec (s_num x) (s_disp x) (s_dist x) (s_incl x) (s_id x) (Some f) e :: fst r, snd r)
      else do r <- put_secs c count t; Done (x :: fst r, snd r)
  end.
Fixpoint put_firsts (c : calc) (i count : nat) (fs : list fir) : out (list fir) :=
  match fs with
  | [] => Done []
  | x :: t =>
      do f <- from_opt (nth_error (c_forces c) i) EIndex;
      do e <- energy_at c i (f_energy x);
      do r <- put_secs c count (f_second x);
      do rest <- put_firsts c (S i) (snd r) t;
      Done (Fir (f_num x) (f_disp x) (f_id x) (Some f) e (fst r) :: rest)
  end.
Definition put_type2 (c : calc) (disps : option (list conf)) : out dataset :=
  do e <- from_opt (c_energies c) EKey;
  do x <- from_opt disps EKey;
  Done (Type2 (Some (if Nat.eqb (List.length (c_forces c)) (List.length x) then x else firstn (List.length (c_forces c)) x)) (Some (c_forces c)) (Some e)).
Definition put_fc3 (c : calc) (d : dataset) : out dataset :=
  match d with
  | Type1 n fs => do fs' <- put_firsts c 0 (List.length fs) fs; Done (Type1 n fs')
  | Type2 x _ _ => put_type2 c x
  end.
Fixpoint put_singles (c : calc) (i : nat) (fs : list fir) : out (list fir) :=
  match fs with
  | [] => Done []
  | x :: t =>
      do f <- from_opt (nth_error (c_forces c) i) EIndex;
      do e <- energy_at c i (f_energy x);
      do rest <- put_singles c (S i) t;
      Done (Fir (f_num x) (f_disp x) (f_id x) (Some f) e (f_second x) :: rest)
  end.
Definition put_fc2 (c : calc) (d : dataset) : out dataset :=
  match d with
  | Type1 n fs => do fs' <- put_singles c 0 fs; Done (Type1 n fs')
  | Type2 x _ _ => put_type2 c x
  end.
Definition set_forces_and_nac (y : yaml C N) (s : settings) (c3 : calc) (c2 : option calc) : out (yaml C N) :=
  do d <- from_opt (y_data y) EType;
  do d' <- put_fc3 c3 d;
  do p' <- match st_cf2 s, c2 with
           | _ :: _, Some c => do p <- from_opt (y_pdata y) EType; do r <- put_fc2 c p; Done (Some r)
           | _, _ => Done (y_pdata y)
           end;
  Done (Yaml (y_calc y) (Some d') (y_cell y) p' (y_pcell y) (match y_nac y with Some n => Some n | None => get_nac end)).

(** Files made: the params file with the contents of Phono3pyYaml; FORCES_FC3 or FORCES_FC2 of a type-1 dataset
    as lines; of a type-2 dataset the displacements and forces given to phonopy's write_FORCE_SETS; a file opened
    for writing and left incomplete by an exception. *)
Inductive which := FC3 | FC2.
Inductive written := WParams (y : yaml C N) | WLines (w : which) (l : list line) | WSets (w : which) (disps : option (list conf)) (forces : list conf) | WBroken (w : which).
Variable rv : vec -> vec.
(** file_IO.py: write_FORCES_FC3 228-252, write_FORCES_FC2 191-225 (a file is opened before anything can fail; in
    the type-2 branch the name FORCES_FC2 or FORCES_FC3 is fixed, here it is the one asked for anyway). *)
Definition write_set (w : which) (d : dataset) (forces : list conf) : written * option exc :=
  match d with
  | Type1 natom fs =>
      match (match w with FC3 => write_FORCES_FC3 rv (Z.to_nat natom) fs (Some forces) | FC2 => write_FORCES_FC2 rv (Some forces) 0 fs end) with
      | Some l => (WLines w l, None)
      | None => (WBroken w, Some EIndex)
      end
  | Type2 x (Some old) _ => (WSets w x old, None)
  | Type2 x None _ => (WSets w x forces, None)
  end.
(** create_force_sets.py: create_FORCES_FC3_and_FORCES_FC2 69-182 after the yaml file has been read. The result
    is the files made and the exception that ended the call, if any. A dataset that is None has already raised
    TypeError in the collection. *)
Definition wants_fc3 (s : settings) : bool := match st_cf3 s, st_cf3_file s with [], None => false | _, _ => true end.
Definition nonempty {X} (l : list X) : bool := match l with [] => false | _ :: _ => true end.
Definition collected (s : settings) (y : yaml C N) : out (option calc * option calc) :=
  let mode := match y_calc y with Some c => Some c | None => st_calc s end in
  do c3 <- (if wants_fc3 s then do c <- collect_fc3 s (y_data y) (y_cell y) mode; do _ <- guard (nonempty (c_forces c)) EExit; Done (Some c) else Done None);
  do c2 <- (if nonempty (st_cf2 s) then do c <- collect_fc2 s (y_pdata y) (y_pcell y) mode; do _ <- guard (nonempty (c_forces c)) EExit; Done (Some c) else Done None);
  Done (c3, c2).
Definition write_opt (w : which) (d : option dataset) (c : option calc) : list written * option exc :=
  match d, c with
  | Some d, Some c => let '(f, e) := write_set w d (c_forces c) in ([f], e)
  | _, _ => ([], None)
  end.
Definition create_forces (s : settings) (y : yaml C N) : list written * option exc :=
  match collected s y with
  | Raises e => ([], Some e)
  | Done (c3, c2) =>
      if st_save s then
        match c3 with
        | None => ([], Some EExit)
        | Some c => match set_forces_and_nac y s c c2 with Done y' => ([WParams y'], None) | Raises e => ([], Some e) end
        end
      else
        match write_opt FC3 (y_data y) c3 with
        | (l, Some e) => (l, Some e)
        | (l, None) => let '(l2, e) := write_opt FC2 (y_pdata y) c2 in (l ++ l2, e)
        end
  end.
End Collect.

(** create_force_sets.py: create_FORCE_SETS_from_FORCES_FCx 202-259, files with three numbers per line. phonon_smat
    is --dim-fc2; the matrices of the yaml file are smat and psmat (None: absent). The result is the type-1
    dataset given to write_FORCE_SETS. *)
Definition force_sets_from {M} (same : M -> M -> bool) (phonon_smat smat psmat : option M) (data pdata : Z * list fir) (lines3 lines2 : list line) : out (Z * list fir) :=
  let '(d, m, lines) := match phonon_smat with None => (data, smat, lines3) | Some _ => (pdata, psmat, lines2) end in
  match m, phonon_smat with
  | None, _ => Raises EExit
  | Some a, Some b => if same b a then Done (fst d, parse_FORCES_FC2 None lines (fst d) (snd d)) else Raises EExit
  | Some a, None => Done (fst d, parse_FORCES_FC2 None lines (fst d) (snd d))
  end.
