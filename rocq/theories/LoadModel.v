(** Where the force constants and the displacement datasets come from: phono3py/cui/load.py (the function load),
    cui/create_force_constants.py and _store_force_constants of cui/phono3py_script.py.
    Force constants are elements of a type [F] with the length of their second axis and whether they are compact; the solvers are
    functions of the dataset. phonopy's part is given by arguments: physical units of the calculators, check_force_constants_indices,
    numbers of atoms and maps of the cells, reading of type-2 files. NAC parameters, MLPs and logging are left out. *)
From Coq Require Import String.
From Coq Require Import ZArith QArith List Bool.
From Verif Require Import Base DsModel ForcesModel.
Import ListNotations.
Open Scope Z_scope.

Inductive err := RuntimeError | TypeError | KeyError | IndexError | UnboundLocalError | FileNotFound | SystemExit.
Inductive res (A : Type) := Ok (a : A) | Err (e : err).
Arguments Ok {A}. Arguments Err {A}.
Definition andthen {A B} (r : res A) (f : A -> res B) : res B := match r with Ok a => f a | Err e => Err e end.
Notation "x <- e ;; f" := (andthen e (fun x => f)) (at level 61, e at next level, right associativity).

(** a dataset dictionary and its key cutoff_distance *)
Record dset := DSet { d_set : dataset; d_cut : option Q }.
(** an argument naming a force file: a path or a sequence of two paths *)
Inductive path := Path (name : string) | Paths (forces disp : string).
(** a text file with forces: lines of six numbers (as get_dataset_type2 of phonopy reads them), lines of three, or no data *)
Inductive ffile := FType2 (disps forces : list conf) | FType1 (lines : list line) | FNothing.
(** Phono3pyYaml: calculator, dataset, phonon_dataset, whether phonon_supercell and phonon_supercell_matrix are not None *)
Record yaml := Yaml { y_calc : option Z; y_data : option dset; y_phonon_data : option dset; y_phonon_cell : bool; y_phonon_smat : bool }.

(** phonon3/dataset.py 118-124 (forces_in_dataset) *)
Definition forces_in (d : option dset) : res bool :=
  match option_map d_set d with
  | None => Ok false
  | Some (Type2 _ forces _) => Ok (match forces with Some _ => true | None => false end)
  | Some (Type1 _ []) => Err IndexError
  | Some (Type1 _ (f :: _)) => Ok (match f_forces f with Some _ => true | None => false end)
  end.

Section Parse.
(** physical units: distance_to_A, force_to_eVperA *)
Variable units : Z -> option Q * option Q.
Variable disk : string -> option ffile.
Definition times (u : option Q) (v : vec) : vec := match u with None => v | Some c => vscale c v end.
(** create_force_constants.py 730-762 (_convert_unit_in_dataset) *)
Definition convert_sec (du fu : option Q) (s : sec) : sec :=
  Sec (s_num s) (times du (s_disp s)) (s_dist s) (s_incl s) (s_id s) (option_map (map (times fu)) (s_forces s)) (s_energy s).
Definition convert_fir (du fu : option Q) (f : fir) : fir :=
  Fir (f_num f) (times du (f_disp f)) (f_id f) (option_map (map (times fu)) (f_forces f)) (f_energy f) (map (convert_sec du fu) (f_second f)).
Definition convert_unit (du fu : option Q) (d : dataset) : dataset :=
  match d with
  | Type1 n fs => Type1 n (map (convert_fir du fu) fs)
  | Type2 disps forces e => Type2 (option_map (map (map (times du))) disps) (option_map (map (map (times fu))) forces) e
  end.
(** create_force_constants.py 772-782 (_extract_dataset_from_ph3py_yaml) *)
Definition extract_dataset (y : yaml) (fc3 : bool) : option dset := if negb (y_phonon_cell y) || fc3 then y_data y else y_phonon_data y.
(** create_force_constants.py 437-471 (_read_FORCES_FC3_or_FC2): a sequence given to pathlib.Path and a type-1 file without dataset
    raise TypeError; a type-2 dictionary has no key natom *)
Definition read_forces (d : option dset) (fc3 : bool) (file : path) : res (option dset) :=
  match file with
  | Paths _ _ => Err TypeError
  | Path name =>
      match disk name with
      | None => Ok None
      | Some FNothing => Err RuntimeError
      | Some (FType2 disps forces) => Ok (Some (DSet (Type2 (Some disps) (Some forces) None) None))
      | Some (FType1 lines) =>
          match d with
          | None => Err TypeError
          | Some (DSet (Type2 _ _ _) _) => Err KeyError
          | Some (DSet (Type1 n fs) c) =>
              if fc3 then match parse_FORCES_FC3 None lines n fs with None => Err RuntimeError | Some fs' => Ok (Some (DSet (Type1 n fs') c)) end
              else Ok (Some (DSet (Type1 n (parse_FORCES_FC2 None lines n fs)) c))
          end
      end
  end.
(** create_force_constants.py 223-307 (parse_forces); [natom] the atoms of the supercell in question, [file] None: no file is read *)
Definition parse_forces (y : option yaml) (natom : Z) (cutoff : option Q) (file : option path) (fc3 : bool) (calc : option Z) : res dset :=
  let d := match y with None => None | Some y => extract_dataset y fc3 end in
  d <- match file with
       | None => Ok d
       | Some f => has <- forces_in d;; if has then Ok d else read_forces d fc3 f
       end;;
  d <- match calc with
       | None => Ok d
       | Some c => match d with None => Err TypeError | Some d => Ok (Some (DSet (convert_unit (fst (units c)) (snd (units c)) (d_set d)) (d_cut d))) end
       end;;
  match d with
  | None => Err RuntimeError
  | Some d =>
      if match d_set d with Type1 n _ => negb (n =? natom) | Type2 _ _ _ => false end then Err RuntimeError
      else match cutoff with
           | Some c => if fc3 && negb (Qeq_bool c 0) then
                         match d_cut d with
                         | None => Ok (DSet (d_set d) (Some c))
                         | Some c' => Ok (DSet (d_set d) (Some (if Qle_bool c' c then c' else c)))
                         end
                       else Ok d
           | None => Ok d
           end
  end.
End Parse.

Section Fc.
Variable F : Type.
Variable cols : F -> Z.
Variable compact : F -> bool.
(** FC solvers on a dataset: fc3 with the fc2 that comes with it, and fc2 *)
Variable solve3 : dset -> F * F.
Variable solve2 : dset -> F.
Variable cut : Q -> F -> F.
(** check_force_constants_indices(shape, p2s_map_in_file, p2s_map): true when it does not raise *)
Variable indices_ok : bool -> list Z -> list Z -> bool.
(** numbers of atoms of supercell and phonon_supercell, p2s_map of primitive and phonon_primitive *)
Variable natom natom2 : Z.
Variable p2s p2s2 : list Z.
Variable units : Z -> option Q * option Q.

Record ph3 := Ph3 { p_fc3 : option F; p_fc2 : option F; p_data : option dset; p_data2 : option dset; p_smat2 : bool }.
(** an fc file: the array and, if stored, p2s_map *)
Definition fcfile := (F * option (list Z))%type.
Record files := Files { fl_fc3 : string -> option fcfile; fl_fc2 : string -> option fcfile; fl_forces : string -> option ffile }.

(** file_IO.py 330-358, 403-408 (read_fc3_from_hdf5, read_fc2_from_hdf5) and load.py 494-508, 565-577 (_load_fc3, _load_fc2), 672-690 (_check_fc_shape). [natom]: atoms of the unit cell times the determinant of the supercell matrix. The check of the data type is left out *)
Definition load_fc (disk : string -> option fcfile) (p2s : list Z) (natom : Z) (name : string) : res F :=
  match disk name with
  | None => Err FileNotFound
  | Some (fc, m) =>
      if match m with None => false | Some m => negb (indices_ok (compact fc) m p2s) end then Err RuntimeError
      else if negb (natom =? cols fc) then Err RuntimeError else Ok fc
  end.
Definition exists_file {X} (disk : string -> option X) (name : string) : bool := match disk name with Some _ => true | None => false end.
(** load.py 387-400 (load_fc2_and_fc3) *)
Definition load_fc2_and_fc3 (fl : files) (name3 name2 : option string) (p : ph3) : res ph3 :=
  p <- (if (match name3 with Some _ => true | None => false end) || exists_file (fl_fc3 fl) "fc3.hdf5"
        then fc <- load_fc (fl_fc3 fl) p2s natom (match name3 with Some n => n | None => "fc3.hdf5"%string end);; Ok (Ph3 (Some fc) (p_fc2 p) (p_data p) (p_data2 p) (p_smat2 p))
        else Ok p);;
  if (match name2 with Some _ => true | None => false end) || exists_file (fl_fc2 fl) "fc2.hdf5"
  then fc <- load_fc (fl_fc2 fl) p2s2 (if p_smat2 p then natom2 else natom) (match name2 with Some n => n | None => "fc2.hdf5"%string end);; Ok (Ph3 (p_fc3 p) (Some fc) (p_data p) (p_data2 p) (p_smat2 p))
  else Ok p.
(** the setters of dataset and phonon_dataset, api_phono3py.py 625-641, 670-686: type-2 dictionaries are rebuilt from displacements,
    forces and energies *)
Definition stored (d : dset) : res dset :=
  match d_set d with Type1 _ _ => Ok d | Type2 None _ _ => Err RuntimeError | Type2 (Some _) _ _ => Ok (DSet (d_set d) None) end.
(** load.py 511-562 (_select_and_load_dataset) *)
Definition select_dataset (fl : files) (y : option yaml) (given : option path) (cutoff : option Q) (calc : option Z) : res (option dset) :=
  let parse f := d <- parse_forces units (fl_forces fl) y natom cutoff f true calc;; Ok (Some d) in
  has <- forces_in (match y with Some y => y_data y | None => None end);;
  if has then parse None
  else if (match given with Some _ => true | None => false end) || exists_file (fl_forces fl) "FORCES_FC3"
       then parse (Some (match given with Some f => f | None => Path "FORCES_FC3" end))
       else match y with Some (Yaml _ (Some _) _ _ _) => parse None | _ => Ok None end.
(** load.py 580-628 (_select_and_load_phonon_dataset) *)
Definition select_phonon_dataset (fl : files) (p : ph3) (y : option yaml) (given : option path) (calc : option Z) : res (option dset) :=
  let parse f := d <- parse_forces units (fl_forces fl) y (if p_smat2 p then natom2 else natom) None f false calc;; Ok (Some d) in
  has <- forces_in (match y with Some y => y_phonon_data y | None => None end);;
  if has then parse None
  else if ((match given with Some _ => true | None => false end) || exists_file (fl_forces fl) "FORCES_FC2") && p_smat2 p
       then parse (Some (match given with Some f => f | None => Path "FORCES_FC2" end))
       else match y with Some (Yaml _ _ (Some _) _ _) => parse None | _ => Ok None end.
(** load.py 403-434 (load_dataset_and_phonon_dataset) *)
Definition load_datasets (fl : files) (y : option yaml) (given3 given2 : option path) (cutoff : option Q) (calc : option Z) (p : ph3) : res ph3 :=
  d <- select_dataset fl y given3 cutoff calc;;
  p <- match d with None => Ok p | Some d => d <- stored d;; Ok (Ph3 (p_fc3 p) (p_fc2 p) (Some d) (p_data2 p) (p_smat2 p)) end;;
  d <- select_phonon_dataset fl p y given2 calc;;
  match d with None => Ok p | Some d => d <- stored d;; Ok (Ph3 (p_fc3 p) (p_fc2 p) (p_data p) (Some d) (p_smat2 p)) end.
(** api_phono3py.py 1459-1526 (produce_fc3), calculator and options without "|" as every caller modelled here passes them; the symmetrization is part of [solve3]. The second component is the fc2 of the solver *)
Definition produce_fc3 (p : ph3) : res ph3 :=
  match p_data p with
  | None => Err TypeError
  | Some d => let '(f3, f2) := solve3 d in
      Ok (Ph3 (Some f3) (match p_fc2 p with Some f => Some f | None => if p_smat2 p then None else Some f2 end) (p_data p) (p_data2 p) (p_smat2 p))
  end.
(** api_phono3py.py 1528-1588 (produce_fc2); the symmetrization is part of [solve2] *)
Definition produce_fc2 (p : ph3) : res ph3 :=
  let d := match p_data2 p with Some d => Some d | None => p_data p end in
  has <- forces_in d;;
  match d with
  | Some d => if has then Ok (Ph3 (p_fc3 p) (Some (solve2 d)) (p_data p) (p_data2 p) (p_smat2 p)) else Err RuntimeError
  | None => Err RuntimeError
  end.
(** load.py 437-491 (compute_force_constants_from_datasets) *)
Definition compute_fc (p : ph3) : res ph3 :=
  let exist_fc2 := match p_fc2 p with Some _ => true | None => false end in
  p <- match p_fc3 p with
       | Some _ => Ok p
       | None => has <- forces_in (p_data p);; if has then produce_fc3 p else Ok p
       end;;
  if exist_fc2 then Ok p
  else has <- (if p_smat2 p then forces_in (p_data2 p) else forces_in (p_data p));; if has then produce_fc2 p else Ok p.

(** load.py 66-384 (load): arguments that decide on the sources. [a_cell]: one of unitcell, unitcell_filename, supercell, supercell_filename is
    given; [a_unit]: unitcell or unitcell_filename is; [a_yaml]: phono3py_yaml *)
Record args := Args { a_cell : bool; a_unit : bool; a_smat2 : bool; a_yaml : option yaml; a_calc : option Z;
                      a_fc3 : option string; a_fc2 : option string; a_forces3 : option path; a_forces2 : option path; a_produce : bool }.
Definition load (fl : files) (a : args) : res ph3 :=
  s <- (if a_cell a then
          (if a_smat2 a && negb (a_unit a) then Err RuntimeError else Ok (a_calc a, a_smat2 a, None))
        else match a_yaml a with
             | Some y => Ok (y_calc y, y_phonon_smat y, Some y)
             | None => Err UnboundLocalError
             end);;
  let '(calc, smat2, y) := s in
  p <- load_fc2_and_fc3 fl (a_fc3 a) (a_fc2 a) (Ph3 None None None None smat2);;
  p <- load_datasets fl y (a_forces3 a) (a_forces2 a) None calc p;;
  if a_produce a then compute_fc p else Ok p.

(** phono3py_script.py 591-676 (_store_force_constants): read_fc3 and read_fc2 are computed before the files are read. [cutoff] is
    settings.cutoff_fc3_distance. The second attempt with symfc after ForceCalculatorRequiredError is left out. Writing replaces the files of the default names *)
Definition put {X} (disk : string -> option X) (name : string) (x : X) : string -> option X := fun n => if String.eqb n name then Some x else disk n.
Definition store_force_constants (fl : files) (cutoff : option Q) (p : ph3) : res (ph3 * files) :=
  let read_fc3 := match p_fc3 p with Some _ => true | None => false end in
  let read_fc2 := match p_fc2 p with Some _ => true | None => false end in
  p <- load_fc2_and_fc3 fl None None p;;
  p <- compute_fc p;;
  match p_fc3 p, p_fc2 p with
  | Some f3, Some f2 =>
      let f3 := match cutoff with Some c => if negb (Qle_bool c 0) then cut c f3 else f3 | None => f3 end in
      let p := Ph3 (Some f3) (Some f2) (p_data p) (p_data2 p) (p_smat2 p) in
      Ok (p, Files (if read_fc3 then fl_fc3 fl else put (fl_fc3 fl) "fc3.hdf5" (f3, Some p2s))
                   (if read_fc2 then fl_fc2 fl else put (fl_fc2 fl) "fc2.hdf5" (f2, Some p2s)) (fl_forces fl))
  | _, _ => Err SystemExit
  end.
(** phono3py_script.py 1159-1220 for phono3py-load: a new object, the datasets, the force constants *)
Definition run_load (fl : files) (y : yaml) (cutoff_pair cutoff : option Q) (calc : option Z) : res (ph3 * files) :=
  p <- load_datasets fl (Some y) None None cutoff_pair calc (Ph3 None None None None (y_phonon_smat y));;
  store_force_constants fl cutoff p.

(** settings that decide in create_phono3py_force_constants *)
Record sets := Sets { st_jdos : bool; st_isotope : bool; st_bterta : bool; st_lbte : bool; st_read_gamma : bool; st_read_pp : bool;
                      st_write_phonon : bool; st_const_pp : bool; st_read_fc3 : bool; st_read_fc2 : bool; st_cutoff : option Q; st_cutoff_pair : option Q }.
Definition skip_fc3 (s : sets) : bool :=
  st_jdos s || (st_isotope s && negb (st_bterta s || st_lbte s)) || st_read_gamma s || st_read_pp s || (negb (st_bterta s) && st_write_phonon s) || st_const_pp s.
(** RuntimeError in these readers is reported and ends the run: SystemExit; file_exists exits as well *)
Definition exits {A} (r : res A) : res A := match r with Err RuntimeError | Err FileNotFound => Err SystemExit | _ => r end.
(** create_force_constants.py 96-220 (create_phono3py_force_constants) with the default file names, on a new object; _read_phono3py_fc3
    368-398, _read_phono3py_fc2 401-434 (without the symmetrization of what was read), _read_dataset_fc3 474-517, _read_dataset_fc2
    679-719. The names fc_calculator and fc_calculator_options are bound in the part for fc3 only *)
Definition create_force_constants (fl : files) (s : sets) (y : option yaml) (calc : option Z) (p : ph3) : res (ph3 * files) :=
  r <- (if skip_fc3 s then Ok (p, fl, false)
        else
          p <- (if st_read_fc3 s
                then fc <- exits (load_fc (fl_fc3 fl) p2s natom "fc3.hdf5");; Ok (Ph3 (Some fc) (p_fc2 p) (p_data p) (p_data2 p) (p_smat2 p))
                else d <- exits (parse_forces units (fl_forces fl) y natom (st_cutoff_pair s) (Some (Path "FORCES_FC3")) true calc);;
                     d <- stored d;; produce_fc3 (Ph3 (p_fc3 p) (p_fc2 p) (Some d) (p_data2 p) (p_smat2 p)));;
          let p := match st_cutoff s, p_fc3 p with
                   | Some c, Some f => if negb (Qle_bool c 0) then Ph3 (Some (cut c f)) (p_fc2 p) (p_data p) (p_data2 p) (p_smat2 p) else p
                   | _, _ => p
                   end in
          Ok (p, match p_fc3 p with
                 | Some f => if st_read_fc3 s then fl else Files (put (fl_fc3 fl) "fc3.hdf5" (f, Some p2s)) (fl_fc2 fl) (fl_forces fl)
                 | None => fl
                 end, true));;
  let '(p, fl, bound) := r in
  if st_read_fc2 s
  then fc <- exits (load_fc (fl_fc2 fl) p2s2 (if p_smat2 p then natom2 else natom) "fc2.hdf5");; Ok (Ph3 (p_fc3 p) (Some fc) (p_data p) (p_data2 p) (p_smat2 p), fl)
  else
    p <- (if (match p_data p with None => true | Some _ => false end) || p_smat2 p
          then d <- exits (parse_forces units (fl_forces fl) y (if p_smat2 p then natom2 else natom) None (Some (Path (if p_smat2 p then "FORCES_FC2" else "FORCES_FC3"))) false calc);;
               d <- stored d;; Ok (if p_smat2 p then Ph3 (p_fc3 p) (p_fc2 p) (p_data p) (Some d) (p_smat2 p) else Ph3 (p_fc3 p) (p_fc2 p) (Some d) (p_data2 p) (p_smat2 p))
          else Ok p);;
    if negb bound then Err UnboundLocalError
    else
      p <- produce_fc2 p;;
      Ok (p, Files (fl_fc3 fl) (match p_fc2 p with Some f => put (fl_fc2 fl) "fc2.hdf5" (f, Some p2s2) | None => fl_fc2 fl end) (fl_forces fl)).
End Fc.
