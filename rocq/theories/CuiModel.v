(** The phono3py command: run mode, order of the stages and their exits, the
    default values of a run, and the stage that solves, writes and reads
    phonons.

    Sources: phono3py/cui/phono3py_script.py, phono3py/cui/create_supercells.py,
    phono3py/cui/create_force_constants.py, phono3py/phonon3/interaction.py. *)
From Coq Require Import List Bool ZArith QArith Qround.
From Verif Require Import QMat.
Import ListNotations.

(** ** Run mode and stages *)

(** What main looks at: attributes of the settings and of args.  A value that
    is only tested for None is a boolean (true: not None).
    [r_rd_fc2]: None, or whether random_displacements_fc2 is truthy (not 0).
    [r_phonon_cell]: cell_info["phonon_supercell_matrix"] is not None (option,
    tag or phono3py.yaml); [r_phonon_dim]: that of settings (option or tag).
    [r_isotope_known]: all elements are in the isotope database of phonopy.
    [r_paths]: band_paths or qpoints are given. *)
Record request := Request {
  r_load : bool;                 (* phono3py-load *)
  r_fs2f2 : bool;
  r_cfs : bool;
  r_wgp : bool;
  r_stp : bool;
  r_create_forces : bool;        (* --cf3, --cf3-file or --cf2 *)
  r_gruneisen : bool;
  r_jdos : bool;
  r_isotope : bool;
  r_ise : bool;
  r_rse : bool;
  r_spf : bool;
  r_bterta : bool;
  r_lbte : bool;
  r_disp : bool;
  r_rd : bool;
  r_rd_fc2 : option bool;
  r_phonon_cell : bool;
  r_phonon_dim : bool;
  r_pypolymlp : bool;
  r_write_phonon : bool;
  r_symfc_memory : bool;
  r_mesh : bool;
  r_paths : bool;
  r_gp : bool;
  r_ga : bool;
  r_mass_variances : bool;
  r_isotope_known : bool;
  r_read_gamma : bool;
  r_read_pp : bool;
  r_const_ave_pp : bool
}.

Inductive mode :=
| MGridInfo | MTripletsInfo | MGruneisen | MJdos | MIsotope | MIse | MRse | MSpf
| MRta | MLbte | MDisp | MPhonon.

(** phono3py_script.py 186-211 (get_run_mode). *)
Definition get_run_mode (r : request) : option mode :=
  if r_gruneisen r then Some MGruneisen
  else if r_jdos r then Some MJdos
  else if (r_isotope r && negb (r_bterta r || r_lbte r))%bool then Some MIsotope
  else if r_ise r then Some MIse
  else if r_rse r then Some MRse
  else if r_spf r then Some MSpf
  else if r_bterta r then Some MRta
  else if r_lbte r then Some MLbte
  else if ((r_disp r || r_rd r) && negb (r_pypolymlp r))%bool then Some MDisp
  else if r_write_phonon r then Some MPhonon
  else None.

(** phono3py_script.py 949-954, 986-987. *)
Definition run_mode (r : request) : option mode :=
  if r_wgp r then Some MGridInfo
  else if r_stp r then Some MTripletsInfo
  else get_run_mode r.

(** A calculation of phonon properties that a run can perform. *)
Inductive calc :=
| Gruneisen | JointDos | IsotopeLifetime | ImagSelfEnergy | RealSelfEnergy
| SpectralFunction | Conductivity (lbte : bool).

Inductive stage :=
| ForcesFC2Written | ForceSetsWritten | ForcesWritten
| SupercellFiles | Fc2SupercellFiles | DispYaml
| MemoryShown | GridInfo | TripletsInfo | MlpTrained | ForceConstants
| PhononsReady | PhononsWritten | Calc (c : calc) | Summary.

Inductive crash := TypeError | AttributeError.
Inductive outcome := Finished | Refused | Crashed (e : crash).

(** create_force_constants.py 123-131: the fc3 block of the phono3py command
    is passed over.  In phono3py-load fc3 is always made or read. *)
Definition fc3_passed (r : request) : bool :=
  (negb (r_load r) &&
   (r_jdos r
    || (r_isotope r && negb (r_bterta r || r_lbte r))
    || r_read_gamma r
    || r_read_pp r
    || (negb (r_bterta r) && r_write_phonon r)
    || r_const_ave_pp r))%bool.

(** create_supercells.py 49-178 and phono3py_script.py 549-588: the files of
    displaced supercells, those for fc2, then phono3py_disp.yaml.  If the object
    has a phonon supercell matrix, displacements for fc2 always exist:
    generate_displacements makes them if nothing else does (api_phono3py.py
    1355-1358).  Also for --rd-fc2 without phonon supercell matrix the phonon
    supercell is the supercell and no files for fc2 are written. *)
Definition create_supercells (r : request) : list stage * outcome :=
  if r_phonon_cell r then ([SupercellFiles; Fc2SupercellFiles; DispYaml], Finished)
  else ([SupercellFiles; DispYaml], Finished).

(** phono3py_script.py 1073-1084. *)
Definition mode_with_mesh (m : mode) : bool :=
  match m with
  | MRta | MLbte | MIse | MRse | MJdos | MIsotope | MGridInfo | MTripletsInfo
    => true
  | _ => false
  end.

(** phono3py_script.py 1083, 1092-1096. *)
Definition mode_with_gp (m : mode) : bool :=
  match m with MIse | MRse | MJdos | MIsotope => true | _ => false end.

Definition in_mode (f : mode -> bool) (m : option mode) : bool :=
  match m with Some m => f m | None => false end.

(** Stages collected before the rest of the program. *)
Definition after (s : list stage) (x : list stage * outcome)
  : list stage * outcome := (s ++ fst x, snd x).

(** phono3py_script.py 692-741: an option for the q-points is needed, then
    len(fc2) != len(fc3) is evaluated. *)
Definition run_gruneisen (r : request) : list stage * outcome :=
  if (negb (r_mesh r) && negb (r_paths r))%bool then ([], Refused)
  else if fc3_passed r then ([], Crashed TypeError)
  else ([Calc Gruneisen], Finished).

(** phono3py_script.py 822-909 as a stage of main: mesh_numbers = None is
    float(None) (phono3py/phonon/grid.py 668-670). *)
Definition init_phph (r : request) : list stage * option crash :=
  if r_mesh r
  then ((PhononsReady :: if r_write_phonon r then [PhononsWritten] else []), None)
  else ([], Some TypeError).

(** phono3py_script.py 1297-1383.  Without grid points the spectral function
    is len(None) (spectral_function.py 292-300); without fc3 the interaction
    strength is an AttributeError (interaction.py 121-122, 962), unless it is
    not calculated: constant average, or for the conductivity read gamma or
    read pp. *)
Definition ph_ph (r : request) (m : option mode) : list stage * outcome :=
  let no_fc3 := (fc3_passed r && negb (r_const_ave_pp r))%bool in
  match m with
  | Some MIse =>
    if no_fc3 then ([], Crashed AttributeError)
    else ([Calc ImagSelfEnergy; Summary], Finished)
  | Some MRse =>
    if no_fc3 then ([], Crashed AttributeError)
    else ([Calc RealSelfEnergy; Summary], Finished)
  | Some MSpf =>
    if negb (r_gp r || r_ga r) then ([], Crashed TypeError)
    else if no_fc3 then ([], Crashed AttributeError)
    else ([Calc SpectralFunction; Summary], Finished)
  | Some MRta | Some MLbte =>
    if (no_fc3 && negb (r_read_gamma r || r_read_pp r))%bool
    then ([], Crashed AttributeError)
    else ([Calc (Conductivity (r_lbte r)); Summary], Finished)
  | _ => ([Summary], Finished)
  end.

(** phono3py_script.py 1214-1383: from the force constants on. *)
Definition main_fc (r : request) : list stage * outcome :=
  after [ForceConstants]
    (if r_gruneisen r then run_gruneisen r
     else
       let m := run_mode r in
       match m with
       | Some MJdos => ([Calc JointDos], Finished)
       | _ =>
         if (r_isotope r && negb (r_mass_variances r)
             && negb (r_isotope_known r))%bool
         then ([], Finished)
         else
           match m with
           | Some MIsotope => ([Calc IsotopeLifetime], Finished)
           | None => ph_ph r m
           | Some _ =>
             match init_phph r with
             | (s, Some e) => (s, Crashed e)
             | (s, None) => after s (ph_ph r m)
             end
           end
       end).

(** phono3py_script.py 912-1383 (main).  Reading of files, NAC parameters,
    logs and the checks of the cells are left out; reads of crystal structure,
    datasets and force constants are supposed to succeed. *)
Definition main (r : request) : list stage * outcome :=
  if r_fs2f2 r then ([ForcesFC2Written], Finished)
  else if r_cfs r then ([ForceSetsWritten], Finished)
  else if r_create_forces r then ([ForcesWritten], Finished)
  else if (negb (r_pypolymlp r) &&
           (r_disp r || r_rd r
            || match r_rd_fc2 r with Some _ => true | None => false end))%bool
  then create_supercells r
  else if (r_symfc_memory r && r_load r)%bool then ([MemoryShown], Finished)
  else if (negb (r_mesh r) && in_mode mode_with_mesh (run_mode r))%bool
  then ([], Refused)
  else if (in_mode mode_with_gp (run_mode r)
           && negb (r_gp r) && negb (r_ga r))%bool
  then ([], Refused)
  else
    match run_mode r with
    | Some MGridInfo => ([GridInfo], Finished)
    | Some MTripletsInfo => ([TripletsInfo], Finished)
    | _ =>
      if (r_load r && r_pypolymlp r)%bool then
        after [MlpTrained]
          (if (r_disp r || r_rd r)%bool then main_fc r
           else ([Summary], Finished))
      else main_fc r
    end.

(** phono3py_script.py 519-527 (settings_to_grid_points); [conv] is
    grid_addresses_to_grid_points (530-535). *)
Definition settings_to_grid_points {A} (conv : A -> list Z)
  (grid_addresses : option A) (grid_points : option (list Z))
  : option (list Z) :=
  match grid_addresses with
  | Some ga => Some (conv ga)
  | None => grid_points
  end.

(** ** Default values *)

Inductive sigma_setting := SigmaNone | SigmaFloat (q : Q) | SigmaList (l : list Q).

(** phono3py_script.py 366-377; None is the tetrahedron method. *)
Definition default_sigmas (sigma : sigma_setting) (tetrahedron : bool)
  : list (option Q) :=
  let s := match sigma with
           | SigmaNone => []
           | SigmaFloat q => [Some q]
           | SigmaList l => map Some l
           end in
  let s := if tetrahedron then None :: s else s in
  match s with [] => [None] | _ => s end.

(** numpy.arange(start, stop, step): ceil((stop - start)/step) values, none if
    that is not positive.  Exact arithmetic. *)
Definition arange (start stop step : Q) : list Q :=
  map (fun i => start + inject_Z (Z.of_nat i) * step)
      (seq 0 (Z.to_nat (Qceiling ((stop - start) / step)))).

(** phono3py_script.py 378-390: (temperature_points, temperatures), i.e. those
    of the spectra and those of the other calculations.  None for joint-DOS. *)
Definition default_temperatures (given : option (list Q)) (jdos : bool)
  (tmin tmax tstep : Q) : option (list Q * list Q) :=
  match given with
  | Some l => Some (l, l)
  | None => if jdos then None
            else Some ([0; 300], arange tmin (tmax + tstep / 10) tstep)
  end.

(** phono3py_script.py 397-406: (num_frequency_points, frequency_step). *)
Definition default_sampling (num : option Z) (pitch : option Q)
  : option Z * option Q :=
  match num with
  | Some n => (Some n, None)
  | None => match pitch with
            | None => (Some 201%Z, None)
            | Some p => (None, Some p)
            end
  end.

(** phono3py_script.py 408-411. *)
Definition default_batch (n : option Z) : Z :=
  match n with Some n => n | None => 10%Z end.

(** phono3py_script.py 418-421. *)
Definition default_cutoff (c : option Q) : Q :=
  match c with Some c => c | None => 1 # 100 end.

(** Cutoff frequency that reaches the isotope calculation of the command:
    settings.cutoff_frequency itself is passed (phono3py_script.py 799), and
    None becomes 0 in phono3py/other/isotope.py 121-124. *)
Definition isotope_cutoff (c : option Q) : Q :=
  match c with Some c => c | None => 0 end.

(** Cutoff frequency of the joint-DOS and ph-ph calculations
    (phono3py_script.py 756, 500). *)
Definition other_cutoff (c : option Q) : Q := default_cutoff c.

(** ** Phonons on the grid *)

Section Phonons.

(** Frequencies and eigenvectors at a grid point (A), the zeros of a fresh
    array, the solver of the dynamical matrix, and the function that puts the
    first three frequencies to zero (api_phono3py.py 2547-2558). *)
Variable A : Type.
Variable zeros : A.
Variable solve : nat -> A.
Variable acoustic_zero : A -> A.

(** Arrays over the grid points with the flags phonon_done. *)
Record phonons := Phonons { values : list A; done : list bool }.

Fixpoint set_nth {B} (l : list B) (i : nat) (x : B) : list B :=
  match l, i with
  | [], _ => []
  | _ :: r, O => x :: r
  | y :: r, S i => y :: set_nth r i x
  end.

(** interaction.py 711-721, run_phonon_solver_c of phono3py/phonon/solver.py
    42-183: at the grid points that are not done. *)
Definition solve_at (p : phonons) (i : nat) : phonons :=
  if nth i (done p) true then p
  else Phonons (set_nth (values p) i (solve i)) (set_nth (done p) i true).

(** interaction.py 1028-1047 (_allocate_phonon): zeros, the Gamma point is
    solved, its flag is put back to 0. *)
Definition allocate (n gamma : nat) : phonons :=
  let p := Phonons (repeat zeros n) (repeat false n) in
  let p := solve_at p gamma in
  Phonons (values p) (set_nth (done p) gamma false).

(** api_phono3py.py 2532-2558 (_init_dynamical_matrix). *)
Definition init_dm (n gamma : nat) : phonons :=
  let p := allocate n gamma in
  Phonons (set_nth (values p) gamma (acoustic_zero (nth gamma (values p) zeros)))
          (done p).

Definition solve_all (n : nat) (p : phonons) : phonons :=
  fold_left solve_at (seq 0 n) p.

(** phono3py_script.py 860-909, with the phonon file: [file] is its content
    before, None if it does not exist; the result is the phonons (None: exit
    with an error) and the file after.  The names of the file to be read and
    to be written are equal, as with phono3py-load and without -i, -o
    (phono3py_script.py 925-928).  The comparison of the grid addresses is
    left out (see C56). *)
Definition phonon_stage (n gamma : nat) (read write : bool)
  (file : option (list A)) : option (list A) * option (list A) :=
  let p := init_dm n gamma in
  let p := if read then p else solve_all n p in
  let file := if write then Some (values p) else file in
  if read then
    match file with
    | None => (None, file)
    | Some v => (Some v, file)
    end
  else (Some (values p), file).

End Phonons.
Arguments Phonons {A}.
Arguments values {A}.
Arguments done {A}.
