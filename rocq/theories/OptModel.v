(** Command line options and configuration file tags: how a setting of a run
    gets its value.

    Sources: phono3py/cui/phono3py_argparse.py (get_parser) and
    phono3py/cui/settings.py (Phono3pySettings, Phono3pyConfParser). *)
From Coq Require Import String Ascii List Bool ZArith QArith.
Import ListNotations.
Open Scope string_scope.
Open Scope list_scope.

(** Python dictionary with string keys, in insertion order. *)
Definition dict (A : Type) := list (string * A).

Fixpoint dget {A} (d : dict A) (k : string) : option A :=
  match d with
  | [] => None
  | (k', v) :: r => if String.eqb k k' then Some v else dget r k
  end.

Fixpoint dset {A} (d : dict A) (k : string) (v : A) : dict A :=
  match d with
  | [] => [(k, v)]
  | (k', v') :: r =>
    if String.eqb k k' then (k', v) :: r else (k', v') :: dset r k v
  end.

(** str.lower on the ASCII letters. *)
Definition lower_char (c : ascii) : ascii :=
  let n := nat_of_ascii c in
  if (Nat.leb 65 n && Nat.leb n 90)%bool then ascii_of_nat (n + 32) else c.

Fixpoint lower_string (s : string) : string :=
  match s with
  | EmptyString => EmptyString
  | String c r => String (lower_char c) (lower_string r)
  end.

(** ** The command line parser *)

(** Value of an attribute of the argparse namespace: a flag, None, or the
    words that followed the option (one word unless nargs="+"). *)
Inductive arg := Flag (b : bool) | NotGiven | Words (w : list string).

Inductive action := StoreTrue | StoreFalse | Store.

(** Commands in which the option exists: both, phono3py only, phono3py-load
    only ([load_phono3py_yaml] in get_parser). *)
Inductive avail := Both | Plain | Load.

Record option_row := Row {
  row_flags : list string;
  row_dest : string;
  row_action : action;
  row_default : arg;
  row_avail : avail
}.

Definition available (load : bool) (r : option_row) : bool :=
  match row_avail r with Both => true | Plain => negb load | Load => load end.

(** phono3py/cui/phono3py_argparse.py 40-931 (get_parser), the lines of each
    call of add_argument beside it.  Only the options whose destination is
    read by Phono3pyConfParser._read_options, and --pp-unit-conversion; the
    others are read by the parser of phonopy or by phono3py_script.py. *)
Definition parser : list option_row :=
  [
   Row ["--ave-pp"] "use_ave_pp" StoreTrue (Flag false) Both; (* 69-75 *)
   Row ["--boundary-mfp"; "--bmfp"] "boundary_mfp" Store (NotGiven) Both; (* 101-110 *)
   Row ["--br"; "--bterta"] "is_bterta" StoreTrue (Flag false) Both; (* 111-118 *)
   Row ["--cf2"; "--create-f2"] "create_forces_fc2" Store (NotGiven) Both; (* 128-135 *)
   Row ["--cf3"; "--create-f3"] "create_forces_fc3" Store (NotGiven) Both; (* 136-143 *)
   Row ["--cf3-file"; "--create-f3-from-file"] "create_forces_fc3_file" Store (NotGiven) Both; (* 144-151 *)
   Row ["--cfz"; "--subtract-forces"] "subtract_forces" Store (NotGiven) Both; (* 152-159 *)
   Row ["--cfz-fc2"; "--subtract-forces-fc2"] "subtract_forces_fc2" Store (NotGiven) Both; (* 160-167 *)
   Row ["--cfc"; "--compact-fc"] "is_compact_fc" StoreTrue (Flag false) Both; (* 168-175 *)
   Row ["--cph"; "--collective-phonon"] "solve_collective_phonon" StoreTrue (Flag false) Both; (* 184-191 *)
   Row ["--const-ave-pp"] "const_ave_pp" Store (NotGiven) Both; (* 200-206 *)
   Row ["--cutoff-fc3"; "--cutoff-fc3-distance"] "cutoff_fc3_distance" Store (NotGiven) Both; (* 207-218 *)
   Row ["--cutoff-pair"; "--cutoff-pair-distance"] "cutoff_pair_distance" Store (NotGiven) Both; (* 227-238 *)
   Row ["--dim-fc2"] "phonon_supercell_dimension" Store (NotGiven) Plain; (* 255-261 *)
   Row ["--fc2"] "read_fc2" StoreTrue (Flag false) Plain; (* 277-283 *)
   Row ["--fc3"] "read_fc3" StoreTrue (Flag false) Plain; (* 284-290 *)
   Row ["--v2"] "is_fc3_r0_average" StoreFalse (Flag true) Both; (* 291-297 *)
   Row ["--full-pp"] "is_full_pp" StoreTrue (Flag false) Both; (* 350-361 *)
   Row ["--ga"; "--grid-addresses"] "grid_addresses" Store (NotGiven) Both; (* 362-369 *)
   Row ["--gm"; "--grid-matrix"] "grid_matrix" Store (NotGiven) Both; (* 370-377 *)
   Row ["--gp"; "--grid-points"] "grid_points" Store (NotGiven) Both; (* 378-385 *)
   Row ["--grg"; "--generalized-regular-grid"] "use_grg" StoreTrue (Flag false) Both; (* 386-393 *)
   Row ["--gruneisen"] "is_gruneisen" StoreTrue (Flag false) Both; (* 394-400 *)
   Row ["--ion-clamped"] "ion_clamped" StoreTrue (Flag false) Both; (* 424-432 *)
   Row ["--ise"] "is_imag_self_energy" StoreTrue (Flag false) Both; (* 433-439 *)
   Row ["--isotope"] "is_isotope" StoreTrue (Flag false) Both; (* 440-446 *)
   Row ["--jdos"] "is_joint_dos" StoreTrue (Flag false) Both; (* 447-453 *)
   Row ["--kubo"] "is_kubo_kappa" StoreTrue (Flag false) Both; (* 454-460 *)
   Row ["--lbte"] "is_lbte" StoreTrue (Flag false) Both; (* 461-467 *)
   Row ["--mv"; "--mass-variances"] "mass_variances" Store (NotGiven) Both; (* 489-496 *)
   Row ["--noks"; "--no-kappa-stars"] "no_kappa_stars" StoreTrue (Flag false) Both; (* 527-534 *)
   Row ["--nu"] "is_N_U" StoreTrue (Flag false) Both; (* 557-563 *)
   Row ["--num-points-in-batch"] "num_points_in_batch" Store (NotGiven) Both; (* 571-580 *)
   Row ["-o"] "output_yaml_filename" Store (NotGiven) Load; (* 582-587 *)
   Row ["--pinv-cutoff"] "pinv_cutoff" Store (NotGiven) Both; (* 601-607 *)
   Row ["--pinv-solver"] "pinv_solver" Store (NotGiven) Both; (* 608-614 *)
   Row ["--pinv-method"] "pinv_method" Store (NotGiven) Both; (* 615-621 *)
   Row ["--pm-fc2"] "is_plusminus_displacements_fc2" StoreTrue (Flag false) Both; (* 629-635 *)
   Row ["--pp-unit-conversion"] "pp_unit_conversion" Store (NotGiven) Both; (* 636-642 *)
   Row ["--rd-fc2"; "--random-displacements-fc2"] "random_displacements_fc2" Store (NotGiven) Both; (* 686-692 *)
   Row ["--read-collision"] "read_collision" Store (NotGiven) Both; (* 693-698 *)
   Row ["--read-gamma"] "read_gamma" StoreTrue (Flag false) Both; (* 699-705 *)
   Row ["--read-phonon"] "read_phonon" StoreTrue (Flag false) Both; (* 706-712 *)
   Row ["--read-pp"] "read_pp" StoreTrue (Flag false) Both; (* 713-719 *)
   Row ["--reducible-colmat"] "is_reducible_collision_matrix" StoreTrue (Flag false) Both; (* 720-726 *)
   Row ["--rse"] "is_real_self_energy" StoreTrue (Flag false) Both; (* 727-733 *)
   Row ["--scattering-event-class"] "scattering_event_class" Store (NotGiven) Both; (* 742-748 *)
   Row ["--sigma-cutoff"] "sigma_cutoff_width" Store (NotGiven) Both; (* 759-765 *)
   Row ["--symfc-memshow"] "show_symfc_memory_usage" StoreTrue (NotGiven) Load; (* 774-780 *)
   Row ["--spf"] "is_spectral_function" StoreTrue (Flag false) Both; (* 781-787 *)
   Row ["--sym-fc2"] "is_symmetrize_fc2" StoreTrue (Flag false) Plain; (* 799-805 *)
   Row ["--sym-fc3r"] "is_symmetrize_fc3_r" StoreTrue (Flag false) Plain; (* 806-812 *)
   Row ["--sym-fc3q"] "is_symmetrize_fc3_q" StoreTrue (Flag false) Both; (* 813-819 *)
   Row ["--thm"; "--tetrahedron-method"] "is_tetrahedron_method" StoreTrue (Flag false) Both; (* 820-827 *)
   Row ["--ts"] "temperatures" Store (NotGiven) Both; (* 834-840 *)
   Row ["--uplo"] "lapack_zheev_uplo" Store (NotGiven) Both; (* 851-856 *)
   Row ["--wigner"] "is_wigner_kappa" StoreTrue (Flag false) Both; (* 876-882 *)
   Row ["--write-collision"] "write_collision" StoreTrue (Flag false) Both; (* 883-889 *)
   Row ["--write-gamma"] "write_gamma" StoreTrue (Flag false) Both; (* 890-896 *)
   Row ["--write-gamma-detail"; "--write_detailed_gamma"] "write_gamma_detail" StoreTrue (Flag false) Both; (* 897-904 *)
   Row ["--write-phonon"] "write_phonon" StoreTrue (Flag false) Both; (* 905-911 *)
   Row ["--write-pp"] "write_pp" StoreTrue (Flag false) Both; (* 912-918 *)
   Row ["--write-lbte-solution"] "write_LBTE_solution" StoreTrue (Flag false) Both (* 919-925 *)
  ].

(** An occurrence of an option on the command line with the words after it. *)
Definition item := (string * list string)%type.

Definition mem (s : string) (l : list string) : bool :=
  existsb (String.eqb s) l.

(** argparse: an option stores the value of its action in its destination.
    Abbreviated option names and the conversion of words by [type] are left
    out; the words are converted in [parse_conf]. *)
Definition store (r : option_row) (w : list string) : arg :=
  match row_action r with
  | StoreTrue => Flag true
  | StoreFalse => Flag false
  | Store => Words w
  end.

Definition step_item (load : bool) (ns : dict arg) (i : item) : dict arg :=
  match find (fun r => (available load r && mem (fst i) (row_flags r))%bool)
             parser with
  | Some r => dset ns (row_dest r) (store r (snd i))
  | None => ns
  end.

(** argparse.ArgumentParser.parse_args: the defaults, then the options from
    left to right. *)
Definition namespace (load : bool) (cl : list item) : dict arg :=
  fold_left (step_item load) cl
            (map (fun r => (row_dest r, row_default r))
                 (filter (available load) parser)).

(** ** Options to configuration texts *)

Inductive taken := Fixed (t : string) | Taken.
Inductive how := IfTruthy (t : taken) | IfGiven (t : taken).

(** Truth value of a namespace attribute (bool() of None, a flag, a text or a
    list of words). *)
Definition truthy (a : arg) : bool :=
  match a with
  | Flag b => b
  | NotGiven => false
  | Words [] => false
  | Words [w] => negb (String.eqb w "")
  | Words _ => true
  end.

Definition given (a : arg) : bool :=
  match a with NotGiven => false | _ => true end.

(** Text stored in _confs: [" ".join] of the words.  (The file names of
    --cf2 and --cf3 are stored as a list by the code and split at blanks when
    they come from a file; here they are joined, and names with blanks are
    outside the model.  A Flag is never stored as it is.) *)
Definition text_of (a : arg) : string :=
  match a with Words w => String.concat " " w | _ => "" end.

(** phono3py/cui/settings.py 397-669 (Phono3pyConfParser._read_options): for
    each block the destination tested, the key of _confs that it sets, the
    test and the text. *)
Definition read_table : list (string * string * how) :=
  [
   ("phonon_supercell_dimension", "dim_fc2", IfGiven Taken);
   ("boundary_mfp", "boundary_mfp", IfGiven Taken);
   ("const_ave_pp", "const_ave_pp", IfGiven Taken);
   ("create_forces_fc2", "create_forces_fc2", IfTruthy Taken);
   ("create_forces_fc3", "create_forces_fc3", IfTruthy Taken);
   ("create_forces_fc3_file", "create_forces_fc3_file", IfTruthy Taken);
   ("cutoff_fc3_distance", "cutoff_fc3_distance", IfGiven Taken);
   ("cutoff_pair_distance", "cutoff_pair_distance", IfGiven Taken);
   ("grid_addresses", "grid_addresses", IfGiven Taken);
   ("grid_points", "grid_points", IfGiven Taken);
   ("grid_matrix", "grid_matrix", IfGiven Taken);
   ("ion_clamped", "ion_clamped", IfTruthy (Fixed ".true."));
   ("is_bterta", "bterta", IfTruthy (Fixed ".true."));
   ("is_compact_fc", "compact_fc", IfTruthy (Fixed ".true."));
   ("emulate_v2", "emulate_v2", IfTruthy (Fixed ".true."));
   ("is_gruneisen", "gruneisen", IfTruthy (Fixed ".true."));
   ("is_fc3_r0_average", "fc3_r0_average", IfTruthy (Fixed ".true."));
   ("is_full_pp", "full_pp", IfTruthy (Fixed ".true."));
   ("is_imag_self_energy", "imag_self_energy", IfTruthy (Fixed ".true."));
   ("is_isotope", "isotope", IfTruthy (Fixed ".true."));
   ("is_joint_dos", "joint_dos", IfTruthy (Fixed ".true."));
   ("no_kappa_stars", "kappa_star", IfTruthy (Fixed ".false."));
   ("is_lbte", "lbte", IfTruthy (Fixed ".true."));
   ("is_N_U", "N_U", IfTruthy (Fixed ".true."));
   ("is_plusminus_displacements_fc2", "pm_fc2", IfTruthy (Fixed ".true."));
   ("is_real_self_energy", "real_self_energy", IfTruthy (Fixed ".true."));
   ("is_reducible_collision_matrix", "reducible_collision_matrix", IfTruthy (Fixed ".true."));
   ("is_spectral_function", "spectral_function", IfTruthy (Fixed ".true."));
   ("is_symmetrize_fc2", "symmetrize_fc2", IfTruthy (Fixed ".true."));
   ("is_symmetrize_fc3_q", "symmetrize_fc3_q", IfTruthy (Fixed ".true."));
   ("is_symmetrize_fc3_r", "symmetrize_fc3_r", IfTruthy (Fixed ".true."));
   ("is_tetrahedron_method", "tetrahedron", IfTruthy (Fixed ".true."));
   ("is_wigner_kappa", "conductivity_type", IfTruthy (Fixed "wigner"));
   ("is_kubo_kappa", "conductivity_type", IfTruthy (Fixed "kubo"));
   ("lapack_zheev_uplo", "lapack_zheev_uplo", IfGiven Taken);
   ("mass_variances", "mass_variances", IfGiven Taken);
   ("max_freepath", "max_freepath", IfGiven Taken);
   ("num_points_in_batch", "num_points_in_batch", IfGiven Taken);
   ("output_yaml_filename", "output_yaml_filename", IfGiven Taken);
   ("pinv_cutoff", "pinv_cutoff", IfGiven Taken);
   ("pinv_method", "pinv_method", IfGiven Taken);
   ("pinv_solver", "pinv_solver", IfGiven Taken);
   ("pp_conversion_factor", "pp_conversion_factor", IfGiven Taken);
   ("random_displacements_fc2", "random_displacements_fc2", IfGiven Taken);
   ("read_fc2", "read_fc2", IfTruthy (Fixed ".true."));
   ("read_fc3", "read_fc3", IfTruthy (Fixed ".true."));
   ("read_gamma", "read_gamma", IfTruthy (Fixed ".true."));
   ("read_phonon", "read_phonon", IfTruthy (Fixed ".true."));
   ("read_pp", "read_pp", IfTruthy (Fixed ".true."));
   ("read_collision", "read_collision", IfGiven Taken);
   ("scattering_event_class", "scattering_event_class", IfGiven Taken);
   ("sigma_cutoff_width", "sigma_cutoff_width", IfGiven Taken);
   ("solve_collective_phonon", "collective_phonon", IfTruthy (Fixed ".true."));
   ("show_symfc_memory_usage", "show_symfc_memory_usage", IfTruthy (Fixed ".true."));
   ("subtract_forces", "subtract_forces", IfTruthy Taken);
   ("subtract_forces_fc2", "subtract_forces_fc2", IfTruthy Taken);
   ("temperatures", "temperatures", IfGiven Taken);
   ("use_ave_pp", "use_ave_pp", IfTruthy (Fixed ".true."));
   ("use_grg", "use_grg", IfTruthy (Fixed ".true."));
   ("write_gamma_detail", "write_gamma_detail", IfTruthy (Fixed ".true."));
   ("write_gamma", "write_gamma", IfTruthy (Fixed ".true."));
   ("write_collision", "write_collision", IfTruthy (Fixed ".true."));
   ("write_phonon", "write_phonon", IfTruthy (Fixed ".true."));
   ("write_pp", "write_pp", IfTruthy (Fixed ".true."));
   ("write_LBTE_solution", "write_LBTE_solution", IfTruthy (Fixed ".true."))
  ].

Definition read_value (h : how) (a : arg) : option string :=
  let put t := match t with Fixed s => s | Taken => text_of a end in
  match h with
  | IfTruthy t => if truthy a then Some (put t) else None
  | IfGiven t => if given a then Some (put t) else None
  end.

Definition read_step (ns : dict arg) (c : dict string)
  (row : string * string * how) : dict string :=
  let '(dest, key, h) := row in
  match dget ns dest with
  | None => c
  | Some a => match read_value h a with Some t => dset c key t | None => c end
  end.

(** settings.py 397-669 (the blocks, in their order). *)
Definition read_options (ns : dict arg) : dict string :=
  fold_left (read_step ns) read_table [].

(** ** Configuration file *)

(** ConfParser.read_file of phonopy (called at settings.py 384): tags are
    lower-cased, a later line of the same tag wins.  phonopy is not part of
    /repo: that the tags are lower-cased is what makes the upper case tags of
    doc/command-options.md match the lower case keys of _parse_conf. *)
Definition read_file (ls : list (string * string)) : dict string :=
  fold_left (fun c l => dset c (lower_string (fst l)) (snd l)) ls [].

(** ** Texts to parameters *)

Inductive value :=
| VNone
| VBool (b : bool)
| VText (t : string)
| VNum (q : Q)
| VParsed (key text : string).

(** settings.py 677-716. *)
Definition bool_keys : list string :=
  ["read_fc2"; "read_fc3"; "read_gamma"; "read_phonon"; "read_pp";
   "use_ave_pp"; "use_grg"; "collective_phonon"; "write_gamma_detail";
   "write_gamma"; "write_collision"; "write_phonon"; "write_pp";
   "write_LBTE_solution"; "full_pp"; "ion_clamped"; "bterta"; "compact_fc";
   "emulate_v2"; "fc3_r0_average"; "real_self_energy"; "gruneisen";
   "imag_self_energy"; "isotope"; "joint_dos"; "lbte"; "N_U";
   "spectral_function"; "reducible_collision_matrix";
   "show_symfc_memory_usage"; "symmetrize_fc2"; "symmetrize_fc3_q";
   "symmetrize_fc3_r"; "kappa_star"].

(** settings.py 719-729. *)
Definition float_keys : list string :=
  ["boundary_mfp"; "const_ave_pp"; "cutoff_fc3_distance";
   "cutoff_pair_distance"; "max_freepath"; "pinv_cutoff";
   "pp_conversion_factor"; "sigma_cutoff_width"].

(** settings.py 732-738. *)
Definition int_keys : list string :=
  ["pinv_method"; "pinv_solver"; "num_points_in_batch";
   "scattering_event_class"].

(** settings.py 741-748. *)
Definition string_keys : list string :=
  ["conductivity_type"; "create_forces_fc3_file"; "output_yaml_filename";
   "subtract_forces"; "subtract_forces_fc2"].

(** settings.py 751-832 (the keys with a branch of their own). *)
Definition special_keys : list string :=
  ["create_forces_fc2"; "create_forces_fc3"; "dim_fc2"; "grid_addresses";
   "grid_points"; "grid_matrix"; "lapack_zheev_uplo"; "mass_variances";
   "read_collision"; "temperatures"; "random_displacements_fc2"].

Section Parsing.

(** float(), int() and the conversions of the special keys: whether the text
    of the key is accepted.  The parsed value is [VParsed key text]. *)
Variable accepts : string -> string -> bool.

(** settings.py 671-838 (_parse_conf) for one key: None is an error that ends
    the program, [Some None] no parameter, [Some (Some v)] set_parameter. *)
Definition parse_key (key text : string) : option (option value) :=
  if (mem key bool_keys || String.eqb key "pm_fc2")%bool then
    let t := lower_string text in
    if String.eqb t ".true." then Some (Some (VBool true))
    else if String.eqb t ".false." then Some (Some (VBool false))
    else Some None
  else if mem key string_keys then Some (Some (VText text))
  else if (mem key float_keys || mem key int_keys || mem key special_keys)%bool
  then if accepts key text then Some (Some (VParsed key text)) else None
  else Some None.

Fixpoint parse_from (confs : dict string) (ps : dict value)
  : option (dict value) :=
  match confs with
  | [] => Some ps
  | (k, t) :: r =>
    match parse_key k t with
    | None => None
    | Some None => parse_from r ps
    | Some (Some v) => parse_from r (dset ps k v)
    end
  end.

(** settings.py 671-838: the loop over the keys of _confs, with an empty
    parameter dictionary (ConfParser.__init__ of phonopy makes a new one for
    each of the two passes). *)
Definition parse_conf (confs : dict string) : option (dict value) :=
  parse_from confs [].

(** settings.py 840-1104 (_set_settings): key of the parameter and attribute
    of Phono3pySettings that its setter (123-373) writes; mesh_numbers is
    written by the setter of phonopy's Settings. *)
Definition set_table : list (string * string) :=
  [
   ("dim_fc2", "phonon_supercell_matrix");
   ("boundary_mfp", "boundary_mfp");
   ("bterta", "is_bterta");
   ("conductivity_type", "conductivity_type");
   ("collective_phonon", "solve_collective_phonon");
   ("compact_fc", "is_compact_fc");
   ("const_ave_pp", "constant_averaged_pp_interaction");
   ("create_forces_fc2", "create_forces_fc2");
   ("create_forces_fc3", "create_forces_fc3");
   ("create_forces_fc3_file", "create_forces_fc3_file");
   ("cutoff_fc3_distance", "cutoff_fc3_distance");
   ("cutoff_pair_distance", "cutoff_pair_distance");
   ("emulate_v2", "emulate_v2");
   ("grid_addresses", "grid_addresses");
   ("grid_points", "grid_points");
   ("grid_matrix", "mesh_numbers");
   ("ion_clamped", "ion_clamped");
   ("fc3_r0_average", "is_fc3_r0_average");
   ("full_pp", "is_full_pp");
   ("gruneisen", "is_gruneisen");
   ("imag_self_energy", "is_imag_self_energy");
   ("isotope", "is_isotope");
   ("joint_dos", "is_joint_dos");
   ("kappa_star", "is_kappa_star");
   ("lapack_zheev_uplo", "lapack_zheev_uplo");
   ("lbte", "is_lbte");
   ("num_points_in_batch", "num_points_in_batch");
   ("N_U", "is_N_U");
   ("pm_fc2", "is_plusminus_displacement_fc2");
   ("reducible_collision_matrix", "is_reducible_collision_matrix");
   ("symmetrize_fc2", "is_symmetrize_fc2");
   ("symmetrize_fc3_q", "is_symmetrize_fc3_q");
   ("symmetrize_fc3_r", "is_symmetrize_fc3_r");
   ("mass_variances", "mass_variances");
   ("max_freepath", "max_freepath");
   ("output_yaml_filename", "output_yaml_filename");
   ("pinv_cutoff", "pinv_cutoff");
   ("pinv_method", "pinv_method");
   ("pinv_solver", "pinv_solver");
   ("pp_conversion_factor", "pp_conversion_factor");
   ("random_displacements_fc2", "random_displacements_fc2");
   ("real_self_energy", "is_real_self_energy");
   ("read_amplitude", "read_amplitude");
   ("read_collision", "read_collision");
   ("read_fc2", "read_fc2");
   ("read_fc3", "read_fc3");
   ("read_gamma", "read_gamma");
   ("read_phonon", "read_phonon");
   ("read_pp", "read_pp");
   ("scattering_event_class", "scattering_event_class");
   ("show_symfc_memory_usage", "show_symfc_memory_usage");
   ("sigma_cutoff_width", "sigma_cutoff_width");
   ("spectral_function", "is_spectral_function");
   ("subtract_forces", "subtract_forces");
   ("subtract_forces_fc2", "subtract_forces_fc2");
   ("temperatures", "temperatures");
   ("use_ave_pp", "use_ave_pp");
   ("use_grg", "use_grg");
   ("write_gamma_detail", "write_gamma_detail");
   ("write_gamma", "write_gamma");
   ("write_collision", "write_collision");
   ("write_phonon", "write_phonon");
   ("write_pp", "write_pp");
   ("write_LBTE_solution", "write_LBTE_solution")
  ].

(** Attributes of the settings object. *)
Definition settings := string -> value.

Definition set_step (ps : dict value) (s : settings) (row : string * string)
  : settings :=
  match dget ps (fst row) with
  | Some v => fun a => if String.eqb a (snd row) then v else s a
  | None => s
  end.

Definition set_settings (ps : dict value) (s : settings) : settings :=
  fold_left (set_step ps) set_table s.

(** settings.py 44-110 (Phono3pySettings._default). *)
Definition default_table : dict value :=
  [
   ("boundary_mfp", VNum (1000000));
   ("conductivity_type", VNone);
   ("constant_averaged_pp_interaction", VNone);
   ("create_forces_fc2", VNone);
   ("create_forces_fc3", VNone);
   ("create_forces_fc3_file", VNone);
   ("cutoff_fc3_distance", VNone);
   ("cutoff_pair_distance", VNone);
   ("grid_addresses", VNone);
   ("grid_points", VNone);
   ("grid_matrix", VNone);
   ("ion_clamped", VBool false);
   ("is_bterta", VBool false);
   ("is_compact_fc", VBool false);
   ("is_fc3_r0_average", VBool false);
   ("is_full_pp", VBool false);
   ("is_gruneisen", VBool false);
   ("is_imag_self_energy", VBool false);
   ("is_isotope", VBool false);
   ("is_joint_dos", VBool false);
   ("is_kappa_star", VBool true);
   ("is_lbte", VBool false);
   ("is_N_U", VBool false);
   ("is_plusminus_displacement_fc2", VText "auto");
   ("is_real_self_energy", VBool false);
   ("is_reducible_collision_matrix", VBool false);
   ("is_spectral_function", VBool false);
   ("is_symmetrize_fc2", VBool false);
   ("is_symmetrize_fc3_q", VBool false);
   ("is_symmetrize_fc3_r", VBool false);
   ("is_tetrahedron_method", VBool false);
   ("lapack_zheev_uplo", VText "L");
   ("mass_variances", VNone);
   ("max_freepath", VNone);
   ("num_points_in_batch", VNone);
   ("read_collision", VNone);
   ("read_fc2", VBool false);
   ("read_fc3", VBool false);
   ("read_gamma", VBool false);
   ("read_phonon", VBool false);
   ("read_pp", VBool false);
   ("output_yaml_filename", VNone);
   ("phonon_supercell_matrix", VNone);
   ("pinv_cutoff", VNum (1 # 100000000));
   ("pinv_solver", VNum (0));
   ("pinv_method", VNum (0));
   ("pp_conversion_factor", VNone);
   ("random_displacements_fc2", VNone);
   ("scattering_event_class", VNone);
   ("sigma_cutoff_width", VNone);
   ("solve_collective_phonon", VBool false);
   ("emulate_v2", VBool false);
   ("show_symfc_memory_usage", VBool false);
   ("subtract_forces", VNone);
   ("subtract_forces_fc2", VNone);
   ("temperatures", VNone);
   ("use_ave_pp", VBool false);
   ("use_grg", VBool false);
   ("write_collision", VBool false);
   ("write_gamma_detail", VBool false);
   ("write_gamma", VBool false);
   ("write_phonon", VBool false);
   ("write_pp", VBool false);
   ("write_LBTE_solution", VBool false)
  ].

(** settings.py 112-121; attributes of phonopy's Settings are VNone here. *)
Definition default_settings : settings :=
  fun a => match dget default_table a with Some v => v | None => VNone end.

(** One pass: _parse_conf, then _set_settings (settings.py 385-386,
    391-392). *)
Definition pass (confs : dict string) (s : settings) : option settings :=
  match parse_conf confs with
  | None => None
  | Some ps => Some (set_settings ps s)
  end.

(** settings.py 378-395 (Phono3pyConfParser.__init__): the file if there is
    one, then the command line.  [load] tells phono3py-load from phono3py. *)
Definition conf_parser (load : bool) (file : option (list (string * string)))
  (cl : list item) : option settings :=
  let first := match file with
               | None => Some default_settings
               | Some ls => pass (read_file ls) default_settings
               end in
  match first with
  | None => None
  | Some s => pass (read_options (namespace load cl)) s
  end.

End Parsing.
