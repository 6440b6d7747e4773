(** What the documentation promises about options and tags: a setting has the
    value given on the command line, else the value in the configuration file,
    else its default.  Independent of the parser tables: the table below lists
    option, tag, setting and default, from doc/command-options.md. *)
From Coq Require Import String Ascii List Bool QArith.
From Verif Require Import OptModel.
Import ListNotations.
Open Scope string_scope.
Open Scope list_scope.

(** Switch b: the option takes no word and turns the setting to [b]; the tag
    is .TRUE. or .FALSE.  Wording: the words after the option or the text
    after the tag are taken as they are.  Valued: they are converted. *)
Inductive kind := Switch (b : bool) | Wording | Valued.

Record opt := Opt {
  o_flags : list string;
  o_tag : string;
  o_attr : string;
  o_kind : kind;
  o_default : value;
  o_avail : avail
}.

Definition documented : list opt :=
  [Opt ["--dim-fc2"] "DIM_FC2" "phonon_supercell_matrix" Valued VNone Plain;
   Opt ["--rd-fc2"; "--random-displacements-fc2"] "RANDOM_DISPLACEMENTS_FC2"
       "random_displacements_fc2" Valued VNone Both;
   Opt ["--cfc"; "--compact-fc"] "COMPACT_FC" "is_compact_fc" (Switch true)
       (VBool false) Both;
   Opt ["--cutoff-fc3"; "--cutoff-fc3-distance"] "CUTOFF_FC3_DISTANCE"
       "cutoff_fc3_distance" Valued VNone Both;
   Opt ["--cutoff-pair"; "--cutoff-pair-distance"] "CUTOFF_PAIR_DISTANCE"
       "cutoff_pair_distance" Valued VNone Both;
   Opt ["--gp"; "--grid-points"] "GRID_POINTS" "grid_points" Valued VNone Both;
   Opt ["--ga"; "--grid-addresses"] "GRID_ADDRESSES" "grid_addresses" Valued
       VNone Both;
   Opt ["--sigma-cutoff"] "SIGMA_CUTOFF_WIDTH" "sigma_cutoff_width" Valued
       VNone Both;
   Opt ["--full-pp"] "FULL_PP" "is_full_pp" (Switch true) (VBool false) Both;
   Opt ["--br"; "--bterta"] "BTERTA" "is_bterta" (Switch true) (VBool false)
       Both;
   Opt ["--lbte"] "LBTE" "is_lbte" (Switch true) (VBool false) Both;
   Opt ["--isotope"] "ISOTOPE" "is_isotope" (Switch true) (VBool false) Both;
   Opt ["--mass-variances"; "--mv"] "MASS_VARIANCES" "mass_variances" Valued
       VNone Both;
   Opt ["--boundary-mfp"; "--bmfp"] "BOUNDARY_MFP" "boundary_mfp" Valued
       (VNum 1000000) Both;
   Opt ["--ave-pp"] "USE_AVE_PP" "use_ave_pp" (Switch true) (VBool false) Both;
   Opt ["--const-ave-pp"] "CONST_AVE_PP" "constant_averaged_pp_interaction"
       Valued VNone Both;
   Opt ["--scattering-event-class"] "SCATTERING_EVENT_CLASS"
       "scattering_event_class" Valued VNone Both;
   Opt ["--ts"] "TEMPERATURES" "temperatures" Valued VNone Both;
   Opt ["--ise"] "IMAG_SELF_ENERGY" "is_imag_self_energy" (Switch true)
       (VBool false) Both;
   Opt ["--rse"] "REAL_SELF_ENERGY" "is_real_self_energy" (Switch true)
       (VBool false) Both;
   Opt ["--spf"] "SPECTRAL_FUNCTION" "is_spectral_function" (Switch true)
       (VBool false) Both;
   Opt ["--jdos"] "JOINT_DOS" "is_joint_dos" (Switch true) (VBool false) Both;
   Opt ["--gruneisen"] "GRUNEISEN" "is_gruneisen" (Switch true) (VBool false)
       Both;
   Opt ["--fc2"] "READ_FC2" "read_fc2" (Switch true) (VBool false) Plain;
   Opt ["--fc3"] "READ_FC3" "read_fc3" (Switch true) (VBool false) Plain;
   Opt ["--write-gamma"] "WRITE_GAMMA" "write_gamma" (Switch true)
       (VBool false) Both;
   Opt ["--read-gamma"] "READ_GAMMA" "read_gamma" (Switch true) (VBool false)
       Both;
   Opt ["--write-gamma-detail"; "--write_detailed_gamma"] "WRITE_GAMMA_DETAIL"
       "write_gamma_detail" (Switch true) (VBool false) Both;
   Opt ["--write-phonon"] "WRITE_PHONON" "write_phonon" (Switch true)
       (VBool false) Both;
   Opt ["--read-phonon"] "READ_PHONON" "read_phonon" (Switch true)
       (VBool false) Both;
   Opt ["--write-pp"] "WRITE_PP" "write_pp" (Switch true) (VBool false) Both;
   Opt ["--read-pp"] "READ_PP" "read_pp" (Switch true) (VBool false) Both;
   (* options with a tag that the documentation does not list *)
   Opt ["-o"] "OUTPUT_YAML_FILENAME" "output_yaml_filename" Wording VNone Load;
   Opt ["--noks"; "--no-kappa-stars"] "KAPPA_STAR" "is_kappa_star"
       (Switch false) (VBool true) Both;
   Opt ["--ion-clamped"] "ION_CLAMPED" "ion_clamped" (Switch true)
       (VBool false) Both;
   Opt ["--reducible-colmat"] "REDUCIBLE_COLLISION_MATRIX"
       "is_reducible_collision_matrix" (Switch true) (VBool false) Both;
   Opt ["--pm-fc2"] "PM_FC2" "is_plusminus_displacement_fc2" (Switch true)
       (VText "auto") Both;
   Opt ["--cph"; "--collective-phonon"] "COLLECTIVE_PHONON"
       "solve_collective_phonon" (Switch true) (VBool false) Both;
   Opt ["--grg"; "--generalized-regular-grid"] "USE_GRG" "use_grg"
       (Switch true) (VBool false) Both;
   Opt ["--sym-fc2"] "SYMMETRIZE_FC2" "is_symmetrize_fc2" (Switch true)
       (VBool false) Plain;
   Opt ["--sym-fc3r"] "SYMMETRIZE_FC3_R" "is_symmetrize_fc3_r" (Switch true)
       (VBool false) Plain;
   Opt ["--sym-fc3q"] "SYMMETRIZE_FC3_Q" "is_symmetrize_fc3_q" (Switch true)
       (VBool false) Both;
   Opt ["--symfc-memshow"] "SHOW_SYMFC_MEMORY_USAGE" "show_symfc_memory_usage"
       (Switch true) (VBool false) Load;
   Opt ["--write-collision"] "WRITE_COLLISION" "write_collision" (Switch true)
       (VBool false) Both;
   Opt ["--read-collision"] "READ_COLLISION" "read_collision" Valued VNone
       Both;
   Opt ["--num-points-in-batch"] "NUM_POINTS_IN_BATCH" "num_points_in_batch"
       Valued VNone Both;
   Opt ["--pinv-cutoff"] "PINV_CUTOFF" "pinv_cutoff" Valued
       (VNum (1 # 100000000)) Both;
   Opt ["--pinv-solver"] "PINV_SOLVER" "pinv_solver" Valued (VNum 0) Both;
   Opt ["--pinv-method"] "PINV_METHOD" "pinv_method" Valued (VNum 0) Both;
   Opt ["--uplo"] "LAPACK_ZHEEV_UPLO" "lapack_zheev_uplo" Valued (VText "L")
       Both].

(** Whether the command (phono3py-load if [load], else phono3py) has the
    option. *)
Definition has (load : bool) (o : opt) : Prop :=
  match o_avail o with Both => True | Plain => load = false
                  | Load => load = true end.

(** The words after the last occurrence of one of the names of an option. *)
Fixpoint last_words (names : list string) (cl : list item)
  : option (list string) :=
  match cl with
  | [] => None
  | (f, w) :: r =>
    match last_words names r with
    | Some w' => Some w'
    | None => if in_dec string_dec f names then Some w else None
    end
  end.

(** The text of the last line of the file with the tag, in any case of
    letters. *)
Fixpoint last_line (tag : string) (ls : list (string * string))
  : option string :=
  match ls with
  | [] => None
  | (t, v) :: r =>
    match last_line tag r with
    | Some v' => Some v'
    | None => if string_dec (lower_string t) (lower_string tag) then Some v
              else None
    end
  end.

Definition from_text (o : opt) (t : string) : option value :=
  match o_kind o with
  | Switch _ =>
    if string_dec (lower_string t) ".true." then Some (VBool true)
    else if string_dec (lower_string t) ".false." then Some (VBool false)
    else None
  | Wording => Some (VText t)
  | Valued => Some (VParsed (lower_string (o_tag o)) t)
  end.

Definition from_command_line (o : opt) (cl : list item) : option value :=
  match last_words (o_flags o) cl with
  | None => None
  | Some w => match o_kind o with
              | Switch b => Some (VBool b)
              | _ => from_text o (String.concat " " w)
              end
  end.

Definition from_file (o : opt) (file : option (list (string * string)))
  : option value :=
  match file with
  | None => None
  | Some ls => match last_line (o_tag o) ls with
               | None => None
               | Some t => from_text o t
               end
  end.

Definition first_of (a b : option value) (d : value) : value :=
  match a with Some v => v | None => match b with Some v => v | None => d end end.
