(** Smearing widths, temperatures and text files of the self energies: the setter of sigmas, the widths of run_real_self_energy, its
    results and files, and the temperatures of run_imag_self_energy.

    Source: phono3py/api_phono3py.py, phono3py/phonon3/real_self_energy.py, phono3py/phonon3/imag_self_energy.py, phono3py/file_IO.py.
    Values of the self energies are an argument; doubles are rationals. Names of files are the tuple of what they are made from
    (their text is in RseModel.v and other models), the mesh and the name given by the user are the same for all files of a call. *)
From Coq Require Import ZArith QArith List Bool.
From Verif Require Import Base.
Import ListNotations.

(** a python value in a list of sigmas: None, a float or int, or anything else (an integer of numpy, a string) *)
Inductive value := Nothing | Number (q : Q) | Other.
Inductive sigmas_arg := NoSigma | OneSigma (q : Q) | Sigmas (l : list value).

(** api_phono3py.py 382-398: the setter *)
Definition set_sigmas (a : sigmas_arg) : list (option Q) :=
  match a with
  | NoSigma => [None]
  | OneSigma q => [Some q]
  | Sigmas l => flat_map (fun v => match v with Number q => [Some q] | Nothing => [None] | Other => [] end) l
  end.

(** api_phono3py.py 1814-1823: the widths given on; None outside: an exception (sigmas[0] of an empty list, 1820) *)
Definition choose_epsilons (sigmas : list (option Q)) (epsilons : option (list (option Q))) : option (option (list (option Q))) :=
  match epsilons with
  | Some e => Some (Some e)
  | None =>
      match sigmas with
      | [] => None
      | [None] => Some None
      | None :: rest => Some (Some rest)
      | _ => Some (Some sigmas)
      end
  end.

(** real_self_energy.py 72 *)
Definition default_epsilon : Q := 5 # 100.
(** real_self_energy.py 193-198: the setter of the width *)
Definition set_epsilon (e : option Q) : Q := match e with None => default_epsilon | Some q => q end.

Section Self.
(** [R]: the values of one band set over the frequency points; [rse width temperature point bands] *)
Variable R : Type.
Variable rse : Q -> Q -> Z -> list Z -> R.

(** values of one grid point: by band set, as write_real_self_energy takes them (averages over the sets are in AvgModel.v) *)
Definition at_point (e t : Q) (gp : Z) : list Z -> R := rse e t gp.

(** real_self_energy.py 543-548, 596-625: all_deltas[i][k][j], width, temperature, grid point. The array is filled point by point;
    each element is set once, from the width, temperature and point in force, so it is written as nested maps. *)
Definition get_real_self_energy (gps : list Z) (temps : list Q) (epsilons : option (list (option Q))) : list (list (list (list Z -> R))) :=
  let es := match epsilons with None => [None] | Some e => e end in
  map (fun e => map (fun t => map (at_point (set_epsilon e) t) gps) temps) es.

(** what the name of a file is made from: file_IO.py 581-595 *)
Record name := Name { n_gp : Z; n_epsilon : Q; n_temperature : Q; n_bands : list Z }.
(** files written so far, latest first; None: created and empty *)
Definition files := list (name * option R).
(** file_IO.py 569-601. The comparison of the width with 1e-5 (583) raises for None before a file is opened; zip of frequency_points
    (598) raises for None after the file is opened, which leaves it empty. [has_points]: frequency_points is not None *)
Definition write_at_grid_point (has_points : bool) (gp : Z) (bands : list Z) (e : option Q) (t : Q) (r : R) (fs : files) : files * bool :=
  match e with
  | None => (fs, false)
  | Some q => if has_points then ((Name gp q t bands, Some r) :: fs, true) else ((Name gp q t bands, None) :: fs, false)
  end.
(** a loop that is left at the first exception *)
Fixpoint loop {A : Type} (body : A -> files -> files * bool) (l : list A) (fs : files) : files * bool :=
  match l with
  | [] => (fs, true)
  | a :: l' => let '(fs', ok) := body a fs in if ok then loop body l' fs' else (fs', false)
  end.
(** real_self_energy.py 684-708 *)
Definition write_real_self_energy (values : list (list (list (list Z -> R)))) (gps : list Z) (sets : list (list Z)) (has_points : bool)
    (temps : list Q) (epsilons : option (list (option Q))) (fs : files) : files * bool :=
  let es := match epsilons with None => [Some default_epsilon] | Some e => e end in
  loop (fun '(e, by_t) => loop (fun '(t, by_gp) => loop (fun '(gp, r) => loop (fun b => write_at_grid_point has_points gp b e t (r b)) sets)
    (combine gps by_gp)) (combine temps by_t)) (combine es values) fs.

(** api_phono3py.py 1752-1854 with write_txt, after init_phph_interaction: files, and the values returned or None for an exception.
    [at_bands]: frequency_points_at_bands, with which the frequency points are None (real_self_energy.py 568-569) *)
Definition run_real_self_energy (sigmas : list (option Q)) (gps : list Z) (temps : list Q) (epsilons : option (list (option Q)))
    (at_bands write_txt : bool) (sets : list (list Z)) : files * option (list (list (list (list Z -> R)))) :=
  match choose_epsilons sigmas epsilons with
  | None => ([], None)
  | Some es =>
      let values := get_real_self_energy gps temps es in
      if write_txt then let '(fs, ok) := write_real_self_energy values gps sets (negb at_bands) temps es [] in (fs, if ok then Some values else None)
      else ([], Some values)
  end.

(** api_phono3py.py 1703-1730 and imag_self_energy.py 684-714: temperatures kept in the object, and the temperatures of the result or
    None for an exception (len of None). *)
Definition run_imag_temperatures (temps : option (list Q)) : list Q * option (list Q) :=
  (match temps with None => [300 # 1] | Some t => t end, temps).
End Self.
Arguments get_real_self_energy {R}. Arguments write_real_self_energy {R}. Arguments run_real_self_energy {R}. Arguments loop {R A}.
Arguments write_at_grid_point {R}.
