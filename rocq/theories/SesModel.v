(** A session with a Phono3py object: force constants, NAC parameters, masses, bands and mesh that are set, and the Interaction
    object that is made by init_phph_interaction, its phonons and what runs use.

    Sources: phono3py/api_phono3py.py, phono3py/phonon3/interaction.py. Inputs are opaque values; arrays changed in place by the
    user are left out (fc3 is shared with the Interaction object if it is a contiguous array of doubles, 908-923).
    constant_averaged_interaction, frequency_scale_factor and the log are left out. *)
From Coq Require Import ZArith List Bool.
From Verif Require Import Base.
Import ListNotations.
Open Scope Z_scope.

(** [F2] fc2, [F3] fc3, [N] NAC parameters, [M] masses, [B] band indices, [G] grids, [D] directions, [P] frequencies and eigenvectors
    at a grid point, [R] interaction strengths *)
Record laws (F2 F3 N M B G D P R : Type) := Laws {
  (** the phonon solver at a grid point (phonon/solver.py:45-183); it gets the direction at every point *)
  solve : F2 -> option N -> M -> option D -> G -> Z -> P;
  (** number of BZ grid points, and the index of Gamma *)
  npts : G -> Z;
  gamma : G -> Z;
  unsolved : P;
  (** api_phono3py.py 2546-2558: frequencies forced to be zero at Gamma *)
  force : P -> P;
  (** strengths at a grid point from fc3, bands, masses and phonons (interaction.py 932-976) *)
  strength : F3 -> B -> M -> G -> Z -> (Z -> P) -> R }.
Arguments solve {F2 F3 N M B G D P R}. Arguments npts {F2 F3 N M B G D P R}. Arguments gamma {F2 F3 N M B G D P R}.
Arguments unsolved {F2 F3 N M B G D P R}. Arguments force {F2 F3 N M B G D P R}. Arguments strength {F2 F3 N M B G D P R}.

(** Interaction: _fc3, _bz_grid, _band_indices, _masses (a copy, interaction.py 168), _dm (made from fc2 and NAC parameters; its masses
    are those of the primitive cell when the solver runs, phonon/solver.py 220), _nac_q_direction, _phonon_done,
    _frequencies/_eigenvectors, _frequencies_at_gamma/_eigenvectors_at_gamma, _done_nac_at_gamma *)
Record inter (F2 F3 N M B G D P : Type) := Inter {
  i_fc3 : option F3; i_grid : G; i_bands : B; i_masses : M; i_fc2 : F2; i_nac : option N; i_dir : option D;
  i_done : Z -> bool; i_ph : Z -> P; i_gamma : option P; i_done_nac : bool }.
Arguments i_fc3 {F2 F3 N M B G D P}. Arguments i_grid {F2 F3 N M B G D P}. Arguments i_bands {F2 F3 N M B G D P}. Arguments i_masses {F2 F3 N M B G D P}.
Arguments i_fc2 {F2 F3 N M B G D P}. Arguments i_nac {F2 F3 N M B G D P}. Arguments i_dir {F2 F3 N M B G D P}. Arguments i_done {F2 F3 N M B G D P}.
Arguments i_ph {F2 F3 N M B G D P}. Arguments i_gamma {F2 F3 N M B G D P}. Arguments i_done_nac {F2 F3 N M B G D P}. Arguments Inter {F2 F3 N M B G D P}.
(** Phono3py: _fc2, _fc3, _nac_params, _primitive.masses (and those of the phonon primitive cell), _band_indices_flatten, _bz_grid,
    _interaction *)
Record api (F2 F3 N M B G D P : Type) := Api {
  a_fc2 : option F2; a_fc3 : option F3; a_nac : option N; a_masses : M; a_bands : B; a_grid : option G; a_inter : option (inter F2 F3 N M B G D P) }.
Arguments a_fc2 {F2 F3 N M B G D P}. Arguments a_fc3 {F2 F3 N M B G D P}. Arguments a_nac {F2 F3 N M B G D P}. Arguments a_masses {F2 F3 N M B G D P}.
Arguments a_bands {F2 F3 N M B G D P}. Arguments a_grid {F2 F3 N M B G D P}. Arguments a_inter {F2 F3 N M B G D P}. Arguments Api {F2 F3 N M B G D P}.

Section Ses.
Context {F2 F3 N M B G D P R : Type}.
Variable L : laws F2 F3 N M B G D P R.
(** is_mesh_symmetry *)
Variable sym : bool.
Notation inter := (inter F2 F3 N M B G D P).
Notation api := (api F2 F3 N M B G D P).

Definition with_phonons (i : inter) (dir : option D) (done : Z -> bool) (ph : Z -> P) (g : option P) (dn : bool) : inter :=
  Inter (i_fc3 i) (i_grid i) (i_bands i) (i_masses i) (i_fc2 i) (i_nac i) dir done ph g dn.
(** interaction.py 711-721 (run_phonon_solver) with 978-990 and solver.py, LAPACKE: points that are not done are solved; [m] are the
    masses of the primitive cell at the time of the call *)
Definition run_solver (m : M) (pts : list Z) (i : inter) : inter :=
  let asked p := existsb (Z.eqb p) pts in
  with_phonons i (i_dir i) (fun p => i_done i p || asked p)
    (fun p => if asked p && negb (i_done i p) then solve L (i_fc2 i) (i_nac i) m (i_dir i) (i_grid i) p else i_ph i p) (i_gamma i) (i_done_nac i).
Definition all_points (i : inter) : list Z := zrange (npts L (i_grid i)).
(** interaction.py 723-752 (run_phonon_solver_at_gamma) *)
Definition at_gamma (m : M) (is_nac : bool) (i : inter) : inter :=
  let gp := gamma L (i_grid i) in
  let undone p := if p =? gp then false else i_done i p in
  match is_nac, i_gamma i with
  | false, Some v => with_phonons i (i_dir i) (i_done i) (fun p => if p =? gp then v else i_ph i p) (i_gamma i) (i_done_nac i)
  | true, _ => run_solver m [gp] (with_phonons i (i_dir i) undone (i_ph i) (i_gamma i) true)
  | false, None =>
      let j := run_solver m [gp] (with_phonons i None undone (i_ph i) (i_gamma i) false) in
      with_phonons j (i_dir i) (i_done j) (i_ph j) (i_gamma j) (i_done_nac j)
  end.
(** interaction.py 1028-1047 (_allocate_phonon) *)
Definition allocate (m : M) (i : inter) : inter :=
  let gp := gamma L (i_grid i) in
  let i := at_gamma m false (with_phonons i (i_dir i) (fun _ => false) (fun _ => unsolved L) (i_gamma i) (i_done_nac i)) in
  with_phonons i (i_dir i) (fun p => if p =? gp then false else i_done i p) (i_ph i) (Some (i_ph i gp)) (i_done_nac i).
(** interaction.py 667-690 (init_dynamical_matrix) *)
Definition init_dm (m : M) (fc2 : F2) (nac : option N) (i : inter) : inter :=
  allocate m (Inter (i_fc3 i) (i_grid i) (i_bands i) (i_masses i) fc2 nac (i_dir i) (i_done i) (i_ph i) (i_gamma i) (i_done_nac i)).
(** api_phono3py.py 2532-2558 (_init_dynamical_matrix); get_phonons returns the arrays themselves, they are changed in place *)
Definition api_init_dm (m : M) (fc2 : F2) (nac : option N) (i : inter) : inter :=
  let i := init_dm m fc2 nac i in
  let gp := gamma L (i_grid i) in
  with_phonons i (i_dir i) (i_done i) (fun p => if p =? gp then force L (i_ph i p) else i_ph i p) (i_gamma i) (i_done_nac i).
(** interaction.py 580-640 (set_grid_point), phonon part; None: RuntimeError *)
Definition set_grid_point (m : M) (p : Z) (i : inter) : option inter :=
  if negb sym then Some i
  else if p =? gamma L (i_grid i) then Some (at_gamma m true i)
  else if i_done_nac i then match i_dir i with None => Some (at_gamma m false i) | Some _ => None end
  else Some i.
(** interaction.py 181-205 (run): the phonons not done are solved, then the strengths *)
Definition run (m : M) (i : inter) : inter :=
  if existsb (fun p => negb (i_done i p)) (all_points i) then run_solver m (all_points i) i else i.
(** interaction.py 692-709 (set_phonon_data) for accepted addresses *)
Definition set_data (data : Z -> P) (i : inter) : inter :=
  with_phonons i (i_dir i) (fun _ => true) data (Some (data (gamma L (i_grid i)))) (i_done_nac i).

(** phonon3/imag_self_energy.py 672-680, phonon3/real_self_energy.py 552-564, phonon3/spectral_function.py 374-383: phonons are solved, and
    those at Gamma without and then with the direction (the highest frequency is taken in between) *)
Definition prepare (m : M) (i : inter) : inter := at_gamma m true (at_gamma m false (run m i)).
(** the loops over grid points of these three (imag_self_energy.py 718-737, real_self_energy.py 596-613, spectral_function.py 226-249), the
    part with phonons and strengths; None: an exception *)
Fixpoint each_point (m : M) (l : list Z) (i : inter) : inter * option (list R) :=
  match l with
  | [] => (i, Some [])
  | p :: l =>
      match set_grid_point m p i with
      | None => (i, None)
      | Some i =>
          let i := run m i in
          match i_fc3 i with
          | None => (i, None)
          | Some x =>
              let r := strength L x (i_bands i) (i_masses i) (i_grid i) p (i_ph i) in
              let '(j, rs) := each_point m l i in (j, option_map (cons r) rs)
          end
      end
  end.

(** calls of the user. SetData: whether the addresses are accepted (interaction.py 694-702) *)
Inductive call :=
| SetFc2 (x : option F2) | SetFc3 (x : option F3) | SetNac (x : option N) | SetMasses (x : option M) | SetBands (x : B) | SetMesh (g : G)
| InitPhph (dir : option D) | SetData (accepted : bool) (data : Z -> P) | RunSolver (pts : option (list Z)) | GetData | RunAt (p : Z)
| RunSelfEnergy (l : list Z).
Inductive output := Nothing | Raised | Phonons (x : Z -> P) | Strength (r : R) | Strengths (l : list R).

Definition with_inter (s : api) (i : option inter) : api := Api (a_fc2 s) (a_fc3 s) (a_nac s) (a_masses s) (a_bands s) (a_grid s) i.
Definition step (s : api) (c : call) : api * output :=
  match c with
  (* 345-346, 362-363 *)
  | SetFc2 x => (Api x (a_fc3 s) (a_nac s) (a_masses s) (a_bands s) (a_grid s) (a_inter s), Nothing)
  | SetFc3 x => (Api (a_fc2 s) x (a_nac s) (a_masses s) (a_bands s) (a_grid s) (a_inter s), Nothing)
  (* 435-439; fc2 is not None unless the user took it away: then phonopy raises *)
  | SetNac x =>
      let s' := Api (a_fc2 s) (a_fc3 s) x (a_masses s) (a_bands s) (a_grid s) (a_inter s) in
      match a_inter s, a_fc2 s with
      | None, _ => (s', Nothing)
      | Some i, Some f => (with_inter s' (Some (api_init_dm (a_masses s) f x i)), Nothing)
      | Some _, None => (s', Raised)
      end
  (* 757-772 *)
  | SetMasses x => (Api (a_fc2 s) (a_fc3 s) (a_nac s) (match x with None => a_masses s | Some x => x end) (a_bands s) (a_grid s) (a_inter s), Nothing)
  (* 740-750 *)
  | SetBands x => (Api (a_fc2 s) (a_fc3 s) (a_nac s) (a_masses s) x (a_grid s) (a_inter s), Nothing)
  (* 813-815, 2514-2530 *)
  | SetMesh g => (Api (a_fc2 s) (a_fc3 s) (a_nac s) (a_masses s) (a_bands s) (Some g) None, Nothing)
  (* 1071-1146 *)
  | InitPhph dir =>
      match a_grid s, a_fc2 s with
      | Some g, Some f =>
          let i := Inter (a_fc3 s) g (a_bands s) (a_masses s) f None dir (fun _ => false) (fun _ => unsolved L) None false in
          (with_inter s (Some (api_init_dm (a_masses s) f (a_nac s) i)), Nothing)
      | _, _ => (s, Raised)
      end
  (* 1148-1174 *)
  | SetData accepted data =>
      match a_inter s with
      | None => (s, Nothing)
      | Some i => if accepted then (with_inter s (Some (set_data data i)), Nothing) else (s, Raised)
      end
  (* 1202-1225 *)
  | RunSolver pts =>
      match a_inter s with
      | None => (s, Raised)
      | Some i => (with_inter s (Some (run_solver (a_masses s) (match pts with None => all_points i | Some l => l end) i)), Nothing)
      end
  (* 1176-1200 *)
  | GetData => match a_inter s with None => (s, Raised) | Some i => (s, Phonons (i_ph i)) end
  (* strengths at one grid point (conductivity/rta.py and others): Interaction.set_grid_point, then Interaction.run; without fc3 the
     attribute does not exist *)
  | RunAt p =>
      match a_inter s with
      | None => (s, Raised)
      | Some i =>
          match set_grid_point (a_masses s) p i with
          | None => (s, Raised)
          | Some i =>
              let i := run (a_masses s) i in
              (with_inter s (Some i),
               match i_fc3 i with None => Raised | Some x => Strength (strength L x (i_bands i) (i_masses i) (i_grid i) p (i_ph i)) end)
          end
      end
  (* run_imag_self_energy 1631-1735, run_real_self_energy 1752-1854, run_spectral_function 1856-1926 *)
  | RunSelfEnergy l =>
      match a_inter s with
      | None => (s, Raised)
      | Some i =>
          let '(j, rs) := each_point (a_masses s) l (prepare (a_masses s) i) in
          (with_inter s (Some j), match rs with None => Raised | Some rs => Strengths rs end)
      end
  end.
Fixpoint exec (s : api) (l : list call) : api * list output :=
  match l with
  | [] => (s, [])
  | c :: l => let '(s, o) := step s c in let '(s, os) := exec s l in (s, o :: os)
  end.
End Ses.
