(** A Phono3pyIsotope object through a sequence of calls.

    Source: phono3py/api_isotope.py, phono3py/other/isotope.py. Rates and frequencies that belong to a dynamical matrix are arguments
    (IsoModel.v has the rates); a grid point is a number below the number of grid points, other numbers are not modelled. Only
    lang="C". Printing is the list of rows. *)
From Coq Require Import ZArith QArith List Bool.
From Verif Require Import Base.
Import ListNotations.

Section Isotopes.
(** [D]: dynamical matrices; rate and frequency: phonons, (width), grid point, band *)
Variable D : Type.
Variable rate : D -> option Q -> Z -> Z -> Q.
Variable frequency : D -> Z -> Z -> Q.

(** sigmas (api_isotope.py 60-65), band_indices (isotope.py 137-141), number of bands; dynamical matrix; the dynamical matrix the phonons
    on the grid were solved with, None: not yet; gamma (sigma, grid point, band) and grid_points, None: attribute not set *)
Record state := State { sigmas : list (option Q); bands : list Z; num_band : nat; dm : option D; phonons : option D;
                        gamma : option (list (list (list Q))); points : option (list Z) }.
Definition all_bands (n : nat) : list Z := map Z.of_nat (seq 0 n).
(** api_isotope.py 46-77, isotope.py 109-141 *)
Definition new (s : option (list (option Q))) (b : option (list Z)) (n : nat) : state :=
  State (match s with None => [None] | Some l => l end) (match b with None => all_bands n | Some l => l end) n None None None None.

Inductive call := Init (d : D) | Run (gps : list Z) | SetSigma (s : option Q).

(** isotope.py 243, 371-383 with phonon/solver.py: phonons at all grid points that are not done yet; None: there is no dynamical matrix *)
Definition solve (s : state) : option D :=
  match dm s with
  | None => None
  | Some d => Some (match phonons s with None => d | Some old => old end)
  end.
(** api_isotope.py 136-137: the rows that are printed; zip of the rates of band_indices and of the frequencies of all bands *)
Definition table (s : state) (ph : D) (sigma : option Q) (gp : Z) : list (Q * Q) :=
  combine (map (frequency ph gp) (all_bands (num_band s))) (map (rate ph sigma gp) (bands s)).

(** api_isotope.py 104-164; the rows printed by grid point and sigma, or None for an exception. In run the points are set before anything
    is calculated (110), gamma after all (140); the array is filled by grid point, then sigma. set_sigma calls a method of Isotope that
    does not exist (164) *)
Definition step (s : state) (c : call) : state * option (list (list (list (Q * Q)))) :=
  match c with
  | Init d => (State (sigmas s) (bands s) (num_band s) (Some d) (phonons s) (gamma s) (points s), Some [])
  | SetSigma _ => (s, None)
  | Run gps =>
      match gps, sigmas s with
      | [], _ | _, [] =>
          (State (sigmas s) (bands s) (num_band s) (dm s) (phonons s) (Some (map (fun _ => []) (sigmas s))) (Some gps), Some (map (fun _ => []) gps))
      | _, _ =>
          match solve s with
          | None => (State (sigmas s) (bands s) (num_band s) (dm s) (phonons s) (gamma s) (Some gps), None)
          | Some ph =>
              (State (sigmas s) (bands s) (num_band s) (dm s) (Some ph)
                 (Some (map (fun sigma => map (fun gp => map (rate ph sigma gp) (bands s)) gps) (sigmas s))) (Some gps),
               Some (map (fun gp => map (fun sigma => table s ph sigma gp) (sigmas s)) gps))
          end
      end
  end.
Fixpoint exec (s : state) (l : list call) : state := match l with [] => s | c :: l' => exec (fst (step s c)) l' end.
End Isotopes.
Arguments State {D}. Arguments sigmas {D}. Arguments bands {D}. Arguments num_band {D}. Arguments dm {D}. Arguments phonons {D}. Arguments gamma {D}.
Arguments points {D}. Arguments new {D}. Arguments Init {D}. Arguments Run {D}. Arguments SetSigma {D}. Arguments step {D}. Arguments exec {D}.
