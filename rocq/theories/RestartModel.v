(** Files of linewidths and restart of a conductivity calculation in relaxation time approximation:
    conductivity/utils.py (write_gamma 82-216, write_kappa 219-345, set_gamma_from_file 717-841), file_IO.py
    (read_gamma_from_hdf5 1071-1107), conductivity/rta.py (_allocate_values 167-195, _run_at_grid_point 196-230,
    get_thermal_conductivity_RTA 1005-1118), conductivity/base.py (__next__ 396-408, gamma setter 545-548).
    Simplifications: a smearing width is a number that stands for it (name collisions are the subject of NameModel.v);
    files are keyed by width, grid point and band instead of their names; averaged interaction strengths and isotope
    data in the files are left out; lengths of the axes other than temperature are taken to fit. The linewidth that
    the collision object computes is a function [lw] of width, temperature, grid point and band. *)
From Coq Require Import ZArith QArith List Lia Bool.
From Verif Require Import Base.
Import ListNotations.
Open Scope Z_scope.

Definition znth {A : Type} (d : A) (l : list A) (i : Z) : A := nth (Z.to_nat i) l d.
Definition zlen {A : Type} (l : list A) : Z := Z.of_nat (length l).
Fixpoint zlist_eqb (a b : list Z) : bool :=
  match a, b with [], [] => true | x :: a', y :: b' => (x =? y) && zlist_eqb a' b' | _, _ => false end.

(** A kappa-*.hdf5 file: number of temperatures, temperatures, gamma and, optionally, gamma_N and gamma_U. The first
    axis is temperature. *)
Record gfile (A : Type) := GFile { g_nt : Z; g_temp : Z -> Q; g_gamma : Z -> A; g_NU : option ((Z -> A) * (Z -> A)) }.
Arguments GFile {A}. Arguments g_nt {A}. Arguments g_temp {A}. Arguments g_gamma {A}. Arguments g_NU {A}.
(** kappa-m*.hdf5 (axes grid point, band), kappa-m*-g*.hdf5 (axis band), kappa-m*-g*-b*.hdf5 *)
Record fsys := Fsys { kf : Z -> option (gfile (Z -> Z -> Q)); kg : Z -> Z -> option (gfile (Z -> Q)); kb : Z -> Z -> Z -> option (gfile Q) }.
Definition no_files : fsys := Fsys (fun _ => None) (fun _ _ => None) (fun _ _ _ => None).
Definition put_f (fs : fsys) s v : fsys := Fsys (fun s' => if s' =? s then Some v else kf fs s') (kg fs) (kb fs).
Definition put_g (fs : fsys) s g v : fsys := Fsys (kf fs) (fun s' g' => if (s' =? s) && (g' =? g) then Some v else kg fs s' g') (kb fs).
Definition put_b (fs : fsys) s g b v : fsys :=
  Fsys (kf fs) (kg fs) (fun s' g' b' => if (s' =? s) && (g' =? g) && (b' =? b) then Some v else kb fs s' g' b').

(** indices: sigma, temperature, grid point, band *)
Definition arr4 := Z -> Z -> Z -> Z -> Q.
Record brta := Br { b_gps : list Z; b_bands : list Z; b_sig : list Z; b_temps : list Q; b_gamma : arr4; b_NU : option (arr4 * arr4); b_read : bool }.

Section Restart.
Variables lw lwN lwU : Z -> Q -> Z -> Z -> Q.
(** len(primitive) * 3 *)
Variable nb : Z.

Definition zero4 : arr4 := fun _ _ _ _ => 0%Q.
(** rta.py 167-178; base.py 373 *)
Definition fresh (gps bands sig : list Z) (temps : list Q) (is_N_U : bool) : brta :=
  Br gps bands sig temps zero4 (if is_N_U then Some (zero4, zero4) else None) false.
(** rta.py 196-230: linewidths at the i-th grid point, unless they were read (use_ave_pp is off) *)
Definition fill (f : Z -> Q -> Z -> Z -> Q) (b : brta) (i : Z) (a : arr4) : arr4 :=
  fun j t i' k => if i' =? i then f (znth 0 (b_sig b) j) (znth 0%Q (b_temps b) t) (znth 0 (b_gps b) i) (znth 0 (b_bands b) k) else a j t i' k.
Definition run_at (b : brta) (i : Z) : brta :=
  if b_read b then b else
  Br (b_gps b) (b_bands b) (b_sig b) (b_temps b) (fill lw b i (b_gamma b))
     (option_map (fun NU => (fill lwN b i (fst NU), fill lwU b i (snd NU))) (b_NU b)) false.
(** interaction.py 1087-1094 *)
Definition all_bands (b : brta) : bool := zlist_eqb (b_bands b) (zrange nb).
Definition slice {A} (b : brta) (sel : arr4 -> Z -> A) : gfile A :=
  GFile (zlen (b_temps b)) (znth 0%Q (b_temps b)) (sel (b_gamma b)) (option_map (fun NU => (sel (fst NU), sel (snd NU))) (b_NU b)).
(** utils.py 82-216 *)
Definition write_gamma (b : brta) (i : Z) (fs : fsys) : fsys :=
  let gp := znth 0 (b_gps b) i in
  if all_bands b then
    fold_left (fun fs j => put_g fs (znth 0 (b_sig b) j) gp (slice b (fun a t bi => a j t i bi))) (zrange (zlen (b_sig b))) fs
  else
    fold_left (fun fs j =>
      fold_left (fun fs k => put_b fs (znth 0 (b_sig b) j) gp (znth 0 (b_bands b) k) (slice b (fun a t => a j t i k))) (zrange (zlen (b_bands b))) fs)
      (zrange (zlen (b_sig b))) fs.
(** utils.py 219-345 *)
Definition write_kappa (b : brta) (fs : fsys) : fsys :=
  fold_left (fun fs j => put_f fs (znth 0 (b_sig b) j) (slice b (fun a t i bi => a j t i bi))) (zrange (zlen (b_sig b))) fs.

(** numpy: an axis of length 1 is repeated, other lengths have to agree *)
Definition fits {A} (nt : Z) (f : gfile A) : bool := (g_nt f =? nt) || (g_nt f =? 1).
Definition bc {A} (f : gfile A) (t : Z) : Z := if g_nt f =? 1 then 0 else t.
(** the arrays being read, is_gamma_N_U_in, read_succeeded *)
Record acc := Acc { a_g : arr4; a_N : arr4; a_U : arr4; a_in : bool; a_ok : bool }.
Definition store {A} (f : gfile A) (wr : (Z -> A) -> arr4 -> arr4) (a : acc) : acc :=
  let g := wr (fun t => g_gamma f (bc f t)) (a_g a) in
  match g_NU f with
  | Some (n, u) => Acc g (wr (fun t => n (bc f t)) (a_N a)) (wr (fun t => u (bc f t)) (a_U a)) true (a_ok a)
  | None => Acc g (a_N a) (a_U a) (a_in a) (a_ok a)
  end.
Definition wr_f (j : Z) (v : Z -> Z -> Z -> Q) (a : arr4) : arr4 := fun j' t i b => if j' =? j then v t i b else a j' t i b.
Definition wr_g (j i : Z) (v : Z -> Z -> Q) (a : arr4) : arr4 := fun j' t i' b => if (j' =? j) && (i' =? i) then v t b else a j' t i' b.
Definition wr_b (j i b : Z) (v : Z -> Q) (a : arr4) : arr4 := fun j' t i' b' => if (j' =? j) && (i' =? i) && (b' =? b) then v t else a j' t i' b'.
(** utils.py 717-841. The loops; None: ValueError of numpy. *)
Definition obind {A B} (x : option A) (f : A -> option B) : option B := match x with Some a => f a | None => None end.
Definition read_band (fs : fsys) (nt j s i gp : Z) (x : option acc) (bi : Z) : option acc :=
  obind x (fun a =>
    match kb fs s gp bi with
    | Some f => if fits nt f then Some (store f (wr_b j i bi) a) else None
    | None => Some (Acc (a_g a) (a_N a) (a_U a) (a_in a) false)
    end).
Definition read_gp (fs : fsys) (nt : Z) (gps : list Z) (j s : Z) (x : option acc) (i : Z) : option acc :=
  let gp := znth 0 gps i in
  obind x (fun a =>
    match kg fs s gp with
    | Some f => if fits nt f then Some (store f (wr_g j i) a) else None
    | None => fold_left (read_band fs nt j s i gp) (zrange nb) (Some a)
    end).
Definition read_sigma (fs : fsys) (b : brta) (x : option acc) (j : Z) : option acc :=
  let s := znth 0 (b_sig b) j in let nt := zlen (b_temps b) in
  obind x (fun a =>
    match kf fs s with
    | Some f => if fits nt f then Some (store f (wr_f j) a) else None
    | None => fold_left (read_gp fs nt (b_gps b) j s) (zrange (zlen (b_gps b))) (Some a)
    end).
Definition set_gamma_from_file (fs : fsys) (b : brta) : option (brta * bool) :=
  obind (fold_left (read_sigma fs b) (zrange (zlen (b_sig b))) (Some (Acc zero4 zero4 zero4 false true))) (fun a =>
    if a_ok a
    then Some (Br (b_gps b) (b_bands b) (b_sig b) (b_temps b) (a_g a) (if a_in a then Some (a_N a, a_U a) else b_NU b) true, true)
    else Some (b, false)).

(** rta.py 1005-1118: a run that ends after [n] grid points (killed, when n is less than their number). None: it
    ended with an error or could not read the files; the files are left as they were. *)
Record job := Job { o_gps : option (list Z); o_bands : list Z; o_sig : list Z; o_NU : bool; o_write_gamma : bool; o_read_gamma : bool; o_write_kappa : bool; o_steps : Z }.
Definition step (wr : bool) (st : brta * fsys) (i : Z) : brta * fsys :=
  let b := run_at (fst st) i in (b, if wr then write_gamma b i (snd st) else snd st).
Definition run_job (ir : list Z) (temps : list Q) (o : job) (fs : fsys) : option brta * fsys :=
  let b := fresh (match o_gps o with Some g => g | None => ir end) (o_bands o) (o_sig o) temps (o_NU o) in
  let b0 := if o_read_gamma o then match set_gamma_from_file fs b with Some (b', true) => Some b' | _ => None end else Some b in
  match b0 with
  | None => (None, fs)
  | Some b0 =>
      let n := Z.min (o_steps o) (zlen (b_gps b0)) in
      let st := fold_left (step (o_write_gamma o)) (zrange n) (b0, fs) in
      let fin := (n =? zlen (b_gps b0)) && match o_gps o with None => true | _ => false end && all_bands b0 && o_write_kappa o in
      (Some (fst st), if fin then write_kappa (fst st) (snd st) else snd st)
  end.
End Restart.
