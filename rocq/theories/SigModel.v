(** Linewidths at a list of smearing widths: phono3py/conductivity/rta.py 232-305 (_set_gamma_at_sigmas) and 326-457 (_set_gamma_at_sigmas_lowmem),
    conductivity/direct_solution.py 458-536 (the loop of _set_gamma_and_collision_matrix), phonon3/imag_self_energy.py 103-157 (run, run_interaction,
    run_integration_weights), 242-254 (set_sigma), 299-330 (set_averaged_pp_interaction, set_interaction_strength, delete_integration_weights),
    phonon3/interaction.py 181-204 (run), 575-578 (set_interaction_strength), 932-976 (_run_c), conductivity/utils.py 958-989 (write_pp) and the parts of
    c/pp_collision.c 67-253 that IseModel.v and IseProps.v do not have. One grid point. Doubles are rationals. The averages over degenerate bands that follow
    are not done here; N and U parts, gamma_detail and the averaged interactions returned are left out. *)
From Coq Require Import ZArith QArith List Bool.
From Verif Require Import Base Mat3 QMat GridModel BzModel BzProps TripletModel TripletProps TetraModel Par IwModel KaccumModel TiwModel IseModel IseProps ColModel.
Import ListNotations.
Open Scope Z_scope.

Inductive serr := ValueError | TypeError.
Inductive result (A : Type) := Ok (a : A) | Err (e : serr).
Arguments Ok {A} a.
Arguments Err {A} e.

(** attributes of ImagSelfEnergy and CollisionMatrix: _g, _g_zero, _pp_strength; None is None *)
Record collider := mkco { co_g : option (Z -> Q); co_gz : option (Z -> bool); co_pp : option (Z -> Q) }.
(** attributes of Interaction: _interaction_strength, _g_zero *)
Record interaction := mkin { in_pp : option (Z -> Q); in_gz : option (Z -> bool) }.
(** how interaction strengths are found: read_pp with the file found for a width (its pp and its g_zero, None when the file has none), use_ave_pp with a value
    per band, use_const_ave_pp, or calculated with the is_full_pp given *)
Inductive mode :=
| Read (file : option Q -> option ((Z -> Q) * option (Z -> bool)))
| Averaged (v : Z -> Q)
| Constant (v : Q)
| Compute (is_full_pp : bool).

Section Sig.
Variable bose ish : Q -> Q -> Q.
Variable gauss : Q -> Q -> Q.
Variable g : bzgrid.
Variable rel : list (list V3).
Variable eps : Q.
Variable Qg : M3.
Variable rl : QM.
Variable triplets : Z -> tp3.
Variable weights : Z -> Z.
Variable nb0 nb ntrip : Z.
Variable fp freq : Z -> Q.         (* fp b: frequency of the band b0 number b at the grid point *)
Variable cutoff unit pp_unit : Q.  (* cutoff_frequency, unit_conversion of ImagSelfEnergy, unit_conversion of Interaction *)
Variable raw : Z -> Q.             (* the strengths of c/interaction.c for all entries *)
Variable symmetrize_fc3q : bool.
Variable num_grid : Q.
Variable sigma_cutoff : option Q.
Variable icm : bool.               (* is_collision_matrix *)

(** triplets.py 148-226, lang="C" (TiwModel.v); g_zero is a byte array *)
Definition weight_cells (sigma : option Q) : cell -> Q :=
  iw_arrays ntrip nb0 nb nb (c_body g rel gauss triplets nb fp freq eps Qg rl sigma sigma_cutoff icm) (fun _ => 0%Q).
Definition flag_of (m : cell -> Q) (x : Z) : bool := negb (Qeq_bool (m (c_zero x)) 0).

(** imag_self_energy.py 242-254 and 326-330 *)
Definition set_sigma (c : collider) : collider := mkco None None None.
(** 140-157 without frequency points and without an event class *)
Definition run_integration_weights (sigma : option Q) (c : collider) : collider :=
  let m := weight_cells sigma in mkco (Some (fun x => m (c_iw x))) (Some (flag_of m)) (co_pp c).
(** interaction.py 181-204 and 932-976; [const]: _constant_averaged_interaction *)
Definition interaction_run (const : option Q) (g_zero : option (Z -> bool)) (p : interaction) : interaction :=
  match const with
  | None =>
      let z := match g_zero with None => fun _ => false | Some z => if symmetrize_fc3q then fun _ => false else z end in
      mkin (Some (fun x => if z x then 0%Q else raw x * pp_unit)%Q) g_zero
  | Some v => mkin (Some (fun _ => v / num_grid)%Q) (in_gz p)
  end.
(** imag_self_energy.py 132-138 *)
Definition run_interaction (const : option Q) (is_full_pp : bool) (s : collider * interaction) : collider * interaction :=
  let '(c, p) := s in
  let p' := interaction_run const (if is_full_pp then None else co_gz c) p in
  (mkco (co_g c) (co_gz c) (in_pp p'), p').
(** 318-324 *)
Definition set_interaction_strength (pp : Z -> Q) (g_zero : option (Z -> bool)) (s : collider * interaction) : collider * interaction :=
  let '(c, p) := s in
  (mkco (co_g c) (match g_zero with Some z => Some z | None => co_gz c end) (Some pp), mkin (Some pp) g_zero).
(** 299-316; the band b0 of entry x is (x / nb^2) mod nb0 *)
Definition set_averaged (v : Z -> Q) (s : collider * interaction) : collider * interaction :=
  let '(c, p) := s in (mkco (co_g c) (co_gz c) (Some (fun x => v ((x / (nb * nb)) mod nb0) / num_grid)%Q), p).

(** what collision.run leaves at one temperature: the linewidths before the average over degenerate bands (imag_self_energy.py 376-396, IseModel.v),
    and for the direct solution the elements that CollisionMatrix adds up, for a triplet, whether its last two points are exchanged, and bands (ColModel.v) *)
Record output := { o_gamma : Z -> Q; o_elem : Z -> bool -> Z -> Z -> Z -> Q }.
Definition gamma (pp gw : Z -> Q) (gz : Z -> bool) (T : Q) (b : Z) : Q :=
  let at_g i := run_seq Z.eq_dec (with_g_inner bose nb0 nb ntrip 0 (-1) pp freq triplets weights gw gz T cutoff i) (fun _ => 0%Q) in
  (sum_triplets nb0 ntrip (run_seq Z.eq_dec (with_g_outer nb0 nb ntrip 0 (-1) gz at_g) (fun _ => 0%Q)) b * unit)%Q.
Definition get {A} (d : A) (o : option A) : A := match o with Some a => a | None => d end.
Definition outputs (c : collider) (T : Q) : output :=
  let pp := get (fun _ => 0%Q) (co_pp c) in let gw := get (fun _ => 0%Q) (co_g c) in let gz := get (fun _ => false) (co_gz c) in
  {| o_gamma := gamma pp gw gz T; o_elem := collision ish nb0 nb ntrip pp freq gw T unit cutoff |}.
(** 103-115 *)
Definition collision_run (const : option Q) (T : Q) (s : collider * interaction) : (collider * interaction) * output :=
  let s' := match co_pp (fst s) with None => run_interaction const true s | Some _ => s end in (s', outputs (fst s') T).

(** rta.py 250-288; [lbte]: direct_solution.py 475-517, which only warns when the zeros differ and has no averaged nor constant strengths *)
Definition different_zeros (z gz : Z -> bool) : bool := existsb (fun x => negb (Bool.eqb (z x) (gz x))) (zrange (ntrip * nb0 * nb * nb)).
Definition const_of (md : mode) : option Q := match md with Constant v => Some v | _ => None end.
Definition strengths (lbte : bool) (md : mode) (j : nat) (sigma : option Q) (s : collider * interaction) : result (collider * interaction) :=
  match md with
  | Read file =>
      match file sigma with
      | None => Err TypeError
      | Some (pp, z) =>
          match z with
          | Some z => if different_zeros z (get (fun _ => false) (co_gz (fst s))) then (if lbte then Ok (set_interaction_strength pp (Some z) s) else Err ValueError)
                      else Ok (set_interaction_strength pp None s)
          | None => Ok (set_interaction_strength pp None s)
          end
      end
  | Averaged v => Ok (set_averaged v s)
  | Constant v => Ok (run_interaction (Some v) true s)
  | Compute full =>
      if negb (Nat.eqb j 0) && (full || match sigma_cutoff with None => true | Some _ => false end) then Ok s
      else Ok (run_interaction None full s)
  end.
(** rta.py 301-305, direct_solution.py 522-536: the loop over temperatures *)
Fixpoint at_temperatures (const : option Q) (temps : list Q) (s : collider * interaction) : (collider * interaction) * list output :=
  match temps with
  | [] => (s, [])
  | T :: ts => let '(s1, o) := collision_run const T s in let '(s2, os) := at_temperatures const ts s1 in (s2, o :: os)
  end.
(** one pass of the loop over widths *)
Definition at_sigma (lbte : bool) (md : mode) (temps : list Q) (j : nat) (sigma : option Q) (s : collider * interaction)
  : result ((collider * interaction) * list output) :=
  match strengths lbte md j sigma (run_integration_weights sigma (set_sigma (fst s)), snd s) with
  | Err e => Err e
  | Ok s' => Ok (at_temperatures (const_of md) temps s')
  end.
Fixpoint from_sigma (lbte : bool) (md : mode) (temps : list Q) (j : nat) (sigmas : list (option Q)) (s : collider * interaction)
  : result ((collider * interaction) * list (list output)) :=
  match sigmas with
  | [] => Ok (s, [])
  | sigma :: rest =>
      match at_sigma lbte md temps j sigma s with
      | Err e => Err e
      | Ok (s1, o) => match from_sigma lbte md temps (S j) rest s1 with Err e => Err e | Ok (s2, os) => Ok (s2, o :: os) end
      end
  end.
(** rta.py 232-305; out of range of the linewidths of width j and temperature k: nth k (nth j _) *)
Definition at_sigmas (lbte : bool) (md : mode) (temps : list Q) (sigmas : list (option Q)) (s : collider * interaction)
  : result ((collider * interaction) * list (list output)) := from_sigma lbte md temps 0 sigmas s.
(** utils.py 958-989: what is written and the width in the name of the file *)
Definition write_pp (sigmas : list (option Q)) (p : interaction) : option Q * (option (Z -> Q) * option (Z -> bool)) :=
  (last sigmas None, (in_pp p, in_gz p)).

(** ** The low-memory loop *)
(** rta.py 370 and c/pp_collision.c: `if sigma is None` chooses the tetrahedra here, where triplets.py 187 has `if sigma:` *)
Definition low_body (sigma : option Q) (i : Z) : Z -> Z -> Z -> Z * list Q :=
  match sigma with
  | Some s => sigma_weight gauss s (match sigma_cutoff with None => (-1)%Q | Some c => c end) 2 (fun _ => triplets i) nb fp freq
  | None => tetra_weight eps (tp_grid (k_B g) (k_out g) (k_ty g) Qg rl) 2 rel (fun _ => triplets i) nb nb fp freq freq
  end.
(** 108-119, 196-203: g and g_zero of a triplet *)
Definition low_cells (sigma : option Q) (i : Z) : cell -> Q := iw_arrays 1 nb0 nb nb (low_body sigma i) (fun _ => 0%Q).
(** 222-251 (get_collision): the strengths of a triplet, calculated where g_zero is not set *)
Definition low_phi (sigma : option Q) (i x : Z) : Q := if flag_of (low_cells sigma i) x then 0%Q else raw (i * (nb0 * nb * nb) + x).
(** rta.py 437-444 *)
Definition low_gamma (is_N : Z -> bool) (sigma : option Q) (temps : list Q) (k b : Z) : Q :=
  let nt := Z.of_nat (length temps) in
  let gw i x := low_cells sigma i (c_iw x) in
  let gz i := flag_of (low_cells sigma i) in
  let at_g i := run_seq Z.eq_dec (lowmem_inner bose nb0 nb (low_phi sigma) freq triplets weights gw gz (fun j => nth (Z.to_nat j) temps 0%Q) nt cutoff i) (fun _ => 0%Q) in
  let ise := run_seq Z.eq_dec (lowmem_outer nb0 nb ntrip nt gz at_g) (fun _ => 0%Q) in
  (finalize_ise ise is_N ntrip nt nb0 false (fun _ => 0%Q) (k * nb0 + b)%Z * unit * pp_unit)%Q.
End Sig.
