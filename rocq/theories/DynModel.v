(** Dynamical matrices: c/dynmat.c 188-424, 471-711 and c/phonon.c 305-470.
    Simplifications: arrays of (real, imaginary) pairs are functions from the index to [cplx]; [cis x] stands for the pair
    (cos(2 PI x), sin(2 PI x)), [sq] for sqrt and [ex] for exp, all function arguments; small local arrays (dm, KK, q_born, q_cart)
    are functions of their indices because each element is computed from its own indices only. Null pointers are [None].
    The parallel loops guarded by use_openmp write the elements of the sequential ones; phonon.c passes use_openmp = 0
    (the parallel version of the matrix is [dym_progs]). *)
From Coq Require Import ZArith QArith List Bool.
From Verif Require Import Base QMat Par Cplx.
Import ListNotations.
Open Scope Z_scope.

Definition sum3 (f : Z -> Q) : Q := fold_left (fun s m => (s + f m)%Q) (zrange 3) 0%Q.
(** dynmat.c 661-680 (make_Hermitian): the six statements in order *)
Definition herm_step (nb : Z) (mat : Z -> cplx) (i j : Z) : Z -> cplx :=
  let a := i * nb + j in let t := j * nb + i in
  let m1 := upd mat a (C (re (mat a) + re (mat t)) (im (mat a))) in
  let m2 := upd m1 a (C (re (m1 a) / 2) (im (m1 a))) in
  let m3 := upd m2 a (C (re (m2 a)) (im (m2 a) - im (m2 t))) in
  let m4 := upd m3 a (C (re (m3 a)) (im (m3 a) / 2)) in
  let m5 := upd m4 t (C (re (m4 a)) (im (m4 t))) in
  upd m5 t (C (re (m5 t)) (- im (m5 a))).
Definition make_Hermitian (nb : Z) (mat : Z -> cplx) : Z -> cplx :=
  fold_left (fun m i => fold_left (fun m d => herm_step nb m i (i + d)) (zrange (nb - i)) m) (zrange nb) mat.

Section Dyn.
Variable cis : Q -> cplx.
Variable sq ex : Q -> Q.
(** number of atoms in primitive cell and supercell *)
Variable np ns : Z.
Variable fc : Z -> Q.
Variable svecs : Z -> Z -> Q.
Variable multi : Z -> Z * Z.
Variable mass : Z -> Q.
Variable s2p p2s : Z -> Z.

(** ** dynmat.c *)
(** 509-533: phase factor of get_dm *)
Definition dm_phase (q : Z -> Q) (i k : Z) : cplx :=
  let '(m_pair, adrs) := multi (k * np + i) in
  fold_left (fun s l =>
    let c := cis (sum3 (fun m => (q m * svecs (adrs + l) m)%Q)) in
    C (re s + re c / inject_Z m_pair) (im s + im c / inject_Z m_pair)) (zrange m_pair) c0.
(** 509-550 (get_dm) *)
Definition get_dm (q : Z -> Q) (charge_sum : option (Z -> Z -> Z -> Q)) (i j k : Z) (dm : Z -> Z -> cplx) : Z -> Z -> cplx :=
  let ph := dm_phase q i k in
  fun l m =>
    let e := fc (p2s i * ns * 9 + k * 9 + l * 3 + m) in
    let fc_elem := match charge_sum with Some c => (e + c (i * np + j)%Z l m)%Q | None => e end in
    C (re (dm l m) + fc_elem * re ph) (im (dm l m) + fc_elem * im ph).
(** 471-500: the 3x3 block of get_dynmat_ij before it is stored *)
Definition dynmat_block (q : Z -> Q) charge_sum (i j : Z) : Z -> Z -> cplx :=
  let mass_sqrt := sq (mass i * mass j) in
  let dm := fold_left (fun dm k => if s2p k =? p2s j then get_dm q charge_sum i j k dm else dm) (zrange ns) (fun _ _ => c0) in
  fun k l => C (re (dm k l) / mass_sqrt) (im (dm k l) / mass_sqrt).
(** 501-507 *)
Definition get_dynmat_ij (q : Z -> Q) charge_sum (i j : Z) (D : Z -> cplx) : Z -> cplx :=
  let b := dynmat_block q charge_sum i j in
  fold_left (fun D k => fold_left (fun D l => upd D ((i * 3 + k) * np * 3 + j * 3 + l) (b k l)) (zrange 3) D) (zrange 3) D.
(** 226-260 (dym_get_dynamical_matrix_at_q) with use_openmp = 0 *)
Definition dym_at_q (q : Z -> Q) charge_sum (D : Z -> cplx) : Z -> cplx :=
  make_Hermitian (np * 3) (fold_left (fun D i => fold_left (fun D j => get_dynmat_ij q charge_sum i j D) (zrange np) D) (zrange np) D).
(** 236-246: the loop with use_openmp = 1 *)
Definition dym_progs (q : Z -> Q) charge_sum : list (@prog Z cplx) :=
  map (fun ij => let i := Z.quot ij np in let j := Z.rem ij np in
    wprog (flat_map (fun k => map (fun l => ((i * 3 + k) * np * 3 + j * 3 + l, dynmat_block q charge_sum i j k l)) (zrange 3)) (zrange 3))) (zrange (np * np)).

(** 393-424 (dym_get_charge_sum) *)
Definition dym_charge_sum (factor : Q) (q_cart : Z -> Q) (born : Z -> Z -> Z -> Q) : Z -> Z -> Z -> Q :=
  let q_born := fun i j => sum3 (fun k => (q_cart k * born i k j)%Q) in
  fun ij a b => (q_born (Z.quot ij np) a * q_born (Z.rem ij np) b * factor)%Q.
(** 552-563 (get_dielectric_part) *)
Definition dielectric_part (q : Z -> Q) (eps : Z -> Z -> Q) : Q :=
  fold_left (fun s i => fold_left (fun s j => (s + q i * eps i j * q j)%Q) (zrange 3) s) (zrange 3) 0%Q.
(** 588-623: KK of one G *)
Definition get_KK (G q_cart : Z -> Q) (dir : option (Z -> Q)) (eps : Z -> Z -> Q) (lambda tolerance : Q) (i j : Z) : Q :=
  let q_K := fun i => (G i + q_cart i)%Q in
  let L2 := (4 * lambda * lambda)%Q in
  if qltb (sq (sum3 (fun i => (q_K i * q_K i)%Q))) tolerance then
    match dir with
    | None => 0%Q
    | Some d => (d i * d j / dielectric_part d eps)%Q
    end
  else (q_K i * q_K j / dielectric_part q_K eps * ex (- dielectric_part q_K eps / L2))%Q.
(** 634-659 (get_dd_at_g) *)
Definition dd_at_g (pos : Z -> Z -> Q) (G : Z -> Q) (KK : Z -> Z -> Q) (i j : Z) (dd : Z -> cplx) : Z -> cplx :=
  let c := cis (sum3 (fun k => ((pos i k - pos j k) * G k)%Q)) in
  fold_left (fun dd k => fold_left (fun dd l =>
    let a := i * np * 9 + k * np * 3 + j * 3 + l in
    upd dd a (C (re (dd a) + KK k l * re c) (im (dd a) + KK k l * im c))) (zrange 3) dd) (zrange 3) dd.
(** 565-632 (get_dd) *)
Definition get_dd (G_list : list (Z -> Q)) (q_cart : Z -> Q) dir eps pos lambda tolerance (dd : Z -> cplx) : Z -> cplx :=
  fold_left (fun dd G => fold_left (fun dd i => fold_left (fun dd j =>
    dd_at_g pos G (get_KK G q_cart dir eps lambda tolerance) i j dd) (zrange np) dd) (zrange np) dd) G_list dd.
(** 682-711 (multiply_borns, multiply_borns_at_ij) *)
Definition multiply_borns (born : Z -> Z -> Z -> Q) (dd_in dd : Z -> cplx) : Z -> cplx :=
  fold_left (fun dd i => fold_left (fun dd j => fold_left (fun dd k => fold_left (fun dd l => fold_left (fun dd m => fold_left (fun dd n =>
    let a := i * np * 9 + k * np * 3 + j * 3 + l in
    let a_in := i * np * 9 + m * np * 3 + j * 3 + n in
    let zz := (born i m k * born j n l)%Q in
    upd dd a (C (re (dd a) + re (dd_in a_in) * zz) (im (dd a) + im (dd_in a_in) * zz)))
    (zrange 3) dd) (zrange 3) dd) (zrange 3) dd) (zrange 3) dd) (zrange np) dd) (zrange np) dd.
(** 262-310 (dym_get_recip_dipole_dipole). dd and dd_tmp are zeroed first (276-281). *)
Definition recip_dd (dd_q0 : Z -> cplx) G_list q_cart dir born eps pos (factor lambda tolerance : Q) : Z -> cplx :=
  let dd_tmp := get_dd G_list q_cart dir eps pos lambda tolerance (fun _ => c0) in
  let dd := multiply_borns born dd_tmp (fun _ => c0) in
  let dd := fold_left (fun dd i => fold_left (fun dd k => fold_left (fun dd l =>
    let a := i * np * 9 + k * np * 3 + i * 3 + l in let s := i * 9 + k * 3 + l in
    upd dd a (C (re (dd a) - re (dd_q0 s)) (im (dd a) - im (dd_q0 s)))) (zrange 3) dd) (zrange 3) dd) (zrange np) dd in
  fun a => C (re (dd a) * factor) (im (dd a) * factor).
(** 312-391 (dym_get_recip_dipole_dipole_q0) *)
Definition q0_herm_step (dd : Z -> cplx) (a t : Z) : Z -> cplx :=
  let d1 := upd dd a (C (re (dd a) + re (dd t)) (im (dd a))) in
  let d2 := upd d1 a (C (re (d1 a) / 2) (im (d1 a))) in
  let d3 := upd d2 t (C (re (d2 a)) (im (d2 t))) in
  let d4 := upd d3 a (C (re (d3 a)) (im (d3 a) - im (d3 t))) in
  let d5 := upd d4 a (C (re (d4 a)) (im (d4 a) / 2)) in
  upd d5 t (C (re (d5 t)) (- im (d5 a))).
Definition recip_dd_q0 G_list born eps pos (lambda tolerance : Q) : Z -> cplx :=
  let dd1 := get_dd G_list (fun _ => 0%Q) None eps pos lambda tolerance (fun _ => c0) in
  let dd2 := multiply_borns born dd1 (fun _ => c0) in
  let q0 := fold_left (fun d i => fold_left (fun d k => fold_left (fun d l =>
    fold_left (fun d j => upd d (i * 9 + k * 3 + l) (cadd (d (i * 9 + k * 3 + l)) (dd2 (i * np * 9 + k * np * 3 + j * 3 + l)))) (zrange np) d)
    (zrange 3) d) (zrange 3) d) (zrange np) (fun _ => c0) in
  fold_left (fun d i => fold_left (fun d k => fold_left (fun d l => q0_herm_step d (i * 9 + k * 3 + l) (i * 9 + l * 3 + k)) (zrange 3) d) (zrange 3) d) (zrange np) q0.

(** ** phonon.c *)
(** rows of reciprocal_lattice times a vector: 332-337, 341-347, 418-430 *)
Definition to_cart (rl : Z -> Z -> Q) (q : Z -> Q) (i : Z) : Q := sum3 (fun j => (rl i j * q j)%Q).
(** 305-375 (get_gonze_phonons) *)
Definition gonze_matrix (q : Z -> Q) born eps rl (q_direction : option (Z -> Q)) (nac_factor : Q) dd_q0 G_list pos lambda tolerance (D : Z -> cplx) : Z -> cplx :=
  let D := dym_at_q q None D in
  let dir := match q_direction with Some d => Some (to_cart rl d) | None => None end in
  let dd := recip_dd dd_q0 G_list (to_cart rl q) dir born eps pos nac_factor lambda tolerance in
  fold_left (fun D i => fold_left (fun D j => fold_left (fun D k => fold_left (fun D l =>
    let a := i * np * 9 + k * np * 3 + j * 3 + l in let mm := sq (mass i * mass j) in
    upd D a (C (re (D a) + re (dd a) / mm) (im (D a) + im (dd a) / mm)))
    (zrange 3) D) (zrange 3) D) (zrange np) D) (zrange np) D.
(** 407-450 (get_charge_sum) *)
Definition charge_sum (q : Z -> Q) born eps rl (q_direction : option (Z -> Q)) (nac_factor : Q) : Z -> Z -> Z -> Q :=
  let q_cart := match q_direction with Some d => to_cart rl d | None => to_cart rl q end in
  let inv := sum3 (fun i => (sum3 (fun j => eps i j * q_cart j) * q_cart i)%Q) in
  dym_charge_sum (nac_factor / inv / inject_Z ns * inject_Z np) q_cart born.
(** 452-470 (needs_nac) *)
Definition needs_nac (born : bool) (adr : Z -> Z) (q_direction : option (Z -> Q)) : bool :=
  if born then negb ((adr 0 =? 0) && (adr 1 =? 0) && (adr 2 =? 0) && match q_direction with None => true | Some _ => false end)
  else false.
(** 377-405 (get_dynamical_matrix) *)
Definition wang_matrix (is_nac : bool) (q : Z -> Q) born eps rl q_direction nac_factor (D : Z -> cplx) : Z -> cplx :=
  dym_at_q q (if is_nac then Some (charge_sum q born eps rl q_direction nac_factor) else None) D.
(** 204-219: q of a grid point, then its matrix *)
Definition grid_q (QDinv : Z -> Z -> Q) (adr : Z -> Z) (j : Z) : Q := (QDinv j 0%Z * inject_Z (adr 0%Z) + QDinv j 1%Z * inject_Z (adr 1%Z) + QDinv j 2%Z * inject_Z (adr 2%Z))%Q.
Definition undone_matrix QDinv adr (born : option (Z -> Z -> Z -> Q)) eps rl q_direction nac_factor (D : Z -> cplx) : Z -> cplx :=
  match born with
  | Some b => wang_matrix (needs_nac true adr q_direction) (grid_q QDinv adr) b eps rl q_direction nac_factor D
  | None => wang_matrix (needs_nac false adr q_direction) (grid_q QDinv adr) (fun _ _ _ => 0%Q) eps rl q_direction nac_factor D
  end.
(** 266-280 (needs_nac is computed there but get_gonze_phonons does not use it) *)
Definition gonze_undone_matrix QDinv adr born eps rl q_direction nac_factor dd_q0 G_list pos lambda tolerance (D : Z -> cplx) : Z -> cplx :=
  gonze_matrix (grid_q QDinv adr) born eps rl q_direction nac_factor dd_q0 G_list pos lambda tolerance D.
End Dyn.
