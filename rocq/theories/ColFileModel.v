(** Files of the collision matrix: conductivity/utils.py (write_collision 409-487, set_collision_from_file 992-1127,
    _allocate_collision 1130-1166, _collect_collision_gp 1169-1208, _collect_collision_band 1211-1252), file_IO.py
    (write_collision_to_hdf5, read_collision_from_hdf5 1110-1192), conductivity/direct_solution.py (_run_at_grid_point 354-383,
    _set_collision_matrix_at_sigmas 451-537, get_thermal_conductivity_LBTE 1770-1826), conductivity/base.py 516-518, 545-548.
    Simplifications as in RestartModel.v: a smearing width is a number standing for it, files are keyed by width, grid point
    and band, lengths of axes other than temperature fit, the grid point list is not empty. A row of the collision matrix (all
    elements of one grid point and band) is a value of type [M]. *)
From Coq Require Import ZArith QArith List Lia Bool.
From Verif Require Import Base RestartModel.
Import ListNotations.
Open Scope Z_scope.

Section ColFile.
Context {M : Type}.
Variable zeroM : M.
Variable gam : Z -> Q -> Z -> Z -> Q.
Variable col : Z -> Q -> Z -> Z -> M.
Variable iso : Z -> Z -> Z -> Q.
Variable nb : Z.
(** BZGrid.bzg2grg *)
Variable bzg2grg : Z -> Z.

(** collision-*.hdf5: temperature, gamma (axes temperature, ...), gamma_isotope, collision_matrix (axes temperature, ...) *)
Record cfile (A B : Type) := CFile { c_nt : Z; c_temp : Z -> Q; c_gamma : Z -> A; c_iso : option A; c_col : Z -> B }.
Arguments CFile {A B}. Arguments c_nt {A B}. Arguments c_temp {A B}. Arguments c_gamma {A B}. Arguments c_iso {A B}. Arguments c_col {A B}.
Record cfsys := Cfsys { cf : Z -> option (cfile (Z -> Z -> Q) (Z -> Z -> M)); cg : Z -> Z -> option (cfile (Z -> Q) (Z -> M)); cb : Z -> Z -> Z -> option (cfile Q M) }.
Definition no_cfiles : cfsys := Cfsys (fun _ => None) (fun _ _ => None) (fun _ _ _ => None).
Definition cput_f (fs : cfsys) s v : cfsys := Cfsys (fun s' => if s' =? s then Some v else cf fs s') (cg fs) (cb fs).
Definition cput_g (fs : cfsys) s g v : cfsys := Cfsys (cf fs) (fun s' g' => if (s' =? s) && (g' =? g) then Some v else cg fs s' g') (cb fs).
Definition cput_b (fs : cfsys) s g b v : cfsys :=
  Cfsys (cf fs) (cg fs) (fun s' g' b' => if (s' =? s) && (g' =? g) && (b' =? b) then Some v else cb fs s' g' b').

(** The conductivity object. [l_all]: grid_points was None. Arrays are indexed by sigma, temperature, stored grid point, band. *)
Record lbte := Lbte { l_gps : list Z; l_bands : list Z; l_sig : list Z; l_all : bool; l_red : bool; l_temps : list Q;
  l_gamma : arr4; l_col : Z -> Z -> Z -> Z -> M; l_iso : option (Z -> Z -> Z -> Q); l_read : bool }.
Definition set_arrays (l : lbte) g c i : lbte := Lbte (l_gps l) (l_bands l) (l_sig l) (l_all l) (l_red l) (l_temps l) g c i (l_read l).
(** temperatures setter, base.py 516-518: arrays are allocated. (The collision matrix only if it was not before, which holds
    for an object made with temperatures=None.) *)
Definition set_temps (ts : list Q) (l : lbte) : lbte :=
  Lbte (l_gps l) (l_bands l) (l_sig l) (l_all l) (l_red l) ts zero4 (fun _ _ _ _ => zeroM) (option_map (fun _ => fun _ _ _ => 0%Q) (l_iso l)) (l_read l).
Definition new_lbte (gps bands sig : list Z) (all red : bool) (ts : list Q) (is_iso : bool) : lbte :=
  set_temps ts (Lbte gps bands sig all red ts zero4 (fun _ _ _ _ => zeroM) (if is_iso then Some (fun _ _ _ => 0%Q) else None) false).

(** ** Computing and writing *)
Definition l_gp (l : lbte) (i : Z) : Z := znth 0 (l_gps l) i.
Definition pos (l : lbte) (i : Z) : Z := if l_red l then bzg2grg (l_gp l i) else i.
(** direct_solution.py 354-383 with 527-537 *)
Definition lbte_at (l : lbte) (i : Z) : lbte :=
  let c0 := if l_all l then l_col l else fun _ _ _ _ => zeroM in
  let at_ := if l_all l then pos l i else 0 in
  let g := if l_read l then l_gamma l
           else fun j t i' k => if i' =? at_ then gam (znth 0 (l_sig l) j) (znth 0%Q (l_temps l) t) (l_gp l i) (znth 0 (l_bands l) k) else l_gamma l j t i' k in
  let c := if l_read l then c0
           else fun j t i' k => if i' =? at_ then col (znth 0 (l_sig l) j) (znth 0%Q (l_temps l) t) (l_gp l i) (znth 0 (l_bands l) k) else c0 j t i' k in
  set_arrays l g c (option_map (fun x => fun j i' k => if i' =? pos l i then iso (znth 0 (l_sig l) j) (l_gp l i) (znth 0 (l_bands l) k) else x j i' k) (l_iso l)).
(** utils.py 409-487, with i given; is_one_gp_colmat = (grid_points is not None) *)
Definition write_col (l : lbte) (i : Z) (fs : cfsys) : cfsys :=
  let gp := l_gp l i in
  let igp := if l_all l then pos l i else 0 in
  let nt := zlen (l_temps l) in let tm := znth 0%Q (l_temps l) in
  if zlist_eqb (l_bands l) (zrange nb) then
    fold_left (fun fs j => cput_g fs (znth 0 (l_sig l) j) gp
      (CFile nt tm (fun t b => l_gamma l j t igp b) (option_map (fun x => fun b => x j igp b) (l_iso l)) (fun t b => l_col l j t igp b))) (zrange (zlen (l_sig l))) fs
  else
    fold_left (fun fs j =>
      fold_left (fun fs k => cput_b fs (znth 0 (l_sig l) j) gp (znth 0 (l_bands l) k)
        (CFile nt tm (fun t => l_gamma l j t igp k) (option_map (fun x => x j igp k) (l_iso l)) (fun t => l_col l j t igp k))) (zrange (zlen (l_bands l))) fs)
      (zrange (zlen (l_sig l))) fs.
(** utils.py 472-487, i is None *)
Definition write_col_full (l : lbte) (fs : cfsys) : cfsys :=
  fold_left (fun fs j => cput_f fs (znth 0 (l_sig l) j)
    (CFile (zlen (l_temps l)) (znth 0%Q (l_temps l)) (fun t i b => l_gamma l j t i b) (option_map (fun x => fun i b => x j i b) (l_iso l)) (fun t i b => l_col l j t i b)))
    (zrange (zlen (l_sig l))) fs.

(** ** Reading *)
Inductive outcome := Go (l : lbte) | Raised | Failed.
Definition obnd (x : outcome) (f : lbte -> outcome) : outcome := match x with Go l => f l | Raised => Raised | Failed => Failed end.
(** indices: None is "all" *)
Definition n_sel {A B} (ix : option (list Z)) (f : cfile A B) : Z := match ix with None => c_nt f | Some l => zlen l end.
Definition sel (ix : option (list Z)) (t : Z) : Z := match ix with None => t | Some l => znth 0 l t end.
(** numpy: source axis of length n against destination of length nt *)
Definition fits_n (n nt : Z) : bool := (n =? nt) || (n =? 1).
Definition rep (n t : Z) : Z := if n =? 1 then 0 else t.
Definition ctemps {A B} (f : cfile A B) : list Q := map (c_temp f) (zrange (c_nt f)).
(** full file, 1040-1052. gamma of the file is indexed with 0 along temperature. *)
Definition read_full (ix : option (list Z)) (j : Z) (f : cfile (Z -> Z -> Q) (Z -> Z -> M)) (alloc : bool) (l : lbte) : outcome :=
  let n := n_sel ix f in
  let l := if alloc then l else set_temps (map (fun t => c_temp f (sel ix t)) (zrange n)) l in
  if fits_n n (zlen (l_temps l)) && negb (n =? 0) then
    Go (set_arrays l (fun j' t i b => if j' =? j then c_gamma f (sel ix 0) i b else l_gamma l j' t i b)
                     (fun j' t i b => if j' =? j then c_col f (sel ix (rep n t)) i b else l_col l j' t i b) (l_iso l))
  else Raised.
(** _collect_collision_gp; [nloc] is the length of the array temperatures of the caller *)
Definition collect_gp (ix : option (list Z)) (nloc j i : Z) (f : cfile (Z -> Q) (Z -> M)) (l : lbte) : outcome :=
  let n := n_sel ix f in let igp := pos l i in
  if fits_n n (zlen (l_temps l)) && fits_n n nloc then
    Go (set_arrays l (fun j' t i' b => if (j' =? j) && (i' =? igp) then c_gamma f (sel ix (rep n t)) b else l_gamma l j' t i' b)
                     (fun j' t i' b => if (j' =? j) && (i' =? igp) then c_col f (sel ix (rep n t)) b else l_col l j' t i' b) (l_iso l))
  else Raised.
(** _collect_collision_band: unpacking None is a TypeError *)
Definition collect_band (fs : cfsys) (ix : option (list Z)) (nloc j s i : Z) (x : outcome) (b : Z) : outcome :=
  obnd x (fun l =>
    match cb fs s (l_gp l i) b with
    | None => Raised
    | Some f =>
        let n := n_sel ix f in let igp := pos l i in
        if fits_n n (zlen (l_temps l)) && fits_n n nloc && negb (n =? 0) then
          Go (set_arrays l (fun j' t i' b' => if (j' =? j) && (i' =? igp) && (b' =? b) then c_gamma f (sel ix 0) else l_gamma l j' t i' b')
                           (fun j' t i' b' => if (j' =? j) && (i' =? igp) && (b' =? b) then c_col f (sel ix (rep n t)) else l_col l j' t i' b') (l_iso l))
        else Raised
    end).
Definition collect (fs : cfsys) (ix : option (list Z)) (nloc j s : Z) (x : outcome) (i : Z) : outcome :=
  obnd x (fun l =>
    match cg fs s (l_gp l i) with
    | Some f => collect_gp ix nloc j i f l
    | None => fold_left (collect_band fs ix nloc j s i) (zrange (zlen (l_bands l))) (Go l)
    end).
(** _allocate_collision, for grid points and then for bands: temperatures of the first file, all of them *)
Definition first_temps (fs : cfsys) (s gp : Z) : option (list Q) :=
  match cg fs s gp with
  | Some f => Some (ctemps f)
  | None => match cb fs s gp 0 with Some f => Some (ctemps f) | None => None end
  end.
(** one smearing width; arrays are allocated at the first *)
Definition collect_sigma (fs : cfsys) (ix : option (list Z)) (x : outcome) (j : Z) : outcome :=
  obnd x (fun l =>
    let s := znth 0 (l_sig l) j in
    match cf fs s with
    | Some f => read_full ix j f (negb (j =? 0)) l
    | None =>
        match first_temps fs s (l_gp l 0) with
        | None => Failed
        | Some ts =>
            let l := if j =? 0 then set_temps ts l else l in
            fold_left (collect fs ix (zlen ts) j s) (zrange (zlen (l_gps l))) (Go l)
        end
    end).
Definition set_collision_from_file (fs : cfsys) (ix : option (list Z)) (l : lbte) : outcome :=
  fold_left (collect_sigma fs ix) (zrange (zlen (l_sig l))) (Go l).

(** ** Jobs: direct_solution.py 1770-1826 without reading; ends after [n] grid points *)
Record cjob := CJob { q_gps : option (list Z); q_bands : list Z; q_sig : list Z; q_red : bool; q_iso : bool; q_sol : bool; q_steps : Z }.
Definition cstep (st : lbte * cfsys) (i : Z) : lbte * cfsys := let l := lbte_at (fst st) i in (l, write_col l i (snd st)).
Definition run_cjob (ir : list Z) (ts : list Q) (q : cjob) (fs : cfsys) : lbte * cfsys :=
  let l := new_lbte (match q_gps q with Some g => g | None => ir end) (q_bands q) (q_sig q) (match q_gps q with Some _ => false | None => true end) (q_red q) ts (q_iso q) in
  let n := Z.min (q_steps q) (zlen (l_gps l)) in
  let st := fold_left cstep (zrange n) (l, fs) in
  (fst st, if q_sol q && (n =? zlen (l_gps l)) then write_col_full (fst st) (snd st) else snd st).
(** a calculation that reads and then loops over the grid points *)
Definition read_and_run (fs : cfsys) (ix : option (list Z)) (l : lbte) : outcome :=
  obnd (set_collision_from_file fs ix l) (fun l => Go (fold_left lbte_at (zrange (zlen (l_gps l))) l)).
End ColFile.
Arguments CFile {A B}. Arguments c_nt {A B}. Arguments c_temp {A B}. Arguments c_gamma {A B}. Arguments c_iso {A B}. Arguments c_col {A B}.
