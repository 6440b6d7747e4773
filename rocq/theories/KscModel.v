(** The command phono3py-kaccum: phono3py/cui/kaccum_script.py. [g] and [rots] are the BZGrid of the primitive cell (dense index map, 261-266)
    with its reciprocal rotations. Simplifications: doubles are rationals; an option of _get_mode_property is given alone; the comparison of
    q-points in _assert_grid_in_hdf5 (120-126) is the argument [q_ok]; square roots (norms of group velocities and of mean free paths) are
    data of the file; printed lines are the numbers before formatting. Arrays are functions of their indices. Each failure of KappaDOSTHM other
    than an index of grg2bzg is [Refused]. *)
From Coq Require Import ZArith QArith Qabs List Bool.
From Verif Require Import Base Mat3 QMat GridSpec GridModel BzModel BzProps TripletModel TripletProps TetraModel IwModel RestartModel KaccumModel.
Import ListNotations.
Open Scope Z_scope.

Inductive kerr := AssertionError | IndexError | TypeError | Exit | Refused.
Inductive kres (A : Type) := KOk (x : A) | KErr (e : kerr).
Arguments KOk {A}. Arguments KErr {A}.
Definition kthen {A B} (r : kres A) (f : A -> kres B) : kres B := match r with KOk x => f x | KErr e => KErr e end.

(** what is read from kappa-*.hdf5 or phonon-*.hdf5; rows are grid points. [h_ir] is (ir_grid_weights, ir_grid_points) *)
Record kfile := KFile {
  h_n : Z; h_freq : Z -> Z -> Q; h_weight : option (list Z); h_grid_point : option (list Z); h_ir : option (list Z * list Z);
  h_temps : option (list Q);
  h_pp : Z -> Z -> Q; h_gruneisen : Z -> Z -> Q; h_norm : Z -> Z -> Q; h_cv : Z -> Z -> Z -> Q; h_gamma : Z -> Z -> Z -> Q;
  h_kappa : option (Z -> Z -> Z -> Z -> Q); h_gv2 : Z -> Z -> Z -> Q; h_mfp : option (Z -> Z -> Z -> Q) }.
Inductive skind := Pqj | Cv | Tau | GvNorm | Gamma | Gruneisen | Dos.

Section Ksc.
Variable g : bzgrid.
Variable rots : list M3.
Variable init : Z -> Z.
Variable q_ok : bool.
Variable nb : Z.
(** [eps]: guard of c/tetrahedron_method.c; [epsilon]: 1e-8 of kaccum.py and of line 17; [pi2] is 2 pi; [nd] the normal distribution *)
Variable eps epsilon pi2 : Q.
Variable nd : Q -> Q -> Q.

Definition ir_map : Z -> Z := get_ir_grid_map rots (bD (k_B g)) vzero init.
Definition all_gr : Z := mesh_size (bD (k_B g)).
Definition ir_ref : list Z := ir_grid_points ir_map all_gr.
(** 268-303 and 65-126: irreducible points and map on the GR-grid, weights, rows of the frequencies *)
Definition collect (h : kfile) (no_gridsym : bool) : kres (option (list Z) * option (list Z) * list Z * list Z) :=
  let '(w, gp, rows) :=
    match h_weight h with
    | Some w => (w, h_grid_point h, zrange (h_n h))
    | None => match h_ir h, no_gridsym with
              | Some (w, p), false => (w, Some p, p)
              | _, _ => (repeat 1 (Z.to_nat (h_n h)), None, zrange (h_n h))
              end
    end in
  if no_gridsym || forallb (fun x => x =? 1) w then KOk (None, None, w, rows)
  else
    let bz := map (grg2bzg (k_out g) (k_ty g)) ir_ref in
    if negb (zlist_eqb w (map (ir_weight ir_map all_gr) ir_ref)) then KErr AssertionError
    else if negb match gp with Some p => zlist_eqb p bz | None => true end then KErr AssertionError
    else if negb q_ok then KErr AssertionError
    else KOk (Some (map (o_b2g (k_out g)) bz), Some (map ir_map (zrange all_gr)), w, rows).
(** 305-310 *)
Definition shown_frequency (h : kfile) (rows : list Z) (k : Z) : Q :=
  let f := fun k => h_freq h (nth (Z.to_nat (k / nb)) rows 0) (k mod nb) in
  if 3 <? zcount (fun k => negb (qltb 0 (f k))) (zrange (Z.of_nat (length rows) * nb)) then (if qltb 0 (f k) then f k else 0%Q) else f k.
Definition temps (h : kfile) : list Q := match h_temps h with Some l => l | None => [0%Q] end.
(** 52-62 (_set_T_target): None is unpacked by the callers: TypeError *)
Fixpoint T_index (l : list Q) (T : Q) : option Z :=
  match l with [] => None | t :: r => if qltb (Qabs (t - T)) epsilon then Some 0 else option_map Z.succ (T_index r T) end.
(** 129-155 (_get_mode_property): the array and its number of temperatures *)
Definition mode_property (h : kfile) (k : skind) : (Z -> Z -> Z -> Q) * Z :=
  let n := Z.of_nat (length (temps h)) in
  match k with
  | Pqj => (fun _ => h_pp h, 1)
  | Cv => (h_cv h, n)
  | Tau => (fun t i b => let x := h_gamma h t i b in let x := if qltb 0 x then x else (-1)%Q in if qltb 0 x then (1 / (2 * pi2 * x))%Q else 0%Q, n)
  | GvNorm => (fun _ => h_norm h, 1)
  | Gamma => (h_gamma h, n)
  | Gruneisen => (fun _ i b => (h_gruneisen h i b * h_gruneisen h i b)%Q, 1)
  | Dos => (fun _ _ _ => 1%Q, 1)
  end.
Definition at_all_T (k : skind) : bool := match k with GvNorm | Pqj | Gruneisen | Dos => true | _ => false end.
(** the index of grg2bzg in KappaDOSTHM.__init__ (kaccum.py 109-113) and the rest *)
Definition dos (frequencies : Z -> Q) (prop : Z -> Z -> Z -> Z -> Q) (n_ir : Z) (irm irs : option (list Z)) (nsp : Z) : kres (list Q * (Z -> Z -> Z -> Z -> Q)) :=
  if forallb (fun x => (0 <=? x) && (x <? all_gr)) (match irs with Some l => l | None => zrange n_ir end)
  then match run_prop_dos eps epsilon frequencies prop n_ir nb irm irs nsp g with Some r => KOk r | None => KErr Refused end
  else KErr IndexError.
(** a block of lines of the output: temperature of its heading; sampling point and columns *)
Definition block := (option Q * list (Q * list Q))%type.
(** 38-49 (_show_scalar). The rows of sampling points are the same for each temperature; for three of the properties a row of them meets a
    format for one number, which takes an array only if it has one element *)
Definition show_scalar (k : skind) (ts : list Q) (slots : Z) (fps : list Q) (v : Z -> Z -> Z -> Q) : kres (list block) :=
  match k with
  | Pqj | Gruneisen | GvNorm =>
      match fps with
      | [] => KOk [(None, [])]
      | [f] => KOk [(None, [(f, [v 0 0 0; v 0 0 1])])]
      | _ => KErr TypeError
      end
  | _ => KOk (map (fun t => (Some (nth (Z.to_nat t) ts 0%Q), map (fun i => (nth (Z.to_nat i) fps 0%Q, [v t i 0; v t i 1])) (zrange (size fps)))) (zrange slots))
  end.
(** 318-357 (_run_scalar) *)
Definition run_scalar (h : kfile) (no_gridsym smearing : bool) (k : skind) (T : option Q) (nsp : Z) : kres (list block) :=
  kthen (collect h no_gridsym) (fun '(irs, irm, w, rows) =>
    let '(prop, slots) := mode_property h k in
    kthen (match T, at_all_T k with
           | Some T, false => match T_index (temps h) T with Some i => KOk ([nth (Z.to_nat i) (temps h) 0%Q], fun t => prop (i + t), 1) | None => KErr TypeError end
           | _, _ => KOk (temps h, prop, slots)
           end) (fun '(ts, prop, slots) =>
      let freq := shown_frequency h rows in let n_ir := Z.of_nat (length rows) in
      let weight := fun i => nth (Z.to_nat i) w 0 in
      if smearing
      then if match k with Dos => negb (n_ir =? h_n h) | _ => false end then KErr Refused (* shapes of _run_smearing_method *)
      else match gamma_dos_smearing nd epsilon prop freq n_ir nb weight None nsp with
           | Some (fps, gd) => show_scalar k ts slots fps (fun t f j => if j =? 1 then gd t f else 0%Q)
           | None => KErr Refused
           end
      else kthen (dos freq (fun t i b _ => prop t i b * inject_Z (weight i))%Q n_ir irm irs nsp) (fun r => show_scalar k ts slots (fst r) (fun t f j => snd r t f j 0)))).

Inductive columns := Six | Average | Trace.
(** 20-35 (_show_tensor) *)
Definition cells (c : columns) (v : Z -> Z -> Q) : list Q :=
  let tr := fun j => (v j 0%Z + v j 1%Z + v j 2%Z)%Q in
  match c with
  | Six => map (v 0) (zrange 6) ++ map (v 1) (zrange 6)
  | Average => [tr 0%Z / 3; tr 1%Z / 3]%Q
  | Trace => [tr 0; tr 1]
  end.
Definition show_tensor (c : columns) (gv : bool) (ts : list Q) (slots : Z) (at_t : Z -> list Q * (Z -> Z -> Z -> Q)) : list block :=
  map (fun t => (if gv then None else Some (nth (Z.to_nat t) ts 0%Q), map (fun i => (nth (Z.to_nat i) (fst (at_t t)) 0%Q, cells c (snd (at_t t) i))) (zrange (size (fst (at_t t)))))) (zrange slots).
(** 360-424 (_run_tensor). [volume] of the primitive cell. In run_mfp_dos (kaccum.py 318-333) a slice of the properties without elements
    gives kdos_at_T of length 0 *)
Definition run_tensor (h : kfile) (no_gridsym gv mfp : bool) (c : columns) (volume : Q) (T : option Q) (nsp : Z) : kres (list block) :=
  kthen (collect h no_gridsym) (fun '(irs, irm, _, rows) =>
    kthen (if gv then KOk (fun _ i b e => (h_gv2 h i b e / volume)%Q, 1)
           else match h_kappa h with Some p => KOk (p, Z.of_nat (length (temps h))) | None => KErr Exit end) (fun '(prop, slots) =>
      let n_ir := Z.of_nat (length rows) in
      if mfp then
        let path := match h_mfp h with Some p => p | None => fun t i b => get_mfp pi2 (h_gamma h t i b) (h_norm h i b) end in
        kthen (match T with
               | Some T => match T_index (temps h) T with
                           | Some i => KOk ([nth (Z.to_nat i) (temps h) 0%Q], fun t => prop (i + t), Z.max 0 (Z.min (i + 1) slots - i), fun t => path (i + t), 1)
                           | None => KErr TypeError
                           end
               | None => KOk (temps h, prop, slots, path, Z.of_nat (length (temps h)))
               end) (fun '(ts, prop, slots, path, n_temp) =>
          if negb (forallb (fun x => (0 <=? x) && (x <? all_gr)) (match irs with Some l => l | None => zrange n_ir end)) then KErr IndexError
          else if slots <? n_temp then KErr IndexError
          else match run_mfp_dos eps epsilon (fun t k => path t (k / nb) (k mod nb)) prop n_temp n_ir nb irm irs nsp g with
               | Some l => KOk (show_tensor c gv ts n_temp (fun t => nth (Z.to_nat t) l ([], fun _ _ _ => 0%Q)))
               | None => KErr Refused
               end)
      else
        kthen (match T, gv with
               | Some T, false => match T_index (temps h) T with Some i => KOk ([nth (Z.to_nat i) (temps h) 0%Q], fun t => prop (i + t), 1) | None => KErr TypeError end
               | _, _ => KOk (temps h, prop, slots)
               end) (fun '(ts, prop, slots) =>
          kthen (dos (shown_frequency h rows) prop n_ir irm irs nsp) (fun r => KOk (show_tensor c gv ts slots (fun t => (fst r, snd r t))))))).
End Ksc.
