(** Integration weights of triplets: c/triplet_iw.c, c/triplet.c:65-115, 135-160,
    c/phono3py.c:441-484, 650-705. [exp] is an argument (inside [gauss]); the loops write to disjoint
    elements and are given as their lists of writes. *)
From Coq Require Import ZArith QArith Qabs List Bool.
From Verif Require Import Base Mat3 QMat GridModel BzModel TripletModel TetraModel Par.
Import ListNotations.
Open Scope Z_scope.

(** ** Neighbouring grid points *)
(** c/triplet_iw.c:298-323 get_neighboring_grid_points_type1, one relative address *)
Definition neighbor1 (T : TpGrid) (grid_point : Z) (rel : V3) : Z :=
  let '(v3 d0 d1 d2) := g_D T in
  let bzmesh := v3 (d0 * 2) (d1 * 2) (d2 * 2) in
  let prod_bz_mesh := d0 * 2 * (d1 * 2) * (d2 * 2) in
  let bz_address := vadd (g_addr T grid_point) rel in
  let bz_gp := g_map T (grid_index bz_address bzmesh) in
  if bz_gp =? prod_bz_mesh then grid_index bz_address (g_D T) else bz_gp.
(** c/triplet_iw.c:325-350 get_neighboring_grid_points_type2, one relative address *)
Definition neighbor2 (T : TpGrid) (grid_point : Z) (rel : V3) : Z :=
  let bz_address := vadd (g_addr T grid_point) rel in
  let gp := grid_index bz_address (g_D T) in
  if 1 <? g_map T (gp + 1) - g_map T gp then
    match find_first (fun j => veqb bz_address (g_addr T j)) (zseq (g_map T gp) (g_map T (gp + 1))) with
    | Some j => j
    | None => g_map T gp
    end
  else g_map T gp.
(** c/triplet_iw.c:208-222 tpi_get_neighboring_grid_points *)
Definition neighbor (T : TpGrid) (grid_point : Z) (rel : V3) : Z :=
  if g_type T =? 1 then neighbor1 T grid_point rel else neighbor2 T grid_point rel.
Definition neighboring_grid_points (T : TpGrid) (grid_point : Z) (rels : list V3) : list Z :=
  map (neighbor T grid_point) rels.

(** c/triplet.c:135-160 tpl_set_relative_grid_address, the addresses of side i (0 or 1) *)
Definition tp_sign (tp_type : Z) (i : Z) : Z :=
  if (i =? 1) && ((tp_type =? 2) || (tp_type =? 3)) then -1 else 1.
Definition tp_relative (tp_type i : Z) (rel : list (list V3)) : list (list V3) :=
  map (map (fun v => let s := tp_sign tp_type i in let '(v3 x y z) := v in v3 (x * s) (y * s) (z * s))) rel.
Definition tp_nth (t : Z * Z * Z) (i : Z) : Z :=
  let '(a, b, c) := t in if i =? 0 then a else if i =? 1 then b else c.
(** c/triplet_iw.c:283-296 get_triplet_tetrahedra_vertices *)
Definition tetrahedra_vertices (T : TpGrid) (tp_type : Z) (rel : list (list V3)) (triplet : Z * Z * Z) (i : Z)
  : list (list Z) :=
  map (neighboring_grid_points T (tp_nth triplet (i + 1))) (tp_relative tp_type i rel).

(** ** Tetrahedron weights *)
(** [double freq_vertices[24][4]] from a function of the vertex *)
Definition to_t4 (l : list Q) : T4 := t4 (nth 0 l 0%Q) (nth 1 l 0%Q) (nth 2 l 0%Q) (nth 3 l 0%Q).
Definition combine_with {X Y C} (f : X -> Y -> C) (a : list X) (b : list Y) : list C :=
  map (fun p => f (fst p) (snd p)) (combine a b).
Definition clamp (tp_type : Z) (f : Q) : Q :=
  if ((tp_type =? 2) || (tp_type =? 3)) then (if qltb f 0 then 0%Q else f) else f.
(** c/triplet_iw.c:224-253 set_freq_vertices: entry k of the three (one for tp_type 4) *)
Definition freq_vertices (tp_type : Z) (freq1 freq2 : Z -> Q) (nb1 nb2 b1 b2 : Z)
    (v0 v1 : list (list Z)) (k : Z) : list T4 :=
  combine_with (fun r0 r1 => to_t4 (combine_with (fun g0 g1 =>
    let f1 := clamp tp_type (freq1 (g0 * nb1 + b1)) in
    let f2 := clamp tp_type (freq2 (g1 * nb2 + b2)) in
    (if k =? 0 then - f1 + f2 else if k =? 1 then f1 - f2 else f1 + f2)%Q) r0 r1)) v0 v1.

(** c/triplet_iw.c:264-281 set_g; [fv k] is freq_vertices[k]; entries of g not set are 0 here and are
    not read *)
Definition set_g (eps f0 : Q) (fv : Z -> list T4) (max_i : Z) : (Z -> Q) * Z :=
  fold_left (fun s i => let '(g, iw_zero) := s in
    if thm_in_tetrahedra f0 (fv i) then (upd g i (thm_get_integration_weight eps f0 (fv i) true), 0)
    else (upd g i 0%Q, iw_zero)) (zrange max_i) (fun _ => 0%Q, 1).

(** c/triplet_iw.c:114-129: values written to the planes of iw *)
Definition planes (tp_type : Z) (g0 g1 g2 : Q) : list Q :=
  if tp_type =? 2 then [g2; (g0 - g1)%Q]
  else if tp_type =? 3 then [g2; (g0 - g1)%Q; (g0 + g1 + g2)%Q]
  else if tp_type =? 4 then [g0]
  else [].
Definition max_i (tp_type : Z) : Z := if (tp_type =? 2) || (tp_type =? 3) then 3 else if tp_type =? 4 then 1 else 0.

(** shared arrays: elements of [iw] and of [iw_zero] *)
Inductive cell : Type := c_iw (i : Z) | c_zero (i : Z).
Definition cell_dec : forall a b : cell, {a = b} + {a <> b}.
Proof. decide equality; apply Z.eq_dec. Defined.

(** writes of one (triplet, b12, j): c/triplet_iw.c:109-130 and 157-192; [S] is the distance of planes *)
Definition weight_writes (S key : Z) (flag : Z) (pl : list Q) : list (cell * Q) :=
  (c_zero key, inject_Z flag) ::
  map (fun k => (c_iw (key + k * S), nth (Z.to_nat k) pl 0%Q)) (zrange (Z.of_nat (length pl))).

Section Tetra.
Variable eps : Q.
Variable T : TpGrid.
Variable tp_type : Z.
Variable rel : list (list V3).
Variable triplets : Z -> Z * Z * Z.
Variable nt nb0 nb1 nb2 : Z.
Variable freq_points freq1 freq2 : Z -> Q.

(** c/triplet_iw.c:66-133 tpi_get_integration_weight called at c/triplet.c:89-98, the body for one
    triplet, b12 and j: (iw_zero, planes) *)
Definition tetra_weight (i b12 j : Z) : Z * list Q :=
  let b1 := Z.quot b12 nb2 in
  let b2 := Z.rem b12 nb2 in
  let v0 := tetrahedra_vertices T tp_type rel (triplets i) 0 in
  let v1 := tetrahedra_vertices T tp_type rel (triplets i) 1 in
  let fv := freq_vertices tp_type freq1 freq2 nb1 nb2 b1 b2 v0 v1 in
  let '(g, z) := set_g eps (freq_points j) fv (max_i tp_type) in
  (z, planes tp_type (g 0) (g 1) (g 2)).
End Tetra.

Section Sigma.
Variable gauss : Q -> Q -> Q.  (* funcs_gaussian(x, sigma) *)
Variable sigma sigma_cutoff : Q.
Variable tp_type : Z.
Variable triplets : Z -> Z * Z * Z.
Variable nb : Z.
Variable freq_points freq : Z -> Q.
(** c/triplet_iw.c:135-195 tpi_get_integration_weight_with_sigma, cutoff from c/triplet.c:109 *)
Definition sigma_weight (i b12 j : Z) : Z * list Q :=
  let cutoff := (sigma * sigma_cutoff)%Q in
  let b1 := Z.quot b12 nb in
  let b2 := Z.rem b12 nb in
  let f1 := freq (tp_nth (triplets i) 1 * nb + b1) in
  let f2 := freq (tp_nth (triplets i) 2 * nb + b2) in
  let f0 := freq_points j in
  if (tp_type =? 2) || (tp_type =? 3) then
    if (qltb 0 cutoff && qltb cutoff (Qabs (f0 + f1 - f2)) && qltb cutoff (Qabs (f0 - f1 + f2)) &&
        qltb cutoff (Qabs (f0 - f1 - f2)))%bool
    then (1, planes tp_type 0 0 0)
    else (0, planes tp_type (gauss (f0 + f1 - f2)%Q sigma) (gauss (f0 - f1 + f2)%Q sigma) (gauss (f0 - f1 - f2)%Q sigma))
  else
    if (qltb 0 cutoff && qltb cutoff (Qabs (f0 + f1 - f2)))%bool then (1, planes tp_type 0 0 0)
    else (0, planes tp_type (gauss (f0 + f1 - f2)%Q sigma) 0 0).
End Sigma.

(** c/triplet.c:65-115: the loops over triplets (parallel), b12 (parallel) and j; [body i b12 j] as
    above. One list of writes per (i, b12): the finest iterations that may run in parallel. *)
Definition iw_key (nb0 nb1 nb2 i b12 j : Z) : Z :=
  i * (nb0 * nb1 * nb2) + (j * nb1 * nb2 + Z.quot b12 nb2 * nb2 + Z.rem b12 nb2).
Definition iw_iterations (nt nb0 nb1 nb2 : Z) (body : Z -> Z -> Z -> Z * list Q) : list (list (cell * Q)) :=
  flat_map (fun i => map (fun b12 =>
    flat_map (fun j => let '(z, pl) := body i b12 j in
      weight_writes (nt * nb0 * nb1 * nb2) (iw_key nb0 nb1 nb2 i b12 j) z pl) (zrange nb0))
    (zrange (nb1 * nb2))) (zrange nt).
(** the arrays after the loops run in order *)
Definition iw_arrays (nt nb0 nb1 nb2 : Z) (body : Z -> Z -> Z -> Z * list Q) (init : cell -> Q) : cell -> Q :=
  store cell_dec init (concat (iw_iterations nt nb0 nb1 nb2 body)).

(** ** Weights at grid points *)
(** c/phono3py.c:650-705 ph3py_get_thm_integration_weights_at_grid_points; one list of writes
    (index, value) per grid point (the parallel loop); [fI] is function == 'I' *)
Definition thm_gp_iterations (eps : Q) (T : TpGrid) (rel : list (list V3)) (grid_points : Z -> Z)
    (num_gp' nf nb : Z) (freq_points : Z -> Q) (freq : Z -> Q) (gp2irgp : Z -> Z) (fI : bool)
  : list (list (Z * Q)) :=
  map (fun i =>
    let vertices := map (neighboring_grid_points T (grid_points i)) rel in
    flat_map (fun bi =>
      let fv := map (fun r => to_t4 (map (fun v => freq (gp2irgp v * nb + bi)) r)) vertices in
      map (fun j => (i * nf * nb + j * nb + bi, thm_get_integration_weight eps (freq_points j) fv fI)) (zrange nf))
      (zrange nb)) (zrange num_gp').
