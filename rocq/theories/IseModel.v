(** Imaginary part of self-energy: c/imag_self_energy_with_g.c, c/pp_collision.c 255-295,
    c/triplet.c 117-133 and the parts of phono3py/phonon3/imag_self_energy.py that combine them.
    [bose f t] stands for funcs_bose_einstein (c/funcs.c 43-45). *)
From Coq Require Import ZArith QArith List Bool Lia.
From Verif Require Import Base Mat3 QMat Par Par2.
Import ListNotations.
Open Scope Z_scope.

(** elements of an int64_t triplet[3] *)
Definition tp3 := (Z * Z * Z)%type.
Definition tp_at (t : tp3) (i : Z) : Z := let '(a, b, c) := t in if i =? 0 then a else if i =? 1 then b else c.

(** c/triplet.c 117-133 (tpl_is_N): components checked one after another, stop at the first non-zero sum *)
Definition tpl_is_N (addr : Z -> Z -> Z) (t : tp3) : bool :=
  forallb (fun i => (fold_left (fun s j => s + addr (tp_at t j) i) (zrange 3) 0) =? 0) (zrange 3).

Section Ise.
Variable bose : Q -> Q -> Q.

(** c/imag_self_energy_with_g.c 454-475 (set_occupations): n1 (which = 1) and n2 (which = 2) *)
Definition occupation (nb : Z) (T : Q) (t : tp3) (freq : Z -> Q) (cutoff : Q) (which j : Z) : Q :=
  let f := freq (tp_at t which * nb + j) in
  if qltb cutoff f then bose f T else (-1)%Q.

(** entries of g_pos: (band0, band1, band2, position) *)
Definition gpos := (Z * Z * Z * Z)%type.
(** 298-319 (ise_set_g_pos): loop state is (entries written so far, jkl) *)
Definition set_g_pos (nb0 nb : Z) (g_zero : Z -> bool) : list gpos :=
  fst (fold_left (fun s j => fold_left (fun s k => fold_left (fun s l =>
         let '(acc, jkl) := s in
         (if negb (g_zero jkl) then acc ++ [(j, k, l, jkl)] else acc, jkl + 1))
       (zrange nb) s) (zrange nb) s) (zrange nb0) (@nil gpos, 0)).
(** 330-355 (set_g_pos_frequency_point): state (entries, kl, jkl); kl restarts for every j *)
Definition set_g_pos_freq (nb0 nb : Z) (g_zero : Z -> bool) : list gpos :=
  let '(r, _) := fold_left (fun s j =>
       let '(acc, jkl) := s in
       let '(acc', _, jkl') := fold_left (fun s k => fold_left (fun s l =>
         let '(acc, kl, jkl) := s in
         (if negb (g_zero kl) then acc ++ [(j, k, l, jkl)] else acc, kl + 1, jkl + 1))
         (zrange nb) s) (zrange nb) (acc, 0, jkl) in
       (acc', jkl'))
     (zrange nb0) (@nil gpos, 0) in r.

(** 262-281: value of ise_at_g_pos[i * num_temps + j] from the occupations *)
Definition ise_value (T n1 n2 g1 g23 phi w : Q) : Q :=
  if qltb n1 0 || qltb n2 0 then 0%Q
  else if qltb 0 T then (((n1 + n2 + 1) * g1 + (n1 - n2) * g23) * phi * w)%Q
  else (g1 * phi * w)%Q.
(** 245-283: the loop over g_pos, [#pragma omp parallel for private(j, g_pos_3)], writing
    ise_at_g_pos (local to the call); one program per i *)
Definition ise_at_g_pos_prog (nb0 nb : Z) (phi freq : Z -> Q) (t : tp3) (w : Q) (g1 g23 : Z -> Q)
    (gp : list gpos) (temps : Z -> Q) (nt : Z) (cutoff : Q) (at_freq : bool) (i : Z) : @prog Z Q :=
  let '(_, k, l, p) := nth (Z.to_nat i) gp (0, 0, 0, 0) in
  let p3 := if at_freq then Z.rem p (nb * nb) else p in
  wprog (map (fun j => (i * nt + j,
     ise_value (temps j) (occupation nb (temps j) t freq cutoff 1 k) (occupation nb (temps j) t freq cutoff 2 l)
       (g1 p3) (g23 p3) (phi p) w)) (zrange nt)).
(** 285-293: imag_self_energy (at address [base]) zeroed, then accumulated from ise_at_g_pos, as reads and
    writes of the shared array ise *)
Definition ise_at_triplet_prog (base nb0 nt : Z) (gp : list gpos) (at_g : Z -> Q) : @prog Z Q :=
  pseq (wprog (map (fun i => (base + i, 0%Q)) (zrange (nt * nb0))))
    (pfor (zrange (Z.of_nat (length gp))) (fun i =>
       let '(b0, _, _, _) := nth (Z.to_nat i) gp (0, 0, 0, 0) in
       pfor (zrange nt) (fun j =>
         Rd (base + (j * nb0 + b0)) (fun v => Wr (base + (j * nb0 + b0)) (v + at_g (i * nt + j)%Z)%Q Ret)))).

(** g and g_zero of shape (2, num_triplets, num_band0 or num_frequency_points, num_band, num_band):
    71-156 (ise_get_imag_self_energy_with_g). [fpi] is frequency_point_index, [nfp] the number of
    frequency points; the parallel loop over triplets writes the shared array ise. [at_g i] is
    ise_at_g_pos of triplet i, the result of [ise_at_g_pos_prog]. *)
Definition g_index_dims (nb0 nb nfp fpi : Z) : Z := if fpi <? 0 then nb0 * nb * nb else nfp * nb * nb.
Definition g_index_shift (nb fpi : Z) : Z := if fpi <? 0 then 0 else fpi * nb * nb.
Definition with_g_gpos (nb0 nb nfp fpi : Z) (g_zero : Z -> bool) (i : Z) : list gpos :=
  let dims := g_index_dims nb0 nb nfp fpi in let sh := g_index_shift nb fpi in
  if fpi <? 0 then set_g_pos nb0 nb (fun x => g_zero (i * dims + x))
  else set_g_pos_freq nb0 nb (fun x => g_zero (i * dims + sh + x)).
Definition with_g_inner (nb0 nb nt_trip nfp fpi : Z) (phi freq : Z -> Q) (triplets : Z -> tp3) (weights : Z -> Z)
    (g : Z -> Q) (g_zero : Z -> bool) (T cutoff : Q) (i : Z) : list (@prog Z Q) :=
  let dims := g_index_dims nb0 nb nfp fpi in let sh := g_index_shift nb fpi in
  let gp := with_g_gpos nb0 nb nfp fpi g_zero i in
  map (ise_at_g_pos_prog nb0 nb (fun x => phi (i * (nb0 * nb * nb) + x)) freq (triplets i) (inject_Z (weights i))
         (fun x => g (i * dims + sh + x)) (fun x => g ((i + nt_trip) * dims + sh + x)) gp (fun _ => T) 1 cutoff (negb (fpi <? 0)))
      (zrange (Z.of_nat (length gp))).
Definition with_g_outer (nb0 nb nt_trip nfp fpi : Z) (g_zero : Z -> bool) (at_g : Z -> Z -> Q) : list (@prog Z Q) :=
  map (fun i => ise_at_triplet_prog (i * nb0) nb0 1 (with_g_gpos nb0 nb nfp fpi g_zero i) (at_g i)) (zrange nt_trip).
(** 144-152: the final sum over triplets *)
Definition sum_triplets (nb0 nt_trip : Z) (ise : Z -> Q) (j : Z) : Q :=
  fold_left (fun s i => (s + ise (i * nb0 + j)%Z)%Q) (zrange nt_trip) 0%Q.

(** 402-452 (collect_detailed_imag_self_energy and its 0 K version), one element *)
Definition detailed_value (T n1 n2 g1 g23 phi : Q) (z : bool) : Q :=
  if z then 0%Q else if qltb n1 0 || qltb n2 0 then 0%Q
  else if qltb 0 T then (((n1 + n2 + 1) * g1 + (n1 - n2) * g23) * phi)%Q else (g1 * phi)%Q.
(** 357-400 (detailed_imag_self_energy_at_triplet) called at 182-190 with one temperature: elements
    (k,l) of band0 = j of triplet i, and ise[i * num_band0 + j] *)
Definition detailed_elem (nb0 nb nt_trip : Z) (phi freq : Z -> Q) (triplets : Z -> tp3) (g : Z -> Q) (g_zero : Z -> bool) (T cutoff : Q)
    (i j ij : Z) : Q :=
  let k := Z.quot ij nb in let l := Z.rem ij nb in let prod := nb0 * nb * nb in
  let p := j * nb * nb + ij in
  detailed_value T (occupation nb T (triplets i) freq cutoff 1 k) (occupation nb T (triplets i) freq cutoff 2 l)
    (g (i * prod + p)) (g ((i + nt_trip) * prod + p)) (phi (i * prod + p)) (g_zero (i * prod + p)).
Definition detailed_sum (nb0 nb nt_trip : Z) (phi freq : Z -> Q) (triplets : Z -> tp3) (g : Z -> Q) (g_zero : Z -> bool) (T cutoff : Q)
    (i j : Z) : Q :=
  fold_left (fun s ij => (s + detailed_elem nb0 nb nt_trip phi freq triplets g g_zero T cutoff i j ij)%Q) (zrange (nb * nb)) 0%Q.
(** 179-191: the parallel loop, writing detailed_imag_self_energy and ise *)
Inductive dcell := d_det (i : Z) | d_ise (i : Z).
Definition dcell_dec : forall a b : dcell, {a = b} + {a <> b}.
Proof. decide equality; apply Z.eq_dec. Defined.
Definition detailed_prog (nb0 nb nt_trip : Z) (phi freq : Z -> Q) (triplets : Z -> tp3) (g : Z -> Q) (g_zero : Z -> bool) (T cutoff : Q)
    (i : Z) : @prog dcell Q :=
  pfor (zrange nb0) (fun j =>
    pseq (wprog (map (fun ij => (d_det (i * (nb0 * nb * nb) + (j * nb * nb + ij)),
                                 detailed_elem nb0 nb nt_trip phi freq triplets g g_zero T cutoff i j ij)) (zrange (nb * nb))))
         (wprog [(d_ise (i * nb0 + j), detailed_sum nb0 nb nt_trip phi freq triplets g g_zero T cutoff i j)])).
(** 193-214: N and U of band0 = i *)
Definition split_NU (nb0 nt_trip : Z) (ise : Z -> Q) (weights : Z -> Z) (is_N : Z -> bool) (i : Z) : Q * Q :=
  fold_left (fun s j => let v := (ise (j * nb0 + i)%Z * inject_Z (weights j))%Q in
                        if is_N j then (fst s + v, snd s)%Q else (fst s, snd s + v)%Q) (zrange nt_trip) (0%Q, 0%Q).

(** c/pp_collision.c 255-295 (finalize_ise) *)
Definition finalize_ise (ise : Z -> Q) (is_N : Z -> bool) (n_trip nt nb0 : Z) (is_NU : bool) (m : Z -> Q) : Z -> Q :=
  if is_NU then
    let m := fold_left (fun m i => upd m i 0%Q) (zrange (2 * nt * nb0)) m in
    fold_left (fun m i => fold_left (fun m j => fold_left (fun m k =>
        let v := ise (i * nt * nb0 + j * nb0 + k) in
        let a := if is_N i then j * nb0 + k else nt * nb0 + j * nb0 + k in
        upd m a (m a + v)%Q) (zrange nb0) m) (zrange nt) m) (zrange n_trip) m
  else
    let m := fold_left (fun m i => upd m i 0%Q) (zrange (nt * nb0)) m in
    fold_left (fun m i => fold_left (fun m j => fold_left (fun m k =>
        let a := j * nb0 + k in upd m a (m a + ise (i * nt * nb0 + j * nb0 + k)%Z)%Q) (zrange nb0) m) (zrange nt) m) (zrange n_trip) m.

(** imag_self_energy.py 492-524 (lang="Python", band indices): the value for one band0, before the
    unit conversion; above 0 K the test is on the frequencies, at 0 K there is none *)
Definition py_ise (nb0 nb nt_trip : Z) (phi freq : Z -> Q) (triplets : Z -> tp3) (weights : Z -> Z) (g : Z -> Q) (T cutoff : Q) (j : Z) : Q :=
  let prod := nb0 * nb * nb in
  fold_left (fun s i => fold_left (fun s k => fold_left (fun s l =>
    let p := (j * nb + k) * nb + l in
    let f1 := freq (tp_at (triplets i) 1 * nb + k) in let f2 := freq (tp_at (triplets i) 2 * nb + l) in
    let g1 := g (i * prod + p) in let g23 := g ((i + nt_trip) * prod + p) in
    if qltb 0 T then
      if qltb cutoff f1 && qltb cutoff f2 then
        (s + ((bose f1 T + bose f2 T + 1) * g1 + (bose f1 T - bose f2 T) * g23) * phi (i * prod + p)%Z * inject_Z (weights i))%Q
      else s
    else (s + g1 * phi (i * prod + p)%Z * inject_Z (weights i))%Q)
  (zrange nb) s) (zrange nb) s) (zrange nt_trip) 0%Q.
End Ise.
(** imag_self_energy.py 156-157 (scattering_event_class): plane class-1 of g is zeroed; [S] is the size
    of a plane *)
Definition event_class (cls : Z) (S : Z) (g : Z -> Q) : Z -> Q :=
  if (cls =? 1) || (cls =? 2) then fun x => if (x <? (cls - 1) * S) || (cls * S <=? x) then g x else 0%Q else g.
