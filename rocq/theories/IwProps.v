(** Theorems C19 (tetrahedron vertices) and C22 (integration weights of triplets). *)
From Coq Require Import ZArith QArith Qabs List Bool Lia Lqa Permutation.
From Verif Require Import Base BaseProofs Mat3 QMat GridSpec GridModel GridProofs BzModel BzSpec BzProofs BzProps
  TripletModel TripletSpec TripletProofs TripletProps TetraModel TetraSpec TetraProofs TetraProps Par IwModel.
Import ListNotations.
Open Scope Z_scope.

(* ------------------------------------------------------------------ C19 *)
(** [y] is the stored point for address [a]: equivalent to it, and exactly it when it is stored. *)
Definition points_to (B : BzIn) (o : BzOut) (a : V3) (y : Z) : Prop :=
  0 <= y < o_size o /\ vcong (bD B) (o_addr o y) a /\
  ((exists z, 0 <= z < o_size o /\ o_addr o z = a) -> o_addr o y = a).

Theorem C19_dense_neighbours : forall B init o Qg rl x r, good_in B ->
  get_bz_grid_addresses B 2 init = Some o -> 0 <= x < o_size o ->
  points_to B o (vadd (o_addr o x) r) (neighbor (tp_grid B o 2 Qg rl) x r).
Proof.
  intros B init o Qg rl x r HB H Hx. assert (HD := proj1 HB).
  unfold neighbor. cbn [g_type tp_grid]. change (2 =? 1) with false. cbv iota. unfold neighbor2. cbn [g_addr g_map g_D tp_grid].
  set (a := vadd (o_addr o x) r). set (gp := grid_index a (bD B)).
  pose proof (grid_index_range (bD B) a HD) as Hr. fold gp in Hr.
  destruct (C11_dense_layout B init o HB H) as [_ [_ [L _]]]. destruct (L gp Hr) as [Lt _].
  assert (In2 : forall y, o_map o gp <= y < o_map o (gp + 1) -> 0 <= y < o_size o /\ vcong (bD B) (o_addr o y) a).
  { intros y Hy. destruct (block_in_range B 2 init o gp y HB (or_intror eq_refl) H Hr Hy) as [K1 K2].
    split; [exact K1|]. apply (grid_index_eq_iff (bD B) (o_addr o y) a HD). exact K2. }
  assert (Out : forall z, 0 <= z < o_size o -> o_addr o z = a -> o_map o gp <= z < o_map o (gp + 1)).
  { intros z Hz E. destruct (stored_block B 2 init o z HB (or_intror eq_refl) H Hz) as [_ K]. cbv zeta in K.
    rewrite E in K. exact K. }
  unfold points_to. destruct (Z.ltb_spec 1 (o_map o (gp + 1) - o_map o gp)) as [H1|H1].
  - destruct (find_first _ _) as [j|] eqn:E.
    + apply find_first_some in E. destruct E as [E1 E2]. apply in_zseq in E1. apply veqb_eq in E2.
      destruct (In2 j E1). repeat split; auto; tauto.
    + destruct (In2 (o_map o gp) ltac:(lia)) as [K1 K2]. split; [exact K1|]. split; [exact K2|].
      intros [z [Hz Ez]]. exfalso. pose proof (find_first_none _ _ _ E z (proj2 (in_zseq _ _ _) (Out z Hz Ez))) as K.
      cbn beta in K. rewrite Ez in K. rewrite (proj2 (veqb_eq a a) eq_refl) in K. discriminate.
  - destruct (In2 (o_map o gp) ltac:(lia)) as [K1 K2]. split; [exact K1|]. split; [exact K2|].
    intros [z [Hz Ez]]. pose proof (Out z Hz Ez). assert (z = o_map o gp) as <- by lia. exact Ez.
Qed.
Print Assumptions C19_dense_neighbours.

Theorem C19_default_neighbours : forall B init o Qg rl x r, good_in B ->
  no_short_G (bL B) (bQ B) (bz_tolerance B) ->
  get_bz_grid_addresses B 1 init = Some o -> 0 <= x < o_size o ->
  points_to B o (vadd (o_addr o x) r) (neighbor (tp_grid B o 1 Qg rl) x r).
Proof.
  intros B init o Qg rl x r HB HG H Hx. assert (HD := proj1 HB).
  unfold neighbor. cbn [g_type tp_grid]. change (1 =? 1) with true. cbv iota. unfold neighbor1. cbn [g_addr g_map g_D tp_grid].
  set (a := vadd (o_addr o x) r).
  assert (E2 : (let '(v3 d0 d1 d2) := bD B in v3 (d0 * 2) (d1 * 2) (d2 * 2)) = mesh2 (bD B)) by reflexivity.
  destruct (bD B) as [d0 d1 d2] eqn:ED. rewrite E2. rewrite <- ED in *.
  set (p := grid_index a (mesh2 (bD B))).
  assert (Es : d0 * 2 * (d1 * 2) * (d2 * 2) = 8 * mesh_size (bD B)) by (rewrite ED; cbn [mesh_size]; ring).
  rewrite Es.
  destruct (C11_doubled_mesh_table B init o HB HG H) as [T1 T2].
  pose proof (proj2 (C12_buffer_suffices_partial B 1 init o HB (or_introl eq_refl) HG H)) as Sz.
  unfold bz_rows_allocated in Sz. change (num_gp (bD B)) with (mesh_size (bD B)) in Sz.
  pose proof (grid_index_range (mesh2 (bD B)) a (pos_mesh2 _ HD)) as Hp. fold p in Hp.
  rewrite mesh_size2 in Hp. change (num_gp (bD B)) with (mesh_size (bD B)) in Hp.
  pose proof (grid_index_range (bD B) a HD) as Hgp. set (gp := grid_index a (bD B)) in *.
  assert (Cg : forall y, grid_index (o_addr o y) (mesh2 (bD B)) = p -> vcong (bD B) (o_addr o y) a).
  { intros y Hy. apply vcong2_vcong. apply (grid_index_eq_iff (mesh2 (bD B)) (o_addr o y) a (pos_mesh2 _ HD)). exact Hy. }
  assert (Cl : forall z, 0 <= z < o_size o -> o_addr o z = a -> grid_index (o_addr o z) (mesh2 (bD B)) = p).
  { intros z _ ->. reflexivity. }
  destruct (find_first (fun y => grid_index (o_addr o y) (mesh2 (bD B)) =? p) (zrange (o_size o))) as [y|] eqn:Ef.
  - apply find_first_some in Ef. destruct Ef as [F1 F2]. apply in_zrange in F1. apply Z.eqb_eq in F2.
    pose proof (T1 y F1) as Ty. rewrite F2 in Ty. rewrite Ty.
    destruct (Z.eqb_spec y (8 * mesh_size (bD B))) as [E|E]; [lia|].
    split; [exact F1|]. split; [auto|]. intros [z [Hz Ez]]. pose proof (T1 z Hz) as Tz. rewrite (Cl z Hz Ez), Ty in Tz. congruence.
  - assert (N : forall z, 0 <= z < o_size o -> grid_index (o_addr o z) (mesh2 (bD B)) <> p).
    { intros z Hz E. pose proof (find_first_none _ _ _ Ef z (proj2 (in_zrange _ _) Hz)) as K. cbn beta in K.
      rewrite E, Z.eqb_refl in K. discriminate. }
    rewrite (T2 p Hp N), Z.eqb_refl.
    destruct (block_in_range B 1 init o gp gp HB (or_introl eq_refl) H Hgp (or_introl eq_refl)) as [K1 K2].
    split; [exact K1|]. split.
    + apply (grid_index_eq_iff (bD B) (o_addr o gp) a HD). exact K2.
    + intros [z [Hz Ez]]. exfalso. apply (N z Hz). apply Cl; auto.
Qed.
Print Assumptions C19_default_neighbours.

(** The vertices of the two tetrahedra grids of a momentum-conserving triplet again conserve
    momentum: q1 + d and q2 - d. *)
Theorem C19_vertices_conserve_momentum : forall B ty init o Qg rl t rel tp j k v0 v1, good_in B -> ty = 1 \/ ty = 2 ->
  (ty = 1 -> no_short_G (bL B) (bQ B) (bz_tolerance B)) ->
  get_bz_grid_addresses B ty init = Some o -> tp = 2 \/ tp = 3 ->
  (forall i, 0 <= i < 3 -> 0 <= tp_nth t i < o_size o) ->
  vcong (bD B) (vadd (vadd (o_addr o (tp_nth t 0)) (o_addr o (tp_nth t 1))) (o_addr o (tp_nth t 2))) vzero ->
  let T := tp_grid B o ty Qg rl in
  (exists r0, nth_error (tetrahedra_vertices T tp rel t 0) j = Some r0 /\ nth_error r0 k = Some v0) ->
  (exists r1, nth_error (tetrahedra_vertices T tp rel t 1) j = Some r1 /\ nth_error r1 k = Some v1) ->
  vcong (bD B) (vadd (vadd (o_addr o (tp_nth t 0)) (o_addr o v0)) (o_addr o v1)) vzero.
Proof.
  intros B ty init o Qg rl t rel tp j k v0 v1 HB Hty HG H Htp Ht Hc T [r0 [A1 A2]] [r1 [B1 B2]].
  assert (PT : forall x r, 0 <= x < o_size o -> points_to B o (vadd (o_addr o x) r) (neighbor T x r)).
  { intros x r Hx. destruct Hty as [-> | ->]; [eapply C19_default_neighbours; eauto|eapply C19_dense_neighbours; eauto]. }
  unfold tetrahedra_vertices, tp_relative in A1, B1. rewrite map_map in A1, B1. rewrite nth_error_map in A1, B1.
  destruct (nth_error rel j) as [rr|]; [|discriminate]. cbn [option_map] in A1, B1.
  injection A1 as <-. injection B1 as <-. unfold neighboring_grid_points in A2, B2. rewrite map_map, nth_error_map in A2, B2.
  destruct (nth_error rr k) as [[x y z]|]; [|discriminate]. cbn [option_map] in A2, B2. injection A2 as <-. injection B2 as <-.
  change (0 + 1) with 1. change (1 + 1) with 2.
  assert (S0 : tp_sign tp 0 = 1) by reflexivity.
  assert (S1 : tp_sign tp 1 = -1) by (destruct Htp; subst; reflexivity). rewrite S0, S1.
  destruct (PT (tp_nth t 1) (v3 (x * 1) (y * 1) (z * 1)) (Ht 1 ltac:(lia))) as [_ [C1 _]].
  destruct (PT (tp_nth t 2) (v3 (x * -1) (y * -1) (z * -1)) (Ht 2 ltac:(lia))) as [_ [C2 _]].
  set (b1 := o_addr o (neighbor T (tp_nth t 1) _)) in *. set (b2 := o_addr o (neighbor T (tp_nth t 2) _)) in *.
  revert Hc C1 C2. generalize (o_addr o (tp_nth t 0)) (o_addr o (tp_nth t 1)) (o_addr o (tp_nth t 2)).
  intros [p0 p1 p2] [q0 q1 q2] [s0 s1 s2] [[k0 k1 k2] K] [[l0 l1 l2] L] [[m0 m1 m2] M].
  destruct b1 as [b10 b11 b12], b2 as [b20 b21 b22], (bD B) as [d0 d1 d2]. cbn [vadd vmul vzero] in *.
  unfold vzero in *. cbn [vadd vmul] in *. apply v3_inj in K, L, M.
  exists (v3 (k0 + l0 + m0) (k1 + l1 + m1) (k2 + l2 + m2)). cbn [vadd vmul].
  destruct K as [K0 [K1 K2]], L as [L0 [L1 L2]], M as [M0 [M1 M2]]. f_equal; lia.
Qed.
Print Assumptions C19_vertices_conserve_momentum.

(** In the default layout on a very anisotropic lattice, where distinct representatives of a point agree modulo
    the doubled mesh, the neighbour may be another representative than the stored exact address. *)
Theorem C19_default_exact_refuted :
  ~ (forall B init o Qg rl x r, good_in B -> get_bz_grid_addresses B 1 init = Some o -> 0 <= x < o_size o ->
       points_to B o (vadd (o_addr o x) r) (neighbor (tp_grid B o 1 Qg rl) x r)).
Proof.
  intros H. assert (good_in flat_lattice) as HB. { split; [cbn; lia|]. vm_compute. discriminate. }
  destruct (get_bz_grid_addresses flat_lattice 1 zero_out) as [o|] eqn:E; [|vm_compute in E; discriminate].
  set (f := fun o => (o_size o, o_addr o 0, o_addr o 1, o_addr o 2, neighbor (tp_grid flat_lattice o 1 I3 (bL flat_lattice)) 0 (v3 0 0 1))).
  assert (K : f o = (9, vzero, v3 0 0 1, v3 0 0 (-1), 2)).
  { assert (E' : option_map f (get_bz_grid_addresses flat_lattice 1 zero_out) = Some (9, vzero, v3 0 0 1, v3 0 0 (-1), 2)).
    { vm_compute. reflexivity. }
    rewrite E in E'. cbn [option_map] in E'. congruence. }
  unfold f in K.
  destruct (H flat_lattice zero_out o I3 (bL flat_lattice) 0 (v3 0 0 1) HB E) as [_ [_ P]].
  { assert (o_size o = 9) by congruence. lia. }
  replace (neighbor (tp_grid flat_lattice o 1 I3 (bL flat_lattice)) 0 (v3 0 0 1)) with 2 in P by congruence.
  replace (o_addr o 0) with vzero in P by congruence. replace (o_addr o 2) with (v3 0 0 (-1)) in P by congruence.
  assert (v3 0 0 (-1) = vadd vzero (v3 0 0 1)) as Z0.
  { apply P. exists 1. split; [assert (o_size o = 9) by congruence; lia|]. replace (o_addr o 1) with (v3 0 0 1) by congruence. reflexivity. }
  discriminate Z0.
Qed.
Print Assumptions C19_default_exact_refuted.
Example C19_ex : option_map (fun o => (map (o_addr o) (zrange (o_size o)),
    neighboring_grid_points (tp_grid rod o 2 I3 (bL rod)) 0 [v3 1 0 0; v3 (-1) 0 0; v3 1 1 0]))
  (get_bz_grid_addresses rod 2 zero_out) = Some ([v3 0 0 0; v3 (-1) 0 0; v3 1 0 0], [2; 1; 1]).
Proof. vm_compute. reflexivity. Qed.

(* ------------------------------------------------------------------ C22 *)
(** extent of the vertex frequencies *)
Open Scope Q_scope.
Definition minmax_step (s : Q * Q) (x : Q) : Q * Q :=
  let '(fmin, fmax) := s in (if qltb x fmin then x else fmin, if qltb fmax x then x else fmax).
Lemma minmax_step_spec : forall s x, let '(a, b) := s in let '(a', b') := minmax_step s x in
  a' <= a /\ a' <= x /\ b <= b' /\ x <= b'.
Proof.
  intros [a b] x. unfold minmax_step.
  destruct (qltb x a) eqn:E1; [apply qltb_lt in E1|apply qltb_ge in E1];
  (destruct (qltb b x) eqn:E2; [apply qltb_lt in E2|apply qltb_ge in E2]); repeat split; lra.
Qed.
Lemma minmax_fold4 : forall s t, let '(a, b) := s in let '(a', b') := fold4 minmax_step s t in
  a' <= a /\ b <= b' /\ (let '(t4 x y z w) := t in a' <= x /\ a' <= y /\ a' <= z /\ a' <= w /\ x <= b' /\ y <= b' /\ z <= b' /\ w <= b').
Proof.
  intros s [x y z w]. unfold fold4.
  pose proof (minmax_step_spec s x) as H1. destruct s as [a b]. destruct (minmax_step (a, b) x) as [a1 b1].
  pose proof (minmax_step_spec (a1, b1) y) as H2. destruct (minmax_step (a1, b1) y) as [a2 b2].
  pose proof (minmax_step_spec (a2, b2) z) as H3. destruct (minmax_step (a2, b2) z) as [a3 b3].
  pose proof (minmax_step_spec (a3, b3) w) as H4. destruct (minmax_step (a3, b3) w) as [a4 b4].
  cbv beta iota in *. lra.
Qed.
Definition t4all (P : Q -> Prop) (t : T4) : Prop := let '(t4 a b c d) := t in P a /\ P b /\ P c /\ P d.
Lemma minmax_fold : forall l s, let '(a, b) := s in let '(a', b') := fold_left (fold4 minmax_step) l s in
  a' <= a /\ b <= b' /\ Forall (t4all (fun x => a' <= x /\ x <= b')) l.
Proof.
  induction l as [|t l IH]; intros [a b]; cbn [fold_left].
  - repeat split; try lra. constructor.
  - pose proof (minmax_fold4 (a, b) t) as H. destruct (fold4 minmax_step (a, b) t) as [a1 b1].
    specialize (IH (a1, b1)). destruct (fold_left (fold4 minmax_step) l (a1, b1)) as [a2 b2]. destruct t as [x y z w].
    destruct H as [H1 [H2 H3]], IH as [I1 [I2 I3']]. split; [lra|]. split; [lra|]. constructor; [cbn; lra|exact I3'].
Qed.

Lemma term_outside : forall eps w a b c d, (w < a /\ w < b /\ w < c /\ w < d) \/ (a < w /\ b < w /\ c < w /\ d < w) ->
  tetra_term eps true w (t4 a b c d) == 0.
Proof.
  intros eps w a b c d H. unfold tetra_term. pose proof (sort_spec a b c d) as S. pose proof (sort_perm a b c d) as P.
  destruct (sort_omegas (t4 a b c d)) as [[x0 x1 x2 x3] ci]. destruct S as [[S1 [S2 S3]] _].
  assert (B : forall y, In y [x0; x1; x2; x3] -> In y [a; b; c; d]) by (intros y; apply Permutation_in, Permutation_sym, P).
  assert (B0 := B x0 ltac:(cbn; auto)). assert (B3 := B x3 ltac:(cbn; auto)). cbn in B0, B3.
  unfold region. destruct H as [H|H].
  - assert (w < x0) as L by (repeat match type of B0 with _ \/ _ => destruct B0 as [B0|B0] end; subst; (contradiction || lra)).
    apply qltb_lt in L. rewrite L. destruct ci; unfold I_, g_; ring.
  - assert (x3 < w) as L by (repeat match type of B3 with _ \/ _ => destruct B3 as [B3|B3] end; subst; (contradiction || lra)).
    assert (forall y, y <= x3 -> qltb w y = false) as F by (intros y Hy; apply qltb_ge; lra).
    rewrite (F x0), (F x1), (F x2), (F x3) by lra. rewrite !andb_false_r.
    apply qltb_lt in L. rewrite L. destruct ci; unfold I_, g_; ring.
Qed.

Theorem C22_in_tetrahedra_sound : forall eps f0 ts, thm_in_tetrahedra f0 ts = false ->
  thm_get_integration_weight eps f0 ts true == 0.
Proof.
  intros eps f0 ts H. unfold thm_get_integration_weight.
  assert (forall t, In t ts -> tetra_term eps true f0 t == 0) as Z0.
  { destruct ts as [|t0 ts0]; [intros t []|]. set (l := t0 :: ts0) in *. unfold thm_in_tetrahedra in H.
    set (fst0 := match l with t4 a _ _ _ :: _ => a | [] => 0 end) in *.
    change (fold_left _ l (fst0, fst0)) with (fold_left (fold4 minmax_step) l (fst0, fst0)) in H.
    pose proof (minmax_fold l (fst0, fst0)) as M. destruct (fold_left (fold4 minmax_step) l (fst0, fst0)) as [mn mx].
    destruct M as [_ [_ M]]. apply negb_false_iff, orb_true_iff in H. rewrite Forall_forall in M.
    intros [a b c d] Ht. specialize (M _ Ht). cbn in M. apply term_outside.
    destruct H as [H|H]; apply qltb_lt in H; [left|right]; lra. }
  rewrite fold_sum. assert (fold_right (fun t acc => tetra_term eps true f0 t + acc) 0 ts == 0) as ->; [|reflexivity].
  clear H. induction ts as [|t ts IH]; cbn [fold_right]; [reflexivity|].
  rewrite Z0 by (left; auto). rewrite IH; [reflexivity|]. intros u Hu. apply Z0. right; auto.
Qed.
Print Assumptions C22_in_tetrahedra_sound.
(** the shortcut is not trivial: it says no outside, yes inside *)
Example C22_in_ex : thm_in_tetrahedra 3 [t4 0 1 2 2; t4 (-1) 1 0 (5 # 2)] = false /\
  thm_in_tetrahedra 1 [t4 0 1 2 2; t4 (-1) 1 0 (5 # 2)] = true.
Proof. split; reflexivity. Qed.

Open Scope Z_scope.
Lemma concat_flat_map_map : forall X Y C (f : X -> Y -> list C) (g : X -> list Y) l,
  concat (flat_map (fun i => map (f i) (g i)) l) = flat_map (fun i => flat_map (f i) (g i)) l.
Proof.
  intros X Y C f g. induction l as [|x l IH]; cbn [flat_map]; [reflexivity|]. rewrite concat_app, IH. f_equal.
  symmetry. apply flat_map_concat_map.
Qed.
Lemma map_flat_map : forall X Y C (f : X -> list Y) (g : Y -> C) l, map g (flat_map f l) = flat_map (fun x => map g (f x)) l.
Proof. intros X Y C f g. induction l as [|x l IH]; cbn [flat_map]; [reflexivity|]. rewrite map_app, IH. reflexivity. Qed.

Lemma iw_key_eq : forall nb0 nb1 nb2 i b12 j, 0 < nb2 ->
  iw_key nb0 nb1 nb2 i b12 j = i * (nb0 * (nb1 * nb2)) + (j * (nb1 * nb2) + b12).
Proof.
  intros. unfold iw_key. pose proof (Z.quot_rem b12 nb2 ltac:(lia)). rewrite !Z.mul_assoc. lia.
Qed.
Section Arrays.
Variable nt nb0 nb1 nb2 : Z.
Variable body : Z -> Z -> Z -> Z * list Q.
Hypothesis H2 : 0 < nb2.
Let K := iw_key nb0 nb1 nb2.
Let Sh := nt * nb0 * nb1 * nb2.
Definition in_space (i b12 j : Z) : Prop := 0 <= i < nt /\ 0 <= b12 < nb1 * nb2 /\ 0 <= j < nb0.
Lemma key_inj : forall i b12 j i' b12' j', in_space i b12 j -> in_space i' b12' j' -> K i b12 j = K i' b12' j' ->
  i = i' /\ b12 = b12' /\ j = j'.
Proof.
  intros i b12 j i' b12' j' [H1 [H3 H4]] [H1' [H3' H4']] E. unfold K in E. rewrite !iw_key_eq in E by exact H2.
  destruct (flat_inj (nb0 * (nb1 * nb2)) i (j * (nb1 * nb2) + b12) i' (j' * (nb1 * nb2) + b12')) as [E1 E2]; auto; try (apply flat_range; auto).
  destruct (flat_inj (nb1 * nb2) j b12 j' b12') as [E3 E4]; auto.
Qed.
Lemma key_range : forall i b12 j, in_space i b12 j -> 0 <= K i b12 j < Sh.
Proof.
  intros i b12 j [H1 [H3 H4]]. unfold K, Sh. rewrite iw_key_eq by exact H2. rewrite <- !Z.mul_assoc.
  apply flat_range; auto. apply flat_range; auto.
Qed.
Lemma cell_in : forall i b12 j c, In c (map fst (let '(z, pl) := body i b12 j in weight_writes Sh (K i b12 j) z pl)) ->
  c = c_zero (K i b12 j) \/ exists k, 0 <= k < Z.of_nat (length (snd (body i b12 j))) /\ c = c_iw (K i b12 j + k * Sh).
Proof.
  intros i b12 j c H. destruct (body i b12 j) as [z pl]. cbn [snd]. unfold weight_writes in H. cbn [map fst] in H.
  destruct H as [H|H]; [left; auto|]. rewrite map_map in H. apply in_map_iff in H. destruct H as [k [E Hk]]. apply in_zrange in Hk.
  right. exists k. split; [exact Hk|]. cbn in E. auto.
Qed.
Lemma cell_inj : forall i b12 j i' b12' j' c, in_space i b12 j -> in_space i' b12' j' ->
  In c (map fst (let '(z, pl) := body i b12 j in weight_writes Sh (K i b12 j) z pl)) ->
  In c (map fst (let '(z, pl) := body i' b12' j' in weight_writes Sh (K i' b12' j') z pl)) ->
  i = i' /\ b12 = b12' /\ j = j'.
Proof.
  intros i b12 j i' b12' j' c I1 I2 A B. apply cell_in in A, B. apply key_inj; auto.
  pose proof (key_range _ _ _ I1). pose proof (key_range _ _ _ I2).
  destruct A as [->|[k [Hk ->]]], B as [E|[k' [Hk' E]]]; try discriminate.
  - injection E as E. exact E.
  - injection E as E. destruct (flat_inj Sh k (K i b12 j) k' (K i' b12' j')); auto; lia.
Qed.
Lemma weight_writes_nodup : forall i b12 j z pl, in_space i b12 j -> NoDup (map fst (weight_writes Sh (K i b12 j) z pl)).
Proof.
  intros i b12 j z pl I1. pose proof (key_range _ _ _ I1). unfold weight_writes. cbn [map fst]. rewrite map_map. cbn [fst].
  constructor.
  - intros A. apply in_map_iff in A. destruct A as [k [E _]]. discriminate.
  - assert (N : NoDup (zrange (Z.of_nat (length pl)))) by apply NoDup_zrange. revert N.
    generalize (zrange (Z.of_nat (length pl))). induction l as [|x l IH]; intros N; cbn; constructor.
    + inversion_clear N as [|? ? N1 N2]. intros A. apply in_map_iff in A. destruct A as [k [E Hk]]. injection E as E.
      assert (k = x) by nia. subst. contradiction.
    + apply IH. inversion N; auto.
Qed.
Lemma iw_nodup : NoDup (map fst (concat (iw_iterations nt nb0 nb1 nb2 body))).
Proof.
  unfold iw_iterations. rewrite concat_flat_map_map. rewrite map_flat_map.
  apply NoDup_flat_map; [apply NoDup_zrange| |].
  - intros i Hi. apply in_zrange in Hi. rewrite map_flat_map. apply NoDup_flat_map; [apply NoDup_zrange| |].
    + intros b12 Hb. apply in_zrange in Hb. rewrite map_flat_map. apply NoDup_flat_map; [apply NoDup_zrange| |].
      * intros j Hj. apply in_zrange in Hj. destruct (body i b12 j) as [z pl]. apply weight_writes_nodup. repeat split; lia.
      * intros j j' c Hj Hj' A B. apply in_zrange in Hj, Hj'. eapply (cell_inj i b12 j i b12 j' c); auto; repeat split; lia.
    + intros b12 b12' c Hb Hb' A B. apply in_zrange in Hb, Hb'. rewrite map_flat_map in A, B. apply in_flat_map in A, B.
      destruct A as [j [Hj A]], B as [j' [Hj' B]]. apply in_zrange in Hj, Hj'.
      eapply (cell_inj i b12 j i b12' j' c); auto; repeat split; lia.
  - intros i i' c Hi Hi' A B. apply in_zrange in Hi, Hi'. rewrite map_flat_map in A, B. apply in_flat_map in A, B.
    destruct A as [b12 [Hb A]], B as [b12' [Hb' B]]. rewrite map_flat_map in A, B. apply in_flat_map in A, B.
    destruct A as [j [Hj A]], B as [j' [Hj' B]]. apply in_zrange in Hb, Hb', Hj, Hj'.
    eapply (cell_inj i b12 j i' b12' j' c); auto; repeat split; lia.
Qed.
Lemma iw_in : forall i b12 j w, in_space i b12 j ->
  In w (let '(z, pl) := body i b12 j in weight_writes Sh (K i b12 j) z pl) -> In w (concat (iw_iterations nt nb0 nb1 nb2 body)).
Proof.
  intros i b12 j w [H1 [H3 H4]] Hw. unfold iw_iterations. rewrite concat_flat_map_map.
  apply in_flat_map. exists i. split; [apply in_zrange; auto|].
  apply in_flat_map. exists b12. split; [apply in_zrange; auto|].
  apply in_flat_map. exists j. split; [apply in_zrange; auto|]. exact Hw.
Qed.

(** Values after the loops, under any schedule of the (triplet, b12) iterations. *)
Lemma iw_values : forall m m' i b1 b2 j, finishes cell_dec (map wprog (iw_iterations nt nb0 nb1 nb2 body)) m m' ->
  0 <= i < nt -> 0 <= b1 < nb1 -> 0 <= b2 < nb2 -> 0 <= j < nb0 ->
  let key := ((i * nb0 + j) * nb1 + b1) * nb2 + b2 in
  let r := body i (b1 * nb2 + b2) j in
  m' (c_zero key) = inject_Z (fst r) /\
  forall k, 0 <= k < Z.of_nat (length (snd r)) -> m' (c_iw (key + k * (nt * nb0 * nb1 * nb2))) = nth (Z.to_nat k) (snd r) 0%Q.
Proof.
  intros m m' i b1 b2 j F Hi Hb1 Hb2 Hj key r.
  assert (I1 : in_space i (b1 * nb2 + b2) j) by (repeat split; try lia; apply (flat_range nb2 nb1 b1 b2); auto).
  assert (Ek : key = K i (b1 * nb2 + b2) j) by (unfold key, K; rewrite iw_key_eq by exact H2; ring).
  rewrite Ek. fold Sh. pose proof (iw_in i (b1 * nb2 + b2) j) as IN. unfold r. destruct (body i (b1 * nb2 + b2) j) as [z pl] eqn:Eb.
  cbn [fst snd]. split.
  - rewrite (par_writes _ _ _ _ iw_nodup F). apply store_in; [apply iw_nodup|]. apply IN; auto. left; reflexivity.
  - intros k Hk. rewrite (par_writes _ _ _ _ iw_nodup F). apply store_in; [apply iw_nodup|]. apply IN; auto.
    right. apply in_map_iff. exists k. split; [reflexivity|]. now apply in_zrange.
Qed.
End Arrays.

Lemma set_g_spec : forall eps f0 fv n, 0 <= n -> let '(g, z) := set_g eps f0 fv n in
  (forall k, 0 <= k < n -> Qeq (g k) (thm_get_integration_weight eps f0 (fv k) true) /\
     (thm_in_tetrahedra f0 (fv k) = false -> g k = 0%Q)) /\
  (z = 1 \/ z = 0) /\ (z = 1 <-> forall k, 0 <= k < n -> thm_in_tetrahedra f0 (fv k) = false).
Proof.
  intros eps f0 fv n Hn. unfold set_g. pattern n, (zrange n). apply zrange_ind; auto.
  - cbn. split; [intros; lia|]. split; [auto|]. split; intros; auto; lia.
  - intros k Hk IH. rewrite fold_left_app_one. destruct (fold_left _ (zrange k) _) as [g z].
    destruct IH as [I1 [I2 I3']]. destruct (thm_in_tetrahedra f0 (fv k)) eqn:E.
    + split; [|split; [auto|]].
      * intros q Hq. unfold upd. destruct (Z.eqb_spec q k) as [->|N]; [split; [reflexivity|congruence]|apply I1; lia].
      * split; [discriminate|]. intros H. rewrite H in E by lia. discriminate.
    + split; [|split; [auto|]].
      * intros q Hq. unfold upd. destruct (Z.eqb_spec q k) as [->|N]; [|apply I1; lia].
        split; [|reflexivity]. symmetry. apply C22_in_tetrahedra_sound. exact E.
      * split; intros H; [|apply I3'; intros; apply H; lia].
        intros q Hq. destruct (Z.eq_dec q k) as [->|N]; [exact E|]. apply I3'; auto; lia.
Qed.

Definition delta_weight (eps : Q) (T : TpGrid) tp rel t freq1 freq2 nb1 nb2 b1 b2 f0 (k : Z) : Q :=
  thm_get_integration_weight eps f0 (freq_vertices tp freq1 freq2 nb1 nb2 b1 b2
    (tetrahedra_vertices T tp rel t 0) (tetrahedra_vertices T tp rel t 1) k) true.

(** Tetrahedron method: whatever the schedule, the arrays hold the full tetrahedron weights of
    delta(f0 - f1 - f2), and delta(f0 + f1 - f2) - delta(f0 - f1 + f2), and (tp_type 3) their sum
    with the first; and a set zero flag implies that all of them are zero. *)
Theorem C22_tetrahedron_weights : forall eps T tp rel triplets nt nb0 nb1 nb2 fp f1 f2 m m' i b1 b2 j,
  tp = 2 \/ tp = 3 ->
  finishes cell_dec (map wprog (iw_iterations nt nb0 nb1 nb2 (tetra_weight eps T tp rel triplets nb1 nb2 fp f1 f2))) m m' ->
  0 <= i < nt -> 0 <= b1 < nb1 -> 0 <= b2 < nb2 -> 0 <= j < nb0 ->
  let key := ((i * nb0 + j) * nb1 + b1) * nb2 + b2 in
  let S := nt * nb0 * nb1 * nb2 in
  let w := delta_weight eps T tp rel (triplets i) f1 f2 nb1 nb2 b1 b2 (fp j) in
  Qeq (m' (c_iw key)) (w 2) /\ Qeq (m' (c_iw (key + S))) (w 0%Z - w 1%Z)%Q /\
  (tp = 3 -> Qeq (m' (c_iw (key + 2 * S))) (w 0%Z + w 1%Z + w 2%Z)%Q) /\
  (m' (c_zero key) = 0%Q \/
   (m' (c_zero key) = 1%Q /\ Qeq (m' (c_iw key)) 0 /\ Qeq (m' (c_iw (key + S))) 0 /\ (tp = 3 -> Qeq (m' (c_iw (key + 2 * S))) 0))).
Proof.
  intros eps T tp rel triplets nt nb0 nb1 nb2 fp f1 f2 m m' i b1 b2 j Htp F Hi Hb1 Hb2 Hj key S w.
  destruct (iw_values nt nb0 nb1 nb2 _ ltac:(lia) m m' i b1 b2 j F Hi Hb1 Hb2 Hj) as [V0 V].
  fold key in V0, V. fold S in V. unfold tetra_weight in V0, V.
  assert (Eq1 : Z.quot (b1 * nb2 + b2) nb2 = b1).
  { rewrite Z.quot_div_nonneg by nia. symmetry. apply (Z.div_unique (b1 * nb2 + b2) nb2 b1 b2); lia. }
  assert (Eq2 : Z.rem (b1 * nb2 + b2) nb2 = b2).
  { pose proof (Z.quot_rem (b1 * nb2 + b2) nb2 ltac:(lia)). rewrite Eq1 in *. lia. }
  rewrite Eq1, Eq2 in V0, V.
  assert (Em : max_i tp = 3) by (destruct Htp; subst; reflexivity). rewrite Em in *.
  set (fv := freq_vertices tp f1 f2 nb1 nb2 b1 b2 _ _) in *.
  pose proof (set_g_spec eps (fp j) fv 3 ltac:(lia)) as G. destruct (set_g eps (fp j) fv 3) as [g z]. cbn [fst snd] in V0, V.
  destruct G as [G1 [G2 G3]].
  assert (W : forall k, 0 <= k < 3 -> Qeq (g k) (w k)) by (intros k Hk; apply G1; auto).
  assert (P0 : m' (c_iw key) = g 2).
  { replace key with (key + 0 * S) by lia. rewrite V; destruct Htp; subst; cbn; (reflexivity || lia). }
  assert (P1 : m' (c_iw (key + S)) = (g 0%Z - g 1%Z)%Q).
  { replace (key + S) with (key + 1 * S) by lia. rewrite V; destruct Htp; subst; cbn; (reflexivity || lia). }
  assert (P2 : tp = 3 -> m' (c_iw (key + 2 * S)) = (g 0%Z + g 1%Z + g 2%Z)%Q).
  { intros E. rewrite V; subst; cbn; (reflexivity || lia). }
  split; [rewrite P0; apply W; lia|]. split; [rewrite P1; rewrite !W by lia; reflexivity|].
  split; [intros E; rewrite P2 by auto; rewrite !W by lia; reflexivity|].
  destruct G2 as [-> | ->]; [right|left; rewrite V0; reflexivity].
  assert (forall k, 0 <= k < 3 -> g k = 0%Q) as Z0 by (intros k Hk; apply G1; auto; apply G3; auto).
  split; [rewrite V0; reflexivity|]. rewrite P0, P1, !Z0 by lia. split; [reflexivity|]. split; [reflexivity|].
  intros E. rewrite P2 by exact E. rewrite !Z0 by lia. reflexivity.
Qed.
Print Assumptions C22_tetrahedron_weights.

(** Smearing: the zero flag is set exactly when the cutoff is positive and all three frequency
    differences exceed it; then the weights are zero, otherwise they are the Gaussians. *)
Theorem C22_smearing_weights : forall gauss sigma sc tp triplets nt nb0 nb fp f m m' i b1 b2 j,
  tp = 2 \/ tp = 3 ->
  finishes cell_dec (map wprog (iw_iterations nt nb0 nb nb (sigma_weight gauss sigma sc tp triplets nb fp f))) m m' ->
  0 <= i < nt -> 0 <= b1 < nb -> 0 <= b2 < nb -> 0 <= j < nb0 ->
  let key := ((i * nb0 + j) * nb + b1) * nb + b2 in
  let S := nt * nb0 * nb * nb in
  let x1 := f (tp_nth (triplets i) 1 * nb + b1) in
  let x2 := f (tp_nth (triplets i) 2 * nb + b2) in
  let g0 := gauss (fp j + x1 - x2)%Q sigma in
  let g1 := gauss (fp j - x1 + x2)%Q sigma in
  let g2 := gauss (fp j - x1 - x2)%Q sigma in
  let c := (sigma * sc)%Q in
  (m' (c_zero key) = 1%Q /\ (0 < c /\ c < Qabs (fp j + x1 - x2) /\ c < Qabs (fp j - x1 + x2) /\ c < Qabs (fp j - x1 - x2))%Q /\
   Qeq (m' (c_iw key)) 0 /\ Qeq (m' (c_iw (key + S))) 0 /\ (tp = 3 -> Qeq (m' (c_iw (key + 2 * S))) 0)) \/
  (m' (c_zero key) = 0%Q /\ ~ (0 < c /\ c < Qabs (fp j + x1 - x2) /\ c < Qabs (fp j - x1 + x2) /\ c < Qabs (fp j - x1 - x2))%Q /\
   m' (c_iw key) = g2 /\ m' (c_iw (key + S)) = (g0 - g1)%Q /\ (tp = 3 -> m' (c_iw (key + 2 * S)) = (g0 + g1 + g2)%Q)).
Proof.
  intros gauss sigma sc tp triplets nt nb0 nb fp f m m' i b1 b2 j Htp F Hi Hb1 Hb2 Hj key S x1 x2 g0 g1 g2 c.
  destruct (iw_values nt nb0 nb nb _ ltac:(lia) m m' i b1 b2 j F Hi Hb1 Hb2 Hj) as [V0 V].
  fold key in V0, V. fold S in V. unfold sigma_weight in V0, V. fold c in V0, V.
  assert (Eq1 : Z.quot (b1 * nb + b2) nb = b1).
  { rewrite Z.quot_div_nonneg by nia. symmetry. apply (Z.div_unique (b1 * nb + b2) nb b1 b2); lia. }
  assert (Eq2 : Z.rem (b1 * nb + b2) nb = b2).
  { pose proof (Z.quot_rem (b1 * nb + b2) nb ltac:(lia)). rewrite Eq1 in *. lia. }
  rewrite Eq1, Eq2 in V0, V. fold x1 x2 in V0, V. fold g0 g1 g2 in V0, V.
  assert (Et : (tp =? 2) || (tp =? 3) = true) by (destruct Htp; subst; reflexivity). rewrite Et in V0, V.
  destruct (_ && _) eqn:T.
  - left. rewrite !andb_true_iff, !qltb_lt in T. cbn [fst snd] in V0, V.
    split; [rewrite V0; reflexivity|]. split; [tauto|].
    split. { replace key with (key + 0 * S) by lia. rewrite V; destruct Htp; subst tp; cbn; (reflexivity || lia). }
    split. { replace (key + S) with (key + 1 * S) by lia. rewrite V; destruct Htp; subst tp; cbn; (reflexivity || lia). }
    intros E. rewrite V; rewrite E; cbn; (reflexivity || lia).
  - right. cbn [fst snd] in V0, V. split; [rewrite V0; reflexivity|].
    split. { intros K. assert (qltb 0 c && qltb c (Qabs (fp j + x1 - x2)) && qltb c (Qabs (fp j - x1 + x2)) && qltb c (Qabs (fp j - x1 - x2)) = true) as E
               by (rewrite !andb_true_iff, !qltb_lt; tauto). congruence. }
    split. { replace key with (key + 0 * S) by lia. rewrite V; destruct Htp; subst tp; cbn; (reflexivity || lia). }
    split. { replace (key + S) with (key + 1 * S) by lia. rewrite V; destruct Htp; subst tp; cbn; (reflexivity || lia). }
    intros E. rewrite V; rewrite E; cbn; (reflexivity || lia).
Qed.
Print Assumptions C22_smearing_weights.

(** two triplets, two bands, cutoff: one flagged and one unflagged combination, run in order *)
Example C22_ex :
  let body := sigma_weight (fun x s => x) 1 2 2 (fun i => (0, i, i + 1)) 2 (fun j => inject_Z (5 * j)) (fun x => inject_Z x) in
  let m := iw_arrays 2 2 2 2 body (fun _ => 7%Q) in
  finishes cell_dec (map wprog (iw_iterations 2 2 2 2 body)) (fun _ => 7%Q) m /\
  m (c_zero 0) = 0%Q /\ m (c_iw 0) = (-2 # 1)%Q /\ m (c_iw 16) = (-4 # 1)%Q /\ m (c_zero 7) = 0%Q /\
  m (c_zero 4) = 1%Q /\ m (c_iw 4) = 0%Q /\ m (c_iw 100) = 7%Q.
Proof.
  split.
  - cbv zeta. unfold iw_arrays. rewrite <- run_seq_wprog. apply seq_finishes.
  - vm_compute. repeat split; reflexivity.
Qed.
