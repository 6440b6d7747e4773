(** Theorems C01-C07 and C18. *)
From Coq Require Import ZArith List Lia Bool Permutation.
From Verif Require Import Base BaseProofs Mat3 GridSpec GridModel Orbit GridProofs.
Import ListNotations.
Open Scope Z_scope.

(** Concrete data used by the Examples: the 8 operations of 4/m about z on a
    3x3x2 mesh, and the half-shifted 3x3x2 mesh. *)
Definition ex_c4 : M3 := m3 0 (-1) 0 1 0 0 0 0 1.
Definition ex_rots : list M3 :=
  let r2 := mulMM ex_c4 ex_c4 in
  let l := [I3; ex_c4; r2; mulMM r2 ex_c4] in
  l ++ map mneg l.
Definition ex_D : V3 := v3 3 3 2.
Definition ex_PS : V3 := v3 1 1 0.

Example ex_D_pos : pos_mesh ex_D.
Proof. cbn. lia. Qed.
Example ex_good : good_group ex_D ex_PS ex_rots.
Proof. apply good_groupb_sound; [apply ex_D_pos|vm_compute; reflexivity]. Qed.
Example ex_good0 : good_group ex_D vzero ex_rots.
Proof. apply good_groupb_sound; [apply ex_D_pos|vm_compute; reflexivity]. Qed.

(* ------------------------------------------------------------------ C01 *)
Theorem C01_index_address_bijection : forall D, pos_mesh D ->
  (forall a, 0 <= grid_index a D < mesh_size D) /\
  (forall a, in_cell D (get_grid_address_from_index (grid_index a D) D) /\
             vcong D (get_grid_address_from_index (grid_index a D) D) a) /\
  (forall gp, 0 <= gp < mesh_size D ->
     in_cell D (get_grid_address_from_index gp D) /\
     grid_index (get_grid_address_from_index gp D) D = gp) /\
  (forall a b, grid_index a D = grid_index b D <-> vcong D a b).
Proof.
  intros D HD. repeat split.
  - apply grid_index_range; auto.
  - apply grid_index_range; auto.
  - apply address_in_cell; auto. apply grid_index_range; auto.
  - apply address_of_index_cong; auto.
  - apply address_in_cell; auto.
  - apply index_of_address; auto.
  - apply grid_index_eq_iff; auto.
  - apply grid_index_eq_iff; auto.
Qed.
Print Assumptions C01_index_address_bijection.

(** Distinct in-cell addresses are not congruent, so the previous theorem pins the
    returned address down completely. *)
Theorem C01_in_cell_representative_unique : forall D a b, pos_mesh D ->
  in_cell D a -> in_cell D b -> vcong D a b -> a = b.
Proof.
  intros D a b HD Ha Hb H. apply grid_index_eq_iff in H; auto.
  unfold grid_index in H. rewrite !reduce_in_cell in H by auto.
  apply (index_in_cell_inj D); auto.
Qed.
Print Assumptions C01_in_cell_representative_unique.

Example C01_ex : grid_index (v3 (-1) 7 (-4)) ex_D = 5 /\
  get_grid_address_from_index 5 ex_D = v3 2 1 0.
Proof. vm_compute. auto. Qed.

(* ------------------------------------------------------------------ C02 *)
Theorem C02_indexing_implementations_agree : forall D init, pos_mesh D ->
  (forall gp, 0 <= gp < mesh_size D ->
     in_cell D (get_all_grid_addresses D init gp) /\
     grid_index (get_all_grid_addresses D init gp) D = gp) /\
  (forall x, x < 0 \/ mesh_size D <= x -> get_all_grid_addresses D init x = init x) /\
  (forall a, grid_point_from_address_py a D = grid_index a D).
Proof.
  intros D init HD. repeat split.
  - rewrite all_addresses_spec by auto. apply address_in_cell; auto.
  - rewrite all_addresses_spec by auto. apply index_of_address; auto.
  - intros x Hx. apply all_addresses_untouched; auto.
  - intros a. apply grid_index_py_eq; auto.
Qed.
Print Assumptions C02_indexing_implementations_agree.

Example C02_ex :
  map (get_all_grid_addresses (v3 2 1 2) (fun _ => vzero)) (zrange 4)
  = [v3 0 0 0; v3 1 0 0; v3 0 0 1; v3 1 0 1]
  /\ grid_point_from_address_py (v3 (-1) 7 (-4)) ex_D = 5.
Proof. vm_compute. auto. Qed.

(* ------------------------------------------------------------------ C03 *)
Theorem C03_double_grid_round_trip : forall D PS, pos_mesh D ->
  (forall a, get_double_grid_address a PS = dbl a PS) /\
  (forall a, get_grid_address (get_double_grid_address a PS) PS = a) /\
  (forall a, get_double_grid_index (get_double_grid_address a PS) D PS = grid_index a D) /\
  (forall a b, get_double_grid_index (dbl a PS) D PS = get_double_grid_index (dbl b PS) D PS
     <-> vcong (twice D) (dbl a PS) (dbl b PS)).
Proof.
  intros D PS HD. split; [|split; [|split]].
  - intros a. apply double_dbl.
  - intros a. rewrite double_dbl. apply get_grid_address_dbl.
  - intros a. rewrite double_dbl. apply double_grid_index_dbl.
  - intros a b. rewrite !double_grid_index_dbl. rewrite grid_index_eq_iff by auto. split.
    + apply vcong_twice.
    + intros [[k0 k1 k2] H]. exists (v3 k0 k1 k2).
      destruct a as [a0 a1 a2], b as [b0 b1 b2], PS as [s0 s1 s2], D as [d0 d1 d2].
      cbn -[Z.mul Z.add] in *. inversion H. f_equal; lia.
Qed.
Print Assumptions C03_double_grid_round_trip.

Example C03_ex :
  get_grid_address (get_double_grid_address (v3 (-3) 2 0) ex_PS) ex_PS = v3 (-3) 2 0 /\
  get_double_grid_index (v3 (-5) 5 0) ex_D ex_PS = 6.
Proof. vm_compute. auto. Qed.

(* ------------------------------------------------------------------ C04 *)
(** The grid point returned for a rotation sits, modulo the mesh, exactly at the
    rotated position, whatever address names the original point; identity,
    products and inverses behave as for a group action by permutations. *)
Theorem C04_rotation_acts_on_grid : forall D PS, pos_mesh D ->
  (forall R gp, 0 <= rotate_grid_index gp R D PS < mesh_size D) /\
  (forall R gp a, compat D R -> shift_ok PS R -> 0 <= gp < mesh_size D ->
     grid_index a D = gp ->
     vcong (twice D)
       (dbl (get_grid_address_from_index (rotate_grid_index gp R D PS) D) PS)
       (mulMV R (dbl a PS))) /\
  (forall gp, 0 <= gp < mesh_size D -> rotate_grid_index gp I3 D PS = gp) /\
  (forall R S gp, compat D R -> shift_ok PS R -> shift_ok PS S -> 0 <= gp < mesh_size D ->
     rotate_grid_index gp (mulMM R S) D PS =
     rotate_grid_index (rotate_grid_index gp S D PS) R D PS) /\
  (forall R S, compat D R -> compat D S -> shift_ok PS R -> shift_ok PS S ->
     mulMM R S = I3 -> mulMM S R = I3 ->
     permutes (mesh_size D) (fun gp => rotate_grid_index gp R D PS)).
Proof.
  intros D PS HD. repeat split.
  - apply rotate_range; auto.
  - apply rotate_range; auto.
  - intros. apply rotate_position; auto.
  - intros. apply rotate_I3; auto.
  - intros. apply rotate_compose; auto.
  - apply rotate_range; auto.
  - apply rotate_range; auto.
  - intros x y Hx Hy E. apply (rotate_permutes R S D PS); auto.
  - apply (rotate_permutes R S D PS); auto.
Qed.
Print Assumptions C04_rotation_acts_on_grid.

(** Without half shifts the python helper [_get_grid_points_by_rotations] and the C
    routine rotate alike, from any representative address. *)
Theorem C57_python_rotation_agrees_partial : forall D R a, pos_mesh D -> compat D R ->
  rotate_address_py a R D = rotate_grid_index (grid_index a D) R D vzero.
Proof.
  intros D R a HD HR. unfold rotate_address_py.
  rewrite (rotate_any_rep _ R D vzero vzero a); auto using grid_index_range.
  - f_equal. destruct (mulMV R a). cbn. f_equal; lia.
  - destruct R. cbn. f_equal; lia.
Qed.
Print Assumptions C57_python_rotation_agrees_partial.

(** With a half shift they differ: the python helper rotates the plain address
    although the grid positions are shifted. Witness: 4-fold rotation, mesh 3x3x2,
    shift (1,1,0), address (0,0,0). *)
Theorem C57_python_rotation_with_shift_refuted :
  ~ (forall D PS R a, pos_mesh D -> compat D R -> shift_ok PS R ->
       rotate_address_py a R D = rotate_grid_index (grid_index a D) R D PS).
Proof.
  intros H. specialize (H ex_D ex_PS ex_c4 (v3 0 0 0) ex_D_pos).
  assert (compat ex_D ex_c4) as H1 by (apply compatb_sound; [apply ex_D_pos|reflexivity]).
  assert (shift_ok ex_PS ex_c4) as H2 by (apply shift_okb_sound; reflexivity).
  specialize (H H1 H2). vm_compute in H. discriminate.
Qed.
Print Assumptions C57_python_rotation_with_shift_refuted.

Example C04_ex : compat ex_D ex_c4 /\ shift_ok ex_PS ex_c4 /\
  map (fun gp => rotate_grid_index gp ex_c4 ex_D ex_PS) (zrange 9) = [2; 5; 8; 1; 4; 7; 0; 3; 6].
Proof.
  repeat split.
  - apply compatb_sound; [apply ex_D_pos|reflexivity].
  - apply shift_okb_sound; reflexivity.
Qed.

(* ------------------------------------------------------------------ C05 *)
Theorem C05_ir_map_is_least_image : forall rots D PS init gp,
  pos_mesh D -> good_group D PS rots -> 0 <= gp < mesh_size D ->
  is_least_image rots (fun R g => rotate_grid_index g R D PS) gp
                 (get_ir_grid_map rots D PS init gp).
Proof. exact ir_grid_map_least. Qed.
Print Assumptions C05_ir_map_is_least_image.

Theorem C05_ir_map_equivalence : forall rots D PS init,
  pos_mesh D -> good_group D PS rots ->
  (forall x y, 0 <= x < mesh_size D -> 0 <= y < mesh_size D ->
     (get_ir_grid_map rots D PS init x = get_ir_grid_map rots D PS init y <->
      exists R, In R rots /\ rotate_grid_index x R D PS = y)) /\
  (forall x, 0 <= x < mesh_size D ->
     get_ir_grid_map rots D PS init (get_ir_grid_map rots D PS init x)
     = get_ir_grid_map rots D PS init x).
Proof.
  intros rots D PS init HD HG. split.
  - apply w_eq_iff; auto.
  - apply w_idem; auto.
Qed.
Print Assumptions C05_ir_map_equivalence.

(** The result depends neither on the order or repetition of the operations nor on
    the previous contents of the buffer. *)
Theorem C05_ir_map_order_independent : forall rots rots' D PS init init' gp,
  pos_mesh D -> good_group D PS rots -> (forall R, In R rots <-> In R rots') ->
  0 <= gp < mesh_size D ->
  get_ir_grid_map rots D PS init gp = get_ir_grid_map rots' D PS init' gp.
Proof.
  intros rots rots' D PS init init' gp HD HG E Hgp.
  assert (good_group D PS rots') as HG'.
  { destruct HG as [H1 H2]. split.
    - apply (is_group_ext rots); auto.
    - intros R HR. apply H2. now apply E. }
  destruct (ir_grid_map_least rots D PS init gp HD HG Hgp) as [[r [Hr Er]] Hl].
  destruct (ir_grid_map_least rots' D PS init' gp HD HG' Hgp) as [[r' [Hr' Er']] Hl'].
  apply E in Hr. apply E in Hr'. specialize (Hl _ Hr'). specialize (Hl' _ Hr). cbv beta in *. lia.
Qed.
Print Assumptions C05_ir_map_order_independent.

Example C05_ex : map (get_ir_grid_map ex_rots ex_D ex_PS (fun _ => 77)) (zrange 18)
  = [0;1;0;1;4;1;0;1;0; 9;10;9;10;13;10;9;10;9].
Proof. vm_compute. reflexivity. Qed.

(* ------------------------------------------------------------------ C06 *)
Theorem C06_ir_points_and_weights : forall rots D PS init,
  pos_mesh D -> good_group D PS rots ->
  let mp := get_ir_grid_map rots D PS init in
  let n := mesh_size D in
  (forall g, In g (ir_grid_points mp n) <-> 0 <= g < n /\ mp g = g) /\
  NoDup (ir_grid_points mp n) /\
  num_ir rots D PS init = Z.of_nat (length (ir_grid_points mp n)) /\
  (forall g, In g (ir_grid_points mp n) ->
     ir_weight mp n g =
     zcount (fun x => existsb (fun R => rotate_grid_index g R D PS =? x) rots) (zrange n)) /\
  zsum (map (ir_weight mp n) (ir_grid_points mp n)) = n.
Proof.
  intros rots D PS init HD HG mp n. split; [|split; [|split; [|split]]].
  - apply ir_points_fixed; auto.
  - apply NoDup_filter, NoDup_zrange.
  - unfold num_ir, zcount. f_equal. unfold mp, n. rewrite ir_points_eq; auto.
  - intros g Hg. apply ir_points_fixed in Hg; auto. destruct Hg as [Hg Eg].
    unfold ir_weight. apply zcount_ext_in. intros x Hx. apply in_zrange in Hx.
    apply eq_true_iff_eq. rewrite Z.eqb_eq, existsb_exists.
    rewrite <- Eg at 1. fold mp in Eg. unfold mp.
    split.
    + intros E. symmetry in E. apply w_eq_iff in E; auto. destruct E as [R [HR ER]].
      exists R. rewrite Z.eqb_eq. auto.
    + intros [R [HR ER]]. apply Z.eqb_eq in ER. symmetry. apply w_eq_iff; auto. exists R; auto.
  - apply ir_weights_sum; auto.
Qed.
Print Assumptions C06_ir_points_and_weights.

Theorem C06_orbit_stabilizer : forall rots D PS init gp,
  pos_mesh D -> good_group D PS rots -> NoDup rots -> 0 <= gp < mesh_size D ->
  let mp := get_ir_grid_map rots D PS init in
  ir_weight mp (mesh_size D) (mp gp) *
  zcount (fun R => rotate_grid_index gp R D PS =? gp) rots = Z.of_nat (length rots).
Proof. intros rots D PS init gp HD HG Hnd Hgp mp. apply w_stab; auto. Qed.
Print Assumptions C06_orbit_stabilizer.

(** The warning of _get_kstar_order never fires: order of the group divided by the
    multiplicity equals the grid weight (also for explicitly given grid points, whose
    weight is looked up through the map). *)
Theorem C06_kstar_order_equals_weight : forall rots D init a,
  pos_mesh D -> good_group D vzero rots -> NoDup rots ->
  let mp := get_ir_grid_map rots D vzero init in
  kstar_order rots (multiplicity_at_q rots D a) =
  ir_weight mp (mesh_size D) (mp (grid_index a D)).
Proof.
  intros rots D init a HD HG Hnd mp. unfold kstar_order.
  rewrite multiplicity_eq; auto.
  2:{ intros R HR. apply HG; auto. }
  rewrite <- (C06_orbit_stabilizer rots D vzero init (grid_index a D)); auto using grid_index_range.
  apply Z.div_mul.
  assert (0 < zcount (fun R => rotate_grid_index (grid_index a D) R D vzero =? grid_index a D) rots); [|lia].
  apply zcount_pos. exists I3. split; [apply HG|]. apply Z.eqb_eq.
  apply rotate_I3; auto using grid_index_range.
Qed.
Print Assumptions C06_kstar_order_equals_weight.

Example C06_ex : NoDup ex_rots /\
  ir_grid_points (get_ir_grid_map ex_rots ex_D ex_PS (fun _ => 0)) 18 = [0; 1; 4; 9; 10; 13] /\
  map (ir_weight (get_ir_grid_map ex_rots ex_D ex_PS (fun _ => 0)) 18) [0; 1; 4; 9; 10; 13]
    = [4; 4; 1; 4; 4; 1] /\
  kstar_order ex_rots (multiplicity_at_q ex_rots ex_D (v3 1 0 1)) = 4.
Proof.
  split; [|vm_compute; auto].
  repeat constructor; vm_compute; intuition discriminate.
Qed.

(* ------------------------------------------------------------------ C07 *)
(** [base rots tp] is the set of input operations, transposed if requested. *)
Definition rpg_input (rots : list M3) (tp : bool) : list M3 :=
  if tp then map transp rots else rots.

Theorem C07_point_group_contents : forall rots tr tp l,
  reciprocal_point_group rots tr tp = Some l ->
  Z.of_nat (length l) <= 48 /\
  (forall x, In x l <->
     In x (rpg_input rots tp) \/
     (tr = true /\ ~ In (mneg I3) (rpg_input rots tp) /\ In (mneg x) (rpg_input rots tp))) /\
  (is_group rots -> NoDup l /\ is_group l /\
     (tr = true -> forall x, In x l -> In (mneg x) l)).
Proof.
  intros rots tr tp l H. unfold reciprocal_point_group in H.
  destruct (unique_rotations rots) as [l0|] eqn:E0; [|discriminate].
  apply unique_rotations_some in E0. destruct E0 as [Hd Hlen].
  apply (rpg_base rots tp) in Hd.
  set (l1 := if tp then map transp l0 else l0) in *.
  change (if tp then map transp rots else rots) with (rpg_input rots tp) in Hd.
  assert (Z.of_nat (length l1) <= 48) as Hlen1.
  { unfold l1. destruct tp; rewrite ?map_length; auto. }
  destruct Hd as [Hnd Hin].
  assert (is_group rots -> is_group l1) as Hgrp.
  { intros HG. apply (is_group_ext (rpg_input rots tp)).
    - intros x. symmetry. apply Hin.
    - unfold rpg_input. destruct tp; auto. now apply is_group_transp. }
  destruct tr.
  - destruct (existsb (fun r => meqb inversion r) l1) eqn:Ei.
    + inversion H; subst l; clear H. apply existsb_meqb in Ei.
      change inversion with (mneg I3) in Ei. split; [auto|]. split.
      * intros x. rewrite Hin. split; [tauto|]. intros [Hx|[_ [Hn _]]]; auto.
        exfalso. apply Hn. now apply Hin.
      * intros HG. split; [|split]; auto. intros _ x Hx. destruct (Hgrp HG) as [_ [Hc _]].
        specialize (Hc _ _ Ei Hx). rewrite mneg_mul_l, mulMM_1_l in Hc. auto.
    + assert (~ In (mneg I3) l1) as Hni.
      { intros Hi. apply existsb_meqb in Hi. change inversion with (mneg I3) in Ei. congruence. }
      destruct (Z.ltb_spec 24 (Z.of_nat (length l1))); [discriminate|].
      inversion H; subst l; clear H.
      rewrite (map_ext _ _ inversion_mul).
      assert (forall x, In x (l1 ++ map mneg l1) <-> In x l1 \/ In (mneg x) l1) as Hx'.
      { intros x. rewrite in_app_iff, in_map_iff. split; (intros [Hx|Hx]; [auto|right]).
        - destruct Hx as [y [<- Hy]]. now rewrite mneg_mneg.
        - exists (mneg x). now rewrite mneg_mneg. }
      split; [|split].
      * rewrite app_length, map_length. lia.
      * intros x. rewrite Hx', !Hin. split; [|tauto]. intros [Hx|Hx]; auto.
        right. repeat split; auto. intros Hc. apply Hni. now apply Hin.
      * intros HG. split; [|split].
        { apply NoDup_app; auto.
          - apply FinFun.Injective_map_NoDup; auto. intros a b. apply mneg_inj.
          - intros x Hx Hx2. apply in_map_iff in Hx2. destruct Hx2 as [y [<- Hy]].
            apply Hni. destruct (Hgrp HG) as [_ [Hc Hv]].
            destruct (Hv y Hy) as [z [Hz [E1 E2]]].
            specialize (Hc _ _ Hx Hz). rewrite mneg_mul_l, E1 in Hc. auto. }
        { apply is_group_neg; auto. }
        { intros _ x Hx. apply Hx'. apply Hx' in Hx. rewrite mneg_mneg. tauto. }
  - inversion H; subst l; clear H. split; [auto|]. split.
    + intros x. rewrite Hin. split; [tauto|]. intros [Hx|[Hf _]]; auto. discriminate.
    + intros HG. repeat split; auto; try discriminate; apply Hgrp; auto.
Qed.
Print Assumptions C07_point_group_contents.

(** Without time reversal the result is duplicate-free for every input list. *)
Theorem C07_point_group_distinct_no_time_reversal : forall rots tp l,
  reciprocal_point_group rots false tp = Some l -> NoDup l.
Proof.
  intros rots tp l H. unfold reciprocal_point_group in H.
  destruct (unique_rotations rots) as [l0|] eqn:E0; [|discriminate].
  apply unique_rotations_some in E0. destruct E0 as [Hd Hlen].
  apply (rpg_base rots tp) in Hd. inversion H; subst. apply Hd.
Qed.
Print Assumptions C07_point_group_distinct_no_time_reversal.

(** Failure happens exactly when the capacity would be exceeded. *)
Theorem C07_point_group_failure : forall rots tr tp,
  reciprocal_point_group rots tr tp = None <->
  (exists l, NoDup l /\ incl l rots /\ 48 < Z.of_nat (length l)) \/
  (tr = true /\ ~ In (mneg I3) (rpg_input rots tp) /\
   exists l, NoDup l /\ incl l rots /\ 24 < Z.of_nat (length l)).
Proof.
  intros rots tr tp. unfold reciprocal_point_group.
  pose proof (unique_rotations_none rots) as Hnone.
  destruct (unique_rotations rots) as [l0|] eqn:E0.
  2:{ split; auto. intros _. left. now apply Hnone. }
  pose proof (unique_rotations_some _ _ E0) as [Hd Hlen].
  pose proof (rpg_base rots tp l0 Hd) as Hd1.
  set (l1 := if tp then map transp l0 else l0) in *.
  change (if tp then map transp rots else rots) with (rpg_input rots tp) in Hd1.
  assert (length l1 = length l0) as Hl1 by (unfold l1; destruct tp; rewrite ?map_length; auto).
  assert (~ exists l, NoDup l /\ incl l rots /\ 48 < Z.of_nat (length l)) as Hno.
  { intros Hc. apply Hnone in Hc. discriminate. }
  destruct tr; [|split; [discriminate|intros [Hc|[Hf _]]; [tauto|discriminate]]].
  destruct (existsb (fun r => meqb inversion r) l1) eqn:Ei.
  - apply existsb_meqb in Ei. split; [discriminate|]. intros [Hc|[_ [Hc _]]]; [tauto|].
    exfalso. apply Hc. apply Hd1. exact Ei.
  - assert (~ In (mneg I3) (rpg_input rots tp)) as Hni.
    { intros Hi. apply Hd1 in Hi. apply existsb_meqb in Hi.
      change inversion with (mneg I3) in Ei. congruence. }
    destruct (Z.ltb_spec 24 (Z.of_nat (length l1))) as [Hlt|Hge].
    + split; auto. intros _. right. repeat split; auto. exists l0. destruct Hd as [A B].
      repeat split; auto; [intros x Hx; now apply B|lia].
    + split; [discriminate|]. intros [Hc|[_ [_ [l [A [B C]]]]]]; [tauto|]. exfalso.
      assert (length l <= length l0)%nat; [|lia]. apply NoDup_incl_length; auto.
      intros x Hx. apply Hd. auto.
Qed.
Print Assumptions C07_point_group_failure.

(** For lists that are not closed under products, time reversal may duplicate
    operations: {R, -R} without -1 gives each twice. *)
Theorem C07_distinct_for_every_list_refuted :
  ~ (forall rots tr tp l, reciprocal_point_group rots tr tp = Some l -> NoDup l).
Proof.
  intros H. specialize (H [ex_c4; mneg ex_c4] true false
    [ex_c4; mneg ex_c4; mneg ex_c4; ex_c4] eq_refl).
  inversion H as [|? ? H1 H2]. apply H1. cbn. auto.
Qed.
Print Assumptions C07_distinct_for_every_list_refuted.

Example C07_ex : is_group [I3; ex_c4; mulMM ex_c4 ex_c4; mulMM ex_c4 (mulMM ex_c4 ex_c4)] /\
  exists l, reciprocal_point_group
    ([I3; ex_c4; ex_c4; mulMM ex_c4 ex_c4; I3; mulMM ex_c4 (mulMM ex_c4 ex_c4)]) true true = Some l
    /\ length l = 8%nat.
Proof.
  split.
  - apply is_groupb_sound. vm_compute. reflexivity.
  - eexists. split; [vm_compute; reflexivity|reflexivity].
Qed.

(* ------------------------------------------------------------------ C18 *)
Theorem C18_little_group : forall rots D gp, pos_mesh D -> 0 <= gp < mesh_size D ->
  (forall R, In R (point_group_with_q rots D gp) <->
     In R rots /\
     vcong D (mulMV R (get_grid_address_from_index gp D)) (get_grid_address_from_index gp D)) /\
  (NoDup rots -> NoDup (point_group_with_q rots D gp)) /\
  ((forall R, In R rots -> compat D R) -> is_group rots -> is_group (point_group_with_q rots D gp)).
Proof.
  intros rots D gp HD Hgp. split; [|split].
  - intros R. apply little_group_spec; auto.
  - apply NoDup_filter.
  - apply little_group_group; auto.
Qed.
Print Assumptions C18_little_group.

Example C18_ex : length (point_group_with_q ex_rots ex_D 9) = 8%nat /\
  point_group_with_q ex_rots ex_D 1 = [I3; mneg (mulMM ex_c4 ex_c4)].
Proof. vm_compute. auto. Qed.
