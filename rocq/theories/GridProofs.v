(** Proofs about the grid model. *)
From Coq Require Import ZArith List Lia Bool Permutation.
From Verif Require Import Base BaseProofs Mat3 GridSpec GridModel Orbit.
Import ListNotations.
Open Scope Z_scope.

Lemma modulo_l_mod : forall a b, 0 < b -> modulo_l a b = a mod b.
Proof.
  intros a b Hb. unfold modulo_l.
  pose proof (Z.mod_pos_bound a b Hb).
  pose proof (Z.quot_rem' a b) as Hq. pose proof (Z.div_mod a b ltac:(lia)) as Hd.
  destruct (Z.ltb_spec (Z.rem a b) 0) as [Hlt|Hge].
  - assert (a < 0). { destruct (Z_lt_le_dec a 0); auto.
      pose proof (Z.rem_bound_pos a b ltac:(lia) ltac:(lia)). lia. }
    pose proof (Z.rem_bound_pos_neg a b ltac:(lia) ltac:(lia)).
    apply (Z.mod_unique_pos a b (Z.quot a b - 1)); lia.
  - assert (Z.rem a b < b).
    { pose proof (Z.rem_bound_abs a b ltac:(lia)). lia. }
    apply (Z.mod_unique_pos a b (Z.quot a b)); lia.
Qed.

Lemma mixed_radix_bound : forall a0 a1 a2 d0 d1 d2,
  0 <= a0 < d0 -> 0 <= a1 < d1 -> 0 <= a2 < d2 ->
  0 <= a2 * d0 * d1 + a1 * d0 + a0 < d0 * d1 * d2.
Proof.
  intros. assert (0 <= a1 * d0 + a0 < d0 * d1).
  { assert (0 <= a1 * d0) by nia. assert ((a1 + 1) * d0 <= d1 * d0) by nia. nia. }
  assert (0 < d0 * d1) by lia. set (e := d0 * d1) in *.
  replace (a2 * d0 * d1) with (a2 * e) by (unfold e; ring).
  assert (0 <= a2 * e) by nia. assert ((a2 + 1) * e <= d2 * e) by nia. nia.
Qed.

Lemma mixed_radix_unique : forall a0 a1 a2 b0 b1 b2 d0 d1,
  0 <= a0 < d0 -> 0 <= a1 < d1 -> 0 <= b0 < d0 -> 0 <= b1 < d1 ->
  a2 * d0 * d1 + a1 * d0 + a0 = b2 * d0 * d1 + b1 * d0 + b0 ->
  a0 = b0 /\ a1 = b1 /\ a2 = b2.
Proof.
  intros a0 a1 a2 b0 b1 b2 d0 d1 Ha0 Ha1 Hb0 Hb1 H.
  assert (d0 * (a2 * d1 + a1) + a0 = d0 * (b2 * d1 + b1) + b0) as H' by lia.
  apply Z.div_mod_unique in H'; [|lia|lia]. destruct H' as [H1 H0].
  assert (d1 * a2 + a1 = d1 * b2 + b1) as H'' by lia.
  apply Z.div_mod_unique in H''; [|lia|lia]. lia.
Qed.

Lemma quot_div : forall a b, 0 <= a -> 0 < b -> Z.quot a b = a / b.
Proof. intros. apply Z.quot_div_nonneg; lia. Qed.

Lemma in_cell_reduce : forall D a, pos_mesh D -> in_cell D (reduce_grid_address a D).
Proof.
  intros [d0 d1 d2] [a0 a1 a2] [H0 [H1 H2]]. cbn.
  rewrite !modulo_l_mod by lia. repeat split; apply Z.mod_pos_bound; lia.
Qed.

Lemma index_in_cell_range : forall D a, in_cell D a ->
  0 <= get_grid_index_from_address a D < mesh_size D.
Proof. intros [d0 d1 d2] [a0 a1 a2] [H0 [H1 H2]]. cbn. apply mixed_radix_bound; lia. Qed.

Lemma index_in_cell_inj : forall D a b, in_cell D a -> in_cell D b ->
  get_grid_index_from_address a D = get_grid_index_from_address b D -> a = b.
Proof.
  intros [d0 d1 d2] [a0 a1 a2] [b0 b1 b2] [H0 [H1 H2]] [K0 [K1 K2]] H. cbn in H.
  apply mixed_radix_unique in H; try lia. destruct H as [-> [-> ->]]. reflexivity.
Qed.

Lemma vcong_refl : forall D a, vcong D a a.
Proof. intros [] []. exists vzero. cbn. f_equal; lia. Qed.
Lemma vcong_sym : forall D a b, vcong D a b -> vcong D b a.
Proof. intros [] [] [] [[k0 k1 k2] H]. inversion H; subst. exists (v3 (-k0) (-k1) (-k2)).
  cbn -[Z.mul Z.add Z.opp]. f_equal; ring. Qed.
Lemma vcong_trans : forall D a b c, vcong D a b -> vcong D b c -> vcong D a c.
Proof. intros [] [] [] [] [[k0 k1 k2] H] [[l0 l1 l2] H']. inversion H; inversion H'; subst.
  exists (v3 (k0+l0) (k1+l1) (k2+l2)). cbn -[Z.mul Z.add Z.opp]. f_equal; ring. Qed.

Lemma vcong_mod : forall d0 d1 d2 a0 a1 a2 b0 b1 b2, 0 < d0 -> 0 < d1 -> 0 < d2 ->
  (vcong (v3 d0 d1 d2) (v3 a0 a1 a2) (v3 b0 b1 b2) <->
   a0 mod d0 = b0 mod d0 /\ a1 mod d1 = b1 mod d1 /\ a2 mod d2 = b2 mod d2).
Proof.
  intros. split.
  - intros [[k0 k1 k2] H']. inversion H'; subst.
    rewrite !(Z.mul_comm d0), !(Z.mul_comm d1), !(Z.mul_comm d2), !Z_mod_plus_full. auto.
  - intros [E0 [E1 E2]]. exists (v3 (a0/d0 - b0/d0) (a1/d1 - b1/d1) (a2/d2 - b2/d2)).
    pose proof (Z.div_mod a0 d0 ltac:(lia)). pose proof (Z.div_mod b0 d0 ltac:(lia)).
    pose proof (Z.div_mod a1 d1 ltac:(lia)). pose proof (Z.div_mod b1 d1 ltac:(lia)).
    pose proof (Z.div_mod a2 d2 ltac:(lia)). pose proof (Z.div_mod b2 d2 ltac:(lia)).
    cbn -[Z.mul Z.add Z.sub]. f_equal; lia.
Qed.

Lemma reduce_cong : forall D a, pos_mesh D -> vcong D (reduce_grid_address a D) a.
Proof.
  intros [d0 d1 d2] [a0 a1 a2] [H0 [H1 H2]]. cbn [reduce_grid_address].
  rewrite !modulo_l_mod by lia. apply vcong_mod; auto. now rewrite !Zmod_mod.
Qed.

Lemma reduce_eq_iff : forall D a b, pos_mesh D ->
  (reduce_grid_address a D = reduce_grid_address b D <-> vcong D a b).
Proof.
  intros [d0 d1 d2] [a0 a1 a2] [b0 b1 b2] [H0 [H1 H2]]. cbn [reduce_grid_address].
  rewrite !modulo_l_mod by lia. rewrite vcong_mod by auto. split.
  - intros H. inversion H; auto.
  - intros [-> [-> ->]]; auto.
Qed.

Lemma grid_index_range : forall D a, pos_mesh D -> 0 <= grid_index a D < mesh_size D.
Proof. intros. apply index_in_cell_range, in_cell_reduce; auto. Qed.

Lemma grid_index_eq_iff : forall D a b, pos_mesh D ->
  (grid_index a D = grid_index b D <-> vcong D a b).
Proof.
  intros D a b HD. rewrite <- reduce_eq_iff by auto. unfold grid_index. split; [|congruence].
  apply index_in_cell_inj; apply in_cell_reduce; auto.
Qed.

Lemma reduce_in_cell : forall D a, in_cell D a -> reduce_grid_address a D = a.
Proof.
  intros [d0 d1 d2] [a0 a1 a2] [H0 [H1 H2]]. cbn [reduce_grid_address].
  rewrite !modulo_l_mod, !Z.mod_small by lia. reflexivity.
Qed.

Lemma address_from_index_spec : forall D gp, pos_mesh D -> 0 <= gp < mesh_size D ->
  in_cell D (get_grid_address_from_index gp D) /\
  get_grid_index_from_address (get_grid_address_from_index gp D) D = gp.
Proof.
  intros [d0 d1 d2] gp [H0 [H1 H2]] Hgp. cbn [mesh_size] in Hgp.
  cbn [get_grid_address_from_index].
  assert (0 < d0 * d1) by nia.
  rewrite (quot_div gp (d0*d1)) by lia.
  pose proof (Z.div_mod gp (d0 * d1) ltac:(lia)) as E.
  pose proof (Z.mod_pos_bound gp (d0*d1) ltac:(lia)) as B.
  set (a2 := gp / (d0 * d1)) in *. set (r := gp mod (d0 * d1)) in *.
  replace (gp - a2 * (d0 * d1)) with r by lia.
  rewrite quot_div by lia. rewrite Z.rem_mod_nonneg by lia.
  pose proof (Z.div_mod r d0 ltac:(lia)) as E'.
  pose proof (Z.mod_pos_bound r d0 ltac:(lia)) as B'.
  set (a1 := r / d0) in *.
  assert (gp mod d0 = r mod d0) as ->.
  { rewrite E at 1. replace (d0 * d1 * a2 + r) with (r + (d1 * a2) * d0) by ring.
    apply Z_mod_plus_full. }
  assert (0 <= a2 < d2). { unfold a2. split; [apply Z.div_pos; lia|apply Z.div_lt_upper_bound; nia]. }
  assert (0 <= a1 < d1). { unfold a1. split; [apply Z.div_pos; lia|apply Z.div_lt_upper_bound; nia]. }
  cbn. repeat split; try lia; nia.
Qed.

Lemma address_in_cell : forall D gp, pos_mesh D -> 0 <= gp < mesh_size D ->
  in_cell D (get_grid_address_from_index gp D).
Proof. intros. now apply address_from_index_spec. Qed.

Lemma index_of_address : forall D gp, pos_mesh D -> 0 <= gp < mesh_size D ->
  grid_index (get_grid_address_from_index gp D) D = gp.
Proof.
  intros D gp HD Hgp. unfold grid_index.
  destruct (address_from_index_spec D gp HD Hgp) as [H1 H2]. now rewrite reduce_in_cell.
Qed.

Lemma address_of_index : forall D a, pos_mesh D ->
  get_grid_address_from_index (grid_index a D) D = reduce_grid_address a D.
Proof.
  intros D a HD. pose proof (grid_index_range D a HD) as Hr.
  destruct (address_from_index_spec D _ HD Hr) as [H1 H2].
  apply (index_in_cell_inj D); auto. apply in_cell_reduce; auto.
Qed.

Lemma address_of_index_cong : forall D a, pos_mesh D ->
  vcong D (get_grid_address_from_index (grid_index a D) D) a.
Proof. intros. rewrite address_of_index by auto. apply reduce_cong; auto. Qed.

Lemma grid_index_py_eq : forall D a, pos_mesh D ->
  grid_point_from_address_py a D = grid_index a D.
Proof.
  intros [d0 d1 d2] [a0 a1 a2] [H0 [H1 H2]]. unfold grid_index.
  cbn [grid_point_from_address_py reduce_grid_address get_grid_index_from_address].
  rewrite !modulo_l_mod by lia. ring.
Qed.

(** All addresses: write loop. *)
Section AllAddr.
  Variables d0 d1 d2 : Z.
  Let D := v3 d0 d1 d2.
  Let idx i j k := get_grid_index_from_address (v3 i j k) D.
  Hypothesis HD : pos_mesh D.

  Let Hinj : forall i j k i' j' k', 0 <= i < d0 -> 0 <= j < d1 -> 0 <= k < d2 ->
    0 <= i' < d0 -> 0 <= j' < d1 -> 0 <= k' < d2 ->
    idx i j k = idx i' j' k' -> v3 i j k = v3 i' j' k'.
  Proof. intros. apply (index_in_cell_inj D); auto; cbn; lia. Qed.

  Lemma inner_k : forall n i j m, 0 <= n <= d2 -> 0 <= i < d0 -> 0 <= j < d1 ->
    let m' := fold_left (fun m k => upd m (idx i j k) (v3 i j k)) (zrange n) m in
    (forall k, 0 <= k < n -> m' (idx i j k) = v3 i j k) /\
    (forall x, (forall k, 0 <= k < n -> x <> idx i j k) -> m' x = m x).
  Proof.
    intros n i j m [Hn Hn2] Hi Hj. revert Hn2. pattern n, (zrange n). apply zrange_ind; auto.
    - cbn; intros _; split; intros; [lia|reflexivity].
    - intros p Hp IH Hp2. specialize (IH ltac:(lia)). cbv zeta in *. destruct IH as [I1 I2].
      rewrite fold_left_app_one. split.
      + intros k Hk. destruct (Z.eq_dec k p) as [->|Hne]; [apply upd_same|].
        rewrite upd_other; [apply I1; lia|]. intros E. apply Hinj in E; try lia.
        inversion E; lia.
      + intros x Hx. rewrite upd_other by (apply Hx; lia). apply I2. intros; apply Hx; lia.
  Qed.

  Lemma inner_j : forall n i m, 0 <= n <= d1 -> 0 <= i < d0 ->
    let m' := fold_left (fun m j =>
      fold_left (fun m k => upd m (idx i j k) (v3 i j k)) (zrange d2) m) (zrange n) m in
    (forall j k, 0 <= j < n -> 0 <= k < d2 -> m' (idx i j k) = v3 i j k) /\
    (forall x, (forall j k, 0 <= j < n -> 0 <= k < d2 -> x <> idx i j k) -> m' x = m x).
  Proof.
    destruct HD as [P0 [P1 P2]].
    intros n i m [Hn Hn2] Hi. revert Hn2. pattern n, (zrange n). apply zrange_ind; auto.
    - cbn; intros _; split; intros; [lia|reflexivity].
    - intros p Hp IH Hp2. specialize (IH ltac:(lia)). cbv zeta in *. destruct IH as [I1 I2].
      rewrite fold_left_app_one.
      set (m' := fold_left _ (zrange p) m) in *.
      destruct (inner_k d2 i p m') as [K1 K2]; try lia.
      split.
      + intros j k Hj Hk. destruct (Z.eq_dec j p) as [->|Hne]; [apply K1; lia|].
        rewrite K2; [apply I1; lia|]. intros k' Hk' E. apply Hinj in E; try lia.
        inversion E; lia.
      + intros x Hx. rewrite K2 by (intros; apply Hx; lia). apply I2. intros; apply Hx; lia.
  Qed.

  Lemma outer_i : forall n m, 0 <= n <= d0 ->
    let m' := fold_left (fun m i => fold_left (fun m j =>
      fold_left (fun m k => upd m (idx i j k) (v3 i j k)) (zrange d2) m) (zrange d1) m) (zrange n) m in
    (forall i j k, 0 <= i < n -> 0 <= j < d1 -> 0 <= k < d2 -> m' (idx i j k) = v3 i j k) /\
    (forall x, (forall i j k, 0 <= i < n -> 0 <= j < d1 -> 0 <= k < d2 -> x <> idx i j k) -> m' x = m x).
  Proof.
    destruct HD as [P0 [P1 P2]].
    intros n m [Hn Hn2]. revert Hn2. pattern n, (zrange n). apply zrange_ind; auto.
    - cbn; intros _; split; intros; [lia|reflexivity].
    - intros p Hp IH Hp2. specialize (IH ltac:(lia)). cbv zeta in *. destruct IH as [I1 I2].
      rewrite fold_left_app_one.
      set (m' := fold_left _ (zrange p) m) in *.
      destruct (inner_j d1 p m') as [K1 K2]; try lia.
      split.
      + intros i j k Hi Hj Hk. destruct (Z.eq_dec i p) as [->|Hne]; [apply K1; lia|].
        rewrite K2; [apply I1; lia|]. intros j' k' Hj' Hk' E. apply Hinj in E; try lia.
        inversion E; lia.
      + intros x Hx. rewrite K2 by (intros; apply Hx; lia). apply I2. intros; apply Hx; lia.
  Qed.
End AllAddr.

Lemma all_addresses_spec : forall D init gp, pos_mesh D -> 0 <= gp < mesh_size D ->
  get_all_grid_addresses D init gp = get_grid_address_from_index gp D.
Proof.
  intros [d0 d1 d2] init gp HD Hgp.
  destruct (address_from_index_spec _ gp HD Hgp) as [H1 H2].
  destruct (get_grid_address_from_index gp (v3 d0 d1 d2)) as [a0 a1 a2] eqn:E.
  rewrite <- H2 at 1. cbn [get_all_grid_addresses].
  destruct H1 as [C0 [C1 C2]].
  assert (0 < d0 /\ 0 < d1 /\ 0 < d2) as [P0 [P1 P2]] by exact HD.
  apply (proj1 (outer_i d0 d1 d2 HD d0 init ltac:(lia))); lia.
Qed.

Lemma all_addresses_untouched : forall D init x, pos_mesh D -> x < 0 \/ mesh_size D <= x ->
  get_all_grid_addresses D init x = init x.
Proof.
  intros [d0 d1 d2] init x HD Hx. cbn [get_all_grid_addresses].
  assert (0 < d0 /\ 0 < d1 /\ 0 < d2) as [P0 [P1 P2]] by exact HD.
  apply (proj2 (outer_i d0 d1 d2 HD d0 init ltac:(lia))).
  intros i j k Hi Hj Hk E. pose proof (index_in_cell_range (v3 d0 d1 d2) (v3 i j k)) as R.
  cbn [in_cell] in R. specialize (R ltac:(lia)). lia.
Qed.

(** Double grid. *)
Lemma quot_2_exact : forall a, Z.quot (2 * a) 2 = a.
Proof. intros a. rewrite Z.mul_comm. apply Z.quot_mul. lia. Qed.

Lemma double_dbl : forall a PS, get_double_grid_address a PS = dbl a PS.
Proof. intros [] []. cbn -[Z.mul Z.add]. f_equal; ring. Qed.

Lemma get_grid_address_dbl : forall a PS, get_grid_address (dbl a PS) PS = a.
Proof.
  intros [a0 a1 a2] [s0 s1 s2]. cbn -[Z.mul Z.add Z.sub Z.quot].
  f_equal;
  match goal with |- Z.quot (?a + ?a + ?s - ?s) 2 = _ =>
    replace (a + a + s - s) with (2 * a) by ring; apply quot_2_exact end.
Qed.

Lemma double_grid_index_dbl : forall a D PS,
  get_double_grid_index (dbl a PS) D PS = grid_index a D.
Proof. intros. unfold get_double_grid_index, grid_index. now rewrite get_grid_address_dbl. Qed.

(** Rotation: affine form. *)
Lemma rot_dbl : forall R a PS t, mulMV R PS = vadd PS (vadd t t) ->
  mulMV R (dbl a PS) = dbl (vadd (mulMV R a) t) PS.
Proof.
  intros R a PS t H. unfold dbl. rewrite !mulMV_add, H.
  destruct (mulMV R a), PS, t. cbn -[Z.add]. f_equal; ring.
Qed.

Lemma rotate_affine : forall gp R D PS t, mulMV R PS = vadd PS (vadd t t) ->
  rotate_grid_index gp R D PS =
  grid_index (vadd (mulMV R (get_grid_address_from_index gp D)) t) D.
Proof.
  intros gp R D PS t H. unfold rotate_grid_index.
  rewrite double_dbl, (rot_dbl _ _ _ t H). apply double_grid_index_dbl.
Qed.

Lemma compat_cong : forall D R a b, compat D R -> vcong D a b -> vcong D (mulMV R a) (mulMV R b).
Proof.
  intros D R a b HR [k ->]. destruct (HR k) as [k' Hk']. exists k'.
  now rewrite mulMV_add, Hk'.
Qed.

Lemma vcong_add_r : forall D a b t, vcong D a b -> vcong D (vadd a t) (vadd b t).
Proof.
  intros D a b t [k ->]. exists k. destruct b, t, D, k. cbn -[Z.add Z.mul]. f_equal; ring.
Qed.

Lemma rotate_any_rep : forall gp R D PS t a, pos_mesh D -> compat D R ->
  mulMV R PS = vadd PS (vadd t t) -> 0 <= gp < mesh_size D -> grid_index a D = gp ->
  rotate_grid_index gp R D PS = grid_index (vadd (mulMV R a) t) D.
Proof.
  intros gp R D PS t a HD HR Ht Hgp Ha. rewrite (rotate_affine _ _ _ _ t Ht).
  apply grid_index_eq_iff; auto. apply vcong_add_r, compat_cong; auto.
  rewrite <- Ha. apply address_of_index_cong; auto.
Qed.

Lemma rotate_range : forall gp R D PS, pos_mesh D -> 0 <= rotate_grid_index gp R D PS < mesh_size D.
Proof. intros. unfold rotate_grid_index, get_double_grid_index.
  apply index_in_cell_range, in_cell_reduce; auto. Qed.

Lemma vcong_twice : forall D a b PS, vcong D a b -> vcong (twice D) (dbl a PS) (dbl b PS).
Proof.
  intros [] [] [] [] [[k0 k1 k2] H]. inversion H; subst. exists (v3 k0 k1 k2).
  cbn -[Z.add Z.mul]. f_equal; ring.
Qed.

(** Position-level statement: the rotated index sits at R times the position. *)
Lemma rotate_position : forall gp R D PS a, pos_mesh D -> compat D R -> shift_ok PS R ->
  0 <= gp < mesh_size D -> grid_index a D = gp ->
  vcong (twice D) (dbl (get_grid_address_from_index (rotate_grid_index gp R D PS) D) PS)
        (mulMV R (dbl a PS)).
Proof.
  intros gp R D PS a HD HR [t Ht] Hgp Ha.
  rewrite (rotate_any_rep gp R D PS t a) by auto.
  rewrite (rot_dbl _ _ _ t Ht). apply vcong_twice. apply address_of_index_cong; auto.
Qed.

Lemma compat_I3 : forall D, compat D I3.
Proof. intros D k. exists k. now rewrite mulMV_1. Qed.
Lemma compat_mul : forall D R S, compat D R -> compat D S -> compat D (mulMM R S).
Proof. intros D R S HR HS k. destruct (HS k) as [k' Hk']. destruct (HR k') as [k'' Hk''].
  exists k''. now rewrite mulMV_mulMM, Hk', Hk''. Qed.
Lemma shift_ok_I3 : forall PS, shift_ok PS I3.
Proof. intros [a b c]. exists vzero. rewrite mulMV_1. cbn. f_equal; lia. Qed.
Lemma shift_ok_mul : forall PS R S, shift_ok PS R -> shift_ok PS S -> shift_ok PS (mulMM R S).
Proof.
  intros PS R S [t Ht] [u Hu]. exists (vadd t (mulMV R u)).
  rewrite mulMV_mulMM, Hu, !mulMV_add, Ht.
  destruct PS, t, (mulMV R u). cbn -[Z.add]. f_equal; ring.
Qed.
Lemma shift_ok_zero : forall R, shift_ok vzero R.
Proof. intros []. exists vzero. cbn. f_equal; lia. Qed.

Lemma rotate_I3 : forall gp D PS, pos_mesh D -> 0 <= gp < mesh_size D ->
  rotate_grid_index gp I3 D PS = gp.
Proof.
  intros gp D PS HD Hgp. rewrite (rotate_affine gp I3 D PS vzero).
  - rewrite mulMV_1. rewrite <- (index_of_address D gp) at 2 by auto.
    f_equal. destruct (get_grid_address_from_index gp D). cbn. f_equal; lia.
  - rewrite mulMV_1. destruct PS. cbn. f_equal; lia.
Qed.

Lemma rotate_compose : forall gp R S D PS, pos_mesh D -> compat D R ->
  shift_ok PS R -> shift_ok PS S -> 0 <= gp < mesh_size D ->
  rotate_grid_index gp (mulMM R S) D PS =
  rotate_grid_index (rotate_grid_index gp S D PS) R D PS.
Proof.
  intros gp R S D PS HD HR [t Ht] [u Hu] Hgp.
  rewrite (rotate_affine gp S D PS u Hu).
  rewrite (rotate_any_rep _ R D PS t (vadd (mulMV S (get_grid_address_from_index gp D)) u));
    auto using grid_index_range.
  rewrite (rotate_affine gp (mulMM R S) D PS (vadd t (mulMV R u))).
  - f_equal. rewrite mulMV_mulMM, mulMV_add.
    destruct (mulMV R (mulMV S (get_grid_address_from_index gp D))), (mulMV R u), t.
    cbn -[Z.add]. f_equal; ring.
  - rewrite mulMV_mulMM, Hu, !mulMV_add, Ht.
    destruct PS, t, (mulMV R u). cbn -[Z.add]. f_equal; ring.
Qed.

Lemma rotate_permutes : forall R S D PS, pos_mesh D -> compat D R -> compat D S ->
  shift_ok PS R -> shift_ok PS S -> mulMM R S = I3 -> mulMM S R = I3 ->
  permutes (mesh_size D) (fun gp => rotate_grid_index gp R D PS).
Proof.
  intros R S D PS HD HR HS TR TS E1 E2. repeat split.
  - apply rotate_range; auto.
  - apply rotate_range; auto.
  - intros x y Hx Hy H. apply (f_equal (fun g => rotate_grid_index g S D PS)) in H.
    rewrite <- !rotate_compose, E2, !rotate_I3 in H; auto.
  - intros y Hy. exists (rotate_grid_index y S D PS). split; [apply rotate_range; auto|].
    rewrite <- rotate_compose, E1, rotate_I3; auto.
Qed.

(** The group data needed by [Orbit]. *)
Definition good_group (D PS : V3) (rots : list M3) : Prop :=
  is_group rots /\ forall R, In R rots -> compat D R /\ shift_ok PS R.

Section IrMap.
  Variables (D PS : V3) (rots : list M3).
  Hypothesis HD : pos_mesh D.
  Hypothesis HG : good_group D PS rots.
  Let n := mesh_size D.
  Let act R gp := rotate_grid_index gp R D PS.

  Lemma gr_range : forall a x, In a rots -> 0 <= x < n -> 0 <= act a x < n.
  Proof. intros. apply rotate_range; auto. Qed.
  Lemma gr_e : In I3 rots. Proof. apply HG. Qed.
  Lemma gr_act_e : forall x, 0 <= x < n -> act I3 x = x.
  Proof. intros. apply rotate_I3; auto. Qed.
  Lemma gr_closed : forall a b, In a rots -> In b rots -> In (mulMM a b) rots.
  Proof. apply HG. Qed.
  Lemma gr_act : forall a b x, In a rots -> In b rots -> 0 <= x < n ->
    act (mulMM a b) x = act a (act b x).
  Proof. intros a b x Ha Hb Hx. destruct HG as [_ H]. unfold act.
    apply rotate_compose; auto; apply H; auto. Qed.
  Lemma gr_inv : forall a, In a rots -> exists b, In b rots /\
    (forall c, mulMM b (mulMM a c) = c) /\ (forall c, mulMM a (mulMM b c) = c) /\
    mulMM a b = I3 /\ mulMM b a = I3.
  Proof.
    intros a Ha. destruct HG as [[_ [_ H]] _]. destruct (H a Ha) as [b [Hb [E1 E2]]].
    exists b. repeat split; auto; intros c; rewrite mulMM_assoc, ?E1, ?E2; apply mulMM_1_l.
  Qed.
End IrMap.

Lemma num_gp_mesh_size : forall D, num_gp D = mesh_size D.
Proof. reflexivity. Qed.

Lemma ir_grid_map_gmap : forall rots D PS init,
  get_ir_grid_map rots D PS init =
  gmap M3 rots (fun R gp => rotate_grid_index gp R D PS) (mesh_size D) init.
Proof. reflexivity. Qed.

Lemma ir_grid_map_least : forall rots D PS init gp, pos_mesh D -> good_group D PS rots ->
  0 <= gp < mesh_size D ->
  is_least_image rots (fun R g => rotate_grid_index g R D PS) gp
                 (get_ir_grid_map rots D PS init gp).
Proof.
  intros rots D PS init gp HD HG Hgp. rewrite ir_grid_map_gmap.
  apply (gmap_least M3 mulMM I3 rots _ (mesh_size D)); auto.
  - apply gr_range; auto.
  - apply (gr_e D PS rots); auto.
  - apply (gr_act_e D PS); auto.
  - apply (gr_closed D PS rots); auto.
  - apply (gr_act D PS rots); auto.
  - apply (gr_inv D PS rots); auto.
Qed.

Lemma mesh_size_pos : forall D, pos_mesh D -> 0 < mesh_size D.
Proof. intros [a b c] [H0 [H1 H2]]. cbn. nia. Qed.

(** Point group construction. *)
Lemma existsb_meqb : forall r l, existsb (fun s => meqb r s) l = true <-> In r l.
Proof.
  intros r l. rewrite existsb_exists. split.
  - intros [s [Hs E]]. apply meqb_eq in E. now subst.
  - intros H. exists r. split; auto. now apply meqb_eq.
Qed.

Definition ustep (acc : option (list M3)) (r : M3) : option (list M3) :=
    match acc with
    | None => None
    | Some l =>
        if existsb (fun s => meqb r s) l then Some l
        else if Z.of_nat (length l) =? 48 then None
        else Some (l ++ [r])
    end.

Lemma ustep_none : forall rots, fold_left ustep rots None = None.
Proof. induction rots; cbn; auto. Qed.

(** [l] lists exactly the distinct elements of [l']. *)
Definition distinct_elements (l l' : list M3) : Prop :=
  NoDup l /\ (forall x, In x l <-> In x l').

Lemma distinct_elements_length : forall l1 l2 l', distinct_elements l1 l' ->
  distinct_elements l2 l' -> length l1 = length l2.
Proof.
  intros l1 l2 l' [N1 E1] [N2 E2]. apply Nat.le_antisymm; apply NoDup_incl_length; auto;
    intros x Hx; [apply E2, E1|apply E1, E2]; auto.
Qed.

Lemma ustep_fold : forall rots acc, NoDup acc -> Z.of_nat (length acc) <= 48 ->
  match fold_left ustep rots (Some acc) with
  | Some l => NoDup l /\ Z.of_nat (length l) <= 48 /\
              (forall x, In x l <-> In x acc \/ In x rots)
  | None => exists l, NoDup l /\ (forall x, In x l -> In x acc \/ In x rots) /\
              48 < Z.of_nat (length l)
  end.
Proof.
  induction rots as [|r rots IH]; intros acc Hnd Hlen.
  - cbn. repeat split; auto; tauto.
  - cbn [fold_left ustep].
    destruct (existsb (fun s => meqb r s) acc) eqn:E.
    + apply existsb_meqb in E. specialize (IH acc Hnd Hlen).
      destruct (fold_left ustep rots (Some acc)) as [l|].
      * destruct IH as [A [B C]]. repeat split; auto; rewrite C; cbn; intuition (subst; auto).
      * destruct IH as [l [A [B C]]]. exists l. repeat split; auto.
        intros x Hx. destruct (B x Hx); cbn; auto.
    + assert (~ In r acc) as Hn. { intros H. apply existsb_meqb in H. congruence. }
      assert (NoDup (acc ++ [r])) as Hnd'.
      { apply (Permutation_NoDup (l := r :: acc)); [|constructor; auto].
        apply Permutation_cons_append. }
      destruct (Z.eqb_spec (Z.of_nat (length acc)) 48) as [E48|E48].
      * rewrite ustep_none. exists (acc ++ [r]). repeat split; auto.
        { intros x Hx. apply in_app_iff in Hx. cbn in *. intuition. }
        { rewrite app_length. cbn [length]. lia. }
      * specialize (IH (acc ++ [r]) Hnd').
        rewrite app_length in IH. cbn [length] in IH. specialize (IH ltac:(lia)).
        destruct (fold_left ustep rots (Some (acc ++ [r]))) as [l|].
        { destruct IH as [A [B C]]. repeat split; auto.
          - intros Hx. apply C in Hx. rewrite in_app_iff in Hx. cbn in *. intuition.
          - intros Hx. apply C. rewrite in_app_iff. cbn in *. intuition. }
        { destruct IH as [l [A [B C]]]. exists l. repeat split; auto.
          intros x Hx. specialize (B x Hx). rewrite in_app_iff in B. cbn in *. intuition. }
Qed.

Lemma unique_rotations_some : forall rots l, unique_rotations rots = Some l ->
  distinct_elements l rots /\ Z.of_nat (length l) <= 48.
Proof.
  intros rots l H. pose proof (ustep_fold rots [] (NoDup_nil _) ltac:(cbn; lia)) as K.
  change (fold_left ustep rots (Some [])) with (unique_rotations rots) in K. rewrite H in K.
  destruct K as [A [B C]]. repeat split; auto; intros Hx; apply C in Hx || apply C; cbn in *; tauto.
Qed.

Lemma unique_rotations_none : forall rots, unique_rotations rots = None <->
  (exists l, NoDup l /\ incl l rots /\ 48 < Z.of_nat (length l)).
Proof.
  intros rots. pose proof (ustep_fold rots [] (NoDup_nil _) ltac:(cbn; lia)) as K.
  change (fold_left ustep rots (Some [])) with (unique_rotations rots) in K.
  split.
  - intros H. rewrite H in K. destruct K as [l [A [B C]]]. exists l. repeat split; auto.
    intros x Hx. specialize (B x Hx). cbn in B. tauto.
  - intros [l [A [B C]]]. destruct (unique_rotations rots) as [l'|]; auto.
    destruct K as [A' [B' C']]. exfalso.
    assert (length l <= length l')%nat; [|lia].
    apply NoDup_incl_length; auto. intros x Hx. apply C'. auto.
Qed.

Lemma inversion_mul : forall r, mulMM inversion r = mneg r.
Proof. intros []. cbn -[Z.mul Z.add Z.opp]. f_equal; ring. Qed.
Lemma mneg_inj : forall a b, mneg a = mneg b -> a = b.
Proof. intros [] []. cbn. intros H. inversion H. f_equal; lia. Qed.
Lemma mneg_mneg : forall a, mneg (mneg a) = a.
Proof. intros []. cbn. f_equal; lia. Qed.
Lemma mneg_mul_l : forall a b, mulMM (mneg a) b = mneg (mulMM a b).
Proof. intros [] []. cbn -[Z.mul Z.add Z.opp]. f_equal; ring. Qed.
Lemma mneg_mul_r : forall a b, mulMM a (mneg b) = mneg (mulMM a b).
Proof. intros [] []. cbn -[Z.mul Z.add Z.opp]. f_equal; ring. Qed.
Lemma transp_inj : forall a b, transp a = transp b -> a = b.
Proof. intros a b H. rewrite <- (transp_transp a), H. apply transp_transp. Qed.
Lemma transp_I3 : transp I3 = I3. Proof. reflexivity. Qed.

Lemma is_group_transp : forall l, is_group l -> is_group (map transp l).
Proof.
  intros l [H1 [H2 H3]]. repeat split.
  - apply in_map_iff. exists I3. auto.
  - intros a b Ha Hb. apply in_map_iff in Ha, Hb. destruct Ha as [a' [<- Ha]], Hb as [b' [<- Hb]].
    rewrite <- transp_mulMM. apply in_map. auto.
  - intros a Ha. apply in_map_iff in Ha. destruct Ha as [a' [<- Ha]].
    destruct (H3 a' Ha) as [b [Hb [E1 E2]]]. exists (transp b). repeat split.
    + now apply in_map.
    + rewrite <- transp_mulMM, E2. reflexivity.
    + rewrite <- transp_mulMM, E1. reflexivity.
Qed.

Lemma is_group_ext : forall l l', (forall x, In x l <-> In x l') -> is_group l -> is_group l'.
Proof.
  intros l l' E [H1 [H2 H3]]. repeat split.
  - now apply E.
  - intros a b Ha Hb. apply E. apply H2; now apply E.
  - intros a Ha. apply E in Ha. destruct (H3 a Ha) as [b [Hb K]]. exists b. split; auto. now apply E.
Qed.

Lemma is_group_neg : forall l, is_group l -> is_group (l ++ map mneg l).
Proof.
  intros l [H1 [H2 H3]]. repeat split.
  - apply in_app_iff. now left.
  - intros a b Ha Hb. apply in_app_iff in Ha, Hb. apply in_app_iff.
    destruct Ha as [Ha|Ha], Hb as [Hb|Hb];
      try (apply in_map_iff in Ha; destruct Ha as [a' [<- Ha]]);
      try (apply in_map_iff in Hb; destruct Hb as [b' [<- Hb]]);
      rewrite ?mneg_mul_l, ?mneg_mul_r, ?mneg_mneg; auto;
      right; apply in_map; auto.
  - intros a Ha. apply in_app_iff in Ha. destruct Ha as [Ha|Ha].
    + destruct (H3 a Ha) as [b [Hb K]]. exists b. split; auto. apply in_app_iff; auto.
    + apply in_map_iff in Ha; destruct Ha as [a' [<- Ha]].
      destruct (H3 a' Ha) as [b [Hb [E1 E2]]]. exists (mneg b). split.
      * apply in_app_iff. right. now apply in_map.
      * rewrite !mneg_mul_l, !mneg_mul_r, !mneg_mneg. auto.
Qed.

(** Boolean checks used by the Examples. *)
Definition is_groupb (G : list M3) : bool :=
  existsb (fun s => meqb I3 s) G &&
  forallb (fun a => forallb (fun b => existsb (fun s => meqb (mulMM a b) s) G) G) G &&
  forallb (fun a => existsb (fun b => meqb (mulMM a b) I3 && meqb (mulMM b a) I3) G) G.

Lemma is_groupb_sound : forall G, is_groupb G = true -> is_group G.
Proof.
  intros G H. unfold is_groupb in H. apply andb_true_iff in H. destruct H as [H H3].
  apply andb_true_iff in H. destruct H as [H1 H2]. repeat split.
  - now apply existsb_meqb.
  - intros a b Ha Hb. apply existsb_meqb. rewrite forallb_forall in H2.
    specialize (H2 a Ha). rewrite forallb_forall in H2. auto.
  - intros a Ha. rewrite forallb_forall in H3. specialize (H3 a Ha).
    apply existsb_exists in H3. destruct H3 as [b [Hb E]]. apply andb_true_iff in E.
    rewrite !meqb_eq in E. exists b; tauto.
Qed.

Definition compatb (D : V3) (R : M3) : bool :=
  let '(v3 d0 d1 d2) := D in let '(m3 a b c d e f g h i) := R in
  ((b * d1) mod d0 =? 0) && ((c * d2) mod d0 =? 0) && ((d * d0) mod d1 =? 0)
  && ((f * d2) mod d1 =? 0) && ((g * d0) mod d2 =? 0) && ((h * d1) mod d2 =? 0).

Lemma compatb_sound : forall D R, pos_mesh D -> compatb D R = true -> compat D R.
Proof.
  intros [d0 d1 d2] [a b c d e f g h i] [P0 [P1 P2]] H. cbn in H.
  rewrite !andb_true_iff, !Z.eqb_eq in H.
  destruct H as [[[[[H1 H2] H3] H4] H5] H6].
  apply Z.mod_divide in H1, H2, H3, H4, H5, H6; try lia.
  destruct H1 as [q1 H1], H2 as [q2 H2], H3 as [q3 H3], H4 as [q4 H4], H5 as [q5 H5], H6 as [q6 H6].
  intros [x y z]. exists (v3 (a*x + q1*y + q2*z) (q3*x + e*y + q4*z) (q5*x + q6*y + i*z)).
  cbn -[Z.mul Z.add]. f_equal.
  - replace (a * (d0 * x) + b * (d1 * y) + c * (d2 * z))
      with (a * d0 * x + (b * d1) * y + (c * d2) * z) by ring. rewrite H1, H2. ring.
  - replace (d * (d0 * x) + e * (d1 * y) + f * (d2 * z))
      with ((d * d0) * x + e * d1 * y + (f * d2) * z) by ring. rewrite H3, H4. ring.
  - replace (g * (d0 * x) + h * (d1 * y) + i * (d2 * z))
      with ((g * d0) * x + (h * d1) * y + i * d2 * z) by ring. rewrite H5, H6. ring.
Qed.

Definition shift_okb (PS : V3) (R : M3) : bool :=
  let '(v3 x y z) := vsub (mulMV R PS) PS in
  (x mod 2 =? 0) && (y mod 2 =? 0) && (z mod 2 =? 0).

Lemma shift_okb_sound : forall PS R, shift_okb PS R = true -> shift_ok PS R.
Proof.
  intros PS R H. unfold shift_okb in H. destruct (mulMV R PS) as [x y z] eqn:E.
  destruct PS as [p q r]. cbn [vsub] in H. rewrite !andb_true_iff, !Z.eqb_eq in H.
  destruct H as [[H1 H2] H3]. apply Z.mod_divide in H1, H2, H3; try lia.
  destruct H1 as [u H1], H2 as [v H2], H3 as [w H3].
  exists (v3 u v w). rewrite E. cbn -[Z.add]. f_equal; lia.
Qed.

Definition good_groupb (D PS : V3) (rots : list M3) : bool :=
  is_groupb rots && forallb (fun R => compatb D R && shift_okb PS R) rots.

Lemma good_groupb_sound : forall D PS rots, pos_mesh D -> good_groupb D PS rots = true ->
  good_group D PS rots.
Proof.
  intros D PS rots HD H. apply andb_true_iff in H. destruct H as [H1 H2]. split.
  - now apply is_groupb_sound.
  - intros R HR. rewrite forallb_forall in H2. specialize (H2 R HR).
    apply andb_true_iff in H2. destruct H2.
    split; [now apply compatb_sound|now apply shift_okb_sound].
Qed.

(** Irreducible points and weights. *)
Section Weights.
  Variables (D PS : V3) (rots : list M3) (init : Z -> Z).
  Hypothesis HD : pos_mesh D.
  Hypothesis HG : good_group D PS rots.
  Let n := mesh_size D.
  Let act R gp := rotate_grid_index gp R D PS.
  Let mp := get_ir_grid_map rots D PS init.

  Lemma w_least : forall x, 0 <= x < n -> is_least_image rots act x (mp x).
  Proof. intros. apply ir_grid_map_least; auto. Qed.

  Ltac group_facts :=
    first [ exact w_least | exact (gr_e D PS rots HG) | exact (gr_closed D PS rots HG)
          | exact (gr_act D PS rots HD HG) | exact (gr_inv D PS rots HG)
          | exact (gr_act_e D PS HD)
          | intros; apply rotate_range; assumption | idtac ].

  Lemma w_eq_iff : forall x y, 0 <= x < n -> 0 <= y < n ->
    (mp x = mp y <-> exists R, In R rots /\ act R x = y).
  Proof.
    apply (mp_eq_iff M3 mulMM I3 rots act n); group_facts.
  Qed.
  Lemma w_idem : forall x, 0 <= x < n -> mp (mp x) = mp x.
  Proof.
    apply (mp_idem M3 mulMM I3 rots act n); group_facts.
  Qed.
  Lemma w_range : forall x, 0 <= x < n -> 0 <= mp x < n.
  Proof. intros x Hx. destruct (w_least x Hx) as [[r [Hr <-]] _]. apply rotate_range; auto. Qed.

  Lemma w_stab : NoDup rots -> forall x, 0 <= x < n ->
    zcount (fun y => mp y =? mp x) (zrange n) * zcount (fun r => act r x =? x) rots
    = Z.of_nat (length rots).
  Proof.
    intros Hnd.
    apply (orbit_stabilizer M3 mulMM I3 rots act n); try exact Hnd; group_facts.
  Qed.

  Lemma ir_points_fixed : forall g, In g (ir_grid_points mp n) <-> 0 <= g < n /\ mp g = g.
  Proof.
    intros g. unfold ir_grid_points. rewrite filter_In, in_zrange, existsb_exists. split.
    - intros [Hg [x [Hx E]]]. apply in_zrange in Hx. apply Z.eqb_eq in E. split; auto.
      subst g. apply w_idem; auto.
    - intros [Hg E]. split; auto. exists g. rewrite in_zrange. split; auto. now apply Z.eqb_eq.
  Qed.

  Lemma ir_points_eq : ir_grid_points mp n = filter (fun g => mp g =? g) (zrange n).
  Proof.
    unfold ir_grid_points. apply filter_ext_in. intros g Hg. apply in_zrange in Hg.
    destruct (mp g =? g) eqn:E.
    - apply existsb_exists. exists g. rewrite in_zrange. auto.
    - apply Z.eqb_neq in E. apply not_true_is_false. intros H. apply existsb_exists in H.
      destruct H as [x [Hx Ex]]. apply in_zrange in Hx. apply Z.eqb_eq in Ex.
      apply E. rewrite <- Ex. apply w_idem; auto.
  Qed.

  Lemma ir_weights_sum : zsum (map (ir_weight mp n) (ir_grid_points mp n)) = n.
  Proof.
    unfold ir_weight.
    rewrite (zsum_map_ext_in _ _ (fun g => zsum (map (fun x => if mp x =? g then 1 else 0) (zrange n))))
      by (intros; apply zcount_sum).
    rewrite zsum_swap.
    rewrite (zsum_map_ext_in _ _ (fun _ => 1)).
    - rewrite zsum_map_const, length_zrange. pose proof (mesh_size_pos D HD). unfold n. lia.
    - intros x Hx. apply in_zrange in Hx.
      rewrite <- (zcount_sum Z (fun g => mp x =? g)).
      rewrite (zcount_ext_in _ _ (fun g => g =? mp x)) by (intros; apply Z.eqb_sym).
      apply zcount_eq_NoDup.
      + apply NoDup_filter, NoDup_zrange.
      + apply ir_points_fixed. split; [apply w_range|apply w_idem]; auto.
  Qed.
End Weights.

Lemma multiplicity_stab : forall rots D a, pos_mesh D -> 
  multiplicity_at_q rots D a =
  zcount (fun R => rotate_grid_index (grid_index a D) R D vzero =? grid_index a D) rots
  \/ exists R, In R rots /\ ~ compat D R.
Proof.
  intros rots D a HD.
  destruct (forallb (fun R => compatb D R) rots) eqn:E.
  - left. unfold multiplicity_at_q. apply zcount_ext_in. intros R HR.
    rewrite forallb_forall in E. specialize (E R HR). apply compatb_sound in E; auto.
    rewrite (rotate_any_rep _ R D vzero vzero a); auto using grid_index_range.
    2:{ destruct R; cbn. f_equal; lia. }
    apply eq_true_iff_eq. rewrite Z.eqb_eq, grid_index_eq_iff by auto.
    replace (vadd (mulMV R a) vzero) with (mulMV R a) by (destruct (mulMV R a); cbn; f_equal; lia).
    destruct (mulMV R a) as [x y z], a as [a0 a1 a2], D as [d0 d1 d2].
    destruct HD as [P0 [P1 P2]]. cbn [vsub]. rewrite !andb_true_iff, !Z.eqb_eq.
    split.
    + intros [[H1 H2] H3]. apply Z.mod_divide in H1, H2, H3; try lia.
      destruct H1 as [u H1], H2 as [v H2], H3 as [w H3].
      exists (v3 (-u) (-v) (-w)). cbn -[Z.add Z.mul]. f_equal; lia.
    + intros [[u v w] H]. inversion H; subst. repeat split; apply Z.mod_divide; try lia.
      * exists (-u); ring. * exists (-v); ring. * exists (-w); ring.
  - right. assert (exists R, In R rots /\ compatb D R = false) as [R [HR HF]].
    { clear - E. induction rots as [|r rots IH]; cbn in E; [discriminate|].
      destruct (compatb D r) eqn:F; [|exists r; cbn; auto].
      destruct (IH E) as [R [H1 H2]]. exists R; cbn; auto. }
    exists R. split; auto. intros HC. 
    assert (compatb D R = true); [|congruence]. clear E HF HR.
    destruct D as [d0 d1 d2], R as [a00 b c d e f g h i]. destruct HD as [P0 [P1 P2]].
    destruct (HC (v3 1 0 0)) as [[x0 x1 x2] X]. destruct (HC (v3 0 1 0)) as [[y0 y1 y2] Y].
    destruct (HC (v3 0 0 1)) as [[z0 z1 z2] W].
    cbn -[Z.mul Z.add] in X, Y, W. inversion X; inversion Y; inversion W.
    cbn -[Z.mul]. rewrite !andb_true_iff, !Z.eqb_eq.
    repeat split; apply Z.mod_divide; try lia.
    + exists y0; lia. + exists z0; lia. + exists x1; lia. + exists z1; lia.
    + exists x2; lia. + exists y2; lia.
Qed.

Lemma multiplicity_eq : forall rots D a, pos_mesh D -> (forall R, In R rots -> compat D R) ->
  multiplicity_at_q rots D a =
  zcount (fun R => rotate_grid_index (grid_index a D) R D vzero =? grid_index a D) rots.
Proof.
  intros rots D a HD HC. destruct (multiplicity_stab rots D a HD) as [H|[R [HR HN]]]; auto.
  exfalso. auto.
Qed.

(** Little group. *)
Lemma little_group_spec : forall rots D gp R, pos_mesh D -> 0 <= gp < mesh_size D ->
  (In R (point_group_with_q rots D gp) <->
   In R rots /\ vcong D (mulMV R (get_grid_address_from_index gp D)) (get_grid_address_from_index gp D)).
Proof.
  intros rots D gp R HD Hgp. unfold point_group_with_q. rewrite filter_In, Z.eqb_eq.
  rewrite <- grid_index_eq_iff by auto. rewrite (index_of_address D gp) by auto. reflexivity.
Qed.

Lemma little_group_group : forall rots D gp, pos_mesh D -> 0 <= gp < mesh_size D ->
  (forall R, In R rots -> compat D R) -> is_group rots -> is_group (point_group_with_q rots D gp).
Proof.
  intros rots D gp HD Hgp HC [H1 [H2 H3]].
  set (a := get_grid_address_from_index gp D).
  repeat split.
  - apply little_group_spec; auto. split; auto. rewrite mulMV_1. apply vcong_refl.
  - intros R S HR HS. apply little_group_spec in HR, HS; auto. destruct HR as [HR ER], HS as [HS ES].
    apply little_group_spec; auto. split; auto. rewrite mulMV_mulMM.
    eapply vcong_trans; [|exact ER]. apply compat_cong; auto.
  - intros R HR. apply little_group_spec in HR; auto. destruct HR as [HR ER].
    destruct (H3 R HR) as [S [HS [E1 E2]]]. exists S. split; auto.
    apply little_group_spec; auto. split; auto. apply vcong_sym.
    replace (get_grid_address_from_index gp D) with (mulMV (mulMM S R) (get_grid_address_from_index gp D)) at 1
      by (rewrite E2; apply mulMV_1).
    rewrite mulMV_mulMM. apply compat_cong; auto.
Qed.

(** Reciprocal point group. *)
Lemma rpg_base : forall rots (tp : bool) l0, distinct_elements l0 rots ->
  distinct_elements (if tp then map transp l0 else l0) (if tp then map transp rots else rots).
Proof.
  intros rots [|] l0 [H1 H2]; [|split; auto]. split.
  - apply FinFun.Injective_map_NoDup; auto. intros a b. apply transp_inj.
  - intros x. rewrite !in_map_iff. split; intros [y [E Hy]]; exists y; split; auto; now apply H2.
Qed.
