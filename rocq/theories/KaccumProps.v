(** Spectra of mode properties (C76), smearing width (C77), default mapping table (C78), symmetry of the weights (C79) *)
From Coq Require Import ZArith QArith Qabs List Bool Lia Lqa Permutation Sorting.Sorted.
From Verif Require Import Base BaseProofs Mat3 QMat GridSpec GridModel GridProofs BzModel BzSpec BzProofs BzProps
  TripletModel TripletSpec TripletProofs TripletProps TetraModel TetraSpec TetraProofs TetraProps TileProps Par IwModel IwProps IseSpec IseProofs Fc3Trans YamlModel YamlProps RestartModel RestartProps GpwProps KaccumModel.
Import ListNotations.
Open Scope Z_scope.

Definition good_grid (g : bzgrid) : Prop :=
  good_in (k_B g) /\ (k_ty g = 2 \/ (k_ty g = 1 /\ no_short_G (bL (k_B g)) (bQ (k_B g)) (bz_tolerance (k_B g)))) /\
  exists init, get_bz_grid_addresses (k_B g) (k_ty g) init = Some (k_out g).
(** the tetrahedra around a grid point *)
Definition tetra (g : bzgrid) : list (list V3) := map (map (mulMV (k_P g))) (thm_get_relative_grid_address (k_micro g)).
(** mesh of a grid and address of a stored point *)
Definition mesh (g : bzgrid) : V3 := bD (k_B g).
Definition num (g : bzgrid) : Z := mesh_size (mesh g).
Definition addr (g : bzgrid) (x : Z) : V3 := o_addr (k_out g) x.

Lemma b2g_index : forall g x, good_grid g -> 0 <= x < o_size (k_out g) -> grid_index (addr g x) (mesh g) = o_b2g (k_out g) x /\ 0 <= o_b2g (k_out g) x < num g.
Proof.
  intros g x [HB [Hty [init Ho]]] Hx. unfold addr, mesh, num in *. assert (HD : pos_mesh (bD (k_B g))) by apply HB.
  assert (K : 0 <= o_b2g (k_out g) x < mesh_size (bD (k_B g)) /\ vcong (bD (k_B g)) (o_addr (k_out g) x) (get_grid_address_from_index (o_b2g (k_out g) x) (bD (k_B g)))).
  { destruct Hty as [E | [E _]]; rewrite E in Ho.
    - destruct (C11_dense_layout _ _ _ HB Ho) as [_ [_ [_ K]]]. destruct (K x Hx) as [K1 [_ K2]]. auto.
    - destruct (C11_default_layout _ _ _ HB Ho) as [_ [_ [_ K]]]. destruct (K x Hx) as [K1 [_ K2]]. auto. }
  destruct K as [K1 K2]. split; [|exact K1]. apply (grid_index_eq_iff _ _ _ HD) in K2. rewrite K2. now apply index_of_address.
Qed.
Lemma grg_stored : forall g i, good_grid g -> 0 <= i < num g -> 0 <= grg2bzg (k_out g) (k_ty g) i < o_size (k_out g) /\ o_b2g (k_out g) (grg2bzg (k_out g) (k_ty g) i) = i.
Proof.
  intros g i [HB [Hty [init Ho]]] Hi. unfold num, mesh in *. unfold grg2bzg. destruct Hty as [E | [E _]]; rewrite E in *.
  - change (2 =? 1) with false. cbv iota. destruct (C11_dense_layout _ _ _ HB Ho) as [L0 [LN [Lb Ls]]]. set (N := mesh_size (bD (k_B g))) in *. set (o := k_out g) in *.
    assert (Up : forall n, forall k, 0 <= k -> k + Z.of_nat n <= N -> o_map o k <= o_map o (k + Z.of_nat n)).
    { induction n as [|n IH]; intros k Hk Hn; [rewrite Z.add_0_r; lia|]. specialize (IH k Hk ltac:(lia)). destruct (Lb (k + Z.of_nat n) ltac:(lia)) as [L _]. replace (k + Z.of_nat (S n)) with (k + Z.of_nat n + 1) by lia. lia. }
    destruct (Lb i Hi) as [Li [_ Lg]]. pose proof (Up (Z.to_nat i) 0 ltac:(lia) ltac:(lia)) as U1. pose proof (Up (Z.to_nat (N - (i + 1))) (i + 1) ltac:(lia) ltac:(lia)) as U2. rewrite Z2Nat.id in U1, U2 by lia. replace (0 + i) with i in U1 by ring. replace (i + 1 + (N - (i + 1))) with N in U2 by ring. split; [lia|]. apply Lg. lia.
  - change (1 =? 1) with true. cbv iota. destruct (C11_default_layout _ _ _ HB Ho) as [L0 [LN [Lb Ls]]]. set (N := mesh_size (bD (k_B g))) in *. set (o := k_out g) in *.
    assert (Up : forall n, Z.of_nat n <= N -> 0 <= o_map o (8 * N + Z.of_nat n)).
    { induction n as [|n IH]; intros Hn; [rewrite Z.add_0_r, L0; lia|]. specialize (IH ltac:(lia)). destruct (Lb (Z.of_nat n) ltac:(lia)) as [L _]. replace (8 * N + Z.of_nat (S n)) with (8 * N + Z.of_nat n + 1) by lia. lia. }
    pose proof (Up (Z.to_nat N) ltac:(lia)) as U. rewrite Z2Nat.id in U by lia. replace (8 * N + N) with (9 * N) in U by ring. destruct (Lb i Hi) as [_ [_ [Lg _]]]. split; [lia|exact Lg].
Qed.

(** the array returned, entry by entry, from the values at the vertices *)
Lemma iw_quads : forall eps junk sp gv nv nb g gps mp fI (F : Z -> Z -> Q) i j b, good_grid g ->
  (forall v, 0 <= v < o_size (k_out g) -> gv (match nth_error mp (Z.to_nat v) with Some x => x | None => junk v end * nb + b) = F b (grid_index (addr g v) (mesh g))) ->
  0 <= i < size gps -> 0 <= j < size sp -> 0 <= b < nb -> 0 <= nth (Z.to_nat i) gps 0 < o_size (k_out g) ->
  get_integration_weights eps junk sp gv nv nb g (Some gps) (Some mp) fI ((i * size sp + j) * nb + b) =
  thm_get_integration_weight eps (nth (Z.to_nat j) sp 0%Q) (map (quad (mesh g) (F b) (addr g (nth (Z.to_nat i) gps 0))) (tetra g)) fI.
Proof.
  intros eps junk sp gv nv nb g gps mp fI F i j b [HB [Hty [init Ho]]] HF Hi Hj Hb Hg. unfold get_integration_weights. cbv zeta.
  erewrite gp_value; [|rewrite <- run_seq_wprog; apply seq_finishes|eassumption..]. f_equal. unfold tetra. rewrite !map_map. apply map_ext. intros t. unfold quad. f_equal. rewrite !map_map. apply map_ext. intros v.
  set (x := nth (Z.to_nat i) gps 0) in *. set (q := mulMV (k_P g) v) in *. clearbody x q.
  assert (K : points_to (k_B g) (k_out g) (vadd (o_addr (k_out g) x) q) (neighbor (tp_grid (k_B g) (k_out g) (k_ty g) (k_Q g) (k_rl g)) x q)).
  { destruct Hty as [E | [E HG]]; rewrite E in *; [eapply C19_dense_neighbours|eapply C19_default_neighbours]; eauto. }
  destruct K as [K1 [K2 _]]. rewrite HF by exact K1. f_equal. unfold addr, mesh. apply (grid_index_eq_iff _ _ _ (proj1 HB)). exact K2.
Qed.

(** ** Smallest and largest *)
Lemma qmax_spec : forall a b, (a <= qmax a b /\ b <= qmax a b)%Q /\ (qmax a b = a \/ qmax a b = b).
Proof. intros a b. unfold qmax. destruct (qltb a b) eqn:E; [apply qltb_lt in E|apply qltb_ge in E]; repeat split; auto; lra. Qed.
Lemma list_max_spec : forall l m, list_max l = Some m -> forall x, In x l -> (x <= m)%Q.
Proof.
  intros [|a l] m H; [discriminate|]. injection H as <-.
  assert (K : forall l a, (a <= fold_left qmax l a)%Q /\ forall x, In x l -> (x <= fold_left qmax l a)%Q).
  { induction l0 as [|y l0 IH]; intros z; cbn [fold_left]; [split; [apply Qle_refl|intros x []]|]. destruct (qmax_spec z y) as [[M1 M2] _]. destruct (IH (qmax z y)) as [I1 I2]. split; [lra|]. intros x [<-|Hx]; [lra|auto]. }
  intros x [<-|Hx]; [apply (proj1 (K l a))|apply (proj2 (K l a)), Hx].
Qed.
Lemma size_map : forall X Y (f : X -> Y) l, size (map f l) = size l. Proof. intros. unfold size. now rewrite map_length. Qed.
Lemma size_zrange : forall n, 0 <= n -> size (zrange n) = n. Proof. intros n H. unfold size. rewrite length_zrange. lia. Qed.
Lemma nthe_zrange : forall n i, 0 <= i < n -> nth_error (zrange n) (Z.to_nat i) = Some i.
Proof.
  intros n i H. unfold zrange. rewrite nth_error_map, (nth_error_nth' _ 0%nat) by (rewrite seq_length; lia). rewrite seq_nth by lia. cbn [option_map]. f_equal. lia.
Qed.
Lemma linspace_last : forall a b n, 1 < n -> size (linspace a b n) = n /\ nth (Z.to_nat (n - 1)) (linspace a b n) 0%Q = b.
Proof.
  intros a b n H. unfold linspace. split; [rewrite size_map; apply size_zrange; lia|].
  apply nth_error_nth. rewrite nth_error_map, nthe_zrange by lia. cbn [option_map]. rewrite Z.eqb_refl. replace (1 <? n) with true by (symmetry; apply Z.ltb_lt; lia). reflexivity.
Qed.

(** ** The mapping table *)
Lemma index_of_spec : forall l x k, index_of x l = Some k -> 0 <= k < size l /\ nth (Z.to_nat k) l 0 = x.
Proof.
  induction l as [|y l IH]; intros x k H; [discriminate|]. cbn [index_of] in H. destruct (x =? y) eqn:E.
  - injection H as <-. apply Z.eqb_eq in E as ->. unfold size. cbn [length]. split; [lia|reflexivity].
  - destruct (index_of x l) as [k'|] eqn:E'; [|discriminate]. cbn [option_map] in H. assert (k = Z.succ k') by congruence. subst k. destruct (IH _ _ E') as [A B]. unfold size in *. cbn [length]. split; [lia|]. replace (Z.to_nat (Z.succ k')) with (S (Z.to_nat k')) by lia. exact B.
Qed.
Lemma all_some_spec : forall X (l : list (option X)) r, all_some l = Some r -> map Some r = l.
Proof. induction l as [|[x|] l IH]; intros r H; cbn [all_some] in H; try discriminate; [now injection H as <-|]. destruct (all_some l) as [s|]; [|discriminate]. injection H as <-. cbn [map]. now rewrite (IH s). Qed.
Lemma map_spec : forall b2g irm irs mp, get_bzgp2irgp_map b2g irm irs = Some mp ->
  forall v x, nth_error b2g v = Some x -> exists k, nth_error mp v = Some k /\ 0 <= k < size irs /\ nth_error irm (Z.to_nat x) = Some (nth (Z.to_nat k) irs 0).
Proof.
  intros b2g irm irs mp H v x Hv. unfold get_bzgp2irgp_map in H. cbv zeta in H. destruct (zlist_eqb (unique irm) irs) eqn:E; [|discriminate]. apply zlist_eqb_spec in E. rewrite E in H. apply all_some_spec in H.
  assert (Hn : nth_error (map Some mp) v = Some (match nth_error irm (Z.to_nat x) with Some y => index_of y irs | None => None end)) by (rewrite H, nth_error_map, Hv; reflexivity).
  rewrite nth_error_map in Hn. destruct (nth_error mp v) as [k|]; [|discriminate]. cbn [option_map] in Hn. assert (Hn' : Some k = match nth_error irm (Z.to_nat x) with Some y => index_of y irs | None => None end) by congruence. destruct (nth_error irm (Z.to_nat x)) as [y|]; [|discriminate]. symmetry in Hn'. apply index_of_spec in Hn'. exists k. destruct Hn' as [A B]. subst y. repeat split; auto; lia.
Qed.

(** ** C76 *)
(** irreducible points, table and weights meant by the optional arguments *)
Definition or_all (n : Z) (l : option (list Z)) : list Z := match l with Some l => l | None => zrange n end.
Definition weight_of (w : option (list Z)) (i : Z) : Z := match w with Some l => nth (Z.to_nat i) l 0 | None => 1 end.
(** Every value of the spectrum, from the frequencies that the table of irreducible points gives to all the points of the mesh. *)
Theorem C76_spectrum : forall eps epsilon kap n_ir nb freq g irs wt irm fpo n fps kd,
  kappa_dos eps epsilon kap n_ir nb freq g irs wt irm fpo n = Some (fps, kd) -> good_grid g -> 0 <= n_ir ->
  (forall x, In x (or_all n_ir irs) -> 0 <= x < num g) -> size (or_all n_ir irs) = n_ir ->
  exists rep : Z -> Z,
    (forall x, 0 <= x < num g -> 0 <= rep x < n_ir /\ nth_error (or_all n_ir irm) (Z.to_nat x) = Some (nth (Z.to_nat (rep x)) (or_all n_ir irs) 0)) /\
    forall t f j e, 0 <= f < size fps -> j = 0 \/ j = 1 ->
    let W i b := thm_get_integration_weight eps (nth (Z.to_nat f) fps 0%Q)
      (map (quad (mesh g) (fun x => freq (rep x * nb + b)) (addr g (grg2bzg (k_out g) (k_ty g) (nth (Z.to_nat i) (or_all n_ir irs) 0)))) (tetra g)) (j =? 1) in
    Qeq (kd t f j e) (Sum n_ir (fun i => Sum nb (fun b => W i b * (kap t i b e * inject_Z (weight_of wt i)))%Q) / inject_Z (num g))%Q.
Proof.
  intros eps epsilon kap n_ir nb freq g irs wt irm fpo n fps kd H Hg H0 Hirs Hsz. unfold kappa_dos in H. cbv zeta in H.
  destruct (list_min (map freq (zrange (n_ir * nb)))) as [mn|]; [|discriminate]. destruct (list_max (map freq (zrange (n_ir * nb)))) as [mx|]; [|discriminate].
  change (match irs with Some l => l | None => zrange n_ir end) with (or_all n_ir irs) in H. change (match irm with Some l => l | None => zrange n_ir end) with (or_all n_ir irm) in H.
  destruct (get_bzgp2irgp_map (map (o_b2g (k_out g)) (zrange (o_size (k_out g)))) (or_all n_ir irm) (or_all n_ir irs)) as [mp|] eqn:Em; [|discriminate]. set (fps0 := match fpo with Some l => l | None => linspace mn (mx + epsilon) n end) in H.
  injection H as E1 E2. subst fps. set (rl := or_all n_ir irs) in *. set (ml := or_all n_ir irm) in *.
  set (mv := fun v => match nth_error mp (Z.to_nat v) with Some x => x | None => 0 end). exists (fun x => mv (grg2bzg (k_out g) (k_ty g) x)).
  assert (Mv : forall v, 0 <= v < o_size (k_out g) -> 0 <= mv v < n_ir /\ nth_error mp (Z.to_nat v) = Some (mv v) /\ nth_error ml (Z.to_nat (o_b2g (k_out g) v)) = Some (nth (Z.to_nat (mv v)) rl 0)).
  { intros v Hv. destruct (map_spec _ _ _ _ Em (Z.to_nat v) (o_b2g (k_out g) v)) as [k [K1 [K2 K3]]].
    - rewrite nth_error_map, nthe_zrange by lia. reflexivity.
    - assert (Ek : mv v = k) by (unfold mv; now rewrite K1). rewrite Ek. split; [lia|]. split; [exact K1|exact K3]. }
  assert (Mc : forall v v', 0 <= v < o_size (k_out g) -> 0 <= v' < o_size (k_out g) -> o_b2g (k_out g) v = o_b2g (k_out g) v' -> mv v = mv v').
  { intros v v' Hv Hv' E. unfold get_bzgp2irgp_map in Em. cbv zeta in Em. destruct (zlist_eqb (unique ml) rl); [|discriminate]. apply all_some_spec in Em.
    assert (Nv : forall u, 0 <= u < o_size (k_out g) -> Some (Some (mv u)) = Some (match nth_error ml (Z.to_nat (o_b2g (k_out g) u)) with Some x => index_of x (unique ml) | None => None end)).
    { intros u Hu. destruct (Mv u Hu) as [_ [A _]]. assert (B : nth_error (map Some mp) (Z.to_nat u) = Some (Some (mv u))) by (rewrite nth_error_map, A; reflexivity). rewrite Em in B. rewrite nth_error_map, nth_error_map, nthe_zrange in B by lia. symmetry. exact B. }
    pose proof (Nv v Hv) as A. pose proof (Nv v' Hv') as B. rewrite E in A. rewrite <- A in B. congruence. }
  split.
  - intros x Hx. destruct (grg_stored g x Hg Hx) as [S1 S2]. destruct (Mv _ S1) as [A [_ B]]. rewrite S2 in B. auto.
  - intros t f j e Hf Hj W. rewrite <- E2. apply Qdiv_comp; [|reflexivity]. rewrite fold_qsum, Qplus_0_l. rewrite size_map, Hsz. unfold Sum at 1. apply qs_ext. intros i Hi. apply in_zrange in Hi. unfold Sum. apply qs_ext. intros b Hb. apply in_zrange in Hb.
    assert (Hn : 0 <= nth (Z.to_nat i) rl 0 < num g) by (apply Hirs, nth_In; unfold size in Hsz; lia).
    assert (En : nth (Z.to_nat i) (map (grg2bzg (k_out g) (k_ty g)) rl) 0 = grg2bzg (k_out g) (k_ty g) (nth (Z.to_nat i) rl 0)) by (rewrite (nth_indep _ 0 (grg2bzg (k_out g) (k_ty g) 0)) by (rewrite map_length; unfold size in Hsz; lia); apply map_nth).
    rewrite (iw_quads eps (fun _ => 0) fps0 freq n_ir nb g (map (grg2bzg (k_out g) (k_ty g)) rl) mp (j =? 1) (fun b x => freq (mv (grg2bzg (k_out g) (k_ty g) x) * nb + b)) i f b Hg).
    + unfold W, weight_of. rewrite En. destruct wt; apply Qeq_refl.
    + intros v Hv. destruct (Mv v Hv) as [_ [A _]]. rewrite A. f_equal. f_equal. f_equal. destruct (b2g_index g v Hg Hv) as [I1 I2]. destruct (grg_stored g _ Hg I2) as [S1 S2]. rewrite I1. apply Mc; auto.
    + rewrite size_map. lia.
    + exact Hf.
    + exact Hb.
    + rewrite En. apply (grg_stored g _ Hg Hn).
Qed.
Print Assumptions C76_spectrum.
Lemma tetra_len : forall g, length (tetra g) = 24%nat. Proof. intros g. unfold tetra. rewrite map_length. apply C24_tetrahedra_tile. Qed.
Lemma tetra_four : forall g t, In t (tetra g) -> length t = 4%nat.
Proof. intros g t Ht. unfold tetra in Ht. apply in_map_iff in Ht. destruct Ht as [u [<- Hu]]. rewrite map_length. destruct (T_len _ u Hu) as [p [q [r [s ->]]]]. reflexivity. Qed.
Lemma quads_all4 : forall (R : Q -> Prop) g F a, good_grid g -> (forall x, 0 <= x < num g -> R (F x)) -> forall t, In t (map (quad (mesh g) F a) (tetra g)) -> all4 R t.
Proof.
  intros R g F a Hg H t Ht. apply in_map_iff in Ht. destruct Ht as [u [<- Hu]]. apply tetra_four in Hu. destruct u as [|p [|q [|r [|s [|]]]]]; try discriminate. unfold quad, to_t4, all4. cbn [map nth]. assert (HD : pos_mesh (mesh g)) by apply Hg. repeat split; apply H, grid_index_range; auto.
Qed.
Section Spectrum.
Variable eps epsilon : Q.
Variable kap : Z -> Z -> Z -> Z -> Q.
Variable n_ir nb : Z.
Variable freq : Z -> Q.
Variable g : bzgrid.
Variable irs wt irm : option (list Z).
Variable fpo : option (list Q).
Variable n : Z.
Variable fps : list Q.
Variable kd : Z -> Z -> Z -> Z -> Q.
Hypothesis Run : kappa_dos eps epsilon kap n_ir nb freq g irs wt irm fpo n = Some (fps, kd).
Hypothesis Hg : good_grid g.
Hypothesis H0 : 0 <= n_ir.
Hypothesis Hb : 0 <= nb.
Hypothesis Hirs : forall x, In x (or_all n_ir irs) -> 0 <= x < num g.
Hypothesis Hsz : size (or_all n_ir irs) = n_ir.
Local Notation total t e := (Sum n_ir (fun i => Sum nb (fun b => kap t i b e * inject_Z (weight_of wt i))%Q) / inject_Z (num g))%Q.
Local Notation w f := (nth (Z.to_nat f) fps 0%Q).

Lemma spectrum_ends : forall t f e, 0 <= f < size fps ->
  ((forall k, 0 <= k < n_ir * nb -> (freq k < w f)%Q) -> (kd t f 0 e == total t e /\ kd t f 1 e == 0)%Q) /\
  ((forall k, 0 <= k < n_ir * nb -> (w f < freq k)%Q) -> (kd t f 0 e == 0 /\ kd t f 1 e == 0)%Q).
Proof.
  intros t f e Hf. destruct (C76_spectrum _ _ _ _ _ _ _ _ _ _ _ _ _ _ Run Hg H0 Hirs Hsz) as [rep [R1 R2]].
  assert (Rf : forall (R : Q -> Prop) b, 0 <= b < nb -> (forall k, 0 <= k < n_ir * nb -> R (freq k)) -> forall x, 0 <= x < num g -> R (freq (rep x * nb + b))).
  { intros R b Hb' H x Hx. apply H. destruct (R1 x Hx) as [R3 _]. nia. }
  assert (ZZ : forall (X : Z -> Z -> Q), (forall i b, 0 <= b < nb -> (X i b == 0)%Q) -> (Sum n_ir (fun i => Sum nb (fun b => X i b)) / inject_Z (num g) == 0)%Q).
  { intros X HX. rewrite Sum_zero; [reflexivity|]. intros i _. apply Sum_zero. intros b Hb'. now apply HX. }
  split; intros H; split; rewrite R2 by auto.
  - apply Qdiv_comp; [|reflexivity]. apply Sum_ext. intros i _. apply Sum_ext. intros b Hb'.
    destruct (C75_ends eps (w f) (map (quad (mesh g) (fun x => freq (rep x * nb + b)) (addr g (grg2bzg (k_out g) (k_ty g) (nth (Z.to_nat i) (or_all n_ir irs) 0)))) (tetra g))) as [E _]; [rewrite map_length; apply tetra_len|].
    destruct E as [E _]; [apply quads_all4; [exact Hg|]; apply (Rf (fun y => y < w f)%Q); auto|]. change (0 =? 1) with false. rewrite E. ring.
  - apply ZZ. intros i b Hb'.
    destruct (C75_ends eps (w f) (map (quad (mesh g) (fun x => freq (rep x * nb + b)) (addr g (grg2bzg (k_out g) (k_ty g) (nth (Z.to_nat i) (or_all n_ir irs) 0)))) (tetra g))) as [E _]; [rewrite map_length; apply tetra_len|].
    destruct E as [_ E]; [apply quads_all4; [exact Hg|]; apply (Rf (fun y => y < w f)%Q); auto|]. change (1 =? 1) with true. rewrite E. ring.
  - apply ZZ. intros i b Hb'.
    destruct (C75_ends eps (w f) (map (quad (mesh g) (fun x => freq (rep x * nb + b)) (addr g (grg2bzg (k_out g) (k_ty g) (nth (Z.to_nat i) (or_all n_ir irs) 0)))) (tetra g))) as [_ E]; [rewrite map_length; apply tetra_len|].
    rewrite E; [ring|]. apply quads_all4; [exact Hg|]; apply (Rf (fun y => w f < y)%Q); auto.
  - apply ZZ. intros i b Hb'.
    destruct (C75_ends eps (w f) (map (quad (mesh g) (fun x => freq (rep x * nb + b)) (addr g (grg2bzg (k_out g) (k_ty g) (nth (Z.to_nat i) (or_all n_ir irs) 0)))) (tetra g))) as [_ E]; [rewrite map_length; apply tetra_len|].
    rewrite E; [ring|]. apply quads_all4; [exact Hg|]; apply (Rf (fun y => w f < y)%Q); auto.
Qed.
Lemma spectrum_total : fpo = None -> 1 < n -> (0 < epsilon)%Q -> forall t e, size fps = n /\ (kd t (n - 1) 0 e == total t e /\ kd t (n - 1) 1 e == 0)%Q.
Proof.
  intros Ef Hn He t e. assert (L : exists mn mx, list_max (map freq (zrange (n_ir * nb))) = Some mx /\ fps = linspace mn (mx + epsilon) n).
  { revert Run. unfold kappa_dos. cbv zeta. rewrite Ef. destruct (list_min (map freq (zrange (n_ir * nb)))) as [mn|]; [|discriminate]. destruct (list_max (map freq (zrange (n_ir * nb)))) as [mx|]; [|discriminate].
    destruct (get_bzgp2irgp_map _ _ _); [|discriminate]. intros E. assert (E' : fps = linspace mn (mx + epsilon) n) by congruence. eauto. }
  destruct L as [mn [mx [M Efp]]]. destruct (linspace_last mn (mx + epsilon) n Hn) as [S1 S2]. rewrite <- Efp in S1, S2. split; [exact S1|].
  apply spectrum_ends; [lia|]. intros k Hk. rewrite S2. assert (K := list_max_spec _ _ M (freq k) (in_map freq _ _ (proj2 (in_zrange _ _) Hk))). lra.
Qed.
Lemma spectrum_bounds : (0 <= eps)%Q -> (forall t i b e, 0 <= i < n_ir -> 0 <= b < nb -> (0 <= kap t i b e)%Q) -> (forall i, 0 <= i < n_ir -> 0 <= weight_of wt i) ->
  forall t f e, 0 <= f < size fps -> (forall k, 0 <= k < n_ir * nb -> ~ (w f == freq k)%Q) ->
  (forall k k', 0 <= k < n_ir * nb -> 0 <= k' < n_ir * nb -> (freq k < w f)%Q -> (w f < freq k')%Q -> (eps <= freq k' - freq k)%Q) ->
  (0 <= kd t f 0 e <= total t e /\ 0 <= kd t f 1 e)%Q.
Proof.
  intros He Hk Hw t f e Hf Off Gap. destruct (C76_spectrum _ _ _ _ _ _ _ _ _ _ _ _ _ _ Run Hg H0 Hirs Hsz) as [rep [R1 R2]].
  assert (NP : (0 < inject_Z (num g))%Q) by (assert (HD : pos_mesh (mesh g)) by apply Hg; apply mesh_size_pos in HD; unfold Qlt; cbn; unfold num; lia).
  assert (M : forall (f g : Z -> Q) n, (forall x, 0 <= x < n -> (f x <= g x)%Q) -> (Sum n f <= Sum n g)%Q).
  { intros f' g' n' H. unfold Sum. assert (H' : forall x, In x (zrange n') -> (f' x <= g' x)%Q) by (intros x Hx; apply H; now apply in_zrange). induction (zrange n') as [|x l IH]; [apply Qle_refl|]. cbn [map]. rewrite !qs_cons. apply Qplus_le_compat; [apply H'; now left|]. apply IH. intros; apply H'; now right. }
  assert (B : forall i b, 0 <= b < nb -> let q := map (quad (mesh g) (fun x => freq (rep x * nb + b)) (addr g (grg2bzg (k_out g) (k_ty g) (nth (Z.to_nat i) (or_all n_ir irs) 0)))) (tetra g) in
     (0 <= thm_get_integration_weight eps (w f) q false <= 1 /\ 0 <= thm_get_integration_weight eps (w f) q true)%Q).
  { intros i b Hb' q. assert (L : length q = 24%nat) by (unfold q; rewrite map_length; apply tetra_len).
    assert (T : forall x, In x q -> (0 <= tetra_term eps false (w f) x <= 1 # 4 /\ 0 <= tetra_term eps true (w f) x)%Q).
    { intros x Hx. unfold q in Hx. assert (A : all4 (fun y => exists k, 0 <= k < n_ir * nb /\ y = freq k) x) by (refine (quads_all4 _ g _ _ Hg _ x Hx); intros z Hz; exists (rep z * nb + b); split; [|reflexivity]; destruct (R1 z Hz) as [Rz _]; nia).
      destruct x as [x0 x1 x2 x3]. destruct A as [[k0 [K0 ->]] [[k1 [K1 ->]] [[k2 [K2 ->]] [k3 [K3 ->]]]]].
      destruct (C21_partition eps (w f) (freq k0) (freq k1) (freq k2) (freq k3) He) as [C1 [C2 _]]; auto.
      - repeat split; apply Off; assumption.
      - intros x y Hx' Hy'. cbn in Hx', Hy'. assert (Ex : exists k, 0 <= k < n_ir * nb /\ x = freq k) by (intuition eauto). assert (Ey : exists k, 0 <= k < n_ir * nb /\ y = freq k) by (intuition eauto). destruct Ex as [k [Hk1 ->]], Ey as [k' [Hk2 ->]]. apply Gap; assumption. }
    rewrite !weight_sum. clearbody q.
    assert (S : (0 <= qsum (map (tetra_term eps false (w f)) q) <= inject_Z (Z.of_nat (length q)) * (1 # 4) /\ 0 <= qsum (map (tetra_term eps true (w f)) q))%Q).
    { clear L. induction q as [|x q IH]; [cbn; repeat split; discriminate|]. cbn [map length]. rewrite !qs_cons, Nat2Z.inj_succ, <- Z.add_1_r, inject_Z_plus. destruct (T x (or_introl eq_refl)) as [[T1 T2] T3]. destruct IH as [[I1 I2] I3]; [intros y Hy; apply T; now right|]. change (inject_Z 1) with 1%Q. split; [split; lra|lra]. }
    rewrite L in S. change (inject_Z (Z.of_nat 24)) with 24%Q in S. unfold Qdiv. change (/ 6)%Q with (1 # 6)%Q. destruct S as [[S1 S2] S3]. split; [split|]; lra. }
  assert (W0 : forall i, 0 <= i < n_ir -> (0 <= inject_Z (weight_of wt i))%Q) by (intros i Hi; specialize (Hw i Hi); unfold Qle; cbn; lia).
  assert (D0 : forall x, (0 <= x -> 0 <= x / inject_Z (num g))%Q) by (intros x Hx; apply Qle_shift_div_l; lra).
  assert (Z0 : forall n' f', (forall x, 0 <= x < n' -> (0 <= f' x)%Q) -> (0 <= Sum n' f')%Q) by (intros n' f' H; rewrite <- (Sum_zero n' (fun _ => 0%Q)) by reflexivity; apply M, H).
  split; [split|].
  - rewrite R2 by auto. apply D0, Z0. intros i Hi. apply Z0. intros b Hb'. destruct (B i b Hb') as [[B1 B2] _]. apply Qmult_le_0_compat; [exact B1|]. apply Qmult_le_0_compat; auto.
  - rewrite R2 by auto. unfold Qdiv. apply Qmult_le_compat_r; [|apply Qlt_le_weak, Qinv_lt_0_compat, NP]. apply M. intros i Hi. apply M. intros b Hb'. destruct (B i b Hb') as [[B1 B2] _]. change (0 =? 1) with false.
    assert (K : (0 <= kap t i b e * inject_Z (weight_of wt i))%Q) by (apply Qmult_le_0_compat; auto). revert K B2. generalize (kap t i b e * inject_Z (weight_of wt i))%Q. intros z K B2. rewrite <- (Qmult_1_l z) at 2. apply Qmult_le_compat_r; assumption.
  - rewrite R2 by auto. apply D0, Z0. intros i Hi. apply Z0. intros b Hb'. destruct (B i b Hb') as [_ B2]. change (1 =? 1) with true. apply Qmult_le_0_compat; [exact B2|]. apply Qmult_le_0_compat; auto.
Qed.
End Spectrum.

(** A sampling point above (below) all frequencies: the accumulated value is the total (zero), the derivative zero. *)
Theorem C76_ends : forall eps epsilon kap n_ir nb freq g irs wt irm fpo n fps kd t f e,
  kappa_dos eps epsilon kap n_ir nb freq g irs wt irm fpo n = Some (fps, kd) -> good_grid g -> 0 <= n_ir -> 0 <= nb ->
  (forall x, In x (or_all n_ir irs) -> 0 <= x < num g) -> size (or_all n_ir irs) = n_ir -> 0 <= f < size fps ->
  let w := nth (Z.to_nat f) fps 0%Q in
  ((forall k, 0 <= k < n_ir * nb -> (freq k < w)%Q) ->
    Qeq (kd t f 0 e) (Sum n_ir (fun i => Sum nb (fun b => kap t i b e * inject_Z (weight_of wt i))%Q) / inject_Z (num g))%Q /\ Qeq (kd t f 1 e) 0) /\
  ((forall k, 0 <= k < n_ir * nb -> (w < freq k)%Q) -> Qeq (kd t f 0 e) 0 /\ Qeq (kd t f 1 e) 0).
Proof. intros; eapply spectrum_ends; eauto. Qed.
(** The last of the sampling points chosen by the program is one above all. *)
Theorem C76_total : forall eps epsilon kap n_ir nb freq g irs wt irm n fps kd,
  kappa_dos eps epsilon kap n_ir nb freq g irs wt irm None n = Some (fps, kd) -> good_grid g -> 0 <= n_ir -> 0 <= nb ->
  (forall x, In x (or_all n_ir irs) -> 0 <= x < num g) -> size (or_all n_ir irs) = n_ir -> 1 < n -> (0 < epsilon)%Q ->
  forall t e, size fps = n /\
    Qeq (kd t (n - 1) 0 e) (Sum n_ir (fun i => Sum nb (fun b => kap t i b e * inject_Z (weight_of wt i))%Q) / inject_Z (num g))%Q /\ Qeq (kd t (n - 1) 1 e) 0.
Proof. intros; eapply spectrum_total; eauto. Qed.
(** Non-negative properties: the accumulated value is between zero and the total and its derivative is not negative. *)
Theorem C76_bounds : forall eps epsilon kap n_ir nb freq g irs wt irm fpo n fps kd t f e,
  kappa_dos eps epsilon kap n_ir nb freq g irs wt irm fpo n = Some (fps, kd) -> good_grid g -> 0 <= n_ir -> 0 <= nb ->
  (forall x, In x (or_all n_ir irs) -> 0 <= x < num g) -> size (or_all n_ir irs) = n_ir -> 0 <= f < size fps -> (0 <= eps)%Q ->
  (forall t i b e, 0 <= i < n_ir -> 0 <= b < nb -> (0 <= kap t i b e)%Q) -> (forall i, 0 <= i < n_ir -> 0 <= weight_of wt i) ->
  let w := nth (Z.to_nat f) fps 0%Q in
  (forall k, 0 <= k < n_ir * nb -> ~ (w == freq k)%Q) ->
  (forall k k', 0 <= k < n_ir * nb -> 0 <= k' < n_ir * nb -> (freq k < w)%Q -> (w < freq k')%Q -> (eps <= freq k' - freq k)%Q) ->
  Qle 0 (kd t f 0 e) /\ Qle (kd t f 0 e) (Sum n_ir (fun i => Sum nb (fun b => kap t i b e * inject_Z (weight_of wt i))%Q) / inject_Z (num g))%Q /\ Qle 0 (kd t f 1 e).
Proof. intros. destruct (spectrum_bounds eps epsilon kap n_ir nb freq g irs wt irm fpo n fps kd) with (t := t) (f := f) (e := e) as [[? ?] ?]; eauto. Qed.
(** Spectra over the mean free path: at each temperature the last value is the total of that temperature. *)
Theorem C76_mean_free_path : forall eps epsilon mfp prop n_temp n_ir nb irm irs n g l,
  run_mfp_dos eps epsilon mfp prop n_temp n_ir nb irm irs n g = Some l -> good_grid g -> 0 <= n_ir -> 0 <= nb ->
  (forall x, In x (or_all n_ir irs) -> 0 <= x < num g) -> size (or_all n_ir irs) = n_ir -> 1 < n -> (0 < epsilon)%Q ->
  forall t, 0 <= t < n_temp -> exists fps kd, nth_error l (Z.to_nat t) = Some (fps, kd) /\ size fps = n /\ forall e,
    Qeq (kd (n - 1) 0 e) (Sum n_ir (fun i => Sum nb (fun b => prop t i b e)) / inject_Z (num g))%Q /\ Qeq (kd (n - 1) 1 e) 0.
Proof.
  intros eps epsilon mfp prop n_temp n_ir nb irm irs n g l R Hg H0 Hb Hi Hs Hn He t Ht. apply all_some_spec in R.
  assert (E : nth_error (map Some l) (Z.to_nat t) = Some (option_map (fun r => (fst r, snd r 0)) (kappa_dos eps epsilon (fun t' => prop (t + t')) n_ir nb (mfp t) g irs None irm None n))) by (rewrite R, nth_error_map, nthe_zrange by lia; reflexivity).
  rewrite nth_error_map in E. destruct (nth_error l (Z.to_nat t)) as [[fps kd]|]; [|discriminate]. cbn [option_map] in E.
  destruct (kappa_dos eps epsilon (fun t' => prop (t + t')) n_ir nb (mfp t) g irs None irm None n) as [[fps' kd']|] eqn:K; [|discriminate]. cbn [option_map fst snd] in E. assert (E1 : fps = fps') by congruence. assert (E2 : kd = kd' 0) by congruence. subst.
  exists fps', (kd' 0). split; [reflexivity|]. pose proof (C76_total _ _ _ _ _ _ _ _ _ _ _ _ _ K Hg H0 Hb Hi Hs Hn He) as C. split; [apply (C 0 0)|]. intros e. destruct (C 0 e) as [_ [C1 C2]]. split; [|exact C2]. rewrite C1. apply Qdiv_comp; [|reflexivity]. apply Sum_ext. intros i _. apply Sum_ext. intros b _. rewrite Z.add_0_r. cbn [weight_of]. change (inject_Z 1) with 1%Q. ring.
Qed.
(** The mean free path of a mode is the group velocity times the lifetime [tau], where 2 * (2 pi) * gamma * tau = 1; it is zero for modes without lifetime. *)
Theorem C76_mode_mean_free_path : forall pi2 gamma norm, (0 < pi2)%Q ->
  (forall tau, (2 * (pi2 * gamma) * tau == 1)%Q -> (0 < gamma)%Q -> (get_mfp pi2 gamma norm == norm * tau)%Q) /\
  (~ (0 < gamma)%Q -> get_mfp pi2 gamma norm = 0%Q).
Proof.
  intros pi2 gamma norm Hp. unfold get_mfp. split.
  - intros tau Ht Hg. assert (E : qltb 0 gamma = true) by now apply qltb_lt. rewrite E, E. assert (~ (gamma == 0)%Q /\ ~ (pi2 == 0)%Q) as [N1 N2] by (split; lra).
    setoid_replace tau with (/ (2 * pi2 * gamma))%Q; [reflexivity|]. setoid_replace tau with ((2 * (pi2 * gamma) * tau) * / (2 * pi2 * gamma))%Q by (field; auto). rewrite Ht. ring.
  - intros Hg. assert (E : qltb 0 gamma = false) by (apply qltb_ge; lra). rewrite E. reflexivity.
Qed.
Print Assumptions C76_mode_mean_free_path.
Example C76_mode_mean_free_path_example : (get_mfp 6 (1 # 4) 9 == 3)%Q /\ get_mfp 6 0 9 = 0%Q.
Proof. split; reflexivity. Qed.
Print Assumptions C76_ends. Print Assumptions C76_total. Print Assumptions C76_bounds. Print Assumptions C76_mean_free_path.

(** ** C77 *)
(** the spectrum of a width: weighted mean over the modes of the smearing function of width [sigma] times gamma *)
Definition smeared (nd : Q -> Q -> Q) (sigma : Q) (gamma : Z -> Z -> Z -> Q) (freq : Z -> Q) (n_ir nb : Z) (wt : Z -> Z) (t : Z) (x : Q) : Q :=
  (Sum n_ir (fun i => Sum nb (fun b => inject_Z (wt i) * nd sigma (freq (i * nb + b)%Z - x) * gamma t i b)) / inject_Z (zsum (map wt (zrange n_ir))))%Q.
(** Width not given: a hundredth of the range of the sampling points. *)
Theorem C77_default_width : forall nd epsilon gamma freq n_ir nb wt n fps gd, gamma_dos_smearing nd epsilon gamma freq n_ir nb wt None n = Some (fps, gd) ->
  exists a b, list_min fps = Some a /\ list_max fps = Some b /\ forall t f, Qeq (gd t f) (smeared nd ((b - a) / 100)%Q gamma freq n_ir nb wt t (nth (Z.to_nat f) fps 0%Q)).
Proof.
  intros nd epsilon gamma freq n_ir nb wt n fps gd H. unfold gamma_dos_smearing in H. cbv zeta in H. destruct (list_min (map freq _)) as [mn|]; [|discriminate]. destruct (list_max (map freq _)) as [mx|]; [|discriminate].
  destruct (list_min (linspace mn (mx + epsilon) n)) as [a|] eqn:Ea; [|discriminate]. destruct (list_max (linspace mn (mx + epsilon) n)) as [b|] eqn:Eb; [|discriminate]. injection H as <- E. exists a, b. split; [exact Ea|]. split; [exact Eb|]. intros t f. rewrite <- E. unfold smeared. apply Qdiv_comp; [|reflexivity]. unfold Sum. apply qs_ext. intros i _. apply qs_ext. intros k _. ring.
Qed.
(** Width given: not used. *)
Theorem C77_given_width_refuted : ~ (forall nd epsilon gamma freq n_ir nb wt sigma n fps gd, gamma_dos_smearing nd epsilon gamma freq n_ir nb wt (Some sigma) n = Some (fps, gd) ->
  forall t f, 0 <= f < n -> Qeq (gd t f) (smeared nd sigma gamma freq n_ir nb wt t (nth (Z.to_nat f) fps 0%Q))).
Proof.
  intros H. specialize (H (fun s _ => s) 1%Q (fun _ _ _ => 1%Q) (fun _ => 2%Q) 1 1 (fun _ => 1) (1 # 2)%Q 2 _ _ eq_refl 0 0 ltac:(lia)). vm_compute in H. discriminate H.
Qed.
Print Assumptions C77_default_width. Print Assumptions C77_given_width_refuted.

(** ** C78 *)
(** With a row of values for each stored BZ grid point, or a mapping table of all of them, nothing beyond the table is read. *)
Theorem C78_table_covers : forall eps junk junk' sp gv nv nb g gps mpo fI i j b, good_grid g -> o_size (k_out g) <= size (or_all nv mpo) ->
  (forall x, In x gps -> 0 <= x < o_size (k_out g)) -> 0 <= i < size gps -> 0 <= j < size sp -> 0 <= b < nb ->
  get_integration_weights eps junk sp gv nv nb g (Some gps) mpo fI ((i * size sp + j) * nb + b) = get_integration_weights eps junk' sp gv nv nb g (Some gps) mpo fI ((i * size sp + j) * nb + b).
Proof.
  intros eps junk junk' sp gv nv nb g gps mpo fI i j b [HB [Hty [init Ho]]] Hsz Hgps Hi Hj Hb. unfold get_integration_weights. cbv zeta. fold (or_all nv mpo). set (mp := or_all nv mpo) in *.
  erewrite gp_value; [|rewrite <- run_seq_wprog; apply seq_finishes|eassumption..]. erewrite gp_value; [|rewrite <- run_seq_wprog; apply seq_finishes|eassumption..]. f_equal. apply map_ext. intros t. f_equal. apply map_ext. intros v.
  assert (Hx : 0 <= nth (Z.to_nat i) gps 0 < o_size (k_out g)) by (apply Hgps, nth_In; unfold size in Hi; lia). set (x := nth (Z.to_nat i) gps 0) in *. clearbody x.
  assert (K : points_to (k_B g) (k_out g) (vadd (o_addr (k_out g) x) v) (neighbor (tp_grid (k_B g) (k_out g) (k_ty g) (k_Q g) (k_rl g)) x v)).
  { destruct Hty as [E | [E HG]]; rewrite E in *; [eapply C19_dense_neighbours|eapply C19_default_neighbours]; eauto. }
  destruct K as [K1 _]. set (y := neighbor _ x v) in *. clearbody y. destruct (nth_error mp (Z.to_nat y)) eqn:E; [reflexivity|]. apply nth_error_None in E. unfold size in Hsz. lia.
Qed.
(** The documented shape of the values (regular grid points, bands) with the default table. *)
Definition rod_grid (o : BzOut) : bzgrid := {| k_B := rod; k_ty := 2; k_out := o; k_P := I3; k_micro := qm (1 # 2) 0 0 0 1 0 0 0 1; k_Q := I3; k_rl := bL rod |}.
Theorem C78_default_table_refuted : ~ (forall eps junk junk' sp gv nb g fI i j b, good_grid g -> 0 <= i < num g -> 0 <= j < size sp -> 0 <= b < nb ->
  Qeq (get_integration_weights eps junk sp gv (num g) nb g None None fI ((i * size sp + j) * nb + b)) (get_integration_weights eps junk' sp gv (num g) nb g None None fI ((i * size sp + j) * nb + b))).
Proof.
  intros H. destruct (get_bz_grid_addresses rod 2 zero_out) as [o|] eqn:E; [|vm_compute in E; discriminate].
  assert (Hg : good_grid (rod_grid o)) by (split; [apply C11_ex_rod|]; split; [now left|exists zero_out; exact E]).
  specialize (H (1 # 1000000)%Q (fun _ => 0) (fun _ => 1) [1 # 2]%Q inject_Z 1 (rod_grid o) false 0 0 0 Hg ltac:(cbn; lia) ltac:(cbn; lia) ltac:(lia)).
  set (f := fun o => (Qred (get_integration_weights (1 # 1000000) (fun _ => 0) [1 # 2]%Q inject_Z (num (rod_grid o)) 1 (rod_grid o) None None false ((0 * size [1 # 2]%Q + 0) * 1 + 0)),
    Qred (get_integration_weights (1 # 1000000) (fun _ => 1) [1 # 2]%Q inject_Z (num (rod_grid o)) 1 (rod_grid o) None None false ((0 * size [1 # 2]%Q + 0) * 1 + 0)))).
  assert (K : option_map (fun o => let '(a, b) := f o in Qeq_bool a b) (get_bz_grid_addresses rod 2 zero_out) = Some false) by (vm_compute; reflexivity).
  rewrite E in K. cbn [option_map] in K. unfold f in K. assert (K' : Qeq_bool (Qred (get_integration_weights (1 # 1000000) (fun _ => 0) [1 # 2]%Q inject_Z (num (rod_grid o)) 1 (rod_grid o) None None false ((0 * size [1 # 2]%Q + 0) * 1 + 0)))
    (Qred (get_integration_weights (1 # 1000000) (fun _ => 1) [1 # 2]%Q inject_Z (num (rod_grid o)) 1 (rod_grid o) None None false ((0 * size [1 # 2]%Q + 0) * 1 + 0))) = false) by congruence.
  apply Qeq_bool_neq in K'. apply K'. rewrite !Qred_correct. exact H.
Qed.
Print Assumptions C78_table_covers. Print Assumptions C78_default_table_refuted.

(** ** C79 *)
Lemma perm_neg : forall L, let T := thm_get_relative_grid_address L in Permutation (map nf (map (map vneg) T)) (map nf T).
Proof.
  intros L T. unfold T, thm_get_relative_grid_address. apply perm_b_sound.
  destruct (get_main_diagonal L) as [|[|[|[|k]]]]; cbn [nth db_relative_grid_address]; [vm_compute; reflexivity..|]. destruct k; reflexivity.
Qed.
(** Time reversal: with equal values at q and -q the weights at q and -q are equal. *)
Theorem C79_inversion : forall eps junk sp gv nv nb g gps mp fI (F : Z -> Z -> Q) i i' j b, good_grid g ->
  (forall v, 0 <= v < o_size (k_out g) -> gv (match nth_error mp (Z.to_nat v) with Some x => x | None => junk v end * nb + b) = F b (grid_index (addr g v) (mesh g))) ->
  0 <= i < size gps -> 0 <= i' < size gps -> 0 <= j < size sp -> 0 <= b < nb ->
  0 <= nth (Z.to_nat i) gps 0 < o_size (k_out g) -> 0 <= nth (Z.to_nat i') gps 0 < o_size (k_out g) ->
  (forall a, F b (grid_index (vneg a) (mesh g)) = F b (grid_index a (mesh g))) -> vcong (mesh g) (addr g (nth (Z.to_nat i') gps 0)) (vneg (addr g (nth (Z.to_nat i) gps 0))) ->
  let w := nth (Z.to_nat j) sp 0%Q in (0 <= eps)%Q ->
  (forall x, 0 <= x < num g -> ~ (w == F b x)%Q) ->
  (forall x y, 0 <= x < num g -> 0 <= y < num g -> (F b x < w)%Q -> (w < F b y)%Q -> (eps <= F b y - F b x)%Q) ->
  Qeq (get_integration_weights eps junk sp gv nv nb g (Some gps) (Some mp) fI ((i' * size sp + j) * nb + b))
      (get_integration_weights eps junk sp gv nv nb g (Some gps) (Some mp) fI ((i * size sp + j) * nb + b)).
Proof.
  intros eps junk sp gv nv nb g gps mp fI F i i' j b Hg HF Hi Hi' Hj Hb Hx Hx' Sym Cong w He Off Gap.
  rewrite !(iw_quads eps junk sp gv nv nb g gps mp fI F _ j b Hg HF) by assumption. fold w. set (a := addr g (nth (Z.to_nat i) gps 0)) in *. set (a' := addr g (nth (Z.to_nat i') gps 0)) in *. clearbody a a' w.
  assert (HD : pos_mesh (mesh g)) by apply Hg. rewrite !weight_sum. apply Qdiv_comp; [|reflexivity]. unfold tetra. rewrite !map_map.
  set (T := thm_get_relative_grid_address (k_micro g)). set (pq := pquad (mesh g) (F b) (k_P g)).
  transitivity (qsum (map (fun t => tetra_term eps fI w (pq a t)) (map (map vneg) T))).
  { rewrite map_map. apply qs_ext. intros t Ht. assert (E : quad (mesh g) (F b) a' (map (mulMV (k_P g)) t) = pq a (map vneg t)); [|rewrite E; reflexivity].
    unfold pq, pquad, quad. f_equal. rewrite !map_map. apply map_ext. intros v. rewrite <- (Sym (vadd a _)). f_equal. apply (grid_index_eq_iff _ _ _ HD). replace (vneg (vadd a (mulMV (k_P g) (vneg v)))) with (vadd (vneg a) (mulMV (k_P g) v)) by (destruct a, v, (k_P g); cbn; f_equal; ring). now apply vcong_add_r. }
  assert (OK : forall z t, length t = 4%nat -> okq eps w (pq z t)).
  { intros z t Lt. destruct t as [|t0 [|t1 [|t2 [|t3 [|]]]]]; try discriminate. unfold pq, pquad, quad, to_t4, okq, q4. cbn [map nth]. assert (R : forall u, 0 <= grid_index (vadd z (mulMV (k_P g) u)) (mesh g) < num g) by (intros; now apply grid_index_range). split.
    - repeat split; apply Off; auto.
    - intros x y Hx1 Hy1. cbn in Hx1, Hy1.
      assert (Ex : exists k, 0 <= k < num g /\ x = F b k) by (destruct Hx1 as [<-|[<-|[<-|[<-|[]]]]]; eexists; split; try reflexivity; apply R).
      assert (Ey : exists k, 0 <= k < num g /\ y = F b k) by (destruct Hy1 as [<-|[<-|[<-|[<-|[]]]]]; eexists; split; try reflexivity; apply R).
      destruct Ex as [k [K1 ->]], Ey as [k' [K2 ->]]. now apply Gap. }
  assert (LT : forall t, In t T -> length t = 4%nat) by (intros t Ht; destruct (T_len _ t Ht) as [? [? [? [? ->]]]]; reflexivity).
  rewrite (qs_ext _ (fun t => tetra_term eps fI w (pq a t)) (fun t => tetra_term eps fI w (pq a (nf t))) (map (map vneg) T)).
  2:{ intros t Ht. apply in_map_iff in Ht. destruct Ht as [u [<- Hu]]. assert (L4 : length (map vneg u) = 4%nat) by (rewrite map_length; auto). apply (term_nf (mesh g) (F b) (k_P g) eps w He); auto. }
  change (fun x => tetra_term eps fI w (quad (mesh g) (F b) a (map (mulMV (k_P g)) x))) with (fun t => tetra_term eps fI w (pq a t)).
  rewrite (qs_ext _ (fun t => tetra_term eps fI w (pq a t)) (fun t => tetra_term eps fI w (pq a (nf t))) T) by (intros t Ht; apply (term_nf (mesh g) (F b) (k_P g) eps w He); auto).
  rewrite <- (map_map nf (fun t => tetra_term eps fI w (pq a t)) (map (map vneg) T)), <- (map_map nf (fun t => tetra_term eps fI w (pq a t)) T). apply qs_perm. apply Permutation_map. apply perm_neg.
Qed.
Print Assumptions C79_inversion.
(** A rotation that keeps the lattice lengths and the values does not keep the weights in general: the division into tetrahedra along one of the
    main diagonals is not symmetric. Here a simple cubic 4x4x4 mesh and the reflection of y. *)
Definition cubic4 : BzIn := mkBzIn (v3 4 4 4) I3 vzero (qm 1 0 0 0 1 0 0 0 1).
Definition cubic4_grid (o : BzOut) : bzgrid := {| k_B := cubic4; k_ty := 2; k_out := o; k_P := I3; k_micro := qm (1 # 4) 0 0 0 (1 # 4) 0 0 0 (1 # 4); k_Q := I3; k_rl := bL cubic4 |}.
Definition f1 (x : Z) : Z := let r := x mod 4 in if r =? 0 then 0 else if r =? 2 then 5 else 1.
Definition f3 (a : V3) : Z := let '(v3 x y z) := a in f1 x + f1 y + f1 z + f1 x * f1 y * f1 z.
Definition val4 (i : Z) : Q := inject_Z (f3 (get_grid_address_from_index i (v3 4 4 4))).
Definition mirror : M3 := m3 1 0 0 0 (-1) 0 0 0 1.
Lemma f1_period : forall x k, f1 (x + 4 * k) = f1 x.
Proof. intros x k. unfold f1. replace (x + 4 * k) with (x + k * 4) by ring. now rewrite Z_mod_plus_full. Qed.
Lemma f1_neg : forall x, f1 (- x) = f1 x.
Proof.
  intros x. unfold f1. cbv zeta. destruct (Z.eq_dec (x mod 4) 0) as [E|E]; [rewrite (Z_mod_zero_opp_full _ _ E), E; reflexivity|]. rewrite (Z_mod_nz_opp_full _ _ E).
  assert (B := Z.mod_pos_bound x 4 ltac:(lia)). assert (C : x mod 4 = 1 \/ x mod 4 = 2 \/ x mod 4 = 3) by lia. destruct C as [-> | [-> | ->]]; reflexivity.
Qed.
Lemma val4_at : forall a, val4 (grid_index a (v3 4 4 4)) = inject_Z (f3 a).
Proof.
  intros a. unfold val4. f_equal. assert (HD : pos_mesh (v3 4 4 4)) by (cbn; lia). assert (R := grid_index_range (v3 4 4 4) a HD). assert (C : vcong (v3 4 4 4) (get_grid_address_from_index (grid_index a (v3 4 4 4)) (v3 4 4 4)) a) by (apply (grid_index_eq_iff (v3 4 4 4)); auto; apply index_of_address; auto).
  destruct C as [[k0 k1 k2] E]. rewrite E. destruct a as [x y z]. cbn [vmul vadd f3]. rewrite !f1_period. reflexivity.
Qed.
Theorem C79_rotation_refuted : ~ (forall eps junk sp gv nv nb g gps mp fI (F : Z -> Z -> Q) R i i' j b, good_grid g ->
  (forall v, 0 <= v < o_size (k_out g) -> gv (match nth_error mp (Z.to_nat v) with Some x => x | None => junk v end * nb + b) = F b (grid_index (addr g v) (mesh g))) ->
  0 <= i < size gps -> 0 <= i' < size gps -> 0 <= j < size sp -> 0 <= b < nb ->
  0 <= nth (Z.to_nat i) gps 0 < o_size (k_out g) -> 0 <= nth (Z.to_nat i') gps 0 < o_size (k_out g) ->
  compat (mesh g) R -> isometry (k_B g) R -> (forall a, F b (grid_index (mulMV R a) (mesh g)) = F b (grid_index a (mesh g))) ->
  vcong (mesh g) (addr g (nth (Z.to_nat i') gps 0)) (mulMV R (addr g (nth (Z.to_nat i) gps 0))) ->
  let w := nth (Z.to_nat j) sp 0%Q in (0 <= eps)%Q ->
  (forall x, 0 <= x < num g -> ~ (w == F b x)%Q) ->
  (forall x y, 0 <= x < num g -> 0 <= y < num g -> (F b x < w)%Q -> (w < F b y)%Q -> (eps <= F b y - F b x)%Q) ->
  Qeq (get_integration_weights eps junk sp gv nv nb g (Some gps) (Some mp) fI ((i' * size sp + j) * nb + b))
      (get_integration_weights eps junk sp gv nv nb g (Some gps) (Some mp) fI ((i * size sp + j) * nb + b))).
Proof.
  intros H. assert (GB : good_in cubic4) by (split; [cbn; lia|vm_compute; discriminate]).
  destruct (get_bz_grid_addresses cubic4 2 zero_out) as [o|] eqn:E; [|exfalso; revert E; unfold get_bz_grid_addresses; destruct (inverse_unimodular (bQ cubic4)) eqn:Q; [discriminate|vm_compute in Q; discriminate Q]].
  set (g := cubic4_grid o). assert (Hg : good_grid g) by (split; [exact GB|]; split; [now left|exists zero_out; exact E]).
  set (x1 := o_map o 5). set (x2 := o_map o 13).
  destruct (grg_stored g 5 Hg ltac:(cbn; lia)) as [S1 B1]. destruct (grg_stored g 13 Hg ltac:(cbn; lia)) as [S2 B2]. change (grg2bzg (k_out g) (k_ty g) 5) with x1 in *. change (grg2bzg (k_out g) (k_ty g) 13) with x2 in *.
  assert (I1 := proj1 (b2g_index g x1 Hg S1)). assert (I2 := proj1 (b2g_index g x2 Hg S2)). rewrite B1 in I1. rewrite B2 in I2. change (mesh g) with (v3 4 4 4) in *.
  assert (HD : pos_mesh (v3 4 4 4)) by (cbn; lia).
  assert (V1 : vcong (v3 4 4 4) (addr g x1) (v3 1 1 0)) by (apply (grid_index_eq_iff (v3 4 4 4)); auto; rewrite I1; reflexivity).
  assert (V2 : vcong (v3 4 4 4) (addr g x2) (v3 1 3 0)) by (apply (grid_index_eq_iff (v3 4 4 4)); auto; rewrite I2; reflexivity).
  set (gv := fun k => val4 (grid_index (addr g k) (v3 4 4 4))). set (mp := zrange (o_size o)).
  assert (HF : forall v, 0 <= v < o_size (k_out g) -> gv (match nth_error mp (Z.to_nat v) with Some x => x | None => 0 end * 1 + 0) = (fun _ x => val4 x) 0 (grid_index (addr g v) (mesh g))).
  { intros v Hv. unfold mp. rewrite nthe_zrange by exact Hv. replace (v * 1 + 0) with v by ring. reflexivity. }
  assert (Cmp : compat (v3 4 4 4) mirror) by (intros [k0 k1 k2]; exists (v3 k0 (- k1) k2); cbn [mulMV mirror vmul]; f_equal; ring).
  assert (Iso : isometry cubic4 mirror).
  { intros [x y z] [x' y' z'] Ed. unfold dbl in Ed. cbn [cubic4 bPS mirror vzero vadd mulMV] in Ed. apply v3_inj in Ed. destruct Ed as [E1 [E2 E3]]. assert (x' = x /\ y' = - y /\ z' = z) as [-> [-> ->]] by lia.
    unfold len2, position, dbl. cbn -[Z.mul Z.add Qmult Qplus Qdiv qz Qeq Z.opp]. replace (- y + - y + 0) with (- (y + y + 0)) by ring. rewrite !qz_opp. generalize (qz (x + x + 0)) (qz (y + y + 0)) (qz (z + z + 0)). intros p q r. change (qz 0) with 0%Q. change (qz 1) with 1%Q. unfold Qdiv. ring. }
  specialize (H (1 # 1000)%Q (fun _ => 0) [3 # 2]%Q gv 0 1 g [x1; x2] mp false (fun _ x => val4 x) mirror 0 1 0 0 Hg HF ltac:(cbn; lia) ltac:(cbn; lia) ltac:(cbn; lia) ltac:(lia) S1 S2 Cmp Iso).
  assert (Sy : forall a, val4 (grid_index (mulMV mirror a) (mesh g)) = val4 (grid_index a (mesh g))).
  { intros a. change (mesh g) with (v3 4 4 4). rewrite !val4_at. destruct a as [x y z]. cbn [mulMV mirror f3]. replace (1 * x + 0 * y + 0 * z) with x by ring. replace (0 * x + -1 * y + 0 * z) with (- y) by ring. replace (0 * x + 0 * y + 1 * z) with z by ring. now rewrite f1_neg. }
  specialize (H Sy). cbv zeta in H. change (nth (Z.to_nat 1) [x1; x2] 0) with x2 in H. change (nth (Z.to_nat 0) [x1; x2] 0) with x1 in H. change (nth (Z.to_nat 0) [3 # 2]%Q 0%Q) with (3 # 2)%Q in H.
  assert (VV : vcong (v3 4 4 4) (addr g x2) (mulMV mirror (addr g x1))).
  { destruct V1 as [[k0 k1 k2] E1], V2 as [[l0 l1 l2] E2]. rewrite E1, E2. exists (v3 (l0 - k0) (l1 + k1 + 1) (l2 - k2)). cbn [vadd vmul mulMV mirror]. f_equal; ring. }
  specialize (H VV ltac:(discriminate)).
  assert (Int : forall x, exists z, val4 x = inject_Z z) by (intros x; eexists; reflexivity).
  assert (Of : forall x, 0 <= x < num g -> ~ (3 # 2 == val4 x)%Q) by (intros x _ K; destruct (Int x) as [z Ez]; rewrite Ez in K; unfold Qeq in K; cbn in K; lia).
  assert (Gp : forall x y, 0 <= x < num g -> 0 <= y < num g -> (val4 x < 3 # 2)%Q -> (3 # 2 < val4 y)%Q -> (1 # 1000 <= val4 y - val4 x)%Q).
  { intros x y _ _. destruct (Int x) as [z Ez], (Int y) as [u Eu]. rewrite Ez, Eu. intros A B. unfold Qlt in A, B. cbn in A, B. assert (1 <= u - z) by lia. unfold Qminus. rewrite <- inject_Z_opp, <- inject_Z_plus. unfold Qle. cbn. lia. }
  specialize (H Of Gp). clear Of Gp Sy Iso Cmp VV.
  rewrite !(iw_quads (1 # 1000) (fun _ => 0) [3 # 2]%Q gv 0 1 g [x1; x2] mp false (fun _ x => val4 x) _ 0 0 Hg HF) in H by (try exact S1; try exact S2; cbn; lia).
  change (nth (Z.to_nat 1) [x1; x2] 0) with x2 in H. change (nth (Z.to_nat 0) [x1; x2] 0) with x1 in H. change (nth (Z.to_nat 0) [3 # 2]%Q 0%Q) with (3 # 2)%Q in H. change (mesh g) with (v3 4 4 4) in H.
  assert (QC : forall a a', vcong (v3 4 4 4) a a' -> map (quad (v3 4 4 4) val4 a) (tetra g) = map (quad (v3 4 4 4) val4 a') (tetra g)).
  { intros a a' C. apply map_ext. intros t. unfold quad. f_equal. apply map_ext. intros v. f_equal. apply (grid_index_eq_iff (v3 4 4 4)); auto. now apply vcong_add_r. }
  cbv beta in H. change (fun x => val4 x) with val4 in H. rewrite (QC _ _ V1), (QC _ _ V2) in H. change (tetra g) with (map (map (mulMV I3)) (thm_get_relative_grid_address (qm (1 # 4) 0 0 0 (1 # 4) 0 0 0 (1 # 4)))) in H. clear - H. revert H. apply Qeq_bool_neq. vm_compute. reflexivity.
Qed.
Print Assumptions C79_rotation_refuted.

(** ** Examples *)
(** two q-points along x, both irreducible, one band of frequencies 1 and 3, properties 10 and 4: total (10 + 4) / 2 *)
Example C76_ex : option_map (fun o => match kappa_dos (1 # 1000000) (1 # 100) (fun _ i _ _ => if i =? 0 then 10%Q else 4%Q) 2 1 (fun k => inject_Z (2 * k + 1)) (rod_grid o) None None None None 3 with
    Some (fps, kd) => (map Qred fps, map (fun f => Qred (kd 0 f 0 0)) (zrange 3), Qred (kd 0 2 1 0)) | None => ([], [], 0%Q) end) (get_bz_grid_addresses rod 2 zero_out)
  = Some ([1; 401 # 200; 301 # 100]%Q, [0; 682797 # 160000; 7]%Q, 0%Q).
Proof. vm_compute. reflexivity. Qed.
(** the cubic 4x4x4 mesh above: q = (1,1,0), -q, and the mirror image (1,-1,0) *)
Example C79_ex : let W a := Qred (thm_get_integration_weight (1 # 1000) (3 # 2) (map (quad (v3 4 4 4) val4 a) (tetra (cubic4_grid zero_out))) false) in
  W (v3 1 1 0) = (62201 # 506880)%Q /\ W (v3 (-1) (-1) 0) = (62201 # 506880)%Q /\ W (v3 1 (-1) 0) = (17 # 576)%Q.
Proof. vm_compute. repeat split. Qed.
Example C77_ex : exists fps gd, gamma_dos_smearing (fun s x => (s - x * x)%Q) 1 (fun _ _ _ => 2%Q) inject_Z 2 1 (fun _ => 3) None 2 = Some (fps, gd) /\ Qeq (gd 0 0) (-24 # 25).
Proof. do 2 eexists. split; [reflexivity|]. vm_compute. reflexivity. Qed.
