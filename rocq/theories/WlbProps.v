(** The Wigner conductivity of the direct solution against that of the relaxation time approximation (C116) *)
From Coq Require Import ZArith QArith Qfield Qabs List Bool Lia Lqa Permutation.
From Verif Require Import Base BaseProofs Mat3 GridModel GridSpec GridProofs GridProps QMat Fc3Model Fc3Trans IseSpec IseProofs Cplx KapModel KapProofs KapProps KapTensor KapLbte GruModel GruProofs GruProps WigModel WigProofs WigProps WlbModel.
Import ListNotations.
Open Scope Z_scope.

Lemma CSum_re : forall n f, re (CSum n f) = QS n (fun k => re (f k)).
Proof. intros n f. unfold CSum. rewrite (proj1 (csum_parts _)), map_map. reflexivity. Qed.
Lemma CSum_im : forall n f, im (CSum n f) = QS n (fun k => im (f k)).
Proof. intros n f. unfold CSum. rewrite (proj2 (csum_parts _)), map_map. reflexivity. Qed.

Lemma nth_flat : forall (f : list Z -> list Q) (h : Z -> Q) (good : Z -> Prop) ds p, (forall d, In d ds -> length (f d) = length d) ->
  (forall d q, In d ds -> (q < length d)%nat -> good (nth q d 0) -> nth q (f d) 0%Q = h (nth q d 0)) -> (p < length (concat ds))%nat -> good (nth p (concat ds) 0) ->
  nth p (flat_map f ds) 0%Q = h (nth p (concat ds) 0).
Proof.
  intros f h good ds. induction ds as [|d ds IH]; intros p L H Hp G; cbn [concat flat_map length] in *; [lia|]. rewrite app_length in Hp.
  destruct (Nat.lt_ge_cases p (length d)) as [K|K].
  - rewrite app_nth1 in G by exact K. rewrite !app_nth1 by (rewrite ?L by (left; reflexivity); exact K). apply H; [left; reflexivity|exact K|exact G].
  - rewrite app_nth2 in G by exact K. rewrite !app_nth2 by (rewrite ?L by (left; reflexivity); exact K). rewrite (L d (or_introl eq_refl)).
    apply IH; [intros; apply L; right; assumption|intros; apply H; try right; assumption|lia|exact G].
Qed.

(** ** one grid point *)
Section Point.
  Variable nb : Z.
  Variable ev conv cutoff : Q.
  Variable freq g cv : Z -> Q.
  Variable v2 : Z -> Z -> Z -> cplx.
  Local Notation lb a b c := (wlb_mode_C ev conv cutoff freq g cv v2 a b c).
  Local Notation rta := (wig_modes nb ev conv cutoff freq g cv v2 wig_zero).
  (** no pair of populated modes lies exactly 1e-4 THz apart *)
  Definition not_at_threshold : Prop := forall a b, 0 <= a < nb -> 0 <= b < nb -> populated cutoff (freq a) -> populated cutoff (freq b) -> ~ (Qabs (freq a - freq b) == 1 # 10000)%Q.

  Lemma lb_weight : forall a b, (wlb_prefactor ev freq cv a b * wlb_lorentzian ev freq g a b * conv == prefactor ev freq cv a b * lorentzian ev freq g a b * conv)%Q.
  Proof.
    intros a b. unfold wlb_prefactor, wlb_lorentzian, prefactor, lorentzian.
    assert (E : forall s, (g s * 2 * ev == 2 * g s * ev)%Q) by (intros s; ring). rewrite !E. reflexivity.
  Qed.
  Theorem C116_elements : not_at_threshold -> forall a b c, 0 <= a < nb -> 0 <= b < nb -> (re (lb a b c) == ws_C rta a b c)%Q.
  Proof.
    intros H a b c Ha Hb. rewrite modes_C by assumption. cbn [wig_zero ws_C]. rewrite Qplus_0_l. unfold wlb_mode_C, tC, both.
    destruct (qltb cutoff (freq a)) eqn:E1; [|reflexivity]. destruct (qltb cutoff (freq b)) eqn:E2; [|reflexivity]. cbn [andb].
    apply qltb_lt in E1. apply qltb_lt in E2. specialize (H a b Ha Hb E1 E2). unfold near.
    destruct (qltb (Qabs (freq a - freq b)) (1 # 10000)) eqn:E3; cbn [negb].
    - apply qltb_lt in E3. replace (qltb (1 # 10000) (Qabs (freq a - freq b))) with false by (symmetry; apply qltb_ge; lra). reflexivity.
    - apply qltb_ge in E3. replace (qltb (1 # 10000) (Qabs (freq a - freq b))) with true by (symmetry; apply qltb_lt; lra).
      unfold contribution_wig, cscale. cbn [re]. rewrite lb_weight. reflexivity.
  Qed.
  Lemma point_C : not_at_threshold -> forall c, (re (wlb_point_C nb ev conv cutoff freq g cv v2 c) == wig_C nb rta c)%Q.
  Proof.
    intros H c. unfold wlb_point_C, wig_C. rewrite CSum_re. apply qs_ext. intros a Ha. rewrite CSum_re. apply qs_ext. intros b Hb.
    apply in_zrange in Ha. apply in_zrange in Hb. apply C116_elements; assumption.
  Qed.
End Point.

(** in the file mode_kappa_C of the direct solution holds complex numbers; for Hermitian velocity operators the imaginary parts of a pair
    and of the exchanged pair cancel, none is left in the sum *)
Theorem C116_imaginary : forall nb ev conv cutoff freq g cv rots rm v c, hermitian nb v -> (im (wlb_point_C nb ev conv cutoff freq g cv (gv_op_sum2 rots rm v) c) == 0)%Q.
Proof.
  intros nb ev conv cutoff freq g cv rots rm v c Hv.
  set (F := fun a b => im (wlb_mode_C ev conv cutoff freq g cv (gv_op_sum2 rots rm v) a b c)).
  assert (E : (im (wlb_point_C nb ev conv cutoff freq g cv (gv_op_sum2 rots rm v) c) == QS nb (fun a => QS nb (fun b => F a b)))%Q).
  { unfold wlb_point_C. rewrite CSum_im. apply qs_ext. intros a _. rewrite CSum_im. reflexivity. }
  assert (A : forall a b, 0 <= a < nb -> 0 <= b < nb -> (F b a == - F a b)%Q).
  { intros a b Ha Hb. unfold F, wlb_mode_C. rewrite (andb_comm (qltb cutoff (freq b))).
    replace (qltb (1 # 10000) (Qabs (freq b - freq a))) with (qltb (1 # 10000) (Qabs (freq a - freq b))) by (apply qltb_comp; [apply Qeq_refl|rewrite (Qabs_Qminus (freq a)); apply Qeq_refl]).
    destruct (_ && _); [|reflexivity]. unfold cscale. cbn [im]. unfold gv_op_sum2.
    destruct (C102_exchange nb rots rm v a b (fst (nth (Z.to_nat c) voigt (0, 0))) (snd (nth (Z.to_nat c) voigt (0, 0))) Hv Ha Hb) as [[_ X] _]. rewrite X. cbn [conj im].
    rewrite !lb_weight. unfold prefactor, lorentzian.
    assert (E1 : ((freq b * ev - freq a * ev) * (freq b * ev - freq a * ev) + (1 # 4) * ((2 * g b * ev + 2 * g a * ev) * (2 * g b * ev + 2 * g a * ev)) ==
                  (freq a * ev - freq b * ev) * (freq a * ev - freq b * ev) + (1 # 4) * ((2 * g a * ev + 2 * g b * ev) * (2 * g a * ev + 2 * g b * ev)))%Q) by ring.
    rewrite E1. unfold Qdiv. ring. }
  rewrite E. assert (S : (QS nb (fun a => QS nb (fun b => F a b)) == - QS nb (fun a => QS nb (fun b => F a b)))%Q).
  { rewrite (qs_swap _ _ F) at 1. transitivity (QS nb (fun b => QS nb (fun a => (-1) * F b a)))%Q.
    - apply qs_ext. intros b Hb. apply qs_ext. intros a Ha. apply in_zrange in Ha. apply in_zrange in Hb. rewrite A by assumption. ring.
    - transitivity (QS nb (fun b => (-1) * QS nb (fun a => F b a)))%Q; [apply qs_ext; intros b _; apply qs_scale|]. rewrite qs_scale. ring. }
  lra.
Qed.

(** ** units: both conversion factors describe the same unit when THzToEv is 1e12 h and Hbar is h / 2 pi, in eV s *)
Theorem C116_units : forall thz angstrom eV hbar pi volume planck ev, ~ (thz == 0)%Q -> ~ (angstrom == 0)%Q -> ~ (pi == 0)%Q -> ~ (volume == 0)%Q -> ~ (planck == 0)%Q ->
  (hbar == planck / (2 * pi))%Q -> (ev == planck * thz)%Q -> (conv_WmK thz angstrom eV pi volume == conv_WTE thz angstrom eV hbar volume / ev)%Q.
Proof.
  intros thz angstrom eV hbar pi volume planck ev H1 H2 H3 H4 H5 E1 E2. unfold conv_WmK, conv_WTE. rewrite E1, E2. field. repeat split; assumption.
Qed.

(** ** whole calculations *)
Section Run.
  Variables (D : V3) (ops : list (M3 * (Z -> Z -> Q))) (init : Z -> Z) (nb : Z).
  Variables (freq : Z -> Z -> Q) (mode_cv : Q -> Q -> Q) (root sinh : Q -> Q) (cutoff ev kb convW T bfac : Q).
  Variables (gamma : Z -> Z -> Q) (giso : option (Z -> Z -> Q)) (mfp : option Q).
  Variable vop : Z -> Z -> Z -> Z -> cplx.
  Variable deg : Z -> list (list Z).
  Variable eigvalsh : list Z -> (Z -> Z -> cplx) -> list Q.
  Local Notation points := (kap_points D ops init true).
  Local Notation wlbC red c := (wlb_C D ops init nb freq mode_cv root cutoff ev kb convW T bfac gamma giso mfp vop deg eigvalsh red c).
  Local Notation rtaC c := (rta_C D ops init nb freq mode_cv root cutoff ev kb convW T bfac gamma giso mfp vop deg eigvalsh c).
  Local Notation rtaP c := (rta_P D ops init nb freq mode_cv root cutoff ev kb convW T bfac gamma giso mfp vop deg eigvalsh c).
  Local Notation rtaTOT c := (rta_TOT D ops init nb freq mode_cv root cutoff ev kb convW T bfac gamma giso mfp vop deg eigvalsh c).
  Local Notation lbP conv ij := (wlb_P_RTA D ops init nb freq root sinh cutoff ev kb T bfac gamma giso mfp vop deg eigvalsh conv ij).
  Local Notation width g b := (wig_width D ops root bfac gamma giso mfp vop deg eigvalsh g b).

  (** the coherences' conductivity of the direct solution with the symmetry-reduced collision matrix is that of the Wigner RTA calculation *)
  Theorem C116_coherence : ~ (ev == 0)%Q -> (0 <= kb)%Q -> (0 <= T)%Q -> (0 <= cutoff)%Q -> (0 < ev)%Q -> (forall g, In g points -> not_at_threshold nb cutoff (freq g)) ->
    forall c, (wlbC false c == rtaC c)%Q.
  Proof.
    intros He Hkb HT Hc Hev H c. unfold wlb_C, rta_C. cbn [negb]. rewrite andb_true_r.
    destruct (qltb 0 T) eqn:E.
    - unfold cscale. cbn [re]. rewrite (proj1 (csum_parts _)), map_map.
      assert (X : (qsum (map (fun g => re (wlb_point_C nb ev convW cutoff (freq g) (wig_width D ops root bfac gamma giso mfp vop deg eigvalsh g) (wig_heat freq mode_cv cutoff ev kb T g) (wig_v2 D ops vop g) c)) points) ==
                   qsum (map (fun g => wig_C nb (wig_run D ops nb freq mode_cv root cutoff ev kb convW T bfac gamma giso mfp vop deg eigvalsh g) c) points))%Q).
      { apply qs_ext. intros g Hg. apply point_C. apply H. exact Hg. }
      rewrite X. unfold Qdiv. ring.
    - apply qltb_ge in E. assert (T0 : (T == 0)%Q) by lra.
      assert (Z0 : forall g b, (wig_heat freq mode_cv cutoff ev kb T g b == 0)%Q).
      { intros g b. unfold wig_heat, kap_cv. destruct (qltb (cutoff * ev) (freq g b * ev)) eqn:E1; [|reflexivity]. apply qltb_lt in E1.
        replace (qltb (freq g b * ev) (100 * T * kb)) with false; [reflexivity|]. symmetry. apply qltb_ge. rewrite T0. assert (0 <= cutoff * ev)%Q by nra. nra. }
      rewrite qs_zero; [unfold Qdiv; ring|]. intros g Hg. unfold wig_C. apply qs_zero. intros a Ha. apply qs_zero. intros b Hb. apply in_zrange in Ha. apply in_zrange in Hb.
      unfold wig_run. destruct (C102_elements nb ev convW cutoff (freq g) (wig_width D ops root bfac gamma giso mfp vop deg eigvalsh g) (wig_heat freq mode_cv cutoff ev kb T g) (wig_v2 D ops vop g) a b c He Ha Hb) as [X _].
      rewrite X. destruct (_ && _); [|reflexivity]. unfold w_pair, pair_weight. rewrite !Z0. unfold Qdiv. ring.
  Qed.
  (** with the full collision matrix the part is left out *)
  Theorem C116_full_matrix : forall c, (wlbC true c == 0)%Q.
  Proof. intros c. unfold wlb_C. rewrite andb_false_r. reflexivity. Qed.

  (** *** the populations' part *)
  (** bands of different frequencies: a populated mode has no other within 1e-4 THz and is alone in its set of degenerate bands; the sets list
      the bands in order. Unpopulated modes, such as the acoustic ones at Gamma, may be degenerate *)
  Definition separated : Prop := forall g, In g points -> concat (deg g) = zrange nb /\
    (forall d v, In d (deg g) -> (1 < length d)%nat -> length (eigvalsh d v) = length d /\ forall b, In b d -> ~ populated cutoff (freq g b)) /\
    forall a b, 0 <= a < nb -> 0 <= b < nb -> a <> b -> populated cutoff (freq g a) -> (1 # 10000 <= Qabs (freq g a - freq g b))%Q.
  Lemma vel_diag : separated -> forall g b i, In g points -> 0 <= b < nb -> populated cutoff (freq g b) -> wig_vel vop deg eigvalsh g b i = re (vop g b b i).
  Proof.
    intros S g b i Hg Hb P. unfold wig_vel, wig_gv. destruct (S g Hg) as [E [L _]].
    assert (N : nth (Z.to_nat b) (concat (deg g)) 0 = b).
    { rewrite E. unfold zrange. change 0 with (Z.of_nat 0). rewrite map_nth, seq_nth by lia. cbn [Nat.add]. apply Z2Nat.id. lia. }
    rewrite <- N at 2 3. apply (nth_flat _ (fun b => re (vop g b b i)) (fun b => populated cutoff (freq g b))).
    - intros d Hd. destruct (1 <? length d)%nat eqn:X; [apply Nat.ltb_lt in X; apply L; assumption|apply map_length].
    - intros d q Hd Hq G. destruct (1 <? length d)%nat eqn:X; [apply Nat.ltb_lt in X; exfalso; apply (proj2 (L d (fun s s' => vop g s s' i) Hd X) (nth q d 0)); [apply nth_In; exact Hq|exact G]|].
      rewrite (nth_indep _ _ (re (vop g 0 0 i))) by (rewrite map_length; exact Hq). apply (map_nth (fun s => re (vop g s s i))).
    - rewrite E. unfold zrange. rewrite map_length, seq_length. lia.
    - rewrite N. exact P.
  Qed.
  Hypothesis HD : pos_mesh D.
  Hypothesis HG : good_group D vzero (map fst ops).
  Hypothesis ND : NoDup (map fst ops).
  Local Notation n := (mesh_size D).
  Local Notation mp := (get_ir_grid_map (map fst ops) D vzero init).
  Lemma pts_in : forall g, In g points -> 0 <= g < n /\ mp g = g.
  Proof. intros g Hg. cbn [kap_points] in Hg. rewrite num_gp_mesh_size in Hg. apply (ir_points_fixed D vzero (map fst ops) init HD HG) in Hg. exact Hg. Qed.
  Lemma arms_eq : forall g, In g points -> wig_arms (wig_map D ops g) = ir_weight mp n g.
  Proof.
    intros g Hg. destruct (pts_in g Hg) as [Rg Eg].
    destruct (C06_ir_points_and_weights (map fst ops) D vzero init HD HG) as [P1 [_ [_ [P4 _]]]]. rewrite P4 by (apply P1; auto).
    unfold wig_arms, zcount, wig_map. f_equal. apply Permutation_length. apply NoDup_Permutation; [apply NoDup_nodup|apply NoDup_filter, NoDup_zrange|].
    intros x. rewrite nodup_In, filter_In, in_zrange, existsb_exists, in_map_iff. split.
    - intros [o [E Ho]]. split; [rewrite <- E; apply rotate_range; assumption|]. exists (fst o). split; [apply in_map; exact Ho|apply Z.eqb_eq; exact E].
    - intros [_ [R [HR E]]]. apply in_map_iff in HR. destruct HR as [o [Eo Ho]]. exists o. split; [|exact Ho]. rewrite Eo. apply Z.eqb_eq. exact E.
  Qed.

  Lemma multi_eq : forall g, In g points -> Z.of_nat (length (wig_map D ops g)) / Z.of_nat (length (nodup Z.eq_dec (wig_map D ops g))) = kap_multi D ops true g.
  Proof.
    intros g Hg. destruct (pts_in g Hg) as [Rg Eg]. pose proof (arms_eq g Hg) as A. unfold wig_arms in A. rewrite A.
    pose proof (C06_orbit_stabilizer (map fst ops) D vzero init g HD HG ND Rg) as OS. cbv zeta in OS. rewrite Eg, map_length in OS.
    rewrite <- (multi_stab D ops HD HG g Rg) in OS.
    assert (M : 0 < kap_multi D ops true g) by (rewrite (multi_stab D ops HD HG g Rg); apply (stab_pos D vzero (map fst ops) HD HG g Rg)).
    assert (LN : 0 < Z.of_nat (length ops)). { destruct HG as [[H1 _] _]. destruct ops; [destruct H1|cbn; lia]. }
    unfold wig_map. rewrite map_length, <- OS. symmetry. apply Z.div_unique with (r := 0); nia.
  Qed.
  Lemma samples_eq : wig_samples D ops init = kap_samples D ops init true.
  Proof.
    unfold wig_samples, kap_samples. apply zsum_map_ext_in. intros g Hg. rewrite (arms_eq g Hg). destruct (pts_in g Hg) as [Rg Eg].
    unfold kap_multi. cbn [kap_ops]. rewrite (C06_kstar_order_equals_weight (map fst ops) D init) by assumption.
    rewrite index_of_address by assumption. rewrite Eg. reflexivity.
  Qed.
  Lemma v2_diag : separated -> forall g b c, In g points -> 0 <= b < nb -> populated cutoff (freq g b) -> hermitian nb (vop g) ->
    (re (wig_v2 D ops vop g b b c) == kap_gv2 D ops (wig_vel vop deg eigvalsh) true false g b (nth (Z.to_nat c) voigt (0%Z, 0%Z)))%Q.
  Proof.
    intros S g b c Hg Hb Pb Hh. unfold wig_v2, gv_op_sum2, gv_by_gv_op, kap_gv2. rewrite (multi_eq g Hg). cbn [kap_ops]. set (ij := nth (Z.to_nat c) voigt (0, 0)).
    assert (V : forall i, 0 <= i < 3 -> vop g b b i =c= C (wig_vel vop deg eigvalsh g b i) 0).
    { intros i Hi. rewrite (vel_diag S g b i Hg Hb Pb). destruct (Hh b b i Hb Hb Hi) as [_ X]. cbn [conj im] in X. split; cbn [re im]; [reflexivity|lra]. }
    assert (R : forall r k, rot_op r (vop g) b b k =c= C (rot3 r (wig_vel vop deg eigvalsh g b) k) 0).
    { intros r k. pose proof (V 0 ltac:(lia)) as [A0 B0]. pose proof (V 1 ltac:(lia)) as [A1 B1]. pose proof (V 2 ltac:(lia)) as [A2 B2]. cbn [re im] in *. unfold rot_op. split.
      - rewrite CSum_re, qs3. cbn [re]. unfold rot3. rewrite qs3. unfold cmul. cbn [re im]. rewrite A0, A1, A2, B0, B1, B2. ring.
      - rewrite CSum_im, qs3. unfold cmul. cbn [re im]. rewrite A0, A1, A2, B0, B1, B2. ring. }
    unfold cscale. cbn [re]. rewrite (proj1 (csum_parts _)), !map_map. unfold Qdiv. rewrite Qmult_comm. apply Qmult_comp; [|reflexivity].
    apply qs_ext. intros o _. rewrite !R. unfold cmul, conj. cbn [re im].
    transitivity (rot3 (snd o) (wig_vel vop deg eigvalsh g b) (fst ij) * rot3 (snd o) (wig_vel vop deg eigvalsh g b) (snd ij))%Q; [ring|]. reflexivity.
  Qed.

  (** the populations' conductivity of the Wigner RTA calculation is the ordinary one when bands are separated, and so is that of the direct
      solution; [conv] is the ordinary conversion factor (C116_units) *)
  Theorem C116_population : forall conv, (0 < ev)%Q -> (0 < kb)%Q -> (0 <= T)%Q -> (0 <= cutoff)%Q -> (conv == convW / ev)%Q ->
    (forall g b, 0 <= g < n -> 0 <= b < nb -> (cutoff < freq g b)%Q -> (0 < T)%Q -> thermal mode_cv sinh ev kb T (freq g b) /\ (freq g b * ev < 100 * T * kb)%Q) ->
    (forall g, In g points -> root_of root (inject_Z (ir_weight mp n g))) -> root_of root (inject_Z (Z.of_nat (length ops))) ->
    (forall b, 0 <= b < 3 -> (freq 0%Z b <= cutoff)%Q) ->
    separated -> (forall g, In g points -> hermitian nb (vop g)) -> (forall g b, In g points -> 0 <= b < nb -> populated cutoff (freq g b) -> ~ (width g b == 0)%Q) ->
    forall c, 0 <= c < 6 ->
    (rtaP c == kap_rta D ops init nb freq (wig_vel vop deg eigvalsh) mode_cv root cutoff ev kb conv T bfac gamma giso mfp true false (nth (Z.to_nat c) voigt (0%Z, 0%Z)))%Q /\
    (lbP conv (nth (Z.to_nat c) voigt (0%Z, 0%Z)) == rtaP c)%Q.
  Proof.
    intros conv Hev Hkb HT Hc Hconv Hth Hr1 Hr2 H0 S Hh Hw c Hc6. assert (He : ~ (ev == 0)%Q) by lra.
    assert (P : (rtaP c == kap_rta D ops init nb freq (wig_vel vop deg eigvalsh) mode_cv root cutoff ev kb conv T bfac gamma giso mfp true false (nth (Z.to_nat c) voigt (0%Z, 0%Z)))%Q).
    { unfold rta_P, kap_rta. rewrite samples_eq. unfold Qdiv. apply Qmult_comp; [|reflexivity]. apply qs_ext. intros g Hg. unfold wig_P. apply qs_ext. intros b Hb. apply in_zrange in Hb.
      unfold kap_mode.
      destruct (qltb cutoff (freq g b)) eqn:E.
      - apply qltb_lt in E. pose proof (Hw g b Hg Hb E) as W. unfold wig_width in W.
        replace (Qeq_bool _ 0) with false. 2: { symmetry. apply not_true_is_false. intros K. apply Qeq_bool_iff in K. apply Qmult_integral in K. destruct K as [K|K]; [apply W; exact K|discriminate]. }
        replace (qltb (freq g b) cutoff) with false by (symmetry; apply qltb_ge; lra).
        unfold wig_run. rewrite C102_peierls; try assumption.
        + rewrite v2_diag by auto. rewrite Hconv. unfold wig_heat, wig_width, Qdiv. ring.
        + intros x Hx Nx. apply (proj2 (proj2 (S g Hg))); auto.
      - unfold wig_run. destruct (C102_elements nb ev convW cutoff (freq g) (wig_width D ops root bfac gamma giso mfp vop deg eigvalsh g) (wig_heat freq mode_cv cutoff ev kb T g) (wig_v2 D ops vop g) b b c He Hb Hb) as [_ X].
        rewrite X. rewrite qs_zero. 2: { intros x _. unfold both. rewrite E. reflexivity. }
        apply qltb_ge in E. unfold kap_cv. replace (qltb (cutoff * ev) (freq g b * ev)) with false by (symmetry; apply qltb_ge; nra).
        destruct (qltb (freq g b) cutoff); [reflexivity|]. destruct (Qeq_bool _ 0); [reflexivity|]. unfold Qdiv. ring. }
    split; [exact P|]. rewrite P. unfold wlb_P_RTA. destruct (nth (Z.to_nat c) voigt (0, 0)) as [i j]. apply C93_agrees_partial; assumption.
  Qed.
  (** the total of the RTA in the file of a direct solution is the total of the Wigner RTA calculation; the exact total there is the sum of its parts *)
  Theorem C116_total : forall conv P_exact, (0 < ev)%Q -> (0 < kb)%Q -> (0 <= T)%Q -> (0 <= cutoff)%Q -> (conv == convW / ev)%Q ->
    (forall g b, 0 <= g < n -> 0 <= b < nb -> (cutoff < freq g b)%Q -> (0 < T)%Q -> thermal mode_cv sinh ev kb T (freq g b) /\ (freq g b * ev < 100 * T * kb)%Q) ->
    (forall g, In g points -> root_of root (inject_Z (ir_weight mp n g))) -> root_of root (inject_Z (Z.of_nat (length ops))) ->
    (forall b, 0 <= b < 3 -> (freq 0%Z b <= cutoff)%Q) ->
    separated -> (forall g, In g points -> not_at_threshold nb cutoff (freq g)) -> (forall g, In g points -> hermitian nb (vop g)) ->
    (forall g b, In g points -> 0 <= b < nb -> populated cutoff (freq g b) -> ~ (width g b == 0)%Q) ->
    let file := wlb_file (wlb_run D ops init nb freq mode_cv root cutoff ev kb convW T bfac gamma giso mfp vop deg eigvalsh false P_exact (fun c => lbP conv (nth (Z.to_nat c) voigt (0, 0)))) in
    forall c, 0 <= c < 6 -> (at_TOT_RTA file c == rtaTOT c)%Q /\ (at_TOT_exact file c == P_exact c + rtaC c)%Q.
  Proof.
    intros conv Pe Hev Hkb HT Hc Hconv Hth Hr1 Hr2 H0 S Ht Hh Hw file c Hc6. subst file. cbn [wlb_file wlb_run at_TOT_RTA at_TOT_exact at_P_RTA at_C at_P_exact].
    rewrite C116_coherence by (assumption || lra).
    destruct (C116_population conv Hev Hkb HT Hc Hconv Hth Hr1 Hr2 H0 S Hh Hw c Hc6) as [_ P]. split; [|reflexivity]. rewrite P. reflexivity.
  Qed.
End Run.
Print Assumptions C116_total.
Print Assumptions C116_elements.
Print Assumptions C116_imaginary.
Print Assumptions C116_units.
Print Assumptions C116_coherence.
Print Assumptions C116_full_matrix.
Print Assumptions C116_population.

(** a four-fold axis, 3x3x1 mesh, five bands, the first three at zero at Gamma; complex velocity operators, isotope scattering *)
Definition e_freq (g b : Z) : Q := (k_freq g 0 * inject_Z (b + 1) + (if b <? 3 then 0 else inject_Z b))%Q.
Definition e_vop (g s s' i : Z) : cplx := if s =? s' then C (k_vel g 0%Z i + inject_Z s)%Q 0 else C (inject_Z i) (inject_Z (s' - s)).
Definition e_deg (g : Z) : list (list Z) := if g =? 0 then [[0; 1; 2]; [3]; [4]] else [[0]; [1]; [2]; [3]; [4]].
Definition e_eig (d : list Z) (v : Z -> Z -> cplx) : list Q := map (fun _ => 0%Q) d.
Definition e_file := wlb_file (wlb_run k_D k_ops (fun _ => 0) 5 e_freq l_cv l_root (1 # 2) 1 1 7 1 1 (fun _ _ => 1%Q) (Some (fun _ _ => 2%Q)) None e_vop e_deg e_eig false (fun _ => 5%Q)
  (fun c => wlb_P_RTA k_D k_ops (fun _ => 0) 5 e_freq l_root l_sinh (1 # 2) 1 1 1 1 (fun _ _ => 1%Q) (Some (fun _ _ => 2%Q)) None e_vop e_deg e_eig 7 (nth (Z.to_nat c) voigt (0, 0)))).
Lemma all5 : forall P : Z -> bool, forallb P (zrange 5) = true -> forall x, 0 <= x < 5 -> P x = true.
Proof. intros P H x Hx. rewrite forallb_forall in H. apply H, in_zrange, Hx. Qed.
Lemma all9 : forall P : Z -> bool, forallb P (zrange 9) = true -> forall x, 0 <= x < 9 -> P x = true.
Proof. intros P H x Hx. rewrite forallb_forall in H. apply H, in_zrange, Hx. Qed.
Lemma e_points : kap_points k_D k_ops (fun _ => 0) true = [0; 1; 4].
Proof. vm_compute. reflexivity. Qed.
Example C116_ex : forall c, 0 <= c < 6 ->
  (at_TOT_RTA e_file c == rta_TOT k_D k_ops (fun _ => 0%Z) 5 e_freq l_cv l_root (1 # 2) 1 1 7 1 1 (fun _ _ => 1%Q) (Some (fun _ _ => 2%Q)) None e_vop e_deg e_eig c)%Q /\
  (0 < re (wlb_mode_C 1 7 (1 # 2) (e_freq 1%Z) (fun _ => 3%Q) (fun b => l_cv 1 (e_freq 1%Z b)) (wig_v2 k_D k_ops e_vop 1%Z) 3%Z 4%Z 0%Z))%Q.
Proof.
  intros c Hc. split; [|vm_compute; reflexivity]. unfold e_file.
  refine (proj1 (C116_total k_D k_ops (fun _ => 0) 5 e_freq l_cv l_root l_sinh (1 # 2) 1 1 7 1 1 (fun _ _ => 1%Q) (Some (fun _ _ => 2%Q)) None e_vop e_deg e_eig k_mesh k_group k_nodup
    7 (fun _ => 5%Q) eq_refl eq_refl _ _ _ _ _ _ _ _ _ _ _ c Hc)); [discriminate|discriminate|reflexivity| | |vm_compute; reflexivity| | | | | ].
  - intros g b Hg Hb Hf _. split; [apply l_thermal; lra|].
    assert (K : forallb (fun g => forallb (fun b => qltb (e_freq g b * 1) (100 * 1 * 1)) (zrange 5)) (zrange 9) = true) by (vm_compute; reflexivity).
    apply (all9 _ K) in Hg. apply (all5 _ Hg) in Hb. apply qltb_lt. exact Hb.
  - intros g Hg. rewrite e_points in Hg. cbn [In] in Hg. destruct Hg as [<- | [<- | [<- | []]]]; vm_compute; reflexivity.
  - intros b Hb. assert (E : b = 0 \/ b = 1 \/ b = 2) by lia. destruct E as [-> | [-> | ->]]; vm_compute; discriminate.
  - intros g Hg. rewrite e_points in Hg.
    assert (K : forallb (fun g => forallb (fun a => forallb (fun b => (a =? b) || negb (qltb (1 # 2) (e_freq g a)) || negb (qltb (Qabs (e_freq g a - e_freq g b)) (1 # 10000))) (zrange 5)) (zrange 5)) [0; 1; 4] = true) by (vm_compute; reflexivity).
    split; [|split].
    + cbn [In] in Hg. destruct Hg as [<- | [<- | [<- | []]]]; reflexivity.
    + intros d v Hd Hl. split; [apply map_length|]. intros b Hb. unfold populated. apply Qle_not_lt. cbn [In] in Hg.
      destruct Hg as [<- | [<- | [<- | []]]]; cbn [e_deg Z.eqb In] in Hd; repeat destruct Hd as [<- | Hd]; try (cbn in Hl; lia); try destruct Hd.
      cbn [In] in Hb. destruct Hb as [<- | [<- | [<- | []]]]; vm_compute; discriminate.
    + intros a b Ha Hb Nab P. rewrite forallb_forall in K. specialize (K g Hg). apply (all5 _ K) in Ha. apply (all5 _ Ha) in Hb. apply orb_true_iff in Hb. destruct Hb as [Hb|Hb].
      * apply orb_true_iff in Hb. destruct Hb as [Hb|Hb]; [apply Z.eqb_eq in Hb; contradiction|]. apply qltb_lt in P. rewrite P in Hb. discriminate.
      * apply negb_true_iff in Hb. apply qltb_ge in Hb. exact Hb.
  - intros g Hg. rewrite e_points in Hg. intros a b Ha Hb _ _ E.
    assert (K : forallb (fun g => forallb (fun a => forallb (fun b => negb (Qeq_bool (Qabs (e_freq g a - e_freq g b)) (1 # 10000))) (zrange 5)) (zrange 5)) [0; 1; 4] = true) by (vm_compute; reflexivity).
    rewrite forallb_forall in K. specialize (K g Hg). apply (all5 _ K) in Ha. apply (all5 _ Ha) in Hb. apply Qeq_bool_iff in E. rewrite E in Hb. discriminate.
  - intros g _ s s' i _ _ _. unfold e_vop. rewrite (Z.eqb_sym s' s). destruct (s =? s') eqn:E; split; unfold conj; cbn [re im].
    + apply Z.eqb_eq in E. subst s'. reflexivity.
    + reflexivity.
    + reflexivity.
    + rewrite <- inject_Z_opp. replace (- (s' - s)) with (s - s') by ring. reflexivity.
  - intros g b _ _ _. vm_compute. discriminate.
Qed.

(** two modes exactly 1e-4 THz apart: the RTA calculation counts them as coherence, the direct solution leaves them out *)
Theorem C116_threshold_refuted : let f := fun s : Z => if s =? 0 then 1%Q else (10001 # 10000)%Q in let v2 := fun _ _ _ : Z => c1 in
  (0 < wig_C 2%Z (wig_modes 2 1 1 (1 # 2) f (fun _ => 1%Q) (fun _ => 1%Q) v2 wig_zero) 0%Z)%Q /\ (re (wlb_point_C 2 1 1 (1 # 2) f (fun _ => 1%Q) (fun _ => 1%Q) v2 0) == 0)%Q.
Proof. split; vm_compute; reflexivity. Qed.
Print Assumptions C116_threshold_refuted.

(** degenerate modes: the velocities of the direct solution are the eigenvalues of the blocks of each direction in ascending order, so that the
    populations' part of its RTA differs from that of the Wigner RTA calculation, here in its xy element; one grid point, two optical modes *)
Definition d_freq (g b : Z) : Q := if b <? 3 then 0%Q else 1%Q.
Definition d_vop (g s s' i : Z) : cplx := if (s <? 3) || (s' <? 3) then c0 else deg_op (s - 3) (s' - 3) i.
Definition d_deg (g : Z) : list (list Z) := [[0; 1; 2]; [3; 4]].
Definition d_eig (d : list Z) (v : Z -> Z -> cplx) : list Q :=
  match d with [_; _] => if Qeq_bool (cnorm2 (v 3%Z 3%Z) + cnorm2 (v 3%Z 4%Z))%Q 0 then [0%Q; 0%Q] else [(-1)%Q; 1%Q] | _ => [0%Q; 0%Q; 0%Q] end.
Theorem C116_degenerate_refuted :
  let rta := rta_P (v3 1 1 1) [(I3, id3)] (fun _ => 0) 5 d_freq l_cv l_root (1 # 2) 1 1 1 1 1 (fun _ _ => 1%Q) None None d_vop d_deg d_eig in
  let lbte := wlb_P_RTA (v3 1 1 1) [(I3, id3)] (fun _ => 0) 5 d_freq l_root l_sinh (1 # 2) 1 1 1 1 (fun _ _ => 1%Q) None None d_vop d_deg d_eig 1 in
  (forall i, 0 <= i < 3 -> eigenvalues2 (fun a b => d_vop 0 (3 + a) (3 + b) i) (d_eig [3; 4] (fun a b => d_vop 0 a b i))) /\
  thermal l_cv l_sinh 1 1 1 1 /\ (lbte (0, 0)%Z == rta 0%Z)%Q /\ (rta 5%Z == 0)%Q /\ (0 < lbte (0, 1)%Z)%Q.
Proof.
  cbv zeta. split; [|split; [apply l_thermal; reflexivity|split; [|split]; vm_compute; reflexivity]].
  intros i Hi. assert (Ci : i = 0 \/ i = 1 \/ i = 2) by lia.
  destruct Ci as [-> | [-> | ->]].
  - exists (-1)%Q, 1%Q. split; [vm_compute; reflexivity|]. split; [discriminate|]. split; vm_compute; reflexivity.
  - exists (-1)%Q, 1%Q. split; [vm_compute; reflexivity|]. split; [discriminate|]. split; vm_compute; reflexivity.
  - exists 0%Q, 0%Q. split; [vm_compute; reflexivity|]. split; [discriminate|]. split; vm_compute; reflexivity.
Qed.
Print Assumptions C116_degenerate_refuted.

(** the attributes kappa_TOT_RTA and kappa_TOT_exact of the direct solution stay zero *)
Theorem C116_attributes_refuted :
  let run := wlb_run (v3 1 1 1) [(I3, id3)] (fun _ => 0) 5 d_freq l_cv l_root (1 # 2) 1 1 1 1 1 (fun _ _ => 1%Q) None None d_vop d_deg d_eig false (fun _ => 5%Q)
    (fun c => wlb_P_RTA (v3 1 1 1) [(I3, id3)] (fun _ => 0) 5 d_freq l_root l_sinh (1 # 2) 1 1 1 1 (fun _ _ => 1%Q) None None d_vop d_deg d_eig 1 (nth (Z.to_nat c) voigt (0, 0))) in
  let total := rta_TOT (v3 1 1 1) [(I3, id3)] (fun _ => 0) 5 d_freq l_cv l_root (1 # 2) 1 1 1 1 1 (fun _ _ => 1%Q) None None d_vop d_deg d_eig in
  (0 < total 0%Z)%Q /\ (at_TOT_RTA run 0%Z == 0)%Q /\ (0 < at_P_exact run 0%Z)%Q /\ (at_TOT_exact run 0%Z == 0)%Q /\ (at_TOT_RTA (wlb_file run) 0%Z == total 0%Z)%Q.
Proof. cbv zeta. repeat (split; [vm_compute; reflexivity|]). vm_compute. reflexivity. Qed.
Print Assumptions C116_attributes_refuted.
