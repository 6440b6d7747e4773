(** The conductivity in the relaxation time approximation reported by the direct solution is that of ConductivityRTA (C93); the one
    reported with the full collision matrix (C94) *)
From Coq Require Import ZArith QArith Qfield List Bool Lia Lqa Permutation.
From Verif Require Import Base BaseProofs Mat3 BzModel BzProps GridSpec GridModel GridProofs GridProps Fc3Model Fc3Trans QMat IseSpec IseProofs KapModel KapProofs KapProps KapTensor.
Import ListNotations.
Open Scope Z_scope.

(** np.sinh and phonopy's mode_cv at a frequency [f]: both are what they should be for one value [e] of exp(h f / 2 kb T) *)
Definition thermal (mode_cv : Q -> Q -> Q) (sinh : Q -> Q) (ev kb T f : Q) : Prop :=
  exists e, (1 < e)%Q /\ (sinh (f * ev / (2 * kb * T)) == (e - / e) / 2)%Q /\
    (mode_cv T (f * ev) == kb * (f * ev / (kb * T)) * (f * ev / (kb * T)) * (e * e) / ((e * e - 1) * (e * e - 1)))%Q.
Definition root_of (root : Q -> Q) (x : Q) : Prop := (root x * root x == x)%Q.

Lemma iz0 : forall z, 0 < z -> ~ (inject_Z z == 0)%Q.
Proof. intros z Hz K. unfold Qeq, inject_Z in K. cbn [Qnum Qden] in K. lia. Qed.

Section Lbte.
  Variables (D : V3) (ops : list (M3 * (Z -> Z -> Q))) (init : Z -> Z) (nb : Z).
  Variables (freq : Z -> Z -> Q) (vel : Z -> Z -> Z -> Q) (mode_cv : Q -> Q -> Q) (root sinh : Q -> Q) (cutoff ev kb conv T bfac : Q).
  Variables (gamma : Z -> Z -> Q) (gamma_iso : option (Z -> Z -> Q)) (mfp : option Q) (average : bool).
  Local Notation n := (mesh_size D).
  Local Notation mp := (get_ir_grid_map (map fst ops) D vzero init).
  Local Notation arms g := (ir_weight mp n g).
  Hypothesis HD : pos_mesh D.
  Hypothesis HG : good_group D vzero (map fst ops).
  Hypothesis ND : NoDup (map fst ops).
  Hypothesis Hev : (0 < ev)%Q.
  Hypothesis Hkb : (0 < kb)%Q.
  Hypothesis HT : (0 <= T)%Q.
  Hypothesis Hcut : (0 <= cutoff)%Q.

  Lemma weight_sq : forall g, 0 <= g < n -> mp g = g -> root_of root (inject_Z (arms g)) -> root_of root (inject_Z (Z.of_nat (length ops))) ->
    (lbte_weight D ops root g * lbte_weight D ops root g == / inject_Z (kap_multi D ops true g))%Q.
  Proof.
    intros g Hg Eg R1 R2. unfold lbte_weight. rewrite num_gp_mesh_size.
    assert (A : zcount (fun x => existsb (fun o => rotate_grid_index g (fst o) D vzero =? x) ops) (zrange n) = arms g).
    { destruct (C06_ir_points_and_weights (map fst ops) D vzero init HD HG) as [P1 [_ [_ [P4 _]]]]. rewrite P4 by (apply P1; auto).
      apply zcount_ext_in. intros x _. clear. induction ops as [|o l IH]; [reflexivity|]. cbn [map existsb]. rewrite IH. reflexivity. }
    rewrite A. pose proof (C06_orbit_stabilizer (map fst ops) D vzero init g HD HG ND Hg) as OS. cbv zeta in OS. rewrite Eg, map_length in OS.
    rewrite <- (multi_stab D ops HD HG g Hg) in OS.
    assert (M : 0 < kap_multi D ops true g) by (rewrite (multi_stab D ops HD HG g Hg); apply (stab_pos D vzero (map fst ops) HD HG g Hg)).
    assert (LN : 0 < Z.of_nat (length ops)). { destruct HG as [[H1 _] _]. destruct ops; [destruct H1|cbn; lia]. }
    set (ra := root (inject_Z (arms g))) in *. set (rl := root (inject_Z (Z.of_nat (length ops)))) in *.
    unfold root_of in R1, R2. fold ra in R1. fold rl in R2.
    transitivity ((ra * ra) / (rl * rl))%Q; [unfold Qdiv; rewrite Qinv_mult_distr; ring|]. rewrite R1, R2, <- OS, inject_Z_mult.
    assert (0 < arms g) by nia. field. split; apply iz0; assumption.
  Qed.
  Lemma sinh_factor : forall f, (cutoff < f)%Q -> (0 < T)%Q -> thermal mode_cv sinh ev kb T f ->
    (4 * kb * (T * T) * (lbte_sinh sinh cutoff ev kb T f * lbte_sinh sinh cutoff ev kb T f) == mode_cv T (f * ev))%Q.
  Proof.
    intros f Hf HT0 [e [He [Es Ec]]]. unfold lbte_sinh. replace (qltb cutoff f) with true by (symmetry; apply qltb_lt; exact Hf).
    set (s := sinh (f * ev / (2 * kb * T))%Q) in *.
    assert (He2 : (1 < e * e)%Q) by nra. assert (E1 : (s == (e * e - 1) / (2 * e))%Q) by (rewrite Es; field; lra).
    assert (Hs : (0 < s)%Q). { rewrite E1. apply Qlt_shift_div_l; lra. }
    replace (qltb 0 s) with true by (symmetry; apply qltb_lt; exact Hs). rewrite Ec, E1. field. repeat split; intros K; (lra || nra).
  Qed.

  Hypothesis Hth : forall g b, 0 <= g < n -> 0 <= b < nb -> (cutoff < freq g b)%Q -> (0 < T)%Q -> thermal mode_cv sinh ev kb T (freq g b) /\ (freq g b * ev < 100 * T * kb)%Q.
  Hypothesis Hr1 : forall g, In g (kap_points D ops init true) -> root_of root (inject_Z (arms g)).
  Hypothesis Hr2 : root_of root (inject_Z (Z.of_nat (length ops))).
  Local Notation mode g b ij := (kap_mode D ops freq vel mode_cv root cutoff ev kb conv T bfac gamma gamma_iso mfp true average g b ij).
  Local Notation lmode pos g b ij := (lbte_mode_ir D ops freq vel root sinh cutoff ev kb conv T bfac gamma gamma_iso mfp average pos g b ij).

  Lemma points_in : forall g, In g (kap_points D ops init true) -> 0 <= g < n /\ mp g = g.
  Proof. intros g Hg. cbn [kap_points] in Hg. rewrite num_gp_mesh_size in Hg. apply (ir_points_fixed D vzero (map fst ops) init HD HG) in Hg. exact Hg. Qed.
  Lemma rot_scale : forall R c v i, (rot3 R (fun k => c * v k)%Q i == c * rot3 R v i)%Q.
  Proof. intros R c v i. unfold rot3. rewrite !qs3. ring. Qed.
  Lemma lbte_form : forall os (gp : bool) (X Y : Z -> Z -> Q) (v : Z -> Q) x y b i j, gp && (b <? 3) = false ->
    (forall k, 0 <= k < 3 -> (X b k == x * v k)%Q) -> (forall k, 0 <= k < 3 -> (Y b k == y * v k)%Q) ->
    (lbte_mode_kappa kb conv T os gp X Y b (i, j) == 2 * (conv * kb * (T * T)) * (x * y) * qsum (map (fun o => rot3 (snd o) v i * rot3 (snd o) v j) os))%Q.
  Proof.
    intros os gp X Y v x y b i j G HX HY. unfold lbte_mode_kappa. rewrite G. cbn [fst snd].
    assert (E : forall i j, (qsum (map (fun o => rot3 (snd o) (X b) i * rot3 (snd o) (Y b) j) os) == x * y * qsum (map (fun o => rot3 (snd o) v i * rot3 (snd o) v j) os))%Q).
    { intros i0 j0. rewrite <- qs_scale. apply qs_ext. intros o _. unfold rot3. rewrite !qs3, !HX, !HY by lia. ring. }
    rewrite !E. rewrite (qs_ext _ (fun o => rot3 (snd o) v j * rot3 (snd o) v i)%Q (fun o => rot3 (snd o) v i * rot3 (snd o) v j)%Q) by (intros; ring). ring.
  Qed.
  Lemma lbte_mode_eq : forall pos g b i j, In g (kap_points D ops init true) -> 0 <= b < nb -> (pos =? 0) && (b <? 3) = false ->
    (lmode pos g b (i, j) == mode g b (i, j))%Q.
  Proof.
    intros pos g b i j Hg Hb G. destruct (points_in g Hg) as [Rg Eg]. rewrite mode_form. cbn [fst snd]. unfold lbte_mode_ir.
    set (w := lbte_weight D ops root g). set (gv := kap_gv D ops vel true average g). set (wd := kap_linewidth D ops vel root bfac gamma gamma_iso mfp true average g b).
    set (fs := lbte_sinh sinh cutoff ev kb T (freq g b)).
    set (X := lbte_X sinh cutoff ev kb T (freq g) gv w).
    set (x := if qltb 0 T then (w * fs)%Q else 0%Q).
    set (y := if qltb cutoff (freq g b) then (if Qeq_bool wd 0 then 0%Q else x / wd)%Q else 0%Q).
    assert (HX : forall k, 0 <= k < 3 -> (X b k == x * gv b k)%Q) by (intros k _; unfold X, lbte_X, x, fs; destruct (qltb 0 T); ring).
    rewrite (lbte_form ops (pos =? 0) X _ (gv b) x y b i j G HX).
    2: { intros k Hk. unfold lbte_Y, y. fold wd. destruct (qltb cutoff (freq g b)); [|ring]. destruct (Qeq_bool wd 0); [ring|]. rewrite HX by exact Hk. unfold Qdiv. ring. }
    apply Qmult_comp; [|reflexivity]. unfold coef. fold wd. unfold y.
    destruct (qltb (freq g b) cutoff) eqn:E1.
    { apply qltb_lt in E1. replace (qltb cutoff (freq g b)) with false by (symmetry; apply qltb_ge; lra). ring. }
    apply qltb_ge in E1. unfold kap_cv. destruct (qltb cutoff (freq g b)) eqn:E2.
    - apply qltb_lt in E2. replace (qltb (cutoff * ev) (freq g b * ev)) with true by (symmetry; apply qltb_lt; nra).
      destruct (Qeq_bool wd 0) eqn:E3; [ring|]. assert (N0 : ~ (wd == 0)%Q) by (intros K; apply Qeq_bool_iff in K; congruence).
      unfold x. destruct (qltb 0 T) eqn:E4.
      + apply qltb_lt in E4. destruct (Hth g b Rg Hb E2 E4) as [H1 H2]. replace (qltb (freq g b * ev) (100 * T * kb)) with true by (symmetry; apply qltb_lt; exact H2).
        pose proof (sinh_factor (freq g b) E2 E4 H1) as SF. fold fs in SF. rewrite <- SF.
        pose proof (weight_sq g Rg Eg (Hr1 g Hg) Hr2) as WS. fold w in WS.
        transitivity ((w * w) * (2 * (conv * kb * (T * T)) * (fs * fs)) / wd)%Q; [unfold Qdiv; ring|]. rewrite WS. field.
        split; [|exact N0]. assert (M : 0 < kap_multi D ops true g) by (rewrite (multi_stab D ops HD HG g Rg); apply (stab_pos D vzero (map fst ops) HD HG g Rg)).
        apply iz0; exact M.
      + apply qltb_ge in E4. assert (T0 : (T == 0)%Q) by lra.
        replace (qltb (freq g b * ev) (100 * T * kb)) with false by (symmetry; apply qltb_ge; rewrite T0; nra). unfold Qdiv. ring.
    - apply qltb_ge in E2. replace (qltb (cutoff * ev) (freq g b * ev)) with false by (symmetry; apply qltb_ge; nra). destruct (Qeq_bool wd 0); unfold Qdiv; ring.
  Qed.

  (** the point Gamma comes first *)
  Lemma gamma_first : exists l, kap_points D ops init true = 0 :: l.
  Proof.
    clear Hth Hr1 Hr2.
    cbn [kap_points]. rewrite num_gp_mesh_size. unfold ir_grid_points.
    assert (N : 0 < n) by (unfold mesh_size; destruct D; cbn in HD; destruct HD as [? [? ?]]; apply Z.mul_pos_pos; [apply Z.mul_pos_pos|]; assumption).
    unfold zrange at 2. replace (Z.to_nat n) with (S (Z.to_nat (n - 1))) by lia. cbn [seq map filter].
    replace (existsb (fun x => mp x =? Z.of_nat 0) (zrange n)) with true; [eexists; reflexivity|].
    symmetry. apply existsb_exists. exists 0. split; [apply in_zrange; lia|]. apply Z.eqb_eq.
    destruct (C05_ir_map_is_least_image (map fst ops) D vzero init 0 HD HG ltac:(lia)) as [[R [HR E]] L].
    assert (L0 := L I3). rewrite rotate_I3 in L0 by (assumption || lia). destruct HG as [[H1 _] _]. specialize (L0 H1).
    pose proof (rotate_range 0 R D vzero HD). rewrite E in H. cbn. lia.
  Qed.
End Lbte.

Lemma seq_sum : forall (F : Z -> Z -> Q) (H : Z -> Q) l k, (forall p g, Z.of_nat k <= p -> In g l -> (F p g == H g)%Q) ->
  (qsum (map (fun pg => F (fst pg) (snd pg)) (combine (map Z.of_nat (seq k (length l))) l)) == qsum (map H l))%Q.
Proof.
  intros F H l. induction l as [|g l IH]; intros k E; [reflexivity|]. cbn [length seq map combine]. rewrite !qs_cons. cbn [fst snd].
  rewrite E by (lia || (left; reflexivity)). rewrite IH; [reflexivity|]. intros p x Hp Hx. apply E; [lia|right; exact Hx].
Qed.

(** the approximation is that of ConductivityRTA when the three lowest modes at Gamma are not above the cutoff *)
Theorem C93_agrees_partial : forall D ops init nb freq vel mode_cv root sinh cutoff ev kb conv T bfac gamma giso mfp average,
  pos_mesh D -> good_group D vzero (map fst ops) -> NoDup (map fst ops) ->
  (0 < ev)%Q -> (0 < kb)%Q -> (0 <= T)%Q -> (0 <= cutoff)%Q ->
  (forall g b, 0 <= g < mesh_size D -> 0 <= b < nb -> (cutoff < freq g b)%Q -> (0 < T)%Q -> thermal mode_cv sinh ev kb T (freq g b) /\ (freq g b * ev < 100 * T * kb)%Q) ->
  (forall g, In g (kap_points D ops init true) -> root_of root (inject_Z (ir_weight (get_ir_grid_map (map fst ops) D vzero init) (mesh_size D) g))) ->
  root_of root (inject_Z (Z.of_nat (length ops))) ->
  (forall b, 0 <= b < 3 -> (freq 0%Z b <= cutoff)%Q) ->
  forall i j, (lbte_rta_ir D ops init nb freq vel root sinh cutoff ev kb conv T bfac gamma giso mfp average (i, j) ==
               kap_rta D ops init nb freq vel mode_cv root cutoff ev kb conv T bfac gamma giso mfp true average (i, j))%Q.
Proof.
  intros D ops init nb freq vel mode_cv root sinh cutoff ev kb conv T bfac gamma giso mfp average HD HG ND Hev Hkb HT Hcut Hth Hr1 Hr2 H0 i j.
  unfold lbte_rta_ir, kap_rta, Qdiv. apply Qmult_comp; [|reflexivity].
  destruct (gamma_first D ops init HD HG) as [l El].
  pose proof (lbte_mode_eq D ops init nb freq vel mode_cv root sinh cutoff ev kb conv T bfac gamma giso mfp average HD HG ND Hev Hkb HT Hcut Hth Hr1 Hr2) as ME.
  rewrite El in *. unfold zrange at 2. rewrite Nat2Z.id. cbn [length seq map combine]. rewrite !qs_cons. cbn [fst snd]. apply Qplus_comp.
  - apply qs_ext. intros b Hb. apply in_zrange in Hb. destruct (Z.ltb_spec b 3) as [L|L].
    + unfold lbte_mode_ir, lbte_mode_kappa. change (Z.of_nat 0 =? 0) with true. replace (b <? 3) with true by (symmetry; apply Z.ltb_lt; exact L). cbn [andb].
      specialize (H0 b ltac:(lia)). unfold kap_mode, kap_cv. replace (qltb (cutoff * ev) (freq 0 b * ev)) with false by (symmetry; apply qltb_ge; nra).
      destruct (qltb (freq 0 b) cutoff); [reflexivity|]. destruct (Qeq_bool _ 0); [reflexivity|]. unfold Qdiv. ring.
    + apply ME; [left; reflexivity|exact Hb|]. replace (b <? 3) with false by (symmetry; apply Z.ltb_ge; exact L). apply andb_false_r.
  - rewrite <- (seq_sum (fun p g => qsum (map (fun b => lbte_mode_ir D ops freq vel root sinh cutoff ev kb conv T bfac gamma giso mfp average p g b (i, j)) (zrange nb))) _ l 1); [reflexivity|].
    intros p g Hp Hg. apply qs_ext. intros b Hb. apply in_zrange in Hb. apply ME; [right; exact Hg|exact Hb|]. replace (p =? 0) with false by (symmetry; apply Z.eqb_neq; lia). reflexivity.
Qed.
Print Assumptions C93_agrees_partial.

(** four-fold axis, 3x3x1 mesh, four bands, the highest at positive frequency at Gamma *)
Definition l_sinh (y : Q) : Q := (((1 + 2 * y) - / (1 + 2 * y)) / 2)%Q.
Definition l_cv (T f : Q) : Q := (1 * (f / (1 * 1)) * (f / (1 * 1)) * ((1 + f) * (1 + f)) / (((1 + f) * (1 + f) - 1) * ((1 + f) * (1 + f) - 1)))%Q.
Definition l_root (x : Q) : Q := if Qeq_bool x 4 then 2%Q else 1%Q.
Definition l_freq (g b : Z) : Q := (k_freq g 0 + (if b =? 3 then 1 else 0))%Q.
Lemma l_thermal : forall f, (0 < f)%Q -> thermal l_cv l_sinh 1 1 1 f.
Proof.
  intros f Hf. exists (1 + f)%Q. split; [lra|]. split.
  - unfold l_sinh. field. repeat split; intros K; lra.
  - unfold l_cv. field. repeat split; intros K; nra.
Qed.
Definition l_lbte := lbte_rta_ir k_D k_ops (fun _ => 0) 4 l_freq k_vel l_root l_sinh (1 # 2) 1 1 1 1 1 (fun _ _ => 1%Q) (Some (fun _ _ => 2%Q)) (Some 2%Q) false.
Definition l_rta := kap_rta k_D k_ops (fun _ => 0) 4 l_freq k_vel l_cv l_root (1 # 2) 1 1 1 1 1 (fun _ _ => 1%Q) (Some (fun _ _ => 2%Q)) (Some 2%Q) true false.
Example C93_ex : (l_lbte (0, 0)%Z == l_rta (0, 0)%Z)%Q /\ (0 < l_rta (0, 0)%Z)%Q /\ (1 # 2 < l_freq 0 3)%Q.
Proof.
  split; [|split; vm_compute; reflexivity]. unfold l_lbte, l_rta.
  apply C93_agrees_partial; [exact k_mesh|exact k_group|exact k_nodup|reflexivity|reflexivity|discriminate|discriminate| | |vm_compute; reflexivity| ].
  - intros g b Hg Hb Hf _. split; [apply l_thermal; lra|].
    assert (K : forallb (fun g => forallb (fun b => qltb (l_freq g b * 1) (100 * 1 * 1)) (zrange 4)) (zrange 9) = true) by (vm_compute; reflexivity).
    rewrite forallb_forall in K. specialize (K g (proj2 (in_zrange 9 g) Hg)). rewrite forallb_forall in K. apply qltb_lt. apply K, in_zrange, Hb.
  - intros g Hg. assert (K : forallb (fun g => Qeq_bool (l_root (inject_Z (ir_weight (get_ir_grid_map (map fst k_ops) k_D vzero (fun _ => 0)) (mesh_size k_D) g)) *
        l_root (inject_Z (ir_weight (get_ir_grid_map (map fst k_ops) k_D vzero (fun _ => 0)) (mesh_size k_D) g))) (inject_Z (ir_weight (get_ir_grid_map (map fst k_ops) k_D vzero (fun _ => 0)) (mesh_size k_D) g)))
      (kap_points k_D k_ops (fun _ => 0) true) = true) by (vm_compute; reflexivity).
    rewrite forallb_forall in K. apply Qeq_bool_iff. exact (K g Hg).
  - intros b Hb. assert (E : b = 0 \/ b = 1 \/ b = 2) by lia. destruct E as [-> | [-> | ->]]; vm_compute; discriminate.
Qed.

(** the lowest modes at Gamma are left out whatever their frequencies: one grid point, one mode *)
Theorem C93_agrees_refuted :
  let lbte := lbte_rta_ir (v3 1 1 1) [(I3, id3)] (fun _ => 0) 1 (fun _ _ => 1%Q) (fun _ _ _ => 1%Q) l_root l_sinh 0 1 1 1 1 1 (fun _ _ => 1%Q) None None false (0, 0) in
  let rta := kap_rta (v3 1 1 1) [(I3, id3)] (fun _ => 0) 1 (fun _ _ => 1%Q) (fun _ _ _ => 1%Q) l_cv l_root 0 1 1 1 1 1 (fun _ _ => 1%Q) None None true false (0, 0) in
  thermal l_cv l_sinh 1 1 1 1 /\ (lbte == 0)%Q /\ (0 < rta)%Q.
Proof. cbv zeta. split; [apply l_thermal; reflexivity|]. split; vm_compute; reflexivity. Qed.
Print Assumptions C93_agrees_refuted.

(** ** Full collision matrix *)
Lemma boltzmann_ext : forall n nb cutoff conv freq heat width width' vel i j,
  (forall g b, 0 <= g < n -> 0 <= b < nb -> (width g b == width' g b)%Q) ->
  (boltzmann n nb cutoff conv freq heat width vel i j == boltzmann n nb cutoff conv freq heat width' vel i j)%Q.
Proof.
  intros n nb cutoff conv freq heat width width' vel i j H. unfold boltzmann. apply Qmult_comp; [reflexivity|]. unfold Sum. apply qs_ext. intros g Hg. apply qs_ext. intros b Hb.
  apply in_zrange in Hg, Hb. rewrite (Qeq_bool_ext _ (width' g b) 0 0 (H g b Hg Hb) (Qeq_refl 0)). destruct (_ || _); [reflexivity|]. rewrite (H g b Hg Hb). reflexivity.
Qed.
Section Red.
  Variables (D : V3) (ops : list (M3 * (Z -> Z -> Q))) (init : Z -> Z) (nb : Z).
  Variables (freq : Z -> Z -> Q) (vel : Z -> Z -> Z -> Q) (mode_cv : Q -> Q -> Q) (sinh : Q -> Q) (cutoff ev kb conv T : Q).
  Variables (bz : Z -> Z) (bzfreq diag : Z -> Z -> Q).
  Local Notation n := (mesh_size D).
  Hypothesis HD : pos_mesh D.
  Hypothesis Hev : (0 < ev)%Q.
  Hypothesis Hkb : (0 < kb)%Q.
  Hypothesis HT : (0 <= T)%Q.
  Hypothesis Hcut : (0 <= cutoff)%Q.
  Hypothesis Hfr : forall g b, 0 <= g < n -> 0 <= b < nb -> bzfreq (bz g) b = freq g b.
  Hypothesis Hth : forall g b, 0 <= g < n -> 0 <= b < nb -> (cutoff < freq g b)%Q -> (0 < T)%Q -> thermal mode_cv sinh ev kb T (freq g b) /\ (freq g b * ev < 100 * T * kb)%Q.
  Hypothesis Hbz : forall g b, 0 <= g < n -> 0 <= b < nb -> qltb cutoff (bzfreq g b) = qltb cutoff (freq g b).
  Hypothesis H0 : forall b, 0 <= b < 3 -> (freq 0%Z b <= cutoff)%Q.
  Hypothesis Hdiag : forall g b, 0 <= g < n -> 0 <= b < nb -> ~ (diag g b == 0)%Q.
  Local Notation tm := (term freq vel mode_cv (fun x => x) cutoff ev kb T 0 diag None None).
  Lemma red_mode : forall star g b i j, 0 <= g < n -> 0 <= b < nb ->
    (lbte_mode_red ops vel sinh cutoff ev kb conv T bz bzfreq diag star g b (i, j) ==
     conv * qsum (map (fun o => if qltb (freq g b) cutoff || Qeq_bool (width_of (fun x => x) 0 diag None None vel g b) 0 then 0
        else heat_of mode_cv cutoff ev kb T freq g b * (rot3 (snd o) (vel g b) i * rot3 (snd o) (vel g b) j) / (2 * width_of (fun x => x) 0 diag None None vel g b)) (kap_ops ops star))
     / inject_Z (Z.of_nat (length (kap_ops ops star))))%Q.
  Proof.
    intros star g b i j Hg Hb. unfold lbte_mode_red, Qdiv. apply Qmult_comp; [|reflexivity].
    assert (EW : (width_of (fun x => x) 0 diag None None vel g b == diag g b)%Q) by (unfold width_of; ring).
    rewrite (Qeq_bool_ext _ (diag g b) 0 0 EW (Qeq_refl 0)). pose proof (Hdiag g b Hg Hb) as N0.
    replace (Qeq_bool (diag g b) 0) with false by (symmetry; apply not_true_is_false; intros K; apply Qeq_bool_iff in K; auto).
    rewrite orb_false_r. unfold heat_of.
    destruct ((g =? 0) && (b <? 3)) eqn:G.
    - apply andb_true_iff in G. destruct G as [G1 G2]. apply Z.eqb_eq in G1. apply Z.ltb_lt in G2. subst g. specialize (H0 b ltac:(lia)).
      unfold lbte_mode_kappa. replace (b <? 3) with true by (symmetry; apply Z.ltb_lt; exact G2). change (0 =? 0) with true. cbn [andb].
      replace (qltb (cutoff * ev) (freq 0 b * ev)) with false by (symmetry; apply qltb_ge; nra). cbn [andb].
      destruct (qltb (freq 0 b) cutoff); rewrite qs_zero by (intros; unfold Qdiv; ring); ring.
    - set (x := if qltb 0 T then lbte_sinh sinh cutoff ev kb T (freq g b) else 0%Q).
      assert (HX : forall k, 0 <= k < 3 -> (lbte_X sinh cutoff ev kb T (bzfreq (bz g)) (vel g) 1 b k == x * vel g b k)%Q).
      { intros k _. unfold lbte_X, x. rewrite Hfr by assumption. destruct (qltb 0 T); ring. }
      rewrite (lbte_form kb conv T (kap_ops ops star) (g =? 0) _ _ (vel g b) x (if qltb cutoff (freq g b) then x / diag g b else 0)%Q b i j G HX).
      2: { intros k Hk. rewrite Hbz by assumption. destruct (qltb cutoff (freq g b)); [|ring]. rewrite HX by exact Hk. unfold Qdiv. ring. }
      destruct (qltb (freq g b) cutoff) eqn:E1.
      { apply qltb_lt in E1. replace (qltb cutoff (freq g b)) with false by (symmetry; apply qltb_ge; lra). rewrite (qs_zero _ (fun _ => 0%Q)) by reflexivity. ring. }
      apply qltb_ge in E1. destruct (qltb cutoff (freq g b)) eqn:E2.
      + apply qltb_lt in E2. replace (qltb (cutoff * ev) (freq g b * ev)) with true by (symmetry; apply qltb_lt; nra). cbn [andb].
        destruct (qltb 0 T) eqn:E4; unfold x.
        * apply qltb_lt in E4. destruct (Hth g b Hg Hb E2 E4) as [H1 H2]. replace (qltb (freq g b * ev) (100 * T * kb)) with true by (symmetry; apply qltb_lt; exact H2).
          pose proof (sinh_factor mode_cv sinh cutoff ev kb T Hkb (freq g b) E2 E4 H1) as SF. rewrite <- !qs_scale. apply qs_ext. intros o _. rewrite <- SF, EW. field. exact N0.
        * apply qltb_ge in E4. replace (qltb (freq g b * ev) (100 * T * kb)) with false by (symmetry; apply qltb_ge; nra).
          rewrite (qs_zero _ (fun o => 0 * _ * / _)%Q) by (intros; ring). unfold Qdiv. ring.
      + apply qltb_ge in E2. replace (qltb (cutoff * ev) (freq g b * ev)) with false by (symmetry; apply qltb_ge; nra). cbn [andb].
        rewrite (qs_zero _ (fun o => 0 * _ * / _)%Q) by (intros; ring). ring.
  Qed.
  Local Notation model star := (lbte_rta_red D ops init nb vel sinh cutoff ev kb conv T bz bzfreq diag star).
  Lemma red_boltz : forall i j, (conv * qsum (map (fun g => Sum nb (fun b => tm g b i j)) (zrange n)) / inject_Z n ==
    boltzmann n nb cutoff conv freq (heat_of mode_cv cutoff ev kb T freq) diag vel i j)%Q.
  Proof. intros i j. rewrite boltz. apply boltzmann_ext. intros g b _ _. unfold width_of. ring. Qed.
  Lemma red_full : forall i j, 0 <= i < 3 -> 0 <= j < 3 ->
    (model false (i, j) == boltzmann n nb cutoff conv freq (heat_of mode_cv cutoff ev kb T freq) diag vel i j)%Q.
  Proof.
    intros i j Hi Hj. unfold lbte_rta_red. rewrite (samples_full D ops init HD), num_gp_mesh_size, <- red_boltz. unfold Qdiv. apply Qmult_comp; [|reflexivity].
    rewrite <- qs_scale. apply qs_ext. intros g Hg. unfold Sum. rewrite <- qs_scale. apply qs_ext. intros b Hb. apply in_zrange in Hg, Hb.
    rewrite red_mode by assumption. cbn [kap_ops map snd length]. rewrite qs_cons, qs_nil. unfold term. change (inject_Z (Z.of_nat 1)) with 1%Q.
    destruct (_ || _); [|rewrite !id_rot by assumption]; unfold Qdiv; change (/ 1)%Q with 1%Q; ring.
  Qed.
  Hypothesis HG : good_group D vzero (map fst ops).
  Hypothesis ND : NoDup (map fst ops).
  Hypothesis HO : forall o, In o ops -> orthogonal_op (snd o).
  Hypothesis Hcv : value_fun (mode_cv T).
  Hypothesis HS : symmetric_phonons D ops nb freq diag None vel.
  Lemma red_star : forall i j, 0 <= i < 3 -> 0 <= j < 3 ->
    (model true (i, j) == boltzmann n nb cutoff conv freq (heat_of mode_cv cutoff ev kb T freq) diag vel i j)%Q.
  Proof.
    intros i j Hi Hj. unfold lbte_rta_red. rewrite (samples_star D ops init HD HG ND), num_gp_mesh_size, <- red_boltz. unfold Qdiv. apply Qmult_comp; [|reflexivity].
    assert (V : value_fun (fun x => x)) by (intros x y E; exact E).
    transitivity (qsum (map (fun g => conv * / inject_Z (Z.of_nat (length ops)) * qsum (map (fun o => Sum nb (fun b => tm (rotate_grid_index g (fst o) D vzero) b i j)) ops)) (zrange n)))%Q.
    - apply qs_ext. intros g Hg. apply in_zrange in Hg.
      transitivity (qsum (map (fun b => conv * / inject_Z (Z.of_nat (length ops)) * qsum (map (fun o => tm (rotate_grid_index g (fst o) D vzero) b i j) ops)) (zrange nb)))%Q.
      + apply qs_ext. intros b Hb. apply in_zrange in Hb. rewrite red_mode by assumption. cbn [kap_ops].
        assert (E : (qsum (map (fun o => if qltb (freq g b) cutoff || Qeq_bool (width_of (fun x => x) 0 diag None None vel g b) 0 then 0
          else heat_of mode_cv cutoff ev kb T freq g b * (rot3 (snd o) (vel g b) i * rot3 (snd o) (vel g b) j) / (2 * width_of (fun x => x) 0 diag None None vel g b)) ops) ==
          qsum (map (fun o => tm (rotate_grid_index g (fst o) D vzero) b i j) ops))%Q).
        { apply qs_ext. intros o Ho. symmetry. apply (term_rot D ops nb freq vel mode_cv (fun x => x) cutoff ev kb T 0 diag None None); assumption. }
        rewrite E. unfold Qdiv. ring.
      + rewrite qs_scale. apply Qmult_comp; [reflexivity|]. unfold Sum. exact (qs_swap _ _ (fun b o => tm (rotate_grid_index g (fst o) D vzero) b i j) (zrange nb) ops).
    - rewrite qs_scale.
      assert (E : (qsum (map (fun g => qsum (map (fun o => Sum nb (fun b => tm (rotate_grid_index g (fst o) D vzero) b i j)) ops)) (zrange n)) ==
        qsum (map (fun o : M3 * (Z -> Z -> Q) => qsum (map (fun g => Sum nb (fun b => tm g b i j)) (zrange n))) ops))%Q).
      { etransitivity; [exact (qs_swap _ _ (fun g o => Sum nb (fun b => tm (rotate_grid_index g (fst o) D vzero) b i j)) (zrange n) ops)|].
        apply qs_ext. intros o Ho. pose proof HG as HG'. destruct HG' as [[_ [_ Hinv]] Hc]. destruct (Hinv (fst o) (in_map fst ops o Ho)) as [t [Ht [E1 E2]]].
        destruct (Hc (fst o) (in_map fst ops o Ho)) as [C1 S1]. destruct (Hc t Ht) as [C2 S2].
        destruct (rotate_permutes (fst o) t D vzero HD C1 C2 S1 S2) as [P1 [P2 P3]]; [assumption|assumption|].
        apply (qs_reindex n (fun g => rotate_grid_index g (fst o) D vzero) (fun g => Sum nb (fun b => tm g b i j))); [exact P1|exact P2]. }
      rewrite E, qs_const.
      assert (LN : 0 < Z.of_nat (length ops)). { destruct HG as [[H1 _] _]. destruct ops; [destruct H1|cbn; lia]. }
      field. apply iz0, LN.
  Qed.
End Red.

(** with the full collision matrix the approximation is the sum over the mesh with the diagonal of the matrix as linewidths, when the
    frequencies above the cutoff are the same at the BZ-grid point whose index is taken by mistake *)
Theorem C94_full_matrix_partial : forall D ops init nb freq vel mode_cv sinh cutoff ev kb conv T bz bzfreq diag star,
  pos_mesh D -> (0 < ev)%Q -> (0 < kb)%Q -> (0 <= T)%Q -> (0 <= cutoff)%Q ->
  (forall g b, 0 <= g < mesh_size D -> 0 <= b < nb -> bzfreq (bz g) b = freq g b) ->
  (forall g b, 0 <= g < mesh_size D -> 0 <= b < nb -> (cutoff < freq g b)%Q -> (0 < T)%Q -> thermal mode_cv sinh ev kb T (freq g b) /\ (freq g b * ev < 100 * T * kb)%Q) ->
  (forall g b, 0 <= g < mesh_size D -> 0 <= b < nb -> ((cutoff < bzfreq g b)%Q <-> (cutoff < freq g b)%Q)) ->
  (forall b, 0 <= b < 3 -> (freq 0%Z b <= cutoff)%Q) ->
  (forall g b, 0 <= g < mesh_size D -> 0 <= b < nb -> ~ (diag g b == 0)%Q) ->
  (star = true -> good_group D vzero (map fst ops) /\ NoDup (map fst ops) /\ (forall o, In o ops -> orthogonal_op (snd o)) /\ value_fun (mode_cv T) /\
     symmetric_phonons D ops nb freq diag None vel) ->
  forall i j, 0 <= i < 3 -> 0 <= j < 3 ->
  (lbte_rta_red D ops init nb vel sinh cutoff ev kb conv T bz bzfreq diag star (i, j) ==
   boltzmann (mesh_size D) nb cutoff conv freq (heat_of mode_cv cutoff ev kb T freq) diag vel i j)%Q.
Proof.
  intros D ops init nb freq vel mode_cv sinh cutoff ev kb conv T bz bzfreq diag star HD Hev Hkb HT Hcut Hfr Hth Hbz H0 Hd Hs i j Hi Hj.
  assert (Hbz' : forall g b, 0 <= g < mesh_size D -> 0 <= b < nb -> qltb cutoff (bzfreq g b) = qltb cutoff (freq g b)).
  { intros g b Hg Hb. apply eq_true_iff_eq. rewrite !qltb_lt. apply Hbz; assumption. }
  destruct star.
  - destruct (Hs eq_refl) as [HG [ND [HO [V HS]]]]. apply red_star; assumption.
  - apply red_full; assumption.
Qed.
Print Assumptions C94_full_matrix_partial.

Definition l_red (star : bool) := lbte_rta_red k_D k_ops (fun _ => 0) 4 k_vel l_sinh (1 # 2) 1 1 1 1 (fun g => g) l_freq (fun g _ => (1 + k_freq g 0)%Q) star.
Example C94_ex : (l_red true (0, 0)%Z == l_red false (0, 0)%Z)%Q /\ ~ (l_red true (0, 0)%Z == 0)%Q.
Proof.
  assert (A : forall star, (l_red star (0, 0)%Z == boltzmann 9 4 (1 # 2) 1 l_freq (heat_of l_cv (1 # 2) 1 1 1 l_freq) (fun g _ => 1 + k_freq g 0) k_vel 0 0)%Q).
  2: { rewrite !A. split; [reflexivity|vm_compute; discriminate]. }
  intros star. unfold l_red. apply (C94_full_matrix_partial k_D k_ops (fun _ => 0) 4 l_freq k_vel l_cv l_sinh (1 # 2) 1 1 1 1 (fun g => g) l_freq (fun g _ => (1 + k_freq g 0)%Q) star); try lia.
  - exact k_mesh.
  - reflexivity.
  - reflexivity.
  - discriminate.
  - discriminate.
  - reflexivity.
  - intros g b Hg Hb Hf _. split; [apply l_thermal; lra|].
    assert (K : forallb (fun g => forallb (fun b => qltb (l_freq g b * 1) (100 * 1 * 1)) (zrange 4)) (zrange 9) = true) by (vm_compute; reflexivity).
    rewrite forallb_forall in K. specialize (K g (proj2 (in_zrange 9 g) Hg)). rewrite forallb_forall in K. apply qltb_lt. apply K, in_zrange, Hb.
  - intros g b _ _. tauto.
  - intros b Hb. assert (E : b = 0 \/ b = 1 \/ b = 2) by lia. destruct E as [-> | [-> | ->]]; vm_compute; discriminate.
  - intros g b Hg _. assert (K : forallb (fun g => qltb 0 (1 + k_freq g 0)) (zrange 9) = true) by (vm_compute; reflexivity).
    rewrite forallb_forall in K. specialize (K g (proj2 (in_zrange 9 g) Hg)). apply qltb_lt in K. lra.
  - intros _. split; [exact k_group|]. split; [exact k_nodup|]. split; [exact k_orth|]. split.
    { intros x y E. unfold l_cv. rewrite E. reflexivity. }
    assert (K : forallb (fun o => forallb (fun g => Qeq_bool (k_freq (rotate_grid_index g (fst o) k_D vzero) 0) (k_freq g 0)) (zrange 9)) k_ops = true) by (vm_compute; reflexivity).
    assert (F : forall o g, In o k_ops -> 0 <= g < mesh_size k_D -> (k_freq (rotate_grid_index g (fst o) k_D vzero) 0 == k_freq g 0)%Q).
    { intros o g Ho Hg. rewrite forallb_forall in K. specialize (K o Ho). rewrite forallb_forall in K. apply Qeq_bool_iff. apply K. apply in_zrange. exact Hg. }
    constructor.
    + intros o g b Ho Hg _. unfold l_freq. rewrite (F o g Ho Hg). reflexivity.
    + intros o g b Ho Hg _. rewrite (F o g Ho Hg). reflexivity.
    + intros gi o g b E. discriminate.
    + intros o g b i Ho Hg Hb Hi. change (k_vel (rotate_grid_index g (fst o) k_D vzero) b i) with (k_vel (rotate_grid_index g (fst o) k_D vzero) 0 i).
      exact (sp_vel _ _ _ _ _ _ _ k_sym o g 0 i Ho Hg ltac:(lia) Hi).
Qed.

(** a square lattice, 2x2x1 mesh: nine BZ-grid points stand for the four grid points, and an imaginary frequency of the second grid
    point puts out the mode of the third *)
Definition r_in : BzIn := mkBzIn (v3 2 2 1) I3 vzero (qm 1 0 0 0 1 0 0 0 1).
Definition r_bz (g : Z) : Z := nth (Z.to_nat g) [0; 1; 3; 5] 0.
Definition r_owner (k : Z) : Z := nth (Z.to_nat k) [0; 1; 1; 2; 2; 3; 3; 3; 3] 0.
Definition r_freq (g b : Z) : Q := if b <? 3 then 0%Q else if g =? 1 then (-1)%Q else 1%Q.
Lemma r_grid : option_map (fun o => (map (grg2bzg o 2) (zrange 4), o_size o, map (fun k => get_grid_index_from_address (reduce_grid_address (o_addr o k) (v3 2 2 1)) (v3 2 2 1)) (zrange 9)))
  (get_bz_grid_addresses r_in 2 zero_out) = Some (map r_bz (zrange 4), 9, map r_owner (zrange 9)).
Proof. vm_compute. reflexivity. Qed.
Theorem C94_full_matrix_refuted :
  let model := lbte_rta_red (v3 2 2 1) [(I3, id3)] (fun _ => 0) 4 (fun _ _ _ => 1%Q) l_sinh 0 1 1 1 1 r_bz (fun k => r_freq (r_owner k)) (fun _ _ => 1%Q) false (0, 0) in
  let kappa := boltzmann 4 4 0 1 r_freq (heat_of l_cv 0 1 1 1 r_freq) (fun _ _ => 1%Q) (fun _ _ _ => 1%Q) 0 0 in
  option_map (fun o => (map (grg2bzg o 2) (zrange 4), o_size o, map (fun k => get_grid_index_from_address (reduce_grid_address (o_addr o k) (v3 2 2 1)) (v3 2 2 1)) (zrange 9)))
    (get_bz_grid_addresses r_in 2 zero_out) = Some (map r_bz (zrange 4), 9, map r_owner (zrange 9)) /\
  (forall g b, 0 <= g < 4 -> r_freq (r_owner (r_bz g)) b = r_freq g b) /\ (0 < model)%Q /\ (model == (2 # 3) * kappa)%Q.
Proof.
  cbv zeta. split; [exact r_grid|]. split; [|split; vm_compute; reflexivity].
  intros g b Hg. assert (E : g = 0 \/ g = 1 \/ g = 2 \/ g = 3) by lia. destruct E as [-> | [-> | [-> | ->]]]; reflexivity.
Qed.
Print Assumptions C94_full_matrix_refuted.
