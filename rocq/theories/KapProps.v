(** Thermal conductivity in the relaxation time approximation: irreducible grid points suffice (C91), the tensor has the properties of
    a conductivity (C92), the two classes agree (C93) *)
From Coq Require Import ZArith QArith Qfield List Bool Lia Lqa Permutation.
From Verif Require Import Base BaseProofs Mat3 GridSpec GridModel Orbit GridProofs GridProps Fc3Model Fc3Trans QMat IseSpec IseProofs KapModel KapProofs.
Import ListNotations.
Open Scope Z_scope.

(** ** What the tensor should be: sum over all points of the mesh and all bands of C v x v / (2 linewidth) *)
Definition boltzmann (n nb : Z) (cutoff conv : Q) (freq heat width : Z -> Z -> Q) (v : Z -> Z -> Z -> Q) (i j : Z) : Q :=
  (conv / inject_Z n * Sum n (fun g => Sum nb (fun b => if qltb (freq g b) cutoff || Qeq_bool (width g b) 0 then 0 else heat g b * (v g b i * v g b j) / (2 * width g b))))%Q.
(** heat capacity of a mode, zero for frequencies not above the cutoff or far above the temperature *)
Definition heat_of (mode_cv : Q -> Q -> Q) (cutoff ev kb T : Q) (freq : Z -> Z -> Q) (g b : Z) : Q :=
  if qltb (cutoff * ev) (freq g b * ev) && qltb (freq g b * ev) (100 * T * kb) then mode_cv T (freq g b * ev)%Q else 0%Q.
(** half width at half maximum: scattering by phonons, by isotopes, by the boundary of the sample *)
Definition width_of (root : Q -> Q) (bfac : Q) (gamma : Z -> Z -> Q) (gamma_iso : option (Z -> Z -> Q)) (mfp : option Q) (v : Z -> Z -> Z -> Q) (g b : Z) : Q :=
  (gamma g b + (match gamma_iso with Some gi => gi g b | None => 0 end) +
   (match mfp with Some l => root (v g b 0%Z * v g b 0%Z + v g b 1%Z * v g b 1%Z + v g b 2%Z * v g b 2%Z) * bfac / l | None => 0 end))%Q.

(** ** Symmetry of the phonons *)
Definition orthogonal_op (R : Z -> Z -> Q) : Prop :=
  forall i j, 0 <= i < 3 -> 0 <= j < 3 -> (R 0%Z i * R 0%Z j + R 1%Z i * R 1%Z j + R 2%Z i * R 2%Z j == if i =? j then 1 else 0)%Q.
Record symmetric_phonons (D : V3) (ops : list (M3 * (Z -> Z -> Q))) (nb : Z) (freq gamma : Z -> Z -> Q) (gamma_iso : option (Z -> Z -> Q)) (vel : Z -> Z -> Z -> Q) : Prop := {
  sp_freq : forall o g b, In o ops -> 0 <= g < mesh_size D -> 0 <= b < nb -> (freq (rotate_grid_index g (fst o) D vzero) b == freq g b)%Q;
  sp_gamma : forall o g b, In o ops -> 0 <= g < mesh_size D -> 0 <= b < nb -> (gamma (rotate_grid_index g (fst o) D vzero) b == gamma g b)%Q;
  sp_iso : forall gi o g b, gamma_iso = Some gi -> In o ops -> 0 <= g < mesh_size D -> 0 <= b < nb -> (gi (rotate_grid_index g (fst o) D vzero) b == gi g b)%Q;
  sp_vel : forall o g b i, In o ops -> 0 <= g < mesh_size D -> 0 <= b < nb -> 0 <= i < 3 ->
    (vel (rotate_grid_index g (fst o) D vzero) b i == snd o i 0%Z * vel g b 0%Z + snd o i 1%Z * vel g b 1%Z + snd o i 2%Z * vel g b 2%Z)%Q }.
Definition value_fun (f : Q -> Q) : Prop := forall x y, (x == y)%Q -> (f x == f y)%Q.

Lemma qs3 : forall f, (qsum (map f (zrange 3)) == f 0%Z + f 1%Z + f 2%Z)%Q.
Proof. intros f. change (zrange 3) with [0; 1; 2]. cbn [map]. rewrite !qs_cons, qs_nil. ring. Qed.
Lemma Qeq_bool_ext : forall a b c d, (a == b)%Q -> (c == d)%Q -> Qeq_bool a c = Qeq_bool b d.
Proof.
  intros a b c d E1 E2. destruct (Qeq_bool b d) eqn:H.
  - apply Qeq_bool_iff. apply Qeq_bool_iff in H. rewrite E1, E2. exact H.
  - apply not_true_is_false. intros K. apply Qeq_bool_iff in K. rewrite E1, E2 in K. apply Qeq_bool_iff in K. congruence.
Qed.
Lemma qltb_eqv : forall a b c d, (a == b)%Q -> (c == d)%Q -> qltb a c = qltb b d.
Proof.
  intros a b c d E1 E2. destruct (qltb b d) eqn:H.
  - apply qltb_lt. apply qltb_lt in H. rewrite E1, E2. exact H.
  - apply qltb_ge. apply qltb_ge in H. rewrite E1, E2. exact H.
Qed.

Section Rta.
  Variables (D : V3) (ops : list (M3 * (Z -> Z -> Q))) (init : Z -> Z) (nb : Z).
  Variables (freq : Z -> Z -> Q) (vel : Z -> Z -> Z -> Q) (mode_cv : Q -> Q -> Q) (root : Q -> Q) (cutoff ev kb conv T bfac : Q).
  Variables (gamma : Z -> Z -> Q) (gamma_iso : option (Z -> Z -> Q)) (mfp : option Q).
  Local Notation heat := (heat_of mode_cv cutoff ev kb T freq).
  Local Notation width := (width_of root bfac gamma gamma_iso mfp vel).
  Local Notation model star average := (kap_rta D ops init nb freq vel mode_cv root cutoff ev kb conv T bfac gamma gamma_iso mfp star average).
  Hypothesis HD : pos_mesh D.
  Hypothesis Hroot : value_fun root.
  Hypothesis Hcv : value_fun (mode_cv T).

  Lemma heat_eq : forall g b, kap_cv freq mode_cv cutoff ev kb T g b = heat g b.
  Proof. intros g b. unfold kap_cv, heat_of. destruct (qltb (cutoff * ev) _); cbn [andb]; reflexivity. Qed.
  Lemma width_eq : forall star average g b, (forall i, 0 <= i < 3 -> (kap_gv D ops vel star average g b i == vel g b i)%Q) ->
    (kap_linewidth D ops vel root bfac gamma gamma_iso mfp star average g b == width g b)%Q.
  Proof.
    intros star average g b H. unfold kap_linewidth, width_of, kap_norm.
    destruct mfp as [l|].
    - rewrite (Hroot _ (vel g b 0%Z * vel g b 0%Z + vel g b 1%Z * vel g b 1%Z + vel g b 2%Z * vel g b 2%Z)%Q); [destruct gamma_iso; unfold Qdiv; ring|].
      rewrite qs3, !H by lia. reflexivity.
    - destruct gamma_iso; ring.
  Qed.
  Definition term (g b i j : Z) : Q := (if qltb (freq g b) cutoff || Qeq_bool (width g b) 0 then 0 else heat g b * (vel g b i * vel g b j) / (2 * width g b))%Q.

  Lemma mode_eq : forall star average g b i j, (forall i, 0 <= i < 3 -> (kap_gv D ops vel star average g b i == vel g b i)%Q) -> 0 <= i < 3 -> 0 <= j < 3 ->
    (kap_mode D ops freq vel mode_cv root cutoff ev kb conv T bfac gamma gamma_iso mfp star average g b (i, j) ==
     qsum (map (fun o => conv * (if qltb (freq g b) cutoff || Qeq_bool (width g b) 0 then 0 else heat g b * (rot3 (snd o) (vel g b) i * rot3 (snd o) (vel g b) j) / (2 * width g b))) (kap_ops ops star))
     / inject_Z (kap_multi D ops star g))%Q.
  Proof.
    intros star average g b i j Hv Hi Hj. unfold kap_mode. rewrite heat_eq.
    destruct (qltb (freq g b) cutoff); cbn [orb].
    - rewrite qs_zero by (intros; ring). unfold Qdiv. ring.
    - pose proof (width_eq star average g b Hv) as E.
      rewrite (Qeq_bool_ext _ (width g b * 2) 0 0) by (rewrite ?E; reflexivity).
      destruct (Qeq_bool (width g b) 0) eqn:E0.
      + apply Qeq_bool_iff in E0. replace (Qeq_bool (width g b * 2) 0) with true by (symmetry; apply Qeq_bool_iff; rewrite E0; reflexivity).
        rewrite qs_zero by (intros; ring). unfold Qdiv. ring.
      + assert (N0 : ~ (width g b == 0)%Q) by (intros K; apply Qeq_bool_iff in K; congruence).
        replace (Qeq_bool (width g b * 2) 0) with false.
        2: { symmetry. apply not_true_is_false. intros K. apply Qeq_bool_iff in K. apply N0. apply Qmult_integral in K. destruct K as [K|K]; [exact K|discriminate]. }
        unfold kap_gv2. cbn [fst snd].
        assert (RS : (qsum (map (fun o => conv * (heat g b * (rot3 (snd o) (vel g b) i * rot3 (snd o) (vel g b) j) / (2 * width g b))) (kap_ops ops star)) ==
          (conv * heat g b / (2 * width g b)) * qsum (map (fun o => rot3 (snd o) (kap_gv D ops vel star average g b) i * rot3 (snd o) (kap_gv D ops vel star average g b) j) (kap_ops ops star)))%Q).
        { rewrite <- qs_scale. apply qs_ext. intros o Ho.
          assert (Er : forall k, (rot3 (snd o) (kap_gv D ops vel star average g b) k == rot3 (snd o) (vel g b) k)%Q) by (intros k; unfold rot3; rewrite !qs3, !Hv by lia; reflexivity).
          rewrite !Er. unfold Qdiv. ring. }
        cbv iota. rewrite RS, E. unfold Qdiv. rewrite !Qinv_mult_distr. ring.
  Qed.
  Lemma id_rot : forall v i, 0 <= i < 3 -> (rot3 id3 v i == v i)%Q.
  Proof. intros v i Hi. unfold rot3. rewrite qs3. assert (E : i = 0 \/ i = 1 \/ i = 2) by lia. destruct E as [-> | [-> | ->]]; unfold id3; cbn [Z.eqb Pos.eqb]; ring. Qed.
  Lemma mode_full : forall average g b i j, 0 <= i < 3 -> 0 <= j < 3 ->
    (kap_mode D ops freq vel mode_cv root cutoff ev kb conv T bfac gamma gamma_iso mfp false average g b (i, j) == conv * term g b i j)%Q.
  Proof.
    intros average g b i j Hi Hj. rewrite mode_eq; [|unfold kap_gv; cbn; destruct average; reflexivity|assumption|assumption].
    cbn [kap_ops kap_multi map snd]. rewrite qs_cons, qs_nil. unfold term. change (inject_Z 1) with 1%Q.
    destruct (_ || _); [|rewrite !id_rot by assumption]; unfold Qdiv; change (/ 1)%Q with 1%Q; ring.
  Qed.
  Lemma samples_full : kap_samples D ops init false = mesh_size D.
  Proof.
    unfold kap_samples. cbn [kap_ops kap_multi kap_points map fst]. unfold kstar_order. cbn [length]. rewrite zsum_map_const, length_zrange.
    rewrite num_gp_mesh_size. pose proof (mesh_size_pos D HD). change (Z.of_nat 1 / 1) with 1. lia.
  Qed.
  Lemma boltz : forall i j, (conv * qsum (map (fun g => Sum nb (fun b => term g b i j)) (zrange (mesh_size D))) / inject_Z (mesh_size D) == boltzmann (mesh_size D) nb cutoff conv freq heat width vel i j)%Q.
  Proof.
    intros i j. change (boltzmann (mesh_size D) nb cutoff conv freq heat width vel i j) with (conv / inject_Z (mesh_size D) * Sum (mesh_size D) (fun g => Sum nb (fun b => term g b i j)))%Q.
    fold (Sum (mesh_size D) (fun g => Sum nb (fun b => term g b i j))). unfold Qdiv. ring.
  Qed.
  Theorem full_mesh : forall average i j, 0 <= i < 3 -> 0 <= j < 3 -> (model false average (i, j) == boltzmann (mesh_size D) nb cutoff conv freq heat width vel i j)%Q.
  Proof.
    intros average i j Hi Hj. unfold kap_rta. rewrite samples_full. cbn [kap_points]. rewrite num_gp_mesh_size.
    rewrite (qs_ext _ _ (fun g => conv * Sum nb (fun b => term g b i j))%Q).
    - rewrite qs_scale. apply boltz.
    - intros g _. unfold Sum. rewrite <- qs_scale. apply qs_ext. intros b _. apply mode_full; assumption.
  Qed.

  Hypothesis HG : good_group D vzero (map fst ops).
  Hypothesis ND : NoDup (map fst ops).
  Hypothesis Hort : forall o, In o ops -> orthogonal_op (snd o).
  Hypothesis HS : symmetric_phonons D ops nb freq gamma gamma_iso vel.
  Local Notation n := (mesh_size D).
  Local Notation mp := (get_ir_grid_map (map fst ops) D vzero init).

  Lemma gv_eq : forall average g b i, 0 <= g < n -> 0 <= b < nb -> 0 <= i < 3 -> (kap_gv D ops vel true average g b i == vel g b i)%Q.
  Proof.
    intros average g b i Hg Hb Hi. unfold kap_gv. destruct (average && _); [|reflexivity]. cbn [kap_ops].
    rewrite (qs_ext _ _ (fun _ => vel g b i)).
    - rewrite qs_const. field. intros K. assert (length ops = 0%nat) as L by (apply (f_equal Qnum) in K || idtac; unfold Qeq in K; cbn in K; lia).
      destruct HG as [[H1 _] _]. destruct ops; [destruct H1|discriminate].
    - intros o Ho. unfold rot3t. rewrite qs3, !(sp_vel _ _ _ _ _ _ _ HS o g b) by (assumption || lia).
      pose proof (Hort o Ho 0 i) as O0. pose proof (Hort o Ho 1 i) as O1. pose proof (Hort o Ho 2 i) as O2.
      transitivity (vel g b 0%Z * (snd o 0%Z 0%Z * snd o 0%Z i + snd o 1%Z 0%Z * snd o 1%Z i + snd o 2%Z 0%Z * snd o 2%Z i) +
        vel g b 1%Z * (snd o 0%Z 1%Z * snd o 0%Z i + snd o 1%Z 1%Z * snd o 1%Z i + snd o 2%Z 1%Z * snd o 2%Z i) +
        vel g b 2%Z * (snd o 0%Z 2%Z * snd o 0%Z i + snd o 1%Z 2%Z * snd o 1%Z i + snd o 2%Z 2%Z * snd o 2%Z i))%Q; [ring|].
      rewrite O0, O1, O2 by lia. assert (E : i = 0 \/ i = 1 \/ i = 2) by lia. destruct E as [-> | [-> | ->]]; cbn [Z.eqb Pos.eqb]; ring.
  Qed.
  Lemma norm_rot : forall R v, orthogonal_op R -> (rot3 R v 0 * rot3 R v 0 + rot3 R v 1 * rot3 R v 1 + rot3 R v 2 * rot3 R v 2 == v 0%Z * v 0%Z + v 1%Z * v 1%Z + v 2%Z * v 2%Z)%Q.
  Proof.
    intros R v O. unfold rot3. rewrite !qs3.
    transitivity (v 0%Z * v 0%Z * (R 0%Z 0%Z * R 0%Z 0%Z + R 1%Z 0%Z * R 1%Z 0%Z + R 2%Z 0%Z * R 2%Z 0%Z) + v 1%Z * v 1%Z * (R 0%Z 1%Z * R 0%Z 1%Z + R 1%Z 1%Z * R 1%Z 1%Z + R 2%Z 1%Z * R 2%Z 1%Z)
      + v 2%Z * v 2%Z * (R 0%Z 2%Z * R 0%Z 2%Z + R 1%Z 2%Z * R 1%Z 2%Z + R 2%Z 2%Z * R 2%Z 2%Z)
      + 2 * v 0%Z * v 1%Z * (R 0%Z 0%Z * R 0%Z 1%Z + R 1%Z 0%Z * R 1%Z 1%Z + R 2%Z 0%Z * R 2%Z 1%Z)
      + 2 * v 0%Z * v 2%Z * (R 0%Z 0%Z * R 0%Z 2%Z + R 1%Z 0%Z * R 1%Z 2%Z + R 2%Z 0%Z * R 2%Z 2%Z)
      + 2 * v 1%Z * v 2%Z * (R 0%Z 1%Z * R 0%Z 2%Z + R 1%Z 1%Z * R 1%Z 2%Z + R 2%Z 1%Z * R 2%Z 2%Z))%Q; [ring|].
    rewrite (O 0 0), (O 1 1), (O 2 2), (O 0 1), (O 0 2), (O 1 2) by lia. cbn [Z.eqb Pos.eqb]. ring.
  Qed.
  Lemma vel_rot : forall o g b i, In o ops -> 0 <= g < n -> 0 <= b < nb -> 0 <= i < 3 -> (vel (rotate_grid_index g (fst o) D vzero) b i == rot3 (snd o) (vel g b) i)%Q.
  Proof. intros o g b i Ho Hg Hb Hi. rewrite (sp_vel _ _ _ _ _ _ _ HS o g b i) by assumption. unfold rot3. rewrite qs3. reflexivity. Qed.
  Lemma width_rot : forall o g b, In o ops -> 0 <= g < n -> 0 <= b < nb -> (width (rotate_grid_index g (fst o) D vzero) b == width g b)%Q.
  Proof.
    intros o g b Ho Hg Hb. unfold width_of. rewrite (sp_gamma _ _ _ _ _ _ _ HS o g b) by assumption.
    apply Qplus_comp; [apply Qplus_comp; [reflexivity|]|].
    - destruct gamma_iso as [gi|] eqn:E; [|reflexivity]. apply (sp_iso _ _ _ _ _ _ _ HS gi o g b); auto.
    - destruct mfp; [|reflexivity].
      rewrite (Hroot _ (vel g b 0%Z * vel g b 0%Z + vel g b 1%Z * vel g b 1%Z + vel g b 2%Z * vel g b 2%Z)%Q); [reflexivity|].
      rewrite !vel_rot by (assumption || lia). apply norm_rot. apply Hort. assumption.
  Qed.
  Lemma heat_rot : forall o g b, In o ops -> 0 <= g < n -> 0 <= b < nb -> (heat (rotate_grid_index g (fst o) D vzero) b == heat g b)%Q.
  Proof.
    intros o g b Ho Hg Hb. pose proof (sp_freq _ _ _ _ _ _ _ HS o g b Ho Hg Hb) as E. unfold heat_of.
    assert (F : (freq (rotate_grid_index g (fst o) D vzero) b * ev == freq g b * ev)%Q) by (rewrite E; reflexivity).
    rewrite (qltb_eqv _ _ _ _ (Qeq_refl (cutoff * ev)) F), (qltb_eqv _ _ _ _ F (Qeq_refl (100 * T * kb))).
    destruct (_ && _); [|reflexivity]. apply Hcv. exact F.
  Qed.
  Lemma term_rot : forall o g b i j, In o ops -> 0 <= g < n -> 0 <= b < nb -> 0 <= i < 3 -> 0 <= j < 3 ->
    (term (rotate_grid_index g (fst o) D vzero) b i j ==
     if qltb (freq g b) cutoff || Qeq_bool (width g b) 0 then 0 else heat g b * (rot3 (snd o) (vel g b) i * rot3 (snd o) (vel g b) j) / (2 * width g b))%Q.
  Proof.
    intros o g b i j Ho Hg Hb Hi Hj. unfold term.
    rewrite (qltb_eqv _ (freq g b) _ cutoff (sp_freq _ _ _ _ _ _ _ HS o g b Ho Hg Hb) (Qeq_refl cutoff)).
    rewrite (Qeq_bool_ext _ (width g b) 0 0 (width_rot o g b Ho Hg Hb) (Qeq_refl 0)).
    destruct (_ || _); [reflexivity|]. rewrite heat_rot, width_rot, !vel_rot by assumption. reflexivity.
  Qed.
  Lemma multi_stab : forall g, 0 <= g < n -> kap_multi D ops true g = zcount (fun R => rotate_grid_index g R D vzero =? g) (map fst ops).
  Proof.
    intros g Hg. unfold kap_multi. cbn [kap_ops]. rewrite multiplicity_eq; [|assumption|intros R HR; apply HG; assumption].
    rewrite index_of_address by assumption. reflexivity.
  Qed.
  Lemma samples_star : kap_samples D ops init true = n.
  Proof.
    unfold kap_samples. cbn [kap_points]. rewrite num_gp_mesh_size. rewrite <- (ir_weights_sum D vzero (map fst ops) init HD HG) at 2.
    apply zsum_map_ext_in. intros g Hg. apply (ir_points_fixed D vzero (map fst ops) init HD HG) in Hg. destruct Hg as [Hg Eg].
    unfold kap_multi. cbn [kap_ops]. rewrite (C06_kstar_order_equals_weight (map fst ops) D init) by assumption.
    rewrite index_of_address by assumption. rewrite Eg. reflexivity.
  Qed.
  Theorem irreducible_points : forall average i j, 0 <= i < 3 -> 0 <= j < 3 -> (model true average (i, j) == boltzmann n nb cutoff conv freq heat width vel i j)%Q.
  Proof.
    intros average i j Hi Hj. unfold kap_rta. rewrite samples_star. cbn [kap_points]. rewrite num_gp_mesh_size.
    set (F := fun x => (conv * Sum nb (fun b => term x b i j))%Q).
    rewrite (qs_ext _ _ (fun g => qsum (map F (filter (fun y => mp y =? g) (zrange n))))).
    - rewrite (stars_sum D vzero (map fst ops) init HD HG F). unfold F. rewrite qs_scale. apply boltz.
    - intros g Hg. apply (ir_points_fixed D vzero (map fst ops) init HD HG) in Hg. destruct Hg as [Hg Eg].
      transitivity (qsum (map (fun R => F (rotate_grid_index g R D vzero)) (map fst ops)) / inject_Z (zcount (fun R => rotate_grid_index g R D vzero =? g) (map fst ops)))%Q.
      + rewrite <- (multi_stab g Hg). rewrite map_map.
        rewrite (qs_ext _ (fun b => kap_mode _ _ _ _ _ _ _ _ _ _ _ _ _ _ _ _ _ _ b (i, j)) (fun b => qsum (map (fun o => conv * term (rotate_grid_index g (fst o) D vzero) b i j)%Q ops) / inject_Z (kap_multi D ops true g))%Q).
        * rewrite qs_div, qs_swap. apply Qmult_comp; [|reflexivity]. apply qs_ext. intros o Ho. unfold F. rewrite qs_scale. reflexivity.
        * intros b Hb. apply in_zrange in Hb. rewrite mode_eq; [|intros; apply gv_eq; assumption|assumption|assumption]. cbn [kap_ops].
          apply Qmult_comp; [|reflexivity]. apply qs_ext. intros o Ho. rewrite term_rot by assumption. reflexivity.
      + rewrite (star_sum D vzero (map fst ops) init HD HG ND F g Hg). rewrite Eg. field.
        pose proof (stab_pos D vzero (map fst ops) HD HG g Hg) as P. intros K. unfold Qeq in K. cbn in K. lia.
  Qed.
End Rta.

(** ** C91 *)
Section C91.
  Variables (D : V3) (ops : list (M3 * (Z -> Z -> Q))) (init : Z -> Z) (nb : Z).
  Variables (freq : Z -> Z -> Q) (vel : Z -> Z -> Z -> Q) (mode_cv : Q -> Q -> Q) (root : Q -> Q) (cutoff ev kb conv T bfac : Q).
  Variables (gamma : Z -> Z -> Q) (gamma_iso : option (Z -> Z -> Q)) (mfp : option Q).
  Local Notation heat := (heat_of mode_cv cutoff ev kb T freq).
  Local Notation width := (width_of root bfac gamma gamma_iso mfp vel).
  Local Notation model star average := (kap_rta D ops init nb freq vel mode_cv root cutoff ev kb conv T bfac gamma gamma_iso mfp star average).

  (** all grid points: is_kappa_star False *)
  Theorem C91_full_mesh : pos_mesh D -> value_fun root -> forall average i j, 0 <= i < 3 -> 0 <= j < 3 ->
    (model false average (i, j) == boltzmann (mesh_size D) nb cutoff conv freq heat width vel i j)%Q.
  Proof. intros HD Hr average i j Hi Hj. apply full_mesh; assumption. Qed.
  (** irreducible grid points only *)
  Theorem C91_irreducible_points : pos_mesh D -> value_fun root -> value_fun (mode_cv T) -> good_group D vzero (map fst ops) -> NoDup (map fst ops) ->
    (forall o, In o ops -> orthogonal_op (snd o)) -> symmetric_phonons D ops nb freq gamma gamma_iso vel ->
    forall average i j, 0 <= i < 3 -> 0 <= j < 3 ->
    (model true average (i, j) == boltzmann (mesh_size D) nb cutoff conv freq heat width vel i j)%Q.
  Proof. intros. apply irreducible_points; assumption. Qed.
  (** bands that are degenerate may be exchanged or mixed by an operation: it suffices that the sum over the bands at a grid point
      turns as a tensor *)
  Theorem C91_degenerate_bands : pos_mesh D -> value_fun root -> good_group D vzero (map fst ops) -> NoDup (map fst ops) ->
    (forall o g i j, In o ops -> 0 <= g < mesh_size D -> 0 <= i < 3 -> 0 <= j < 3 ->
       let mode g b i j := kap_mode D ops freq vel mode_cv root cutoff ev kb conv T bfac gamma gamma_iso mfp false false g b (i, j) in
       (Sum nb (fun b => mode (rotate_grid_index g (fst o) D vzero) b i j) == Sum 3 (fun k => Sum 3 (fun l => snd o i k * snd o j l * Sum nb (fun b => mode g b k l))))%Q) ->
    forall i j, 0 <= i < 3 -> 0 <= j < 3 -> (model true false (i, j) == model false false (i, j))%Q.
  Proof.
    intros HD Hr HG ND Hcov i j Hi Hj. rewrite C91_full_mesh by assumption. unfold kap_rta.
    rewrite (samples_star D ops init HD HG ND). cbn [kap_points]. rewrite num_gp_mesh_size.
    set (tm := term freq vel mode_cv root cutoff ev kb T bfac gamma gamma_iso mfp).
    set (F := fun x => (conv * Sum nb (fun b => tm x b i j))%Q).
    rewrite (qs_ext _ _ (fun g => qsum (map F (filter (fun y => get_ir_grid_map (map fst ops) D vzero init y =? g) (zrange (mesh_size D)))))).
    - rewrite (stars_sum D vzero (map fst ops) init HD HG F). unfold F. rewrite qs_scale. apply boltz.
    - intros g Hg. apply (ir_points_fixed D vzero (map fst ops) init HD HG) in Hg. destruct Hg as [Hg Eg].
      transitivity (qsum (map (fun R => F (rotate_grid_index g R D vzero)) (map fst ops)) / inject_Z (zcount (fun R => rotate_grid_index g R D vzero =? g) (map fst ops)))%Q.
      + rewrite <- (multi_stab D ops HD HG g Hg). rewrite map_map.
        rewrite (qs_ext _ (fun b => kap_mode _ _ _ _ _ _ _ _ _ _ _ _ _ _ _ _ _ _ b (i, j))
          (fun b => qsum (map (fun o => conv * (if qltb (freq g b) cutoff || Qeq_bool (width g b) 0 then 0 else heat g b * (rot3 (snd o) (vel g b) i * rot3 (snd o) (vel g b) j) / (2 * width g b)))%Q ops) / inject_Z (kap_multi D ops true g))%Q).
        2: { intros b Hb. rewrite mode_eq; try assumption; [reflexivity|intros; reflexivity]. }
        rewrite qs_div, qs_swap. apply Qmult_comp; [|reflexivity]. apply qs_ext. intros o Ho. unfold F.
        specialize (Hcov o g i j Ho Hg Hi Hj). cbv zeta in Hcov.
        assert (M : forall g i j, 0 <= i < 3 -> 0 <= j < 3 -> (Sum nb (fun b => kap_mode D ops freq vel mode_cv root cutoff ev kb conv T bfac gamma gamma_iso mfp false false g b (i, j)) == conv * Sum nb (fun b => tm g b i j))%Q).
        { intros g0 i0 j0 Hi0 Hj0. rewrite <- Sum_scale. apply Sum_ext. intros b _. apply mode_full; assumption. }
        rewrite M in Hcov by assumption. rewrite Hcov.
        rewrite (Sum_ext 3 _ (fun k => Sum 3 (fun l => Sum nb (fun b => snd o i k * snd o j l * (conv * tm g b k l))%Q))).
        2: { intros k Hk. apply Sum_ext. intros l Hl. rewrite M by assumption. rewrite <- !Sum_scale. apply Sum_ext. intros; reflexivity. }
        symmetry. rewrite (Sum_ext 3 _ (fun k => Sum nb (fun b => Sum 3 (fun l => snd o i k * snd o j l * (conv * tm g b k l))%Q))) by (intros; apply qs_swap).
        etransitivity; [exact (qs_swap _ _ (fun k b => Sum 3 (fun l => snd o i k * snd o j l * (conv * tm g b k l))%Q) (zrange 3) (zrange nb))|]. apply qs_ext. intros b Hb. unfold Sum. rewrite !qs3. unfold tm, term.
        destruct (_ || _); [ring|]. unfold rot3. rewrite !qs3. unfold Qdiv. ring.
      + rewrite (star_sum D vzero (map fst ops) init HD HG ND F g Hg). rewrite Eg. field.
        pose proof (stab_pos D vzero (map fst ops) HD HG g Hg) as P. intros K. unfold Qeq in K. cbn in K. lia.
  Qed.
End C91.
Print Assumptions C91_full_mesh.
Print Assumptions C91_irreducible_points.
Print Assumptions C91_degenerate_bands.

(** four-fold axis, 3x3x1 mesh: velocities point along the position of the grid point *)
Definition k_cart (R : M3) (i j : Z) : Q :=
  let '(m3 a b c d e f g h k) := R in inject_Z (nth (Z.to_nat (i * 3 + j)) [a; b; c; d; e; f; g; h; k] 0).
Definition k_rots : list M3 := [I3; ex_c4; mulMM ex_c4 ex_c4; mulMM ex_c4 (mulMM ex_c4 ex_c4)].
Definition k_ops : list (M3 * (Z -> Z -> Q)) := map (fun R => (R, k_cart R)) k_rots.
Definition k_D : V3 := v3 3 3 1.
Definition k_vel (g b i : Z) : Q :=
  let '(v3 x y z) := get_grid_address_from_index g k_D in
  let c a := if a =? 2 then (-1)%Q else inject_Z a in
  (if i =? 0 then c x else if i =? 1 then c y else 0)%Q.
Definition k_freq (g b : Z) : Q := let v := k_vel g b in (v 0%Z * v 0%Z + v 1%Z * v 1%Z)%Q.
Lemma k_mesh : pos_mesh k_D. Proof. repeat split; lia. Qed.
Lemma k_group : good_group k_D vzero (map fst k_ops).
Proof. apply good_groupb_sound; [exact k_mesh|vm_compute; reflexivity]. Qed.
Lemma k_nodup : NoDup (map fst k_ops).
Proof. repeat constructor; vm_compute; intuition discriminate. Qed.
Lemma k_orth : forall o, In o k_ops -> orthogonal_op (snd o).
Proof.
  assert (K : forallb (fun o => forallb (fun i => forallb (fun j => Qeq_bool (snd o 0%Z i * snd o 0%Z j + snd o 1%Z i * snd o 1%Z j + snd o 2%Z i * snd o 2%Z j) (if i =? j then 1 else 0)) (zrange 3)) (zrange 3)) k_ops = true) by (vm_compute; reflexivity).
  intros o Ho i j Hi Hj. rewrite forallb_forall in K. specialize (K o Ho). rewrite forallb_forall in K. specialize (K i (proj2 (in_zrange 3 i) Hi)).
  rewrite forallb_forall in K. specialize (K j (proj2 (in_zrange 3 j) Hj)). apply Qeq_bool_iff. exact K.
Qed.
Lemma k_sym : symmetric_phonons k_D k_ops 1 k_freq k_freq (Some k_freq) k_vel.
Proof.
  assert (K : forallb (fun o => forallb (fun g => Qeq_bool (k_freq (rotate_grid_index g (fst o) k_D vzero) 0) (k_freq g 0)) (zrange 9)) k_ops = true) by (vm_compute; reflexivity).
  assert (K2 : forallb (fun o => forallb (fun g => forallb (fun i => Qeq_bool (k_vel (rotate_grid_index g (fst o) k_D vzero) 0 i) (snd o i 0%Z * k_vel g 0 0 + snd o i 1%Z * k_vel g 0 1 + snd o i 2%Z * k_vel g 0 2)) (zrange 3)) (zrange 9)) k_ops = true) by (vm_compute; reflexivity).
  assert (F : forall o g b, In o k_ops -> 0 <= g < mesh_size k_D -> 0 <= b < 1 -> (k_freq (rotate_grid_index g (fst o) k_D vzero) b == k_freq g b)%Q).
  { intros o g b Ho Hg Hb. rewrite forallb_forall in K. specialize (K o Ho). rewrite forallb_forall in K. apply Qeq_bool_iff. assert (b = 0) as -> by lia. apply K. apply in_zrange. exact Hg. }
  constructor; [exact F|exact F|intros gi o g b E; injection E as <-; apply F|].
  intros o g b i Ho Hg Hb Hi. rewrite forallb_forall in K2. specialize (K2 o Ho). rewrite forallb_forall in K2. specialize (K2 g (proj2 (in_zrange 9 g) Hg)).
  rewrite forallb_forall in K2. apply Qeq_bool_iff. assert (b = 0) as -> by lia. apply K2. apply in_zrange. exact Hi.
Qed.
Definition k_model (star average : bool) : Z * Z -> Q := kap_rta k_D k_ops (fun _ => 0) 1 k_freq k_vel (fun _ f => f) (fun x => x) (1 # 2) 1 1 1 300 1 k_freq (Some k_freq) (Some 2%Q) star average.
Example C91_ex : (k_model true false (0, 0)%Z == k_model false false (0, 0)%Z)%Q /\ (k_model true true (0, 0)%Z == k_model false false (0, 0)%Z)%Q /\ ~ (k_model true true (0, 0)%Z == 0)%Q /\
  kap_points k_D k_ops (fun _ => 0) true = [0; 1; 4].
Proof.
  assert (V : value_fun (fun x => x)) by (intros x y E; exact E).
  pose proof (C91_irreducible_points k_D k_ops (fun _ => 0) 1 k_freq k_vel (fun _ f => f) (fun x => x) (1 # 2) 1 1 1 300 1 k_freq (Some k_freq) (Some 2%Q) k_mesh V V k_group k_nodup k_orth k_sym) as H.
  pose proof (C91_full_mesh k_D k_ops (fun _ => 0) 1 k_freq k_vel (fun _ f => f) (fun x => x) (1 # 2) 1 1 1 300 1 k_freq (Some k_freq) (Some 2%Q) k_mesh V) as H0.
  unfold k_model. split; [rewrite H, H0 by lia; reflexivity|]. split; [rewrite H, H0 by lia; reflexivity|].
  split; [intros K; vm_compute in K; discriminate|vm_compute; reflexivity].
Qed.

(** two degenerate bands with velocities v and 2v, in an order that differs from grid point to grid point *)
Definition k2_vel (g b i : Z) : Q := ((if (g + b) mod 2 =? 0 then 1 else 2) * k_vel g 0%Z i)%Q.
Definition k2_mode := kap_mode k_D k_ops k_freq k2_vel (fun _ f => f) (fun x => x) (1 # 2) 1 1 1 300 1 k_freq None None.
Example C91_degenerate_ex : (kap_rta k_D k_ops (fun _ => 0%Z) 2 k_freq k2_vel (fun _ f => f) (fun x => x) (1 # 2) 1 1 1 300 1 k_freq None None true false (0, 0)%Z ==
    kap_rta k_D k_ops (fun _ => 0%Z) 2 k_freq k2_vel (fun _ f => f) (fun x => x) (1 # 2) 1 1 1 300 1 k_freq None None false false (0, 0)%Z)%Q /\
  ~ symmetric_phonons k_D k_ops 2 k_freq k_freq None k2_vel.
Proof.
  split.
  - apply C91_degenerate_bands; [exact k_mesh|intros x y E; exact E|exact k_group|exact k_nodup| |lia|lia].
    assert (K : forallb (fun o => forallb (fun g => forallb (fun i => forallb (fun j =>
        Qeq_bool (Sum 2 (fun b => k2_mode false false (rotate_grid_index g (fst o) k_D vzero) b (i, j)))
          (Sum 3 (fun k => Sum 3 (fun l => snd o i k * snd o j l * Sum 2 (fun b => k2_mode false false g b (k, l)))))%Q) (zrange 3)) (zrange 3)) (zrange 9)) k_ops = true) by (vm_compute; reflexivity).
    intros o g i j Ho Hg Hi Hj. cbv zeta. rewrite forallb_forall in K. specialize (K o Ho). rewrite forallb_forall in K. specialize (K g (proj2 (in_zrange 9 g) Hg)).
    rewrite forallb_forall in K. specialize (K i (proj2 (in_zrange 3 i) Hi)). rewrite forallb_forall in K. specialize (K j (proj2 (in_zrange 3 j) Hj)). apply Qeq_bool_iff. exact K.
  - intros [_ _ _ H]. specialize (H (mulMM ex_c4 ex_c4, k_cart (mulMM ex_c4 ex_c4)) 1 0 0 ltac:(vm_compute; auto) ltac:(cbn; lia) ltac:(lia) ltac:(lia)). vm_compute in H. discriminate.
Qed.
