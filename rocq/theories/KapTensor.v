(** The conductivity tensor: positive semidefinite, invariant under the point group whatever the phonons, not increased by further
    scattering (C92) *)
From Coq Require Import ZArith QArith Qfield List Bool Lia Lqa Permutation.
From Verif Require Import Base BaseProofs Mat3 GridSpec GridModel GridProofs GridProps Fc3Model Fc3Trans QMat IseSpec IseProofs KapModel KapProofs KapProps.
Import ListNotations.
Open Scope Z_scope.

(** the value of the quadratic form: heat current along u in answer to a temperature gradient along u *)
Definition along (K : Z * Z -> Q) (u : Z -> Q) : Q := Sum 3 (fun i => Sum 3 (fun j => u i * u j * K (i, j))%Q).
(** a stored tensor: the element (i, j) of the matrix is the Voigt component of either order *)
Definition dot_u (u v : Z -> Q) : Q := (u 0%Z * v 0%Z + u 1%Z * v 1%Z + u 2%Z * v 2%Z)%Q.

Lemma qs_le : forall X (f g : X -> Q) l, (forall x, In x l -> (f x <= g x)%Q) -> (qsum (map f l) <= qsum (map g l))%Q.
Proof.
  intros X f g. induction l as [|x l IH]; intros H; [apply Qle_refl|]. cbn [map]. rewrite !qs_cons. apply Qplus_le_compat; [apply H; now left|apply IH; intros; apply H; now right].
Qed.
Lemma qs_nn : forall X (f : X -> Q) l, (forall x, In x l -> (0 <= f x)%Q) -> (0 <= qsum (map f l))%Q.
Proof. intros X f l H. rewrite <- (qs_zero X (fun _ => 0%Q) l) by (intros; reflexivity). apply qs_le. exact H. Qed.
Lemma sq_nn : forall a, (0 <= a * a)%Q.
Proof. intros a. nra. Qed.
Lemma inject_nn : forall z, 0 <= z -> (0 <= inject_Z z)%Q.
Proof. intros z H. unfold Qle. cbn. lia. Qed.
Lemma Qinv_nn : forall a, (0 <= a)%Q -> (0 <= / a)%Q.
Proof. intros a H. apply Qinv_le_0_compat. exact H. Qed.

Section Tensor.
  Variables (D : V3) (ops : list (M3 * (Z -> Z -> Q))) (init : Z -> Z) (nb : Z).
  Variables (freq : Z -> Z -> Q) (vel : Z -> Z -> Z -> Q) (mode_cv : Q -> Q -> Q) (root : Q -> Q) (cutoff ev kb conv T bfac : Q).
  Variables (star average : bool).
  Local Notation width gamma giso mfp := (kap_linewidth D ops vel root bfac gamma giso mfp star average).
  Local Notation model gamma giso mfp := (kap_rta D ops init nb freq vel mode_cv root cutoff ev kb conv T bfac gamma giso mfp star average).
  Local Notation gv := (kap_gv D ops vel star average).
  Local Notation os := (kap_ops ops star).

  (** what a mode contributes per squared velocity *)
  Definition coef (w : Z -> Z -> Q) (g b : Z) : Q :=
    if qltb (freq g b) cutoff then 0%Q else if Qeq_bool (w g b) 0 then 0%Q else (kap_cv freq mode_cv cutoff ev kb T g b * conv / inject_Z (kap_multi D ops star g) / (2 * w g b))%Q.
  Lemma mode_form : forall gamma giso mfp g b ij,
    (kap_mode D ops freq vel mode_cv root cutoff ev kb conv T bfac gamma giso mfp star average g b ij ==
     coef (width gamma giso mfp) g b * qsum (map (fun o => rot3 (snd o) (gv g b) (fst ij) * rot3 (snd o) (gv g b) (snd ij))%Q os))%Q.
  Proof.
    intros gamma giso mfp g b ij. unfold kap_mode, coef. destruct (qltb _ _); [ring|]. set (w := width gamma giso mfp g b).
    destruct (Qeq_bool w 0) eqn:E.
    - apply Qeq_bool_iff in E. replace (Qeq_bool (w * 2) 0) with true by (symmetry; apply Qeq_bool_iff; rewrite E; reflexivity). ring.
    - replace (Qeq_bool (w * 2) 0) with false.
      + unfold kap_gv2. unfold Qdiv. rewrite !Qinv_mult_distr. ring.
      + symmetry. apply not_true_is_false. intros K. apply Qeq_bool_iff in K. apply Qmult_integral in K. destruct K as [K|K]; [|discriminate]. apply Qeq_bool_iff in K. congruence.
  Qed.
  Lemma along_form : forall gamma giso mfp u,
    (along (model gamma giso mfp) u ==
     qsum (map (fun g => qsum (map (fun b => coef (width gamma giso mfp) g b * qsum (map (fun o => dot_u u (rot3 (snd o) (gv g b)) * dot_u u (rot3 (snd o) (gv g b))) os)) (zrange nb))) (kap_points D ops init star))
     / inject_Z (kap_samples D ops init star))%Q.
  Proof.
    intros gamma giso mfp u. unfold along, Sum. rewrite !qs3. unfold kap_rta. unfold Qdiv.
    set (N := (/ inject_Z (kap_samples D ops init star))%Q).
    set (S := fun i j => qsum (map (fun g => qsum (map (fun b => kap_mode D ops freq vel mode_cv root cutoff ev kb conv T bfac gamma giso mfp star average g b (i, j)) (zrange nb))) (kap_points D ops init star))).
    transitivity ((Sum 3 (fun i => Sum 3 (fun j => u i * u j * S i j))) * N)%Q; [unfold Sum; rewrite !qs3; unfold S; ring|].
    apply Qmult_comp; [|reflexivity].
    unfold S. 
    assert (P : forall i j, (u i * u j * qsum (map (fun g => qsum (map (fun b => kap_mode D ops freq vel mode_cv root cutoff ev kb conv T bfac gamma giso mfp star average g b (i, j)) (zrange nb))) (kap_points D ops init star)) ==
      qsum (map (fun g => qsum (map (fun b => u i * u j * kap_mode D ops freq vel mode_cv root cutoff ev kb conv T bfac gamma giso mfp star average g b (i, j)) (zrange nb))) (kap_points D ops init star)))%Q).
    { intros i j. rewrite <- qs_scale. apply qs_ext. intros g _. rewrite qs_scale. reflexivity. }
    unfold Sum. rewrite !qs3. rewrite !P. rewrite <- !qs_add. apply qs_ext. intros g _. rewrite <- !qs_add. apply qs_ext. intros b _.
    rewrite !mode_form. cbn [fst snd].
    rewrite (qs_ext _ (fun o => dot_u u (rot3 (snd o) (gv g b)) * dot_u u (rot3 (snd o) (gv g b)))%Q
       (fun o => u 0%Z * u 0%Z * (rot3 (snd o) (gv g b) 0 * rot3 (snd o) (gv g b) 0) + u 0%Z * u 1%Z * (rot3 (snd o) (gv g b) 0 * rot3 (snd o) (gv g b) 1) + u 0%Z * u 2%Z * (rot3 (snd o) (gv g b) 0 * rot3 (snd o) (gv g b) 2)
      + (u 1%Z * u 0%Z * (rot3 (snd o) (gv g b) 1 * rot3 (snd o) (gv g b) 0) + u 1%Z * u 1%Z * (rot3 (snd o) (gv g b) 1 * rot3 (snd o) (gv g b) 1) + u 1%Z * u 2%Z * (rot3 (snd o) (gv g b) 1 * rot3 (snd o) (gv g b) 2))
      + (u 2%Z * u 0%Z * (rot3 (snd o) (gv g b) 2 * rot3 (snd o) (gv g b) 0) + u 2%Z * u 1%Z * (rot3 (snd o) (gv g b) 2 * rot3 (snd o) (gv g b) 1) + u 2%Z * u 2%Z * (rot3 (snd o) (gv g b) 2 * rot3 (snd o) (gv g b) 2)))%Q).
    2: { intros o _. unfold dot_u. ring. }
    assert (P2 : forall i j, (qsum (map (fun o => rot3 (snd o) (gv g b) i * rot3 (snd o) (gv g b) j)%Q os) * (u i * u j) == qsum (map (fun o => u i * u j * (rot3 (snd o) (gv g b) i * rot3 (snd o) (gv g b) j))%Q os))%Q).
    { intros i j. rewrite qs_scale. ring. }
    rewrite !qs_add, <- !P2. ring.
  Qed.
  Lemma multi_nn : forall g, 0 <= kap_multi D ops star g.
  Proof. intros g. unfold kap_multi. destruct star; [apply zcount_nonneg|lia]. Qed.
  Lemma samples_nn : 0 <= kap_samples D ops init star.
  Proof.
    unfold kap_samples. induction (kap_points D ops init star) as [|g l IH]; [cbn; lia|]. cbn [map]. change (zsum (?a :: ?r)) with (a + zsum r).
    assert (0 <= kstar_order (map fst os) (kap_multi D ops star g)); [|lia].
    unfold kstar_order. pose proof (multi_nn g) as M. destruct (Z.eq_dec (kap_multi D ops star g) 0) as [-> |N]; [rewrite Zdiv_0_r; lia|apply Z.div_pos; lia].
  Qed.
  Hypothesis Hconv : (0 <= conv)%Q.
  Hypothesis Hcv : forall f, (0 <= mode_cv T f)%Q.
  Lemma cv_nn : forall g b, (0 <= kap_cv freq mode_cv cutoff ev kb T g b)%Q.
  Proof. intros g b. unfold kap_cv. destruct (qltb _ _); [destruct (qltb _ _)|]; [apply Hcv|apply Qle_refl|apply Qle_refl]. Qed.
  Lemma factor_nn : forall g b, (0 <= kap_cv freq mode_cv cutoff ev kb T g b * conv / inject_Z (kap_multi D ops star g))%Q.
  Proof. intros g b. unfold Qdiv. apply Qmult_le_0_compat; [apply Qmult_le_0_compat; [apply cv_nn|exact Hconv]|]. apply Qinv_nn, inject_nn, multi_nn. Qed.
  Lemma coef_nn : forall w g b, (0 <= w g b)%Q -> (0 <= coef w g b)%Q.
  Proof.
    intros w g b H. unfold coef. destruct (qltb _ _); [apply Qle_refl|]. destruct (Qeq_bool _ _); [apply Qle_refl|]. unfold Qdiv at 1. apply Qmult_le_0_compat; [apply factor_nn|]. apply Qinv_nn. lra.
  Qed.
  Theorem psd : forall gamma giso mfp, (forall g b, (0 <= width gamma giso mfp g b)%Q) -> forall u, (0 <= along (model gamma giso mfp) u)%Q.
  Proof.
    intros gamma giso mfp H u. rewrite along_form. unfold Qdiv. apply Qmult_le_0_compat; [|apply Qinv_nn, inject_nn, samples_nn].
    apply qs_nn. intros g _. apply qs_nn. intros b _. apply Qmult_le_0_compat; [apply coef_nn, H|]. apply qs_nn. intros o _. apply sq_nn.
  Qed.
  Theorem monotone : forall gamma giso mfp gamma' giso' mfp',
    (forall g b, In g (kap_points D ops init star) -> 0 <= b < nb -> (cutoff <= freq g b)%Q -> (0 < width gamma giso mfp g b)%Q /\ (width gamma giso mfp g b <= width gamma' giso' mfp' g b)%Q) ->
    forall u, (along (model gamma' giso' mfp') u <= along (model gamma giso mfp) u)%Q.
  Proof.
    intros gamma giso mfp gamma' giso' mfp' H u. rewrite !along_form. unfold Qdiv. apply Qmult_le_compat_r; [|apply Qinv_nn, inject_nn, samples_nn].
    apply qs_le. intros g Hg. apply qs_le. intros b Hb. apply in_zrange in Hb. apply Qmult_le_compat_r; [|apply qs_nn; intros o _; apply sq_nn].
    unfold coef. destruct (qltb (freq g b) cutoff) eqn:E; [apply Qle_refl|]. apply qltb_ge in E. destruct (H g b Hg Hb E) as [H1 H2].
    destruct (Qeq_bool (width gamma giso mfp g b) 0) eqn:Z1; [apply Qeq_bool_iff in Z1; rewrite Z1 in H1; discriminate|].
    destruct (Qeq_bool (width gamma' giso' mfp' g b) 0) eqn:Z2; [apply Qeq_bool_iff in Z2; rewrite Z2 in H2; lra|].
    pose proof (factor_nn g b) as F. revert F. generalize (kap_cv freq mode_cv cutoff ev kb T g b * conv / inject_Z (kap_multi D ops star g))%Q. intros c F.
    unfold Qdiv. rewrite !(Qmult_comm c). apply Qmult_le_compat_r; [|exact F].
    set (x := width gamma giso mfp g b) in *. set (y := width gamma' giso' mfp' g b) in *. destruct (Qlt_le_dec x y) as [L|L].
    - apply Qlt_le_weak. apply (Qinv_lt_contravar (2 * x) (2 * y)); lra.
    - assert (E2 : (x == y)%Q) by lra. rewrite E2. apply Qle_refl.
  Qed.
End Tensor.

(** ** C92 *)
(** second setting: at least the scattering of the first one by phonons, by isotopes (none if not asked for) and by the boundary (a
    shorter path, or one where there was none) *)
Definition more_scattering (gamma gamma' : Z -> Z -> Q) (giso giso' : option (Z -> Z -> Q)) (mfp mfp' : option Q) : Prop :=
  (forall g b, (gamma g b <= gamma' g b)%Q) /\
  match giso, giso' with
  | None, None => True
  | None, Some i' => forall g b, (0 <= i' g b)%Q
  | Some i, Some i' => forall g b, (0 <= i g b)%Q /\ (i g b <= i' g b)%Q
  | Some _, None => False
  end /\
  match mfp, mfp' with
  | None, None => True
  | None, Some l' => (0 < l')%Q
  | Some l, Some l' => (0 < l')%Q /\ (l' <= l)%Q
  | Some _, None => False
  end.
Section C92.
  Variables (D : V3) (ops : list (M3 * (Z -> Z -> Q))) (init : Z -> Z) (nb : Z).
  Variables (freq : Z -> Z -> Q) (vel : Z -> Z -> Z -> Q) (mode_cv : Q -> Q -> Q) (root : Q -> Q) (cutoff ev kb conv T bfac : Q).
  Variables (star average : bool).
  Local Notation model gamma giso mfp := (kap_rta D ops init nb freq vel mode_cv root cutoff ev kb conv T bfac gamma giso mfp star average).
  Hypothesis Hconv : (0 <= conv)%Q.
  Hypothesis Hcv : forall f, (0 <= mode_cv T f)%Q.
  Hypothesis Hroot : forall x, (0 <= root x)%Q.
  Hypothesis Hbfac : (0 <= bfac)%Q.
  Lemma Qdiv_nn : forall a b, (0 <= a)%Q -> (0 < b)%Q -> (0 <= a / b)%Q.
  Proof. intros a b Ha Hb. unfold Qdiv. apply Qmult_le_0_compat; [exact Ha|apply Qinv_nn; lra]. Qed.
  Lemma norm_nn : forall v l, (0 < l)%Q -> (0 <= kap_norm root v * bfac / l)%Q.
  Proof. intros v l Hl. apply Qdiv_nn; [|exact Hl]. apply Qmult_le_0_compat; [apply Hroot|exact Hbfac]. Qed.
  Theorem C92_positive : forall gamma giso mfp, (forall g b, (0 <= gamma g b)%Q) -> (forall gi g b, giso = Some gi -> (0 <= gi g b)%Q) -> (forall l, mfp = Some l -> (0 < l)%Q) ->
    forall u, (0 <= along (model gamma giso mfp) u)%Q.
  Proof.
    intros gamma giso mfp Hg Hi Hm. apply psd; try assumption. intros g b. unfold kap_linewidth.
    assert (A : (0 <= match giso with Some gi => gamma g b + gi g b | None => gamma g b end)%Q).
    { destruct giso as [gi|]; [|apply Hg]. pose proof (Hg g b). pose proof (Hi gi g b eq_refl). lra. }
    destruct mfp as [l|]; [|exact A]. pose proof (norm_nn (kap_gv D ops vel star average g b) l (Hm l eq_refl)). lra.
  Qed.
  (** further scattering by isotopes or by the boundary of the sample does not increase the conductivity in any direction *)
  Theorem C92_more_scattering_partial : forall gamma gamma' giso giso' mfp mfp', more_scattering gamma gamma' giso giso' mfp mfp' ->
    (forall g b, In g (kap_points D ops init star) -> 0 <= b < nb -> (cutoff <= freq g b)%Q -> (0 < gamma g b)%Q) ->
    forall u, (along (model gamma' giso' mfp') u <= along (model gamma giso mfp) u)%Q.
  Proof.
    intros gamma gamma' giso giso' mfp mfp' [H1 [H2 H3]] Hpos. apply monotone; try assumption. intros g b Hg Hb Hc.
    pose proof (Hpos g b Hg Hb Hc) as P. pose proof (H1 g b) as L. unfold kap_linewidth.
    assert (A : (0 < match giso with Some gi => gamma g b + gi g b | None => gamma g b end)%Q /\
      (match giso with Some gi => gamma g b + gi g b | None => gamma g b end <= match giso' with Some gi => gamma' g b + gi g b | None => gamma' g b end)%Q).
    { destruct giso as [i|], giso' as [i'|]; try contradiction; try (specialize (H2 g b)); lra. }
    destruct mfp as [l|], mfp' as [l'|]; try contradiction; cbv zeta.
    - destruct H3 as [P' L']. assert (P0 : (0 < l)%Q) by lra. pose proof (norm_nn (kap_gv D ops vel star average g b) l P0) as N.
      assert (LL : (kap_norm root (kap_gv D ops vel star average g b) * bfac / l <= kap_norm root (kap_gv D ops vel star average g b) * bfac / l')%Q).
      { assert (N0 : (0 <= kap_norm root (kap_gv D ops vel star average g b) * bfac)%Q) by (apply Qmult_le_0_compat; [apply Hroot|exact Hbfac]).
        revert N0. generalize (kap_norm root (kap_gv D ops vel star average g b) * bfac)%Q. intros c N0. unfold Qdiv. rewrite !(Qmult_comm c). apply Qmult_le_compat_r; [|exact N0].
        destruct (Qlt_le_dec l' l) as [Lt|Ge]; [apply Qlt_le_weak; apply (Qinv_lt_contravar l' l); assumption|]. assert (E : (l == l')%Q) by lra. rewrite E. apply Qle_refl. }
      lra.
    - pose proof (norm_nn (kap_gv D ops vel star average g b) l' H3). lra.
    - exact A.
  Qed.
End C92.
Print Assumptions C92_positive.
Print Assumptions C92_more_scattering_partial.

(** modes whose linewidth is zero do not conduct; with a boundary they do *)
Theorem C92_more_scattering_refuted : exists gamma mfp',
  more_scattering gamma gamma None None None mfp' /\
  let model mfp := kap_rta (v3 1 1 1) [(I3, id3)] (fun _ => 0) 1 (fun _ _ => 1%Q) (fun _ _ _ => 1%Q) (fun _ f => f) (fun x => x) 0 1 1 1 300 1 gamma None mfp true false in
  (along (model None) (fun _ => 1) < along (model mfp') (fun _ => 1))%Q.
Proof. exists (fun _ _ => 0%Q), (Some 1%Q). split; [repeat split; vm_compute; intuition discriminate|vm_compute; reflexivity]. Qed.
Print Assumptions C92_more_scattering_refuted.

(** *** the point group *)
(** Cartesian operations multiply as the operations on addresses do *)
Definition same_products (ops : list (M3 * (Z -> Z -> Q))) : Prop :=
  forall a b, In a ops -> In b ops -> exists c, In c ops /\ fst c = mulMM (fst a) (fst b) /\
    forall i k, 0 <= i < 3 -> 0 <= k < 3 -> (snd c i k == snd a i 0%Z * snd b 0%Z k + snd a i 1%Z * snd b 1%Z k + snd a i 2%Z * snd b 2%Z k)%Q.
Lemma fst_inj : forall (ops : list (M3 * (Z -> Z -> Q))) a b, NoDup (map fst ops) -> In a ops -> In b ops -> fst a = fst b -> a = b.
Proof.
  induction ops as [|o l IH]; intros a b ND Ha Hb E; [destruct Ha|]. cbn in ND. inversion ND as [|? ? N1 N2]; subst.
  destruct Ha as [<-|Ha], Hb as [<-|Hb]; [reflexivity| | |apply IH; assumption]; exfalso; apply N1; [rewrite E|rewrite <- E]; apply in_map; assumption.
Qed.
Lemma group_sum : forall ops s (f : (Z -> Z -> Q) -> Q), NoDup (map fst ops) -> is_group (map fst ops) -> same_products ops -> In s ops ->
  (forall A B, (forall i k, 0 <= i < 3 -> 0 <= k < 3 -> (A i k == B i k)%Q) -> (f A == f B)%Q) ->
  (qsum (map (fun o => f (fun i k => snd s i 0%Z * snd o 0%Z k + snd s i 1%Z * snd o 1%Z k + snd s i 2%Z * snd o 2%Z k)%Q) ops) == qsum (map (fun o => f (snd o)) ops))%Q.
Proof.
  intros ops s f ND HG HP Hs Hf.
  assert (L : forall R, In R (map fst ops) -> exists o, In o ops /\ fst o = R). { intros R HR. apply in_map_iff in HR. destruct HR as [o [E Ho]]. eauto. }
  set (c := fun R => match find (fun o => meqb (fst o) R) ops with Some o => snd o | None => snd s end).
  assert (Ec : forall o, In o ops -> c (fst o) = snd o).
  { intros o Ho. unfold c. destruct (find (fun o0 => meqb (fst o0) (fst o)) ops) as [o'|] eqn:E.
    - apply find_some in E. destruct E as [E1 E2]. apply meqb_eq in E2. f_equal. apply (fst_inj ops); assumption.
    - exfalso. pose proof (find_none _ _ E o Ho) as K. cbv beta in K. assert (meqb (fst o) (fst o) = true) by (apply meqb_eq; reflexivity). congruence. }
  transitivity (qsum (map (fun R => f (c R)) (map (mulMM (fst s)) (map fst ops)))).
  - rewrite !map_map. apply qs_ext. intros o Ho. destruct (HP s o Hs Ho) as [p [Hp [E1 E2]]]. rewrite <- E1, (Ec p Hp). apply Hf. intros i k Hi Hk. symmetry. apply E2; assumption.
  - transitivity (qsum (map (fun R => f (c R)) (map fst ops))).
    + apply qs_perm. apply Permutation_map. destruct HG as [_ [Hcl Hinv]]. destruct (Hinv (fst s) (in_map fst ops s Hs)) as [t [Ht [_ Et]]].
      apply NoDup_Permutation_bis.
      * apply FinFun.Injective_map_NoDup; [|exact ND]. intros x y E. apply (f_equal (mulMM t)) in E. rewrite !mulMM_assoc, !Et, !mulMM_1_l in E. exact E.
      * rewrite !map_length. apply Nat.le_refl.
      * intros R HR. apply in_map_iff in HR. destruct HR as [R0 [<- HR0]]. apply Hcl; [apply in_map; exact Hs|exact HR0].
    + rewrite map_map. apply qs_ext. intros o Ho. rewrite (Ec o Ho). reflexivity.
Qed.
(** the tensor from irreducible grid points is invariant under every operation, whatever the phonons *)
Theorem C92_point_group : forall D ops init nb freq vel mode_cv root cutoff ev kb conv T bfac gamma giso mfp average s,
  NoDup (map fst ops) -> is_group (map fst ops) -> same_products ops -> In s ops ->
  let K := kap_rta D ops init nb freq vel mode_cv root cutoff ev kb conv T bfac gamma giso mfp true average in
  forall i j, 0 <= i < 3 -> 0 <= j < 3 -> (Sum 3 (fun k => Sum 3 (fun l => snd s i k * snd s j l * K (k, l))) == K (i, j))%Q.
Proof.
  intros D ops init nb freq vel mode_cv root cutoff ev kb conv T bfac gamma giso mfp average s ND HG HP Hs K i j Hi Hj.
  set (N := (/ inject_Z (kap_samples D ops init true))%Q).
  set (gv := kap_gv D ops vel true average).
  set (cf := coef D ops freq mode_cv cutoff ev kb conv T true (kap_linewidth D ops vel root bfac gamma giso mfp true average)).
  assert (E : forall k l, (K (k, l) == qsum (map (fun g => qsum (map (fun b => cf g b * qsum (map (fun o => rot3 (snd o) (gv g b) k * rot3 (snd o) (gv g b) l) ops)) (zrange nb))) (kap_points D ops init true)) * N)%Q).
  { intros k l. unfold K, kap_rta, Qdiv. apply Qmult_comp; [|reflexivity]. apply qs_ext. intros g _. apply qs_ext. intros b _. rewrite mode_form. reflexivity. }
  rewrite E. unfold Sum. rewrite !qs3. rewrite !E.
  set (S := fun k l => qsum (map (fun g => qsum (map (fun b => (cf g b * qsum (map (fun o => rot3 (snd o) (gv g b) k * rot3 (snd o) (gv g b) l) ops))%Q) (zrange nb))) (kap_points D ops init true))).
  transitivity ((snd s i 0%Z * snd s j 0%Z * S 0%Z 0%Z + snd s i 0%Z * snd s j 1%Z * S 0%Z 1%Z + snd s i 0%Z * snd s j 2%Z * S 0%Z 2%Z +
    (snd s i 1%Z * snd s j 0%Z * S 1%Z 0%Z + snd s i 1%Z * snd s j 1%Z * S 1%Z 1%Z + snd s i 1%Z * snd s j 2%Z * S 1%Z 2%Z) +
    (snd s i 2%Z * snd s j 0%Z * S 2%Z 0%Z + snd s i 2%Z * snd s j 1%Z * S 2%Z 1%Z + snd s i 2%Z * snd s j 2%Z * S 2%Z 2%Z)) * N)%Q; [unfold S; ring|].
  apply Qmult_comp; [|reflexivity].
  assert (P : forall x k l, (x * S k l == qsum (map (fun g => qsum (map (fun b => cf g b * qsum (map (fun o => x * (rot3 (snd o) (gv g b) k * rot3 (snd o) (gv g b) l)) ops)) (zrange nb))) (kap_points D ops init true)))%Q).
  { intros x k l. unfold S. rewrite <- qs_scale. apply qs_ext. intros g _. rewrite <- qs_scale. apply qs_ext. intros b _. rewrite qs_scale. ring. }
  rewrite !P. rewrite <- !qs_add. apply qs_ext. intros g _. rewrite <- !qs_add. apply qs_ext. intros b _. rewrite <- !Qmult_plus_distr_r, <- !qs_add.
  apply Qmult_comp; [reflexivity|].
  rewrite <- (group_sum ops s (fun R => rot3 R (gv g b) i * rot3 R (gv g b) j)%Q ND HG HP Hs).
  - apply qs_ext. intros o _. unfold rot3. rewrite !qs3. ring.
  - intros A B H. unfold rot3. rewrite !qs3. rewrite !H by lia. reflexivity.
Qed.
Print Assumptions C92_point_group.

(** the four-fold axis of C91 with phonons of no symmetry: two equal elements, no off-diagonal ones *)
Lemma k_products : same_products k_ops.
Proof.
  assert (Hc : forallb (fun a => forallb (fun b => existsb (fun c => meqb (fst c) (mulMM (fst a) (fst b)) && forallb (fun i => forallb (fun k =>
     Qeq_bool (snd c i k) (snd a i 0%Z * snd b 0%Z k + snd a i 1%Z * snd b 1%Z k + snd a i 2%Z * snd b 2%Z k)) (zrange 3)) (zrange 3)) k_ops) k_ops) k_ops = true) by (vm_compute; reflexivity).
  intros a b Ha Hb. rewrite forallb_forall in Hc. specialize (Hc a Ha). rewrite forallb_forall in Hc. specialize (Hc b Hb). apply existsb_exists in Hc. destruct Hc as [c [H1 H2]].
  apply andb_true_iff in H2. destruct H2 as [H2 H3]. exists c. split; [exact H1|]. split; [apply meqb_eq; exact H2|]. intros i k Hi Hk.
  rewrite forallb_forall in H3. specialize (H3 i (proj2 (in_zrange 3 i) Hi)). rewrite forallb_forall in H3. apply Qeq_bool_iff. apply H3. apply in_zrange. exact Hk.
Qed.
Definition k3_vel (g b i : Z) : Q := inject_Z (g + b * 2 + i * i + 1).
Definition k3_model (giso : option (Z -> Z -> Q)) (mfp : option Q) := kap_rta k_D k_ops (fun _ => 0) 2 (fun g b => inject_Z (g + b)) k3_vel (fun _ f => f * f)%Q (fun x => x * x)%Q (1 # 2) 1 1 1 300 1 (fun g b => inject_Z (1 + g)) giso mfp true false.
Example C92_ex : (forall i j, 0 <= i < 3 -> 0 <= j < 3 -> (Sum 3 (fun k => Sum 3 (fun l => k_cart ex_c4 i k * k_cart ex_c4 j l * k3_model None None (k, l))) == k3_model None None (i, j))%Q) /\
  (0 <= along (k3_model None None) (fun i => inject_Z (i - 1)))%Q /\
  (along (k3_model (Some (fun _ _ => 1%Q)) (Some 2%Q)) (fun i => inject_Z (i - 1)) <= along (k3_model None None) (fun i => inject_Z (i - 1)))%Q /\
  ~ (along (k3_model None None) (fun i => inject_Z (i - 1)) == 0)%Q.
Proof.
  split; [|split; [|split]].
  - intros i j Hi Hj. apply (C92_point_group k_D k_ops (fun _ => 0) 2 (fun g b => inject_Z (g + b)) k3_vel (fun _ f => f * f)%Q (fun x => x * x)%Q (1 # 2) 1 1 1 300 1 (fun g b => inject_Z (1 + g)) None None false (ex_c4, k_cart ex_c4)); try assumption.
    + exact k_nodup.
    + apply k_group.
    + exact k_products.
    + vm_compute. auto.
  - apply Qle_bool_iff. vm_compute. reflexivity.
  - unfold k3_model. apply C92_more_scattering_partial; try (intros; apply sq_nn); try (apply Qle_bool_iff; reflexivity).
    + split; [intros; apply Qle_refl|]. split; [intros; discriminate|reflexivity].
    + intros g b Hg Hb _. change (kap_points k_D k_ops (fun _ => 0) true) with [0; 1; 4] in Hg. destruct Hg as [<-|[<-|[<-|[]]]]; reflexivity.
  - intros E. vm_compute in E. discriminate.
Qed.
