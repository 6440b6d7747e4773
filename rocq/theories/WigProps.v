(** Wigner conductivity: sums over pairs of bands, Peierls limit, symmetry, independence of the choice of degenerate eigenvectors (C102) *)
From Coq Require Import ZArith QArith Qfield Qabs List Bool Lia Lqa Permutation.
From Verif Require Import Base BaseProofs Mat3 GridSpec GridProofs QMat Fc3Model Fc3Trans IseSpec IseProofs Cplx KapModel KapProofs KapProps KapTensor GruModel GruProofs GruProps WigModel WigProofs.
Import ListNotations.
Open Scope Z_scope.

(** specification: the weight of a pair of modes with frequencies f, heat capacities c and linewidths (half widths) w:
    a mean heat capacity times a Lorentzian of half width w1 + w2 in the difference of the frequencies *)
Definition pair_weight (f1 f2 c1 c2 w1 w2 : Q) : Q :=
  ((f1 + f2) / 4 * (c1 / f1 + c2 / f2) * ((w1 + w2) / ((f1 - f2) * (f1 - f2) + (w1 + w2) * (w1 + w2))))%Q.
Definition populated (cutoff : Q) (f : Q) : Prop := (cutoff < f)%Q.

Lemma contribution_form : forall ev conv freq g cv v2 a b c, ~ (ev == 0)%Q ->
  (contribution_wig ev conv freq g cv v2 a b c == pair_weight (freq a) (freq b) (cv a) (cv b) (g a) (g b) * (conv / ev) * re (v2 a b c))%Q.
Proof.
  intros ev conv freq g cv v2 a b c He. unfold contribution_wig, cscale, prefactor, lorentzian, pair_weight. cbn [re].
  set (G := (g a + g b)%Q). set (D := ((freq a - freq b) * (freq a - freq b) + G * G)%Q).
  assert (E1 : ((freq a * ev - freq b * ev) * (freq a * ev - freq b * ev) + (1 # 4) * ((2 * g a * ev + 2 * g b * ev) * (2 * g a * ev + 2 * g b * ev)) == ev * ev * D)%Q) by (unfold D, G; ring).
  rewrite E1. unfold Qdiv. rewrite !Qinv_mult_distr. unfold G. generalize (/ freq a)%Q, (/ freq b)%Q, (/ D)%Q. intros x y z. field. exact He.
Qed.

Section Sums.
  Variable nb : Z.
  Variable ev conv cutoff : Q.
  Variable freq g cv : Z -> Q.
  Variable v2 : Z -> Z -> Z -> cplx.
  Local Notation modes st := (wig_modes nb ev conv cutoff freq g cv v2 st).
  Local Notation result := (modes wig_zero).
  Definition w_pair (a b c : Z) : Q := (pair_weight (freq a) (freq b) (cv a) (cv b) (g a) (g b) * (conv / ev) * re (v2 a b c))%Q.
  Definition pairs_where (sel : Z -> Z -> bool) (c : Z) : Q := QS nb (fun a => QS nb (fun b => if sel a b then w_pair a b c else 0%Q)).

  (** the two conductivities are the sums over all pairs of populated modes, the populations' part over the pairs closer than 1e-4 THz,
      the coherences' part over the others: no pair is lost or counted twice *)
  Theorem C102_sums : forall c, ~ (ev == 0)%Q ->
    (wig_P nb result c == pairs_where (fun a b => both cutoff freq a b && near freq a b) c)%Q /\
    (wig_C nb result c == pairs_where (fun a b => both cutoff freq a b && negb (near freq a b)) c)%Q /\
    (wig_P nb result c + wig_C nb result c == pairs_where (both cutoff freq) c)%Q /\
    ws_ignored result = zcount (fun s => negb (qltb cutoff (freq s))) (zrange nb).
  Proof.
    intros c He.
    assert (HP : (wig_P nb result c == pairs_where (fun a b => both cutoff freq a b && near freq a b) c)%Q).
    { unfold wig_P, pairs_where. transitivity (QS nb (fun x => QS nb (fun b => (1 # 2) * (tP ev conv cutoff freq g cv v2 x b c + tP ev conv cutoff freq g cv v2 b x c))))%Q.
      { apply qs_ext. intros x Hx. apply in_zrange in Hx. rewrite modes_P by lia. cbn [wig_zero ws_P]. ring. }
      transitivity ((1 # 2) * (QS nb (fun x => QS nb (fun b => tP ev conv cutoff freq g cv v2 x b c)) + QS nb (fun x => QS nb (fun b => tP ev conv cutoff freq g cv v2 b x c))))%Q.
      { rewrite <- qs_add, <- qs_scale. apply qs_ext. intros x _. rewrite <- qs_add, <- qs_scale. reflexivity. }
      rewrite (qs_swap _ _ (fun x b => tP ev conv cutoff freq g cv v2 b x c)).
      transitivity (QS nb (fun x => QS nb (fun b => tP ev conv cutoff freq g cv v2 x b c)))%Q; [ring|].
      apply qs_ext. intros a _. apply qs_ext. intros b _. unfold tP. destruct (both cutoff freq a b && near freq a b); [apply contribution_form; exact He|reflexivity]. }
    assert (HC : (wig_C nb result c == pairs_where (fun a b => both cutoff freq a b && negb (near freq a b)) c)%Q).
    { unfold wig_C, pairs_where. apply qs_ext. intros a Ha. apply qs_ext. intros b Hb. apply in_zrange in Ha. apply in_zrange in Hb. rewrite modes_C by lia. cbn [wig_zero ws_C].
      unfold tC. destruct (both cutoff freq a b && negb (near freq a b)); [rewrite contribution_form by exact He; unfold w_pair; ring|ring]. }
    split; [exact HP|]. split; [exact HC|]. split.
    - rewrite HP, HC. unfold pairs_where. rewrite <- qs_add. apply qs_ext. intros a _. rewrite <- qs_add. apply qs_ext. intros b _.
      destruct (both cutoff freq a b), (near freq a b); cbn [andb negb]; ring.
    - pose proof (modes_I nb ev conv cutoff freq g cv v2 wig_zero) as H. cbn [wig_zero ws_ignored] in H.
      assert (K : (QS nb (tI cutoff freq) == inject_Z (zcount (fun s => negb (qltb cutoff (freq s))) (zrange nb)))%Q).
      { rewrite <- (Qmult_1_r (inject_Z _)), <- qs_count. apply qs_ext. intros s _. unfold tI. destruct (qltb cutoff (freq s)); reflexivity. }
      rewrite K in H. change (inject_Z 0) with 0%Q in H. rewrite Qplus_0_l in H. unfold Qeq in H. cbn [inject_Z Qnum Qden] in H. unfold inject_Z in H; cbn [Qnum Qden] in H. lia.
  Qed.

  (** each array element is written by its own pairs only *)
  Theorem C102_elements : forall a b c, ~ (ev == 0)%Q -> 0 <= a < nb -> 0 <= b < nb ->
    (ws_C result a b c == if both cutoff freq a b && negb (near freq a b) then w_pair a b c else 0)%Q /\
    (ws_P result a c == QS nb (fun x => if both cutoff freq a x && near freq a x then (1 # 2) * (w_pair a x c + w_pair x a c) else 0))%Q.
  Proof.
    intros a b c He Ha Hb. split.
    - rewrite modes_C by assumption. cbn [wig_zero ws_C]. unfold tC. destruct (both cutoff freq a b && negb (near freq a b)); [rewrite contribution_form by exact He; unfold w_pair; ring|ring].
    - rewrite modes_P by assumption. cbn [wig_zero ws_P]. rewrite Qplus_0_l. apply qs_ext. intros x _. unfold tP. rewrite (both_sym cutoff freq x a), (near_sym freq x a).
      destruct (both cutoff freq a x && near freq a x); [rewrite !contribution_form by exact He; reflexivity|ring].
  Qed.

  (** a mode with no other within 1e-4 THz has the conductivity of the ordinary relaxation time solution: heat capacity times squared
      velocity times lifetime; [conv / ev] takes the place of the conversion factor there *)
  Theorem C102_peierls : forall a c, ~ (ev == 0)%Q -> 0 <= a < nb -> (0 <= cutoff)%Q -> populated cutoff (freq a) -> ~ (g a == 0)%Q ->
    (forall b, 0 <= b < nb -> b <> a -> (1 # 10000 <= Qabs (freq a - freq b))%Q) ->
    (ws_P result a c == re (v2 a a c) * cv a / (g a * 2) * (conv / ev))%Q.
  Proof.
    intros a c He Ha Hc Hp Hg Hiso. destruct (C102_elements a a c He Ha Ha) as [_ H]. rewrite H. unfold populated in Hp.
    assert (F : ~ (freq a == 0)%Q) by (intros K; lra).
    transitivity (QS nb (fun x => delta a x * w_pair a a c))%Q.
    - apply qs_ext. intros x Hx. apply in_zrange in Hx. unfold delta. destruct (a =? x) eqn:E.
      + apply Z.eqb_eq in E. subst x. unfold both. apply qltb_lt in Hp. rewrite Hp. cbn [andb].
        assert (N : near freq a a = true). { unfold near. apply qltb_lt. setoid_replace (freq a - freq a)%Q with 0%Q by ring. reflexivity. }
        rewrite N. ring.
      + apply Z.eqb_neq in E. assert (N : near freq a x = false). { unfold near. apply qltb_ge. apply Hiso; [lia|congruence]. } rewrite N, andb_false_r. ring.
    - rewrite (delta_sum nb a (fun _ => w_pair a a c) Ha). unfold w_pair, pair_weight. field. split; [exact He|]. split; [exact Hg|].
      split; [|exact F]. intros K. apply Hg. assert (K' : ((g a * 2) * (g a * 2) == 0)%Q) by (rewrite <- K; ring). nra.
  Qed.

  (** not idempotent: a second call of set_kappa_at_sigmas adds to the arrays of the first *)
  Theorem C102_twice : forall a b c, 0 <= a < nb -> 0 <= b < nb ->
    (ws_P (modes result) a c == 2 * ws_P result a c)%Q /\ (ws_C (modes result) a b c == 2 * ws_C result a b c)%Q /\ ws_ignored (modes result) = 2 * ws_ignored result.
  Proof.
    intros a b c Ha Hb. split; [|split].
    - rewrite !modes_P by assumption. cbn [wig_zero ws_P]. ring.
    - rewrite !modes_C by assumption. cbn [wig_zero ws_C]. ring.
    - assert (H : (inject_Z (ws_ignored (modes result)) == inject_Z (2 * ws_ignored result))%Q).
      { rewrite inject_Z_mult. rewrite !modes_I. cbn [wig_zero ws_ignored]. change (inject_Z 0) with 0%Q. change (inject_Z 2) with 2%Q. ring. }
      unfold Qeq, inject_Z in H; cbn [Qnum Qden] in H. lia.
  Qed.
End Sums.
Print Assumptions C102_sums.
Print Assumptions C102_elements.
Print Assumptions C102_peierls.
Print Assumptions C102_twice.

(** ** the products of velocities *)
Definition hermitian (nb : Z) (v : Z -> Z -> Z -> cplx) : Prop := forall s s' i, 0 <= s < nb -> 0 <= s' < nb -> 0 <= i < 3 -> v s' s i =c= conj (v s s' i).

Lemma rot_op_herm : forall nb r v s s' i, hermitian nb v -> 0 <= s < nb -> 0 <= s' < nb -> rot_op r v s' s i =c= conj (rot_op r v s s' i).
Proof.
  intros nb r v s s' i H Hs Hs'. unfold rot_op, CSum. rewrite csum_conj. apply csum_ext. intros j Hj. apply in_zrange in Hj. rewrite (H s s' j) by (lia || assumption).
  rewrite conj_mul. apply cmul_proper; [reflexivity|]. split; cbn; ring.
Qed.
(** the order of the two bands exchanges the two Cartesian indices *)
Theorem C102_exchange : forall nb rots rm v s s' i j, hermitian nb v -> 0 <= s < nb -> 0 <= s' < nb ->
  gv_by_gv_op rots rm v s' s i j =c= conj (gv_by_gv_op rots rm v s s' i j) /\ gv_by_gv_op rots rm v s' s i j =c= gv_by_gv_op rots rm v s s' j i.
Proof.
  intros nb rots rm v s s' i j H Hs Hs'. unfold gv_by_gv_op. split.
  - rewrite (cscale_mul _ (csum (map (fun r => cmul (rot_op r v s s' i) _) rots))), conj_mul, csum_conj, cscale_mul. apply cmul_proper; [split; cbn; ring|].
    apply csum_ext. intros r _. rewrite !(rot_op_herm nb r v s s' _ H Hs Hs'). rewrite conj_mul. reflexivity.
  - apply cscale_proper; [reflexivity|]. apply csum_ext. intros r _. rewrite !(rot_op_herm nb r v s s' _ H Hs Hs'). split; cbn; ring.
Qed.
(** hence the coherences' part does not depend on the order of the bands *)
Theorem C102_symmetric : forall nb ev conv cutoff freq g cv rots rm v a b c, ~ (ev == 0)%Q -> hermitian nb v -> 0 <= a < nb -> 0 <= b < nb ->
  let st := wig_modes nb ev conv cutoff freq g cv (gv_op_sum2 rots rm v) wig_zero in (ws_C st a b c == ws_C st b a c)%Q.
Proof.
  intros nb ev conv cutoff freq g cv rots rm v a b c He H Ha Hb st. unfold st.
  destruct (C102_elements nb ev conv cutoff freq g cv (gv_op_sum2 rots rm v) a b c He Ha Hb) as [E1 _].
  destruct (C102_elements nb ev conv cutoff freq g cv (gv_op_sum2 rots rm v) b a c He Hb Ha) as [E2 _].
  rewrite E1, E2, (both_sym cutoff freq b a), (near_sym freq b a). destruct (both cutoff freq a b && negb (near freq a b)); [|reflexivity].
  unfold w_pair, gv_op_sum2. set (ij := nth (Z.to_nat c) voigt (0, 0)). destruct (C102_exchange nb rots rm v a b (fst ij) (snd ij) H Ha Hb) as [E _]. rewrite E. cbn [conj re].
  unfold pair_weight. setoid_replace ((freq b - freq a) * (freq b - freq a))%Q with ((freq a - freq b) * (freq a - freq b))%Q by ring.
  setoid_replace (g b + g a)%Q with (g a + g b)%Q by ring. setoid_replace (freq b + freq a)%Q with (freq a + freq b)%Q by ring.
  setoid_replace (cv b / freq b + cv a / freq a)%Q with (cv a / freq a + cv b / freq b)%Q by apply Qplus_comm. reflexivity.
Qed.

(** ** signs *)
(** the products of a pair of bands are a positive semidefinite tensor *)
Theorem C102_semidefinite : forall rots rm v s s' (u : Z -> Q),
  (0 <= QS 3 (fun i => QS 3 (fun j => u i * u j * re (gv_by_gv_op rots rm v s s' i j))))%Q.
Proof.
  intros rots rm v s s' u. set (m := (/ inject_Z (Z.of_nat (length rm) / Z.of_nat (length (nodup Z.eq_dec rm))))%Q).
  assert (Hm : (0 <= m)%Q). { apply Qinv_nn, inject_nn. destruct (length (nodup Z.eq_dec rm)) as [|k]; [rewrite Zdiv_0_r; lia|]. apply Z.div_pos; lia. }
  assert (P : forall i j, (re (gv_by_gv_op rots rm v s s' i j) == m * qsum (map (fun r => re (cmul (rot_op r v s s' i) (conj (rot_op r v s s' j)))) rots))%Q).
  { intros i j. unfold gv_by_gv_op. fold m. cbn [cscale re]. rewrite (proj1 (csum_parts _)), map_map. reflexivity. }
  rewrite qs_3, !qs_3, !P.
  apply Qle_trans with (m * qsum (map (fun r => cnorm2 (CSum 3 (fun i => cmul (C (u i) 0) (rot_op r v s s' i)))) rots))%Q.
  - apply Qmult_le_0_compat; [exact Hm|]. apply qs_nn. intros r _. apply cnorm2_nonneg.
  - apply Qle_lteq. right. symmetry. transitivity (m * qsum (map (fun r => u 0%Z * u 0%Z * re (cmul (rot_op r v s s' 0) (conj (rot_op r v s s' 0))) + u 0%Z * u 1%Z * re (cmul (rot_op r v s s' 0) (conj (rot_op r v s s' 1)))
      + u 0%Z * u 2%Z * re (cmul (rot_op r v s s' 0) (conj (rot_op r v s s' 2))) + u 1%Z * u 0%Z * re (cmul (rot_op r v s s' 1) (conj (rot_op r v s s' 0))) + u 1%Z * u 1%Z * re (cmul (rot_op r v s s' 1) (conj (rot_op r v s s' 1)))
      + u 1%Z * u 2%Z * re (cmul (rot_op r v s s' 1) (conj (rot_op r v s s' 2))) + u 2%Z * u 0%Z * re (cmul (rot_op r v s s' 2) (conj (rot_op r v s s' 0))) + u 2%Z * u 1%Z * re (cmul (rot_op r v s s' 2) (conj (rot_op r v s s' 1)))
      + u 2%Z * u 2%Z * re (cmul (rot_op r v s s' 2) (conj (rot_op r v s s' 2))))%Q rots))%Q.
    + rewrite !qs_add, !qs_scale. ring.
    + apply Qmult_comp; [reflexivity|]. apply qs_ext. intros r _. change (CSum 3 ?f) with (cadd (f 0) (cadd (f 1) (cadd (f 2) c0))). cbv beta.
      generalize (rot_op r v s s' 0) (rot_op r v s s' 1) (rot_op r v s s' 2). intros x y z. unfold cnorm2. cbn [cadd cmul re im conj c0]. ring.
Qed.
Lemma pair_weight_nn : forall f1 f2 c1 c2 w1 w2, (0 < f1)%Q -> (0 < f2)%Q -> (0 <= c1)%Q -> (0 <= c2)%Q -> (0 <= w1)%Q -> (0 <= w2)%Q -> (0 <= pair_weight f1 f2 c1 c2 w1 w2)%Q.
Proof.
  intros f1 f2 c1 c2 w1 w2 F1 F2 C1 C2 W1 W2. unfold pair_weight. apply Qmult_le_0_compat; [apply Qmult_le_0_compat|].
  - unfold Qdiv. apply Qmult_le_0_compat; [lra|]. discriminate.
  - assert (0 <= c1 / f1)%Q by (apply Qmult_le_0_compat; [exact C1|apply Qinv_nn; lra]). assert (0 <= c2 / f2)%Q by (apply Qmult_le_0_compat; [exact C2|apply Qinv_nn; lra]). lra.
  - unfold Qdiv. apply Qmult_le_0_compat; [lra|]. apply Qinv_nn. pose proof (sq_nn (f1 - f2)). pose proof (sq_nn (w1 + w2)). lra.
Qed.
Theorem C102_nonneg : forall nb ev conv cutoff freq g cv rots rm v c, (0 < ev)%Q -> (0 <= conv)%Q -> (0 <= cutoff)%Q -> 0 <= c < 3 ->
  (forall s, 0 <= s < nb -> (0 <= g s)%Q /\ (0 <= cv s)%Q) ->
  let st := wig_modes nb ev conv cutoff freq g cv (gv_op_sum2 rots rm v) wig_zero in (0 <= wig_P nb st c)%Q /\ (0 <= wig_C nb st c)%Q.
Proof.
  intros nb ev conv cutoff freq g cv rots rm v c He Hco Hcu Hc Hm st. assert (He' : ~ (ev == 0)%Q) by (intros K; lra).
  destruct (C102_sums nb ev conv cutoff freq g cv (gv_op_sum2 rots rm v) c He') as [HP [HC _]]. unfold st. rewrite HP, HC.
  assert (K : forall sel, (0 <= pairs_where nb ev conv freq g cv (gv_op_sum2 rots rm v) (fun a b => both cutoff freq a b && sel a b) c)%Q).
  { intros sel. unfold pairs_where. apply qs_nn. intros a Ha. apply qs_nn. intros b Hb. apply in_zrange in Ha. apply in_zrange in Hb. destruct (both cutoff freq a b) eqn:B; cbn [andb]; [|apply Qle_refl].
    destruct (sel a b); [|apply Qle_refl]. unfold both in B. apply andb_true_iff in B. destruct B as [B1 B2]. apply qltb_lt in B1. apply qltb_lt in B2.
    destruct (Hm a) as [Ga Ca]; [lia|]. destruct (Hm b) as [Gb Cb]; [lia|].
    unfold w_pair. apply Qmult_le_0_compat; [apply Qmult_le_0_compat|].
    - apply pair_weight_nn; (assumption || lra).
    - apply Qmult_le_0_compat; [exact Hco|apply Qinv_nn; lra].
    - pose proof (C102_semidefinite rots rm v a b (delta c)) as S. rewrite !qs_3 in S. unfold gv_op_sum2.
      assert (Cc : c = 0 \/ c = 1 \/ c = 2) by lia. assert (Vc : nth (Z.to_nat c) voigt (0, 0) = (c, c)) by (destruct Cc as [-> | [-> | ->]]; reflexivity). rewrite Vc. cbn [fst snd].
      destruct Cc as [-> | [-> | ->]]; unfold delta in S; cbn [Z.eqb Pos.eqb] in S; rewrite ?Qmult_0_l, ?Qmult_0_r, ?Qmult_1_l, ?Qplus_0_l, ?Qplus_0_r in S; lra. }
  split; apply K.
Qed.

(** ** rotations *)
(** the summed products do not distinguish the arms of the star, and are invariant under the point group *)
Theorem C102_point_group : forall ops rm v s s' i j o, NoDup (map fst ops) -> is_group (map fst ops) -> same_products ops -> In o ops -> 0 <= i < 3 -> 0 <= j < 3 ->
  CSum 3 (fun a => CSum 3 (fun b => cscale (snd o i a * snd o j b) (gv_by_gv_op (map snd ops) rm v s s' a b))) =c= gv_by_gv_op (map snd ops) rm v s s' i j.
Proof.
  intros ops rm v s s' i j o ND HG HP Ho Hi Hj. set (m := (/ inject_Z (Z.of_nat (length rm) / Z.of_nat (length (nodup Z.eq_dec rm))))%Q).
  set (R := fun (r : Z -> Z -> Q) a => rot_op r v s s' a).
  assert (RC : forall r a, R r a =c= cadd (cmul (v s s' 0) (C (r a 0) 0)) (cadd (cmul (v s s' 1) (C (r a 1) 0)) (cmul (v s s' 2) (C (r a 2) 0)))).
  { intros r a. unfold R, rot_op. change (CSum 3 ?f) with (cadd (f 0) (cadd (f 1) (cadd (f 2) c0))). split; cbn; ring. }
  assert (Hx : forall A B, (forall a k, 0 <= a < 3 -> 0 <= k < 3 -> (A a k == B a k)%Q) -> forall a, 0 <= a < 3 -> R A a =c= R B a).
  { intros A B H a Ha. rewrite !RC. split; cbn; rewrite !H by lia; ring. }
  set (P := fun A : Z -> Z -> Q => (fun i k => snd o i 0%Z * A 0%Z k + snd o i 1%Z * A 1%Z k + snd o i 2%Z * A 2%Z k)%Q).
  assert (RP : forall A a, R (P A) a =c= cadd (cscale (snd o a 0) (R A 0)) (cadd (cscale (snd o a 1) (R A 1)) (cscale (snd o a 2) (R A 2)))).
  { intros A a. rewrite !RC. unfold P. split; cbn; ring. }
  assert (EX : forall A, cmul (R (P A) i) (conj (R (P A) j)) =c= CSum 3 (fun a => CSum 3 (fun b => cscale (snd o i a * snd o j b) (cmul (R A a) (conj (R A b)))))).
  { intros A. rewrite !RP. change (CSum 3 ?f) with (cadd (f 0) (cadd (f 1) (cadd (f 2) c0))). cbv beta. change (CSum 3 ?f) with (cadd (f 0) (cadd (f 1) (cadd (f 2) c0))). cbv beta.
    generalize (R A 0) (R A 1) (R A 2). intros x y z. split; cbn; ring. }
  assert (HE : gv_by_gv_op (map snd ops) rm v s s' i j =c= cscale m (csum (map (fun p => cmul (R (P (snd p)) i) (conj (R (P (snd p)) j))) ops))).
  { unfold gv_by_gv_op. fold m. apply cscale_proper; [reflexivity|]. rewrite map_map. split; rewrite ?(proj1 (csum_parts _)), ?(proj2 (csum_parts _)), !map_map; symmetry.
    - apply (group_sum ops o (fun A => re (cmul (R A i) (conj (R A j)))) ND HG HP Ho). intros A B H. rewrite (Hx A B H i Hi), (Hx A B H j Hj). reflexivity.
    - apply (group_sum ops o (fun A => im (cmul (R A i) (conj (R A j)))) ND HG HP Ho). intros A B H. rewrite (Hx A B H i Hi), (Hx A B H j Hj). reflexivity. }
  rewrite HE. rewrite (csum_ext _ (fun p => cmul (R (P (snd p)) i) (conj (R (P (snd p)) j))) (fun p => CSum 3 (fun a => CSum 3 (fun b => cscale (snd o i a * snd o j b) (cmul (R (snd p) a) (conj (R (snd p) b))))))) by (intros; apply EX).
  rewrite cscale_mul, <- csum_scale.
  transitivity (csum (map (fun p => CSum 3 (fun a => CSum 3 (fun b => cmul (C m 0) (cscale (snd o i a * snd o j b) (cmul (R (snd p) a) (conj (R (snd p) b))))))) ops)).
  2:{ apply csum_ext. intros p _. rewrite <- CSum_scale. apply CSum_ext. intros a _. rewrite <- CSum_scale. reflexivity. }
  unfold CSum at 3. rewrite csum_swap. apply csum_ext. intros a _. unfold CSum. rewrite csum_swap. apply csum_ext. intros b _.
  unfold gv_by_gv_op. fold m. rewrite map_map. rewrite !cscale_mul. rewrite <- !csum_scale. apply csum_ext. intros p _. rewrite cscale_mul. fold (R (snd p) a). fold (R (snd p) b). ring.
Qed.
Print Assumptions C102_exchange.
Print Assumptions C102_symmetric.
Print Assumptions C102_semidefinite.
Print Assumptions C102_nonneg.
Print Assumptions C102_point_group.

(** ** degenerate eigenvectors *)
Definition unitary (nb : Z) (U : Z -> Z -> cplx) : Prop :=
  forall p p', 0 <= p < nb -> 0 <= p' < nb -> CSum nb (fun s => cmul (U p s) (conj (U p' s))) =c= (if p =? p' then c1 else c0).
(** the velocity operator in the basis of the eigenvectors mixed by U *)
Definition mixed (nb : Z) (U : Z -> Z -> cplx) (v : Z -> Z -> Z -> cplx) (s s' i : Z) : cplx :=
  CSum nb (fun p => CSum nb (fun p' => cmul (cmul (conj (U p s)) (U p' s')) (v p p' i))).

Lemma mixed_rot : forall nb U r v s s' i, rot_op r (mixed nb U v) s s' i =c= CSum nb (fun p => cmul (conj (U p s)) (CSum nb (fun p' => cmul (U p' s') (rot_op r v p p' i)))).
Proof.
  intros nb U r v s s' i. unfold rot_op at 1, mixed.
  transitivity (CSum 3 (fun j => CSum nb (fun p => CSum nb (fun p' => cmul (cmul (conj (U p s)) (U p' s')) (cmul (v p p' j) (C (r i j) 0)))))).
  { apply CSum_ext. intros j _. set (d := C (r i j) 0). transitivity (cmul d (CSum nb (fun p => CSum nb (fun p' => cmul (cmul (conj (U p s)) (U p' s')) (v p p' j))))); [ring|].
    rewrite <- CSum_scale. apply CSum_ext. intros p _. rewrite <- CSum_scale. apply CSum_ext. intros p' _. ring. }
  rewrite CSum_swap. apply CSum_ext. intros p _. rewrite CSum_swap. rewrite <- CSum_scale. apply CSum_ext. intros p' _.
  transitivity (cmul (cmul (conj (U p s)) (U p' s')) (rot_op r v p p' i)); [|ring]. unfold rot_op. rewrite <- CSum_scale. reflexivity.
Qed.
Lemma conj_cdelta : forall p p', conj (if p =? p' then c1 else c0) =c= (if p =? p' then c1 else c0).
Proof. intros p p'. destruct (p =? p'); split; cbn; ring. Qed.
Lemma conj_conj : forall a, conj (conj a) =c= a.
Proof. intros a. split; cbn; ring. Qed.
(** a weighted sum over all pairs does not see the mixing *)
Lemma mixed_sum : forall nb U rots rm v (K : Z -> Z -> Q) i j, unitary nb U ->
  (forall p s b, 0 <= p < nb -> 0 <= s < nb -> 0 <= b < nb -> ((K p b == K s b)%Q /\ (K b p == K b s)%Q) \/ U p s =c= c0) ->
  CSum nb (fun s => CSum nb (fun s' => cscale (K s s') (gv_by_gv_op rots rm (mixed nb U v) s s' i j))) =c=
  CSum nb (fun s => CSum nb (fun s' => cscale (K s s') (gv_by_gv_op rots rm v s s' i j))).
Proof.
  intros nb U rots rm v K i j HU HK. set (m := (/ inject_Z (Z.of_nat (length rm) / Z.of_nat (length (nodup Z.eq_dec rm))))%Q).
  assert (OUT : forall w, CSum nb (fun s => CSum nb (fun s' => cscale (K s s') (gv_by_gv_op rots rm w s s' i j))) =c=
    cmul (C m 0) (csum (map (fun r => CSum nb (fun s => CSum nb (fun s' => cscale (K s s') (cmul (rot_op r w s s' i) (conj (rot_op r w s s' j)))))) rots))).
  { intros w. transitivity (CSum nb (fun s => CSum nb (fun s' => csum (map (fun r => cmul (C m 0) (cscale (K s s') (cmul (rot_op r w s s' i) (conj (rot_op r w s s' j))))) rots)))).
    { apply CSum_ext. intros s _. apply CSum_ext. intros s' _. unfold gv_by_gv_op. fold m. rewrite cscale_mul, (cscale_mul m), <- !csum_scale. apply csum_ext. intros r _. rewrite cscale_mul. ring. }
    rewrite <- csum_scale.
    transitivity (CSum nb (fun s => csum (map (fun r => CSum nb (fun s' => cmul (C m 0) (cscale (K s s') (cmul (rot_op r w s s' i) (conj (rot_op r w s s' j)))))) rots))).
    { apply CSum_ext. intros s _. unfold CSum. apply csum_swap. }
    unfold CSum at 1. rewrite csum_swap. apply csum_ext. intros r _. rewrite <- CSum_scale. apply CSum_ext. intros s _. rewrite <- CSum_scale. reflexivity. }
  rewrite !OUT. apply cmul_proper; [reflexivity|]. apply csum_ext. intros r _.
  set (X := fun c p s' => CSum nb (fun p' => cmul (U p' s') (rot_op r v p p' c))).
  transitivity (CSum nb (fun s' => CSum nb (fun s => cscale (K s s') (cmul (CSum nb (fun p => cmul (conj (U p s)) (X i p s'))) (conj (CSum nb (fun p => cmul (conj (U p s)) (X j p s')))))))).
  { rewrite CSum_swap. apply CSum_ext. intros s' _. apply CSum_ext. intros s _. apply cscale_proper; [reflexivity|]. rewrite !mixed_rot. reflexivity. }
  transitivity (CSum nb (fun s' => CSum nb (fun p => cscale (K p s') (cmul (X i p s') (conj (X j p s')))))).
  { apply CSum_ext. intros s' Hs'. apply (mix1 nb (fun p s => conj (U p s)) (fun s => K s s')).
    - intros p p' Hp Hp'. specialize (HU p p' Hp Hp'). transitivity (conj (CSum nb (fun s => cmul (U p s) (conj (U p' s))))).
      + unfold CSum. rewrite csum_conj. apply csum_ext. intros s _. rewrite conj_mul. reflexivity.
      + rewrite HU. apply conj_cdelta.
    - intros p s Hp Hs. destruct (HK p s s' Hp Hs Hs') as [[E _] | E]; [left; exact E|right]. rewrite E. split; cbn; ring. }
  rewrite CSum_swap. apply CSum_ext. intros p Hp. apply (mix1 nb U (fun s' => K p s')).
  - intros q q' Hq Hq'. apply HU; assumption.
  - intros q s Hq Hs. destruct (HK q s p Hq Hs Hp) as [[_ E] | E]; [left; exact E|right; exact E].
Qed.

Theorem C102_gauge : forall nb ev conv cutoff freq g cv rots rm v U c, ~ (ev == 0)%Q -> unitary nb U ->
  (forall p s, 0 <= p < nb -> 0 <= s < nb -> ((freq p == freq s)%Q /\ (g p == g s)%Q /\ (cv p == cv s)%Q) \/ U p s =c= c0) ->
  let run w := wig_modes nb ev conv cutoff freq g cv (gv_op_sum2 rots rm w) wig_zero in
  (wig_P nb (run (mixed nb U v)) c == wig_P nb (run v) c)%Q /\ (wig_C nb (run (mixed nb U v)) c == wig_C nb (run v) c)%Q.
Proof.
  intros nb ev conv cutoff freq g cv rots rm v U c He HU HS run.
  assert (G : forall sel : bool -> bool, let s2 := fun a b => both cutoff freq a b && sel (near freq a b) in
    (pairs_where nb ev conv freq g cv (gv_op_sum2 rots rm (mixed nb U v)) s2 c == pairs_where nb ev conv freq g cv (gv_op_sum2 rots rm v) s2 c)%Q).
  { intros sel s2. set (K := fun a b => if s2 a b then (pair_weight (freq a) (freq b) (cv a) (cv b) (g a) (g b) * (conv / ev))%Q else 0%Q). set (ij := nth (Z.to_nat c) voigt (0, 0)).
    assert (F : forall w, (pairs_where nb ev conv freq g cv (gv_op_sum2 rots rm w) s2 c == re (CSum nb (fun s => CSum nb (fun s' => cscale (K s s') (gv_by_gv_op rots rm w s s' (fst ij) (snd ij))))))%Q).
    { intros w. unfold pairs_where, CSum. rewrite (proj1 (csum_parts _)), map_map. apply qs_ext. intros a _. rewrite (proj1 (csum_parts _)), map_map. apply qs_ext. intros b _.
      unfold K. cbn [cscale re]. unfold w_pair, gv_op_sum2. fold ij. destruct (s2 a b); ring. }
    rewrite !F. apply re_proper, mixed_sum; [exact HU|]. intros p s b Hp Hs Hb. destruct (HS p s Hp Hs) as [[E1 [E2 E3]] | E]; [left|right; exact E].
    assert (B1 : s2 p b = s2 s b). { unfold s2, both, near. rewrite (qltb_comp cutoff cutoff (freq p) (freq s)) by (reflexivity || exact E1). do 2 f_equal. apply qltb_comp; [rewrite E1|]; reflexivity. }
    assert (B2 : s2 b p = s2 b s). { unfold s2, both, near. rewrite (qltb_comp cutoff cutoff (freq p) (freq s)) by (reflexivity || exact E1). do 2 f_equal. apply qltb_comp; [rewrite E1|]; reflexivity. }
    unfold K. rewrite B1, B2. split; [destruct (s2 s b)|destruct (s2 b s)]; try reflexivity; unfold pair_weight; rewrite E1, E2, E3; reflexivity. }
  unfold run. destruct (C102_sums nb ev conv cutoff freq g cv (gv_op_sum2 rots rm (mixed nb U v)) c He) as [P1 [Q1 _]]. destruct (C102_sums nb ev conv cutoff freq g cv (gv_op_sum2 rots rm v) c He) as [P2 [Q2 _]].
  rewrite P1, P2, Q1, Q2. split; [apply (G (fun x => x))|apply (G negb)].
Qed.
Print Assumptions C102_gauge.

(** ** group velocities of degenerate modes *)
(** in each direction the eigenvalues of the block are taken by themselves, in ascending order. They are no vectors: for the quarter turn
    (x, y) -> (-y, x) of the crystal the velocities reported for two degenerate modes are not the turned ones in any order *)
Definition deg_op (s s' i : Z) : cplx :=
  if i =? 0 then (if s =? s' then (if s =? 0 then c1 else copp c1) else c0) else if i =? 1 then (if s =? s' then c0 else c1) else c0.
Definition quarter (i j : Z) : Q := if (i =? 0) && (j =? 1) then (-1)%Q else if (i =? 1) && (j =? 0) then 1%Q else if (i =? 2) && (j =? 2) then 1%Q else 0%Q.
(** [l] are the eigenvalues, in ascending order, of the 2x2 Hermitian matrix m *)
Definition eigenvalues2 (m : Z -> Z -> cplx) (l : list Q) : Prop :=
  exists x y, l = [x; y] /\ (x <= y)%Q /\ (x + y == re (m 0%Z 0%Z) + re (m 1%Z 1%Z))%Q /\ (x * y == re (m 0%Z 0%Z) * re (m 1%Z 1%Z) - cnorm2 (m 0%Z 1%Z))%Q.
Definition velocity (eigvalsh : list Z -> (Z -> Z -> cplx) -> list Q) (v : Z -> Z -> Z -> cplx) (s i : Z) : Q :=
  nth (Z.to_nat s) (wig_gv eigvalsh [[0; 1]] (fun a b => v a b i)) 0%Q.
Lemma unit_eigenvalues : forall m l, eigenvalues2 m l -> (re (m 0%Z 0%Z) + re (m 1%Z 1%Z) == 0)%Q -> (re (m 0%Z 0%Z) * re (m 1%Z 1%Z) - cnorm2 (m 0%Z 1%Z) == -1)%Q ->
  exists x y, l = [x; y] /\ (x == -1)%Q /\ (y == 1)%Q.
Proof.
  intros m l [x [y [E [H1 [H2 H3]]]]] T D. rewrite T in H2. rewrite D in H3. exists x, y. split; [exact E|].
  assert (Y : (y == - x)%Q) by lra. rewrite Y in *. assert (N : (x <= 0)%Q) by lra. assert (S : ((x - 1) * (x + 1) == 0)%Q) by (ring_simplify; lra).
  apply Qmult_integral in S. destruct S as [S | S]; [lra|split; lra].
Qed.
Theorem C102_velocities_refuted : forall eigvalsh,
  (forall i, 0 <= i < 2 -> eigenvalues2 (fun a b => deg_op a b i) (eigvalsh [0; 1] (fun a b => deg_op a b i)) /\
     eigenvalues2 (fun a b => rot_op quarter deg_op a b i) (eigvalsh [0; 1] (fun a b => rot_op quarter deg_op a b i))) ->
  ~ (exists order : Z -> Z, (order 0 = 0 /\ order 1 = 1 \/ order 0 = 1 /\ order 1 = 0) /\
      forall s i, 0 <= s < 2 -> 0 <= i < 2 -> (velocity eigvalsh (rot_op quarter deg_op) s i == rot3 quarter (velocity eigvalsh deg_op (order s)) i)%Q).
Proof.
  intros ei He [order [Ho H]].
  assert (V : forall i, 0 <= i < 2 -> ((velocity ei deg_op 0%Z i == -1)%Q /\ (velocity ei deg_op 1%Z i == 1)%Q) /\ (velocity ei (rot_op quarter deg_op) 0%Z i == -1)%Q /\ (velocity ei (rot_op quarter deg_op) 1%Z i == 1)%Q).
  { intros i Hi. destruct (He i Hi) as [E1 E2]. assert (Ci : i = 0 \/ i = 1) by lia.
    apply unit_eigenvalues in E1; [|destruct Ci as [-> | ->]; vm_compute; reflexivity|destruct Ci as [-> | ->]; vm_compute; reflexivity].
    apply unit_eigenvalues in E2; [|destruct Ci as [-> | ->]; vm_compute; reflexivity|destruct Ci as [-> | ->]; vm_compute; reflexivity].
    destruct E1 as [x [y [L [X Y]]]]. destruct E2 as [x' [y' [L' [X' Y']]]]. unfold velocity, wig_gv. cbn [flat_map length Nat.ltb Nat.leb app]. rewrite L, L'.
    cbn [app nth]. change (Z.to_nat 0) with 0%nat. change (Z.to_nat 1) with 1%nat. cbn [nth]. auto. }
  destruct (V 0 ltac:(lia)) as [[A1 A2] [A3 A4]]. destruct (V 1 ltac:(lia)) as [[B1 B2] [B3 B4]].
  pose proof (H 0 0 ltac:(lia) ltac:(lia)) as H00. pose proof (H 0 1 ltac:(lia) ltac:(lia)) as H01. unfold rot3 in H00, H01. rewrite qs3 in H00, H01. unfold quarter in H00, H01. cbn [Z.eqb Pos.eqb andb] in H00, H01.
  destruct Ho as [[O _] | [O _]]; rewrite O in *; rewrite ?A1, ?A2, ?A3, ?A4, ?B1, ?B2, ?B3, ?B4 in *; lra.
Qed.
Print Assumptions C102_velocities_refuted.
(** the hypothesis is met by the eigenvalues -1 and 1 of all four blocks *)
Example C102_velocities_example : forall i, 0 <= i < 2 -> eigenvalues2 (fun a b => deg_op a b i) [(-1)%Q; 1%Q] /\ eigenvalues2 (fun a b => rot_op quarter deg_op a b i) [(-1)%Q; 1%Q].
Proof.
  intros i Hi. assert (Ci : i = 0 \/ i = 1) by lia.
  destruct Ci as [-> | ->]; (split; exists (-1)%Q, 1%Q; (split; [reflexivity|]; split; [discriminate|]; split; vm_compute; reflexivity)).
Qed.

(** three bands, the first two degenerate, velocities with complex elements, a mirror among the rotations *)
Definition w_freq (s : Z) : Q := if s =? 2 then 5%Q else 3%Q.
Definition w_g (s : Z) : Q := if s =? 2 then (1 # 2)%Q else (1 # 4)%Q.
Definition w_cv (s : Z) : Q := if s =? 2 then (2 # 3)%Q else (4 # 5)%Q.
Definition w_v (s s' i : Z) : cplx :=
  if s =? s' then C (inject_Z (s + i + 1)) 0 else if s <? s' then C (inject_Z (s + i)) (inject_Z (s' - i)) else C (inject_Z (s' + i)) (inject_Z (i - s)).
Definition w_U (p s : Z) : cplx :=
  if (p =? 2) || (s =? 2) then (if p =? s then C 0 1 else c0) else if p =? s then C (3 # 5) 0 else if p <? s then C 0 (4 # 5) else C 0 (4 # 5).
Definition w_rots : list (Z -> Z -> Q) := [fun i j => if i =? j then 1%Q else 0%Q; fun i j => if i =? j then (if i =? 0 then (-1)%Q else 1%Q) else 0%Q].
Definition w_run v := wig_modes 3 (1 # 240) 7 (1 # 10) w_freq w_g w_cv (gv_op_sum2 w_rots [4; 6] v) wig_zero.
Example C102_example :
  hermitian 3 w_v /\ unitary 3 w_U /\
  (forall p s, 0 <= p < 3 -> 0 <= s < 3 -> ((w_freq p == w_freq s)%Q /\ (w_g p == w_g s)%Q /\ (w_cv p == w_cv s)%Q) \/ w_U p s =c= c0) /\
  (0 < wig_C 3%Z (w_run w_v) 1%Z)%Q /\ (0 < wig_P 3%Z (w_run w_v) 1%Z)%Q /\
  (ws_P (w_run w_v) 2%Z 1%Z == re (gv_op_sum2 w_rots [4; 6]%Z w_v 2%Z 2%Z 1%Z) * (2 # 3) / (1 # 1) * (7 * 240))%Q.
Proof.
  assert (A : forall P : Z -> Prop, P 0 -> P 1 -> P 2 -> forall x, 0 <= x < 3 -> P x).
  { intros P P0 P1 P2 x Hx. assert (Cx : x = 0 \/ x = 1 \/ x = 2) by lia. destruct Cx as [-> | [-> | ->]]; assumption. }
  split.
  { intros s s' i Hs Hs' Hi. revert s Hs. apply A; revert s' Hs'; apply A; revert i Hi; apply A; split; vm_compute; reflexivity. }
  split.
  { intros p p' Hp Hp'. revert p Hp. apply A; revert p' Hp'; apply A; split; vm_compute; reflexivity. }
  split.
  { intros p s Hp Hs. revert p Hp. apply A; revert s Hs; apply A; ((left; repeat split; vm_compute; reflexivity) || (right; split; vm_compute; reflexivity)). }
  split; [vm_compute; reflexivity|]. split; vm_compute; reflexivity.
Qed.
