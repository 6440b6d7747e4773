(** Joint density of states (C101) *)
From Coq Require Import ZArith QArith List Bool Lia Lqa Qfield.
From Verif Require Import Base BaseProofs Mat3 QMat Par Par2 Fc3Model Fc3Trans IseModel IseSpec IseProofs IseProps KapProofs GruModel GruProofs JdosModel.
Import ListNotations.
Open Scope Z_scope.

Section J.
Variable bose : Q -> Q -> Q.
Variable nb ntrip nfp : Z.
Variable D_diag : Z -> Z.
Variable freq : Z -> Q.
Variable triplets : Z -> tp3.
Variable weights : Z -> Z.
Variable g : Z -> Q.

(** ** Specification *)
Definition mode (i which k : Z) : Q := freq (tp_at (triplets i) which * nb + k).
(** sum over the triplets, with their weights, and over the pairs of bands *)
Definition pair_sum (h : Z -> Z -> Z -> Q) : Q := Sum ntrip (fun i => inject_Z (weights i) * Sum nb (fun k => Sum nb (fun l => h i k l)))%Q.
Definition above (cutoff : Q) (i k l : Z) : bool := qltb cutoff (mode i 1 k) && qltb cutoff (mode i 2 l).
Local Notation ga := (g_at nb ntrip nfp g).
(** column 1: pairs created or annihilated together; column 0: one mode turned into another *)
Definition jdos_spec (T cutoff : Q) (r col : Z) : Q :=
  pair_sum (fun i k l => if above cutoff i k l then
    (let n1 := bose (mode i 1 k) T in let n2 := bose (mode i 2 l) T in
     if (col =? 1)%Z then (n1 + n2 + 1) * ga 0 i r k l else (n1 - n2) * ga 1 i r k l)%Q else 0%Q).

Lemma pair_ext : forall h h', (forall i k l, 0 <= i < ntrip -> 0 <= k < nb -> 0 <= l < nb -> (h i k l == h' i k l)%Q) -> (pair_sum h == pair_sum h')%Q.
Proof. intros h h' H. apply Sum_ext. intros i Hi. apply Qmult_comp; [reflexivity|]. apply Sum_ext. intros k Hk. apply Sum_ext. intros l Hl. now apply H. Qed.
Lemma loops : forall (F : Z -> Z -> Z -> Q),
  (fold_left (fun s k => fold_left (fun s l => s + fold_left (fun s i => s + F i k l) (zrange ntrip) 0) (zrange nb) s) (zrange nb) 0 == Sum ntrip (fun i => Sum nb (fun k => Sum nb (fun l => F i k l))))%Q.
Proof.
  intros F.
  assert (A : forall l s, (fold_left (fun s k => fold_left (fun s l => s + fold_left (fun s i => s + F i k l) (zrange ntrip) 0) (zrange nb) s) l s == s + qsum (map (fun k => QS nb (fun l => QS ntrip (fun i => F i k l))) l))%Q).
  { induction l as [|k l IH]; intros s; cbn [fold_left map]; rewrite ?qs_nil, ?qs_cons; [ring|]. rewrite IH.
    rewrite (fold_qsum _ (fun l => fold_left (fun s i => (s + F i k l)%Q) (zrange ntrip) 0%Q)).
    rewrite (qs_ext _ (fun l => fold_left (fun s i => (s + F i k l)%Q) (zrange ntrip) 0%Q) (fun l => QS ntrip (fun i => F i k l))); [ring|].
    intros m _. rewrite fold_qsum. ring. }
  rewrite A. unfold Sum. symmetry. rewrite (qs_swap _ _ (fun i k => qsum (map (fun l => F i k l) (zrange nb)))). rewrite Qplus_0_l. apply qs_ext. intros k _. rewrite qs_swap. reflexivity.
Qed.
Lemma no_temp : forall r, (jdos_none nb ntrip nfp weights g r 1 == pair_sum (fun i k l => ga 0 i r k l))%Q /\ (jdos_none nb ntrip nfp weights g r 0 == pair_sum (fun i k l => ga 2 i r k l - ga 0 i r k l))%Q.
Proof.
  intros r. unfold jdos_none, pair_sum. cbn [Z.eqb Pos.eqb]. split; [rewrite (loops (fun i k l => ga 0 i r k l * inject_Z (weights i))%Q)|rewrite (loops (fun i k l => (ga 2 i r k l - ga 0 i r k l) * inject_Z (weights i))%Q)]; apply Sum_ext; intros i _; rewrite <- Sum_scale; apply Sum_ext; intros k _; rewrite <- Sum_scale; apply Sum_ext; intros l _; ring.
Qed.
Lemma neg_test : forall T cutoff i which k, occ_ok bose cutoff -> qltb (jdos_occ bose nb freq triplets T cutoff i which k) 0 = negb (qltb cutoff (mode i which k)).
Proof.
  intros T cutoff i which k H. unfold jdos_occ. fold (mode i which k). destruct (qltb cutoff (mode i which k)) eqn:E; cbn [negb].
  - apply qltb_lt in E. apply qltb_ge. now apply H.
  - reflexivity.
Qed.
(** C101, Python *)
Theorem C101_python : forall T cutoff r col, col = 0 \/ col = 1 -> occ_ok bose cutoff ->
  (jdos_py bose nb ntrip nfp freq triplets weights g T cutoff r col == jdos_spec T cutoff r col)%Q.
Proof.
  intros T cutoff r col Hcol Ho. unfold jdos_py. cbv zeta. rewrite loops. unfold jdos_spec, pair_sum. apply Sum_ext. intros i _. rewrite <- Sum_scale. apply Sum_ext. intros k _. rewrite <- Sum_scale. apply Sum_ext. intros l _.
  rewrite !neg_test by exact Ho. unfold above, jdos_occ. fold (mode i 1 k) (mode i 2 l). destruct (qltb cutoff (mode i 1 k)), (qltb cutoff (mode i 2 l)); cbn [negb orb andb]; destruct (col =? 1); ring.
Qed.
(** the plane that is kept and the one that is zero *)
Lemma planes : forall k p i r a b, 0 <= p -> 0 <= i < ntrip -> 0 <= r < nfp -> 0 <= a < nb -> 0 <= b < nb ->
  arr5 ntrip nfp nb nb (g_without nb ntrip nfp g k) p i r a b = if p =? k then 0%Q else ga p i r a b.
Proof.
  intros k p i r a b Hp Hi Hr Ha Hb. unfold arr5, g_without, g_at. set (x := (((p * ntrip + i) * nfp + r) * nb + a) * nb + b).
  assert (E : x / (ntrip * nfp * nb * nb) = p).
  { assert (B1 : 0 <= a * nb + b < nb * nb) by nia. assert (B2 : 0 <= r * (nb * nb) + (a * nb + b) < nfp * (nb * nb)) by nia.
    assert (B3 : 0 <= i * (nfp * (nb * nb)) + (r * (nb * nb) + (a * nb + b)) < ntrip * (nfp * (nb * nb))) by nia.
    replace x with (i * (nfp * (nb * nb)) + (r * (nb * nb) + (a * nb + b)) + p * (ntrip * (nfp * (nb * nb)))) by (unfold x; ring).
    replace (ntrip * nfp * nb * nb) with (ntrip * (nfp * (nb * nb))) by ring. rewrite Z.div_add, Z.div_small by lia. ring. }
  rewrite E. reflexivity.
Qed.
Section C.
Variable g_zero : Z -> bool.
Variable T cutoff : Q.
Variable r col : Z.
Hypothesis Hnb : 0 <= nb. Hypothesis Hnt : 0 <= ntrip. Hypothesis Hr : 0 <= r < nfp. Hypothesis Hcol : col = 0 \/ col = 1.
Hypothesis Hocc : occ_ok bose cutoff.
Hypothesis Hz : zeros_ok ntrip nfp nb g g_zero.
Variable at_g0 at_g : Z -> Z -> Q.
Variable ise0 ise : Z -> Q.
Hypothesis Hin : forall i, 0 <= i < ntrip -> finishes Z.eq_dec (jdos_c_inner bose nb ntrip nfp freq triplets weights g g_zero T cutoff r col i) (at_g0 i) (at_g i).
Hypothesis Hout : finishes Z.eq_dec (jdos_c_outer nb ntrip nfp g_zero r at_g) ise0 ise.
Lemma c_value : (jdos_c ntrip ise == pair_sum (fun i k l => contribution bose T cutoff (mode i 1 k) (mode i 2 l) (if 0 =? col then 0 else ga 0 i r k l) (if 1 =? col then 0 else ga 1 i r k l) 1))%Q.
Proof.
  unfold jdos_c. assert (N : nrow 1 nfp r = nfp) by (unfold nrow; rewrite (proj2 (Z.ltb_ge r 0)) by lia; reflexivity). assert (W : row r 0 = r) by (unfold row; rewrite (proj2 (Z.ltb_ge r 0)) by lia; reflexivity).
  rewrite (C48_sparse_sum_equals_full_sum bose 1 nb ntrip nfp r ones_pp freq triplets weights (g_without nb ntrip nfp g col) g_zero T cutoff at_g0 at_g ise0 ise); try lia; try assumption.
  - rewrite N, W. unfold self_energy, pair_sum, all_triplets. cbn iota. apply Sum_ext. intros i Hi. apply Qmult_comp; [reflexivity|]. apply Sum_ext. intros k Hk. apply Sum_ext. intros l Hl.
    rewrite !planes by lia. reflexivity.
  - rewrite N. intros i r' k l Hi Hr' Hk Hl E. destruct (Hz i r' k l Hi Hr' Hk Hl E) as [Z1 Z2]. rewrite !planes by lia. split; destruct (_ =? col); try reflexivity; assumption.
Qed.
End C.
(** C101, C with a temperature above 0 K: any schedule of the loops *)
Theorem C101_temperature : forall g_zero T cutoff r col at_g0 at_g ise0 ise, 0 <= nb -> 0 <= ntrip -> 0 <= r < nfp -> col = 0 \/ col = 1 -> (0 < T)%Q ->
  occ_ok bose cutoff -> zeros_ok ntrip nfp nb g g_zero ->
  (forall i, 0 <= i < ntrip -> finishes Z.eq_dec (jdos_c_inner bose nb ntrip nfp freq triplets weights g g_zero T cutoff r col i) (at_g0 i) (at_g i)) ->
  finishes Z.eq_dec (jdos_c_outer nb ntrip nfp g_zero r at_g) ise0 ise ->
  (jdos_c ntrip ise == jdos_spec T cutoff r col)%Q.
Proof.
  intros g_zero T cutoff r col at_g0 at_g ise0 ise H1 H2 H3 H4 HT H5 H6 H7 H8. rewrite (c_value g_zero T cutoff r col H1 H2 H3 H5 H6 at_g0 at_g ise0 ise H7 H8).
  apply pair_ext. intros i k l _ _ _. unfold contribution, above. destruct (qltb cutoff (mode i 1 k) && qltb cutoff (mode i 2 l)); [|reflexivity].
  rewrite (proj2 (qltb_lt 0 T) HT). destruct H4 as [-> | ->]; cbn [Z.eqb Pos.eqb]; ring.
Qed.
(** C101 at 0 K: only pairs are created *)
Theorem C101_zero : forall g_zero T cutoff r col at_g0 at_g ise0 ise, 0 <= nb -> 0 <= ntrip -> 0 <= r < nfp -> col = 0 \/ col = 1 -> (T <= 0)%Q ->
  occ_ok bose cutoff -> zeros_ok ntrip nfp nb g g_zero ->
  (forall i, 0 <= i < ntrip -> finishes Z.eq_dec (jdos_c_inner bose nb ntrip nfp freq triplets weights g g_zero T cutoff r col i) (at_g0 i) (at_g i)) ->
  finishes Z.eq_dec (jdos_c_outer nb ntrip nfp g_zero r at_g) ise0 ise ->
  (jdos_c ntrip ise == if (col =? 1)%Z then pair_sum (fun i k l => if above cutoff i k l then ga 0 i r k l else 0%Q) else 0)%Q.
Proof.
  intros g_zero T cutoff r col at_g0 at_g ise0 ise H1 H2 H3 H4 HT H5 H6 H7 H8. rewrite (c_value g_zero T cutoff r col H1 H2 H3 H5 H6 at_g0 at_g ise0 ise H7 H8).
  assert (E : qltb 0 T = false) by (now apply qltb_ge). unfold contribution. rewrite E. destruct H4 as [-> | ->]; cbn [Z.eqb Pos.eqb].
  - unfold pair_sum. apply Sum_zero. intros i _. rewrite Sum_zero; [ring|]. intros k _. apply Sum_zero. intros l _. destruct (_ && _); ring.
  - apply pair_ext. intros i k l _ _ _. fold (above cutoff i k l). destruct (above cutoff i k l); ring.
Qed.
(** the two implementations agree at every temperature when the occupations vanish at 0 K *)
Theorem C101_python_and_C_agree : forall g_zero T cutoff r col at_g0 at_g ise0 ise, 0 <= nb -> 0 <= ntrip -> 0 <= r < nfp -> col = 0 \/ col = 1 ->
  occ_ok bose cutoff -> (forall f, ~ (0 < T)%Q -> (cutoff < f)%Q -> (bose f T == 0)%Q) -> zeros_ok ntrip nfp nb g g_zero ->
  (forall i, 0 <= i < ntrip -> finishes Z.eq_dec (jdos_c_inner bose nb ntrip nfp freq triplets weights g g_zero T cutoff r col i) (at_g0 i) (at_g i)) ->
  finishes Z.eq_dec (jdos_c_outer nb ntrip nfp g_zero r at_g) ise0 ise ->
  (jdos_py bose nb ntrip nfp freq triplets weights g T cutoff r col == jdos_c ntrip ise)%Q.
Proof.
  intros g_zero T cutoff r col at_g0 at_g ise0 ise H1 H2 H3 H4 H5 HB H6 H7 H8. rewrite C101_python by assumption. destruct (qltb 0 T) eqn:E.
  - apply qltb_lt in E. symmetry. now apply (C101_temperature g_zero T cutoff r col at_g0 at_g ise0 ise).
  - apply qltb_ge in E. rewrite (C101_zero g_zero T cutoff r col at_g0 at_g ise0 ise) by assumption. assert (N : ~ (0 < T)%Q) by lra.
    unfold jdos_spec. destruct H4 as [-> | ->]; cbn [Z.eqb Pos.eqb].
    + unfold pair_sum. apply Sum_zero. intros i _. rewrite Sum_zero; [ring|]. intros k _. apply Sum_zero. intros l _. unfold above. destruct (qltb cutoff (mode i 1 k)) eqn:Ea, (qltb cutoff (mode i 2 l)) eqn:Eb; cbn [andb]; try reflexivity.
      apply qltb_lt in Ea, Eb. rewrite !HB by assumption. ring.
    + apply pair_ext. intros i k l _ _ _. unfold above. destruct (qltb cutoff (mode i 1 k)) eqn:Ea, (qltb cutoff (mode i 2 l)) eqn:Eb; cbn [andb]; try reflexivity.
      apply qltb_lt in Ea, Eb. rewrite !HB by assumption. ring.
Qed.
(** C101 without temperature: plain sums of the weights; it is the 0 K result when no mode is at or below the cutoff *)
Theorem C101_none : forall r, (jdos_none nb ntrip nfp weights g r 1 == pair_sum (fun i k l => ga 0 i r k l))%Q /\ (jdos_none nb ntrip nfp weights g r 0 == pair_sum (fun i k l => ga 2 i r k l - ga 0 i r k l))%Q /\
  (forall g_zero T cutoff at_g0 at_g ise0 ise, 0 <= nb -> 0 <= ntrip -> 0 <= r < nfp -> (T <= 0)%Q -> occ_ok bose cutoff -> zeros_ok ntrip nfp nb g g_zero ->
    (forall i k, 0 <= i < ntrip -> 0 <= k < nb -> (cutoff < mode i 1 k /\ cutoff < mode i 2 k)%Q) ->
    (forall i, 0 <= i < ntrip -> finishes Z.eq_dec (jdos_c_inner bose nb ntrip nfp freq triplets weights g g_zero T cutoff r 1 i) (at_g0 i) (at_g i)) ->
    finishes Z.eq_dec (jdos_c_outer nb ntrip nfp g_zero r at_g) ise0 ise ->
    (jdos_c ntrip ise == jdos_none nb ntrip nfp weights g r 1)%Q).
Proof.
  intros r. destruct (no_temp r) as [A B]. split; [exact A|]. split; [exact B|]. intros g_zero T cutoff at_g0 at_g ise0 ise H1 H2 H3 HT H5 H6 HA H7 H8.
  rewrite (C101_zero g_zero T cutoff r 1 at_g0 at_g ise0 ise) by (try assumption; now right). cbn [Z.eqb Pos.eqb]. rewrite A. apply pair_ext. intros i k l Hi Hk Hl.
  unfold above. rewrite (proj2 (qltb_lt _ _) (proj1 (HA i k Hi Hk))), (proj2 (qltb_lt _ _) (proj2 (HA i l Hi Hl))). reflexivity.
Qed.
(** the total weight of the density: with delta functions of unit weight on the sampled frequencies, (number of bands)^2 *)
Theorem C101_total : forall df, 0 < D_diag 0 * D_diag 1 * D_diag 2 -> Sum ntrip (fun i => inject_Z (weights i)) == inject_Z (D_diag 0 * D_diag 1 * D_diag 2) ->
  (forall i k l, 0 <= i < ntrip -> 0 <= k < nb -> 0 <= l < nb -> (Sum nfp (fun r => df r * ga 0 i r k l) == 1)%Q) -> 0 <= nb ->
  (Sum nfp (fun r => df r * jdos_final D_diag (jdos_none nb ntrip nfp weights g r 1)) == inject_Z (nb * nb))%Q.
Proof.
  intros df HD HW H1 Hnb. set (N := inject_Z (D_diag 0 * D_diag 1 * D_diag 2)) in *.
  assert (N0 : ~ (N == 0)%Q). { unfold N. intros K. apply (qz_inj _ 0) in K. lia. }
  transitivity (/ N * Sum ntrip (fun i => inject_Z (weights i) * Sum nb (fun k => Sum nb (fun l => Sum nfp (fun r => df r * ga 0 i r k l)))))%Q.
  - transitivity (/ N * Sum nfp (fun r => df r * pair_sum (fun i k l => ga 0 i r k l)))%Q.
    + rewrite <- Sum_scale. apply Sum_ext. intros r _. unfold jdos_final. rewrite (proj1 (no_temp r)). fold N. field. exact N0.
    + apply Qmult_comp; [reflexivity|]. unfold Sum, pair_sum. unfold Sum.
      rewrite (qs_ext _ _ (fun r => qsum (map (fun i => inject_Z (weights i) * QS nb (fun k => QS nb (fun l => df r * ga 0 i r k l))) (zrange ntrip)))%Q).
      * rewrite qs_swap. apply qs_ext. intros i _. rewrite qs_scale. apply Qmult_comp; [reflexivity|]. rewrite qs_swap. apply qs_ext. intros k _. rewrite qs_swap. reflexivity.
      * intros r _. rewrite <- qs_scale. apply qs_ext. intros i _. setoid_replace (df r * (inject_Z (weights i) * QS nb (fun k => QS nb (fun l => ga 0 i r k l))))%Q with (inject_Z (weights i) * (df r * QS nb (fun k => QS nb (fun l => ga 0 i r k l))))%Q by ring.
        apply Qmult_comp; [reflexivity|]. rewrite <- qs_scale. apply qs_ext. intros k _. rewrite <- qs_scale. reflexivity.
  - transitivity (/ N * Sum ntrip (fun i => inject_Z (nb * nb) * inject_Z (weights i)))%Q.
    + apply Qmult_comp; [reflexivity|]. apply Sum_ext. intros i Hi. rewrite Qmult_comm. apply Qmult_comp; [|reflexivity].
      transitivity (Sum nb (fun k => inject_Z nb))%Q.
      * apply Sum_ext. intros k Hk. transitivity (Sum nb (fun _ => 1%Q)).
        -- apply Sum_ext. intros l Hl. now apply H1.
        -- unfold Sum. rewrite qs_const, length_zrange, Z2Nat.id by lia. ring.
      * unfold Sum. rewrite qs_const, length_zrange, Z2Nat.id by lia. rewrite inject_Z_mult. reflexivity.
    + rewrite Sum_scale, HW. fold N. field. exact N0.
Qed.
End J.
(** ** Example: two triplets, two bands, one frequency point *)
Definition jx_freq (a : Z) : Q := nth (Z.to_nat a) [1; 2; 3; 5]%Q 0%Q.
Definition jx_trip (i : Z) : tp3 := if i =? 0 then (0, 0, 1) else (0, 1, 1).
Definition jx_g (x : Z) : Q := inject_Z (x + 1).
Example C101_example :
  (jdos_py (fun _ _ => 1 # 3) 2 2 1 jx_freq jx_trip (fun i => i + 1)%Z jx_g 1 (3 # 2) 0 1 == 295 # 3)%Q /\ occ_ok (fun _ _ => 1 # 3) (3 # 2) /\ zeros_ok 2 1 2 jx_g (fun _ => false) /\
  (jdos_none 2 2 1 (fun i => i + 1)%Z jx_g 0 1 == 62)%Q.
Proof.
  split; [vm_compute; reflexivity|]. split; [intros f T _; discriminate|]. split; [intros i r k l _ _ _ _ E; discriminate|]. vm_compute. reflexivity.
Qed.
Example C101_total_example : let w := fun i : Z => 4 in let g := fun x : Z => (1 # 3)%Q in
  Sum 2 (fun i => inject_Z (w i)) == inject_Z (2 * 2 * 2) /\ (forall i k l, 0 <= i < 2 -> 0 <= k < 3 -> 0 <= l < 3 -> (Sum 3 (fun r => 1 * g_at 3 2 3 g 0 i r k l) == 1)%Q).
Proof. split; [reflexivity|]. intros. vm_compute. reflexivity. Qed.
Print Assumptions C101_python. Print Assumptions C101_temperature. Print Assumptions C101_zero. Print Assumptions C101_python_and_C_agree. Print Assumptions C101_none. Print Assumptions C101_total.
