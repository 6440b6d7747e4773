From Coq Require Import ZArith QArith List Bool Lia Lqa Setoid.
From Verif Require Import Base BaseProofs QMat Par Par2 IseModel IseSpec IseProofs IseProps Cplx R2nModel.
Import ListNotations.
Open Scope Z_scope.

(** ** Specification *)
(** contraction of three vectors with the fc3 of a triplet *)
Definition amplitude (nb : Z) (u v w : Z -> cplx) (phi : Z -> Z -> Z -> cplx) : cplx :=
  CSum nb (fun i => CSum nb (fun j => CSum nb (fun k => cmul (cmul (cmul (u i) (v j)) (w k)) (phi i j k)))).
(** eigenvector of band a (component, band), divided by the square roots of masses *)
Definition mode (isq : Z -> Q) (e : Z -> Z -> cplx) (a i : Z) : cplx := cscale (isq (i / 3)) (e i a).
(** interaction strength of three modes; modes at or below the cutoff do not interact *)
Definition strength (isq : Z -> Q) (nb : Z) (cutoff : Q) (phi : Z -> Z -> Z -> cplx) (f0 f1 f2 : Z -> Q) (e0 e1 e2 : Z -> Z -> cplx) (a b c : Z) : Q :=
  if qltb cutoff (f0 a) && qltb cutoff (f1 b) && qltb cutoff (f2 c) then
    (cnorm2 (amplitude nb (mode isq e0 a) (mode isq e1 b) (mode isq e2 c) phi) / (f0 a * f1 b * f2 c))%Q
  else 0%Q.
(** elements of C-contiguous arrays *)
Definition mat_of (nb : Z) (x : Z -> cplx) (i j : Z) : cplx := x (i * nb + j).
Definition cube_of (nb : Z) (x : Z -> cplx) (i j k : Z) : cplx := x ((i * nb + j) * nb + k).

(** ** The sums *)
Lemma quot_flat : forall n a b, 0 <= a -> 0 <= b < n -> Z.quot (a * n + b) n = a.
Proof. intros n a b Ha Hb. rewrite Z.quot_div_nonneg by nia. symmetry. apply (Z.div_unique_pos _ _ _ b); lia. Qed.
Lemma rem_flat : forall n a b, 0 <= a -> 0 <= b < n -> Z.rem (a * n + b) n = b.
Proof. intros n a b Ha Hb. rewrite Z.rem_mod_nonneg by nia. symmetry. apply (Z.mod_unique_pos _ _ a); lia. Qed.
Lemma csum_loop_spec : forall n f, csum_loop n f =c= CSum n f.
Proof. intros. unfold csum_loop. rewrite fold_csum. unfold CSum. ring. Qed.
Lemma amplitude_ext : forall nb u v w phi u' v' w' phi', (forall i, 0 <= i < nb -> u i =c= u' i) -> (forall i, 0 <= i < nb -> v i =c= v' i) -> (forall i, 0 <= i < nb -> w i =c= w' i) ->
  (forall i j k, 0 <= i < nb -> 0 <= j < nb -> 0 <= k < nb -> phi i j k =c= phi' i j k) -> amplitude nb u v w phi =c= amplitude nb u' v' w' phi'.
Proof. intros. unfold amplitude. apply CSum_ext. intros i Hi. apply CSum_ext. intros j Hj. apply CSum_ext. intros k Hk. rewrite H, H0, H1, H2 by assumption. reflexivity. Qed.
Lemma blas_like_spec : forall e0 e1 e2 fc nb, 0 <= nb -> Qeq (fc3_sum_blas_like e0 e1 e2 fc nb) (cnorm2 (amplitude nb e0 e1 e2 (cube_of nb fc))).
Proof.
  intros e0 e1 e2 fc nb Hnb. unfold fc3_sum_blas_like. apply cnorm2_proper. rewrite csum_loop_spec. unfold amplitude. apply CSum_ext. intros i Hi.
  rewrite csum_loop_spec, CSum_flat by lia. rewrite <- CSum_scale. apply CSum_ext. intros j Hj. rewrite <- CSum_scale. apply CSum_ext. intros k Hk. rewrite quot_flat, rem_flat by lia.
  unfold cube_of. replace (i * nb * nb + (j * nb + k)) with ((i * nb + j) * nb + k) by ring. ring.
Qed.
Lemma blas_spec : forall e0 e1 e2 fc nb, 0 <= nb -> Qeq (fc3_sum_blas e0 e1 e2 fc nb) (cnorm2 (amplitude nb e0 e1 e2 (cube_of nb fc))).
Proof.
  intros e0 e1 e2 fc nb Hnb. rewrite <- blas_like_spec by assumption. unfold fc3_sum_blas, fc3_sum_blas_like. apply cnorm2_proper. rewrite !csum_loop_spec. apply CSum_ext. intros i Hi. rewrite !csum_loop_spec.
  apply cmul_proper; [reflexivity|]. apply CSum_ext. intros j Hj. now rewrite Z.mul_assoc.
Qed.
Lemma fold_csum2 : forall n m (f : Z -> Z -> cplx), forall a, fold_left (fun s i => fold_left (fun s j => cadd s (f i j)) (zrange m) s) (zrange n) a =c= cadd a (CSum n (fun i => CSum m (f i))).
Proof.
  intros n m f. unfold CSum at 1. induction (zrange n) as [|x l IH]; intros a; cbn [fold_left map]; rewrite ?csum_nil, ?csum_cons; [ring|]. rewrite IH. rewrite fold_csum. unfold CSum. ring.
Qed.
Lemma fc3_sum_spec : forall e0 e1 e2 fc nb, 0 <= nb -> Qeq (fc3_sum e0 e1 e2 fc nb) (cnorm2 (amplitude nb e0 e1 e2 (cube_of nb fc))).
Proof.
  intros e0 e1 e2 fc nb Hnb. rewrite <- blas_like_spec by assumption. unfold fc3_sum, fc3_sum_blas_like. apply cnorm2_proper. rewrite fold_csum2, csum_loop_spec.
  transitivity (CSum nb (fun i => CSum (nb * nb) (fun j => cmul (e0 i) (cmul (fc (i * nb * nb + j)) (cmul (e1 (Z.quot j nb)) (e2 (Z.rem j nb))))))); [ring|].
  apply CSum_ext. intros i Hi. rewrite csum_loop_spec. apply CSum_scale.
Qed.
Lemma scaled_mode : forall isq nb ev a i, 0 <= a -> 0 <= i < nb -> scaled isq nb ev (a * nb + i) =c= mode isq (mat_of nb ev) a i.
Proof.
  intros isq nb ev a i Ha Hi. unfold scaled, mode, mat_of. rewrite quot_flat, rem_flat by assumption. rewrite Z.quot_div_nonneg by lia. split; cbn; ring.
Qed.
Lemma value_spec : forall isq nb cutoff bi fc f0 f1 f2 ev0 ev1 ev2 b0 b1 b2, 0 <= nb -> 0 <= bi b0 -> 0 <= b1 -> 0 <= b2 ->
  Qeq (r2n_value isq nb cutoff bi fc f0 f1 f2 ev0 ev1 ev2 b0 b1 b2) (strength isq nb cutoff (cube_of nb fc) f0 f1 f2 (mat_of nb ev0) (mat_of nb ev1) (mat_of nb ev2) (bi b0) b1 b2).
Proof.
  intros. unfold r2n_value, strength. destruct (_ && _); [|reflexivity]. rewrite blas_like_spec by assumption. unfold Qdiv. apply Qmult_comp; [|reflexivity]. apply cnorm2_proper.
  apply amplitude_ext; intros; try (apply scaled_mode; assumption). reflexivity.
Qed.
(** ** The loop over g_pos *)
Lemma entries_nodup : forall nb0 nb z, 0 <= nb -> NoDup (map snd (entries nb0 nb z)).
Proof.
  intros nb0 nb z Hnb. unfold entries. rewrite map_flat_map'. apply NoDup_flat_map; [apply NoDup_zrange| |].
  - intros j Hj. rewrite map_flat_map'. apply NoDup_flat_map; [apply NoDup_zrange| |].
    + intros k Hk. rewrite map_flat_map'. apply NoDup_flat_map; [apply NoDup_zrange| |].
      * intros l Hl. destruct (negb _); cbn; repeat constructor; intros [].
      * intros l l' p Hl Hl' H1 H2. destruct (negb (z j k l)); [|destruct H1]. destruct (negb (z j k l')); [|destruct H2]. cbn in H1, H2. destruct H1 as [H1|[]], H2 as [H2|[]]. lia.
    + intros k k' p Hk Hk' H1 H2. apply in_zrange in Hk, Hk'. apply in_map_iff in H1 as [[[[? ?] ?] ?] [E1 H1]], H2 as [[[[? ?] ?] ?] [E2 H2]]. cbn in E1, E2. apply in_flat_map in H1 as [l [Hl H1]], H2 as [l' [Hl' H2]]. apply in_zrange in Hl, Hl'.
      destruct (negb (z j k l)); [|destruct H1]. destruct (negb (z j k' l')); [|destruct H2]. destruct H1 as [H1|[]], H2 as [H2|[]]. assert (X : (j * nb + k) * nb + l = (j * nb + k') * nb + l') by congruence. apply flat_inj in X; lia.
  - intros j j' p Hj Hj' H1 H2. apply in_zrange in Hj, Hj'. apply in_map_iff in H1 as [[[[? ?] ?] ?] [E1 H1]], H2 as [[[[? ?] ?] ?] [E2 H2]]. cbn in E1, E2. apply in_flat_map in H1 as [k [Hk H1]], H2 as [k' [Hk' H2]]. apply in_zrange in Hk, Hk'. apply in_flat_map in H1 as [l [Hl H1]], H2 as [l' [Hl' H2]]. apply in_zrange in Hl, Hl'.
    destruct (negb (z j k l)); [|destruct H1]. destruct (negb (z j' k' l')); [|destruct H2]. destruct H1 as [H1|[]], H2 as [H2|[]]. assert (X : (j * nb + k) * nb + l = (j' * nb + k') * nb + l') by congruence. apply flat_inj in X; [|lia|lia]. destruct X as [X _]. apply flat_inj in X; lia.
Qed.
Lemma entries_in : forall nb0 nb z e, In e (entries nb0 nb z) <-> exists j k l, 0 <= j < nb0 /\ 0 <= k < nb /\ 0 <= l < nb /\ z j k l = false /\ e = (j, k, l, (j * nb + k) * nb + l).
Proof.
  intros nb0 nb z e. unfold entries. split.
  - intros H. apply in_flat_map in H as [j [Hj H]]. apply in_flat_map in H as [k [Hk H]]. apply in_flat_map in H as [l [Hl H]]. apply in_zrange in Hj, Hk, Hl. destruct (z j k l) eqn:E; cbn in H; [contradiction|]. destruct H as [H|[]]. exists j, k, l. auto 6.
  - intros [j [k [l [Hj [Hk [Hl [E ->]]]]]]]. apply in_flat_map. exists j. split; [now apply in_zrange|]. apply in_flat_map. exists k. split; [now apply in_zrange|]. apply in_flat_map. exists l. split; [now apply in_zrange|]. rewrite E. now left.
Qed.
Section Loop.
Variables (isq : Z -> Q) (nb0 nb : Z) (cutoff : Q) (bi : Z -> Z) (gz : Z -> bool).
Hypothesis (Hnb0 : 0 <= nb0) (Hnb : 0 <= nb).
Hypothesis Hbi : forall j, 0 <= j < nb0 -> 0 <= bi j < nb.
Variables (fc : Z -> cplx) (f0 f1 f2 : Z -> Q) (ev0 ev1 ev2 : Z -> cplx).
Lemma loop_result : forall m m', finishes Z.eq_dec (r2n_progs isq nb cutoff bi fc f0 f1 f2 ev0 ev1 ev2 (set_g_pos nb0 nb gz)) m m' ->
  (forall j k l, 0 <= j < nb0 -> 0 <= k < nb -> 0 <= l < nb -> gz ((j * nb + k) * nb + l) = false ->
     Qeq (m' ((j * nb + k) * nb + l)) (strength isq nb cutoff (cube_of nb fc) f0 f1 f2 (mat_of nb ev0) (mat_of nb ev1) (mat_of nb ev2) (bi j) k l)) /\
  (forall a, (forall j k l, 0 <= j < nb0 -> 0 <= k < nb -> 0 <= l < nb -> gz ((j * nb + k) * nb + l) = false -> a <> (j * nb + k) * nb + l) -> m' a = m a).
Proof.
  intros m m' F. rewrite g_pos_entries in F by assumption. set (z := fun j k l => gz ((j * nb + k) * nb + l)) in F.
  set (val := fun e : gpos => let '(b0, b1, b2, p) := e in (p, r2n_value isq nb cutoff bi fc f0 f1 f2 ev0 ev1 ev2 b0 b1 b2)).
  assert (E : r2n_progs isq nb cutoff bi fc f0 f1 f2 ev0 ev1 ev2 (entries nb0 nb z) = map wprog (map (fun e => [val e]) (entries nb0 nb z))).
  { unfold r2n_progs. rewrite map_map. apply map_ext. intros [[[? ?] ?] ?]. reflexivity. }
  rewrite E in F. assert (Ec : concat (map (fun e => [val e]) (entries nb0 nb z)) = map val (entries nb0 nb z)).
  { clear. induction (entries nb0 nb z) as [|x l IH]; [reflexivity|]. cbn. now rewrite IH. }
  assert (Es : map fst (map val (entries nb0 nb z)) = map snd (entries nb0 nb z)) by (rewrite map_map; apply map_ext; intros [[[? ?] ?] ?]; reflexivity).
  assert (N : NoDup (map fst (concat (map (fun e => [val e]) (entries nb0 nb z))))) by (rewrite Ec, Es; now apply entries_nodup).
  pose proof (par_writes Z.eq_dec _ m m' N F) as P. rewrite Ec in P, N. split.
  - intros j k l Hj Hk Hl Hg. rewrite P. rewrite (store_in Z.eq_dec _ _ _ (r2n_value isq nb cutoff bi fc f0 f1 f2 ev0 ev1 ev2 j k l) N).
    + apply value_spec; try lia. apply Hbi, Hj.
    + apply in_map_iff. exists (j, k, l, (j * nb + k) * nb + l). split; [reflexivity|]. apply entries_in. exists j, k, l. auto 6.
  - intros a Ha. rewrite P. apply store_other. rewrite Es. intros H. apply in_map_iff in H as [e [E1 H]]. apply entries_in in H as [j [k [l [Hj [Hk [Hl [Hg ->]]]]]]]. cbn in E1. apply (Ha j k l Hj Hk Hl Hg). auto.
Qed.
End Loop.

(** ** C49 *)
Definition rotate (nb : Z) (th : Z -> cplx) (ev : Z -> cplx) (x : Z) : cplx := cmul (th (Z.rem x nb)) (ev x).
Lemma amplitude_phase : forall nb x y z u v w phi, amplitude nb (fun i => cmul x (u i)) (fun i => cmul y (v i)) (fun i => cmul z (w i)) phi =c= cmul (cmul (cmul x y) z) (amplitude nb u v w phi).
Proof.
  intros. unfold amplitude. rewrite <- CSum_scale. apply CSum_ext. intros i Hi. rewrite <- CSum_scale. apply CSum_ext. intros j Hj. rewrite <- CSum_scale. apply CSum_ext. intros k Hk. ring.
Qed.
Lemma strength_phase : forall isq nb cutoff phi f0 f1 f2 e0 e1 e2 t0 t1 t2 a b c, (cnorm2 (t0 a) == 1)%Q -> (cnorm2 (t1 b) == 1)%Q -> (cnorm2 (t2 c) == 1)%Q ->
  Qeq (strength isq nb cutoff phi f0 f1 f2 (fun i a => cmul (t0 a) (e0 i a)) (fun i a => cmul (t1 a) (e1 i a)) (fun i a => cmul (t2 a) (e2 i a)) a b c) (strength isq nb cutoff phi f0 f1 f2 e0 e1 e2 a b c).
Proof.
  intros. unfold strength. destruct (_ && _); [|reflexivity]. unfold Qdiv. apply Qmult_comp; [|reflexivity].
  transitivity (cnorm2 (amplitude nb (fun i => cmul (t0 a) (mode isq e0 a i)) (fun i => cmul (t1 b) (mode isq e1 b i)) (fun i => cmul (t2 c) (mode isq e2 c i)) phi)).
  - apply cnorm2_proper. apply amplitude_ext; try (intros; unfold mode; rewrite !cscale_mul; ring). reflexivity.
  - rewrite amplitude_phase, !cnorm2_mul, H, H0, H1. ring.
Qed.
Lemma strength_ext : forall isq nb cutoff phi phi' f0 f1 f2 e0 e1 e2 e0' e1' e2' a b c, (forall i, 0 <= i < nb -> e0 i a =c= e0' i a) -> (forall i, 0 <= i < nb -> e1 i b =c= e1' i b) -> (forall i, 0 <= i < nb -> e2 i c =c= e2' i c) ->
  (forall i j k, 0 <= i < nb -> 0 <= j < nb -> 0 <= k < nb -> phi i j k =c= phi' i j k) ->
  Qeq (strength isq nb cutoff phi f0 f1 f2 e0 e1 e2 a b c) (strength isq nb cutoff phi' f0 f1 f2 e0' e1' e2' a b c).
Proof.
  intros. unfold strength. destruct (_ && _); [|reflexivity]. unfold Qdiv. apply Qmult_comp; [|reflexivity]. apply cnorm2_proper, amplitude_ext; intros; unfold mode; try (apply cscale_proper; [reflexivity|auto]). auto.
Qed.
Lemma strength_nonneg : forall isq nb cutoff phi f0 f1 f2 e0 e1 e2 a b c, (0 <= cutoff)%Q -> (0 <= strength isq nb cutoff phi f0 f1 f2 e0 e1 e2 a b c)%Q.
Proof.
  intros. unfold strength. destruct (_ && _) eqn:E; [|lra]. apply andb_prop in E as [E E3]. apply andb_prop in E as [E1 E2]. apply qltb_lt in E1, E2, E3.
  unfold Qdiv. apply Qmult_le_0_compat; [apply cnorm2_nonneg|]. apply Qinv_le_0_compat. apply Qmult_le_0_compat; [apply Qmult_le_0_compat|]; lra.
Qed.
(** For every schedule of the loop: strengths are not negative and do not change when eigenvectors are multiplied by phase
    factors, one for each band at each of the three points. *)
Theorem C49_phases : forall isq nb0 nb cutoff bi gz fc f0 f1 f2 ev0 ev1 ev2 t0 t1 t2 ma ma' mb mb',
  0 <= nb0 -> 0 <= nb -> (forall j, 0 <= j < nb0 -> 0 <= bi j < nb) ->
  (forall a, cnorm2 (t0 a) == 1 /\ cnorm2 (t1 a) == 1 /\ cnorm2 (t2 a) == 1)%Q ->
  finishes Z.eq_dec (r2n_progs isq nb cutoff bi fc f0 f1 f2 ev0 ev1 ev2 (set_g_pos nb0 nb gz)) ma ma' ->
  finishes Z.eq_dec (r2n_progs isq nb cutoff bi fc f0 f1 f2 (rotate nb t0 ev0) (rotate nb t1 ev1) (rotate nb t2 ev2) (set_g_pos nb0 nb gz)) mb mb' ->
  forall j k l, 0 <= j < nb0 -> 0 <= k < nb -> 0 <= l < nb -> gz ((j * nb + k) * nb + l) = false ->
    Qeq (ma' ((j * nb + k) * nb + l)) (mb' ((j * nb + k) * nb + l)) /\ (Qle 0 cutoff -> Qle 0 (ma' ((j * nb + k) * nb + l))).
Proof.
  intros isq nb0 nb cutoff bi gz fc f0 f1 f2 ev0 ev1 ev2 t0 t1 t2 ma ma' mb mb' H0 Hn Hb Ht Fa Fb j k l Hj Hk Hl Hg.
  destruct (loop_result isq nb0 nb cutoff bi gz H0 Hn Hb fc f0 f1 f2 ev0 ev1 ev2 ma ma' Fa) as [A _]. destruct (loop_result isq nb0 nb cutoff bi gz H0 Hn Hb fc f0 f1 f2 _ _ _ mb mb' Fb) as [B _].
  specialize (A j k l Hj Hk Hl Hg). specialize (B j k l Hj Hk Hl Hg). rewrite A, B. split; [|apply strength_nonneg].
  rewrite <- (strength_phase isq nb cutoff _ f0 f1 f2 _ _ _ t0 t1 t2) by apply Ht. specialize (Hb j Hj). apply strength_ext; try reflexivity; intros i Hi; unfold mat_of, rotate; rewrite rem_flat by lia; reflexivity.
Qed.
Print Assumptions C49_phases.
Theorem C49_three_versions : forall e0 e1 e2 fc nb, 0 <= nb -> Qeq (fc3_sum e0 e1 e2 fc nb) (fc3_sum_blas_like e0 e1 e2 fc nb) /\ Qeq (fc3_sum_blas e0 e1 e2 fc nb) (fc3_sum_blas_like e0 e1 e2 fc nb).
Proof. intros. rewrite fc3_sum_spec, blas_spec, blas_like_spec by assumption. split; reflexivity. Qed.
Print Assumptions C49_three_versions.

(** ** C50 *)
(** strength of (band, point) pairs in a given order of the points *)
Definition ordered {V} (rec : V -> V -> V -> Z -> cplx) isq nb cutoff (f : Z -> Z -> Q) (ev : Z -> Z -> cplx) (q : Z -> V) (x y z a b c : Z) : Q :=
  strength isq nb cutoff (cube_of nb (rec (q x) (q y) (q z))) (f x) (f y) (f z) (mat_of nb (ev x)) (mat_of nb (ev y)) (mat_of nb (ev z)) a b c.
(** average over the six orders of (point 0, band a), (point 1, band b), (point 2, band c) *)
Definition averaged {V} (rec : V -> V -> V -> Z -> cplx) isq nb cutoff f ev (q : Z -> V) (a b c : Z) : Q :=
  let s := ordered rec isq nb cutoff f ev q in
  let p0 := s 0 1 2 a b c in let p1 := s 1 2 0 b c a in let p2 := s 2 0 1 c a b in
  let p3 := s 2 1 0 c b a in let p4 := s 1 0 2 b a c in let p5 := s 0 2 1 a c b in
  ((p0 + p1 + p2 + p3 + p4 + p5) / 6)%Q.
Lemma pick3 : forall n nb (F : Z -> Z -> Z -> Q) j k l, 0 <= j < n -> 0 <= k < nb -> 0 <= l < nb ->
  Qeq (Sum n (fun j' => Sum nb (fun k' => Sum nb (fun l' => if j' * nb * nb + k' * nb + l' =? (j * nb + k) * nb + l then F j' k' l' else 0%Q)))) (F j k l).
Proof.
  intros n nb F j k l Hj Hk Hl. etransitivity; [|apply (Sum_delta n j (fun j => F j k l) Hj)]. apply Sum_ext. intros j' Hj'. destruct (Z.eqb_spec j' j) as [->|N].
  - etransitivity; [|apply (Sum_delta nb k (fun k => F j k l) Hk)]. apply Sum_ext. intros k' Hk'. destruct (Z.eqb_spec k' k) as [->|N'].
    + etransitivity; [|apply (Sum_delta nb l (fun l => F j k l) Hl)]. apply Sum_ext. intros l' Hl'. destruct (Z.eqb_spec (j * nb * nb + k * nb + l') ((j * nb + k) * nb + l)), (Z.eqb_spec l' l); try lia; reflexivity.
    + apply Sum_zero. intros l' Hl'. destruct (Z.eqb_spec (j * nb * nb + k' * nb + l') ((j * nb + k) * nb + l)) as [E|]; [|reflexivity]. exfalso. apply N'. assert (E' : (j * nb + k') * nb + l' = (j * nb + k) * nb + l) by lia. apply flat_inj in E'; lia.
  - apply Sum_zero. intros k' Hk'. apply Sum_zero. intros l' Hl'. destruct (Z.eqb_spec (j' * nb * nb + k' * nb + l') ((j * nb + k) * nb + l)) as [E|]; [|reflexivity]. exfalso. apply N. assert (E' : (j' * nb + k') * nb + l' = (j * nb + k) * nb + l) by lia. apply flat_inj in E'; [|lia|lia]. destruct E' as [E' _]. apply flat_inj in E'; lia.
Qed.
Definition exband (bi : Z -> Z) (j k l y : Z) : Z := if y =? 0 then bi j else if y =? 1 then k else l.
Lemma sym_add_at : forall nb bi nb0 i ex m j k l, 0 <= j < nb0 -> 0 <= k < nb -> 0 <= l < nb ->
  Qeq (sym_add nb bi nb0 i ex m ((j * nb + k) * nb + l))
    (m ((j * nb + k) * nb + l)%Z + ex (exband bi j k l (index_exchange i 0) * nb * nb + exband bi j k l (index_exchange i 1) * nb + exband bi j k l (index_exchange i 2))%Z / 6)%Q.
Proof.
  intros nb bi nb0 i ex m j k l Hj Hk Hl. unfold sym_add.
  rewrite (fold3 (fun m j k l => upd m (j * nb * nb + k * nb + l) (m (j * nb * nb + k * nb + l)%Z + ex (exband bi j k l (index_exchange i 0) * nb * nb + exband bi j k l (index_exchange i 1) * nb + exband bi j k l (index_exchange i 2))%Z / 6)%Q)).
  rewrite (accum_upd _ (fun x => fst (fst x) * nb * nb + snd (fst x) * nb + snd x)
    (fun x => ex (exband bi (fst (fst x)) (snd (fst x)) (snd x) (index_exchange i 0) * nb * nb + exband bi (fst (fst x)) (snd (fst x)) (snd x) (index_exchange i 1) * nb + exband bi (fst (fst x)) (snd (fst x)) (snd x) (index_exchange i 2))%Z / 6)%Q).
  apply Qplus_comp; [reflexivity|].
  rewrite (sum3d (fun j' k' l' => if j' * nb * nb + k' * nb + l' =? (j * nb + k) * nb + l then (ex (exband bi j' k' l' (index_exchange i 0) * nb * nb + exband bi j' k' l' (index_exchange i 1) * nb + exband bi j' k' l' (index_exchange i 2))%Z / 6)%Q else 0%Q)).
  apply (pick3 nb0 nb (fun j k l => ex (exband bi j k l (index_exchange i 0) * nb * nb + exband bi j k l (index_exchange i 1) * nb + exband bi j k l (index_exchange i 2))%Z / 6)%Q); assumption.
Qed.
(** whatever the buffer and the result held before, and for every schedule, with all bands and no zero entry in g_zero *)
Theorem C50_average : forall (V : Type) (rec : V -> V -> V -> Z -> cplx) isq nb cutoff bi gz f ev q ex m m', 0 <= nb -> (forall j, 0 <= j < nb -> bi j = j) -> (forall p, gz p = false) ->
  sym_q rec isq nb cutoff bi (set_g_pos nb nb gz) f ev q nb ex m m' ->
  forall j k l, 0 <= j < nb -> 0 <= k < nb -> 0 <= l < nb -> Qeq (m' ((j * nb + k) * nb + l)) (averaged rec isq nb cutoff f ev q j k l).
Proof.
  intros V rec isq nb cutoff bi gz f ev q ex m m' Hn Hb Hg [Hc ->] j k l Hj Hk Hl.
  assert (Hb' : forall j, 0 <= j < nb -> 0 <= bi j < nb) by (intros x Hx; rewrite Hb; assumption).
  assert (Hx : forall i a b c, 0 <= i < 6 -> 0 <= a < nb -> 0 <= b < nb -> 0 <= c < nb ->
    Qeq (ex (i + 1) (a * nb * nb + b * nb + c)) (ordered rec isq nb cutoff f ev q (index_exchange i 0) (index_exchange i 1) (index_exchange i 2) a b c)).
  { intros i a b c Hi Ha Hbb Hc'. specialize (Hc i Hi). unfold sym_call, real_to_normal in Hc. destruct (loop_result isq nb nb cutoff bi gz Hn Hn Hb' _ _ _ _ _ _ _ _ _ Hc) as [R _].
    replace (a * nb * nb + b * nb + c) with ((a * nb + b) * nb + c) by ring. rewrite R by (try assumption; apply Hg). rewrite Hb by assumption. reflexivity. }
  change (zrange 6) with [0; 1; 2; 3; 4; 5]. cbn [fold_left]. repeat rewrite (sym_add_at nb bi nb) by assumption.
  rewrite zero_upd by (pose proof (flat_range nb nb j k Hj Hk); pose proof (flat_range (nb * nb) nb (j * nb + k) l); nia).
  unfold averaged.
  pose proof (Hx 0 j k l ltac:(lia) Hj Hk Hl) as E0. pose proof (Hx 1 l j k ltac:(lia) Hl Hj Hk) as E1. pose proof (Hx 2 k l j ltac:(lia) Hk Hl Hj) as E2. pose proof (Hx 3 l k j ltac:(lia) Hl Hk Hj) as E3. pose proof (Hx 4 j l k ltac:(lia) Hj Hl Hk) as E4. pose proof (Hx 5 k j l ltac:(lia) Hk Hj Hl) as E5.
  unfold exband. rewrite (Hb j Hj).
  change (index_exchange 0 0) with 0 in *. change (index_exchange 0 1) with 1 in *. change (index_exchange 0 2) with 2 in *.
  change (index_exchange 1 0) with 2 in *. change (index_exchange 1 1) with 0 in *. change (index_exchange 1 2) with 1 in *.
  change (index_exchange 2 0) with 1 in *. change (index_exchange 2 1) with 2 in *. change (index_exchange 2 2) with 0 in *.
  change (index_exchange 3 0) with 2 in *. change (index_exchange 3 1) with 1 in *. change (index_exchange 3 2) with 0 in *.
  change (index_exchange 4 0) with 0 in *. change (index_exchange 4 1) with 2 in *. change (index_exchange 4 2) with 1 in *.
  change (index_exchange 5 0) with 1 in *. change (index_exchange 5 1) with 0 in *. change (index_exchange 5 2) with 2 in *.
  cbn [Z.eqb Pos.eqb]. rewrite E0, E1, E2, E3, E4, E5. field.
Qed.
Print Assumptions C50_average.
(** exchange of the points *)
Theorem C50_exchange : forall (V : Type) (rec : V -> V -> V -> Z -> cplx) isq nb cutoff bi gz f ev q (s : Z -> Z) ex m m' ex1 m1 m1', 0 <= nb -> (forall j, 0 <= j < nb -> bi j = j) -> (forall p, gz p = false) ->
  (forall x, 0 <= x < 3 -> 0 <= s x < 3) -> (forall x y, 0 <= x < 3 -> 0 <= y < 3 -> s x = s y -> x = y) ->
  sym_q rec isq nb cutoff bi (set_g_pos nb nb gz) f ev q nb ex m m' ->
  sym_q rec isq nb cutoff bi (set_g_pos nb nb gz) (fun x => f (s x)) (fun x => ev (s x)) (fun x => q (s x)) nb ex1 m1 m1' ->
  forall b : Z -> Z, (forall x, 0 <= x < 3 -> 0 <= b x < nb) -> Qeq (m1' ((b (s 0) * nb + b (s 1)) * nb + b (s 2))) (m' ((b 0 * nb + b 1) * nb + b 2)).
Proof.
  intros V rec isq nb cutoff bi gz f ev q s ex m m' ex1 m1 m1' Hn Hb Hg Hs Hi S S1 b Hr.
  rewrite (C50_average _ _ _ _ _ _ _ _ _ _ _ _ _ Hn Hb Hg S1) by (apply Hr, Hs; lia). rewrite (C50_average _ _ _ _ _ _ _ _ _ _ _ _ _ Hn Hb Hg S) by (apply Hr; lia).
  assert (H0 := Hs 0 ltac:(lia)). assert (H1 := Hs 1 ltac:(lia)). assert (H2 := Hs 2 ltac:(lia)).
  assert (N01 : s 0 <> s 1) by (intros E; apply Hi in E; lia). assert (N02 : s 0 <> s 2) by (intros E; apply Hi in E; lia). assert (N12 : s 1 <> s 2) by (intros E; apply Hi in E; lia).
  unfold averaged, ordered. unfold Qdiv. apply Qmult_comp; [|reflexivity].
  assert (C : (s 0 = 0 /\ s 1 = 1 /\ s 2 = 2) \/ (s 0 = 0 /\ s 1 = 2 /\ s 2 = 1) \/ (s 0 = 1 /\ s 1 = 0 /\ s 2 = 2) \/ (s 0 = 1 /\ s 1 = 2 /\ s 2 = 0) \/ (s 0 = 2 /\ s 1 = 0 /\ s 2 = 1) \/ (s 0 = 2 /\ s 1 = 1 /\ s 2 = 0)) by lia.
  repeat (destruct C as [C|C]); destruct C as [E0 [E1 E2]]; rewrite E0, E1, E2; ring.
Qed.
Print Assumptions C50_exchange.
(** ** Witnesses. A run always exists: *)
Fixpoint seq_ex {V} (rec : V -> V -> V -> Z -> cplx) isq nb cutoff bi gp f ev (q : Z -> V) (junk : Z -> Q) (n : nat) : Z -> Q :=
  match n with O => junk | S n => run_seq Z.eq_dec (sym_call rec isq nb cutoff bi gp f ev q (Z.of_nat n)) (seq_ex rec isq nb cutoff bi gp f ev q junk n) end.
Definition seq_sym {V} (rec : V -> V -> V -> Z -> cplx) isq nb cutoff bi gp f ev (q : Z -> V) (nb0 : Z) (junk m : Z -> Q) : Z -> Q :=
  fold_left (fun m i => sym_add nb bi nb0 i (seq_ex rec isq nb cutoff bi gp f ev q junk (Z.to_nat (i + 1))) m) (zrange 6) (fold_left (fun m i => upd m i 0%Q) (zrange (nb0 * nb * nb)) m).
Lemma sym_runs : forall V (rec : V -> V -> V -> Z -> cplx) isq nb cutoff bi gp f ev (q : Z -> V) nb0 junk m,
  sym_q rec isq nb cutoff bi gp f ev q nb0 (fun i => seq_ex rec isq nb cutoff bi gp f ev q junk (Z.to_nat i)) m (seq_sym rec isq nb cutoff bi gp f ev q nb0 junk m).
Proof.
  intros. split; [|reflexivity]. intros i Hi. replace (Z.to_nat (i + 1)) with (S (Z.to_nat i)) by lia. cbn [seq_ex]. rewrite Z2Nat.id by lia. apply seq_finishes.
Qed.
(** One atom (3 bands), band 1 chosen (num_band0 = 1): the code reads what malloc returned. *)
Definition w_rec (q0 q1 q2 : Q) (p : Z) : cplx := if p =? 26 then c1 else c0.
Definition w_ev (x p : Z) : cplx := if (p =? 0) || (p =? 4) || (p =? 8) then c1 else c0.
Theorem C50_band_subset_refuted : exists junk junk' m,
  let run := fun junk => seq_sym w_rec (fun _ => 1%Q) 3 0%Q (fun _ => 1) (set_g_pos 1 3 (fun _ => false)) (fun _ _ => 1%Q) w_ev (fun _ => 0%Q) 1 junk m in
  (forall junk, exists ex, sym_q w_rec (fun _ => 1%Q) 3 0%Q (fun _ => 1) (set_g_pos 1 3 (fun _ => false)) (fun _ _ => 1%Q) w_ev (fun _ => 0%Q) 1 ex m (run junk)) /\
  ~ Qeq (run junk 0) (run junk' 0) /\ ~ Qeq (run junk 0) (averaged w_rec (fun _ => 1%Q) 3 0%Q (fun _ _ => 1%Q) w_ev (fun _ => 0%Q) 1 0 0).
Proof.
  exists (fun _ => 7%Q), (fun _ => 0%Q), (fun _ => 0%Q). cbv zeta. split; [intros j; eexists; apply sym_runs|]. split; vm_compute; discriminate.
Qed.
Print Assumptions C50_band_subset_refuted.
(** All bands, as in pp_collision.c 218-250 where g_pos lists the entries where the integration weights are not zero *)
Theorem C50_sparse_refuted : exists junk junk' m,
  let run := fun junk => seq_sym w_rec (fun _ => 1%Q) 3 0%Q (fun j => j) (set_g_pos 3 3 (fun p => p =? 1)) (fun _ _ => 1%Q) w_ev (fun _ => 0%Q) 3 junk m in
  (forall junk, exists ex, sym_q w_rec (fun _ => 1%Q) 3 0%Q (fun j => j) (set_g_pos 3 3 (fun p => p =? 1)) (fun _ _ => 1%Q) w_ev (fun _ => 0%Q) 3 ex m (run junk)) /\
  ~ Qeq (run junk 3) (run junk' 3) /\ ~ Qeq (run junk 3) (averaged w_rec (fun _ => 1%Q) 3 0%Q (fun _ _ => 1%Q) w_ev (fun _ => 0%Q) 0 1 0).
Proof.
  exists (fun _ => 7%Q), (fun _ => 0%Q), (fun _ => 0%Q). cbv zeta. split; [intros j; eexists; apply sym_runs|]. split; vm_compute; discriminate.
Qed.
Print Assumptions C50_sparse_refuted.
(** ** Examples *)
Definition i_ : cplx := C 0 1.
Example C49_ex : exists ma mb, finishes Z.eq_dec (r2n_progs (fun _ => (1 # 2)%Q) 3 0%Q (fun j => j + 2) (w_rec 0 0 0) (fun _ => 2%Q) (fun _ => 1%Q) (fun _ => 1%Q) (w_ev 0) (w_ev 0) (w_ev 0) (set_g_pos 1 3 (fun p => p =? 1))) (fun _ => 0%Q) ma /\
  finishes Z.eq_dec (r2n_progs (fun _ => (1 # 2)%Q) 3 0%Q (fun j => j + 2) (w_rec 0 0 0) (fun _ => 2%Q) (fun _ => 1%Q) (fun _ => 1%Q) (rotate 3 (fun _ => i_) (w_ev 0)) (rotate 3 (fun b => if b =? 1 then i_ else c1) (w_ev 0)) (rotate 3 (fun _ => copp c1) (w_ev 0)) (set_g_pos 1 3 (fun p => p =? 1))) (fun _ => 0%Q) mb /\
  Qeq (ma 8) (1 # 128) /\ Qeq (mb 8) (1 # 128) /\ (cnorm2 i_ == 1)%Q /\ (cnorm2 (copp c1) == 1)%Q.
Proof. do 2 eexists. split; [apply seq_finishes|]. split; [apply seq_finishes|]. repeat split; vm_compute; reflexivity. Qed.
Example C50_ex : exists ex m', sym_q w_rec (fun _ => 1%Q) 3 0%Q (fun j => j) (set_g_pos 3 3 (fun _ => false)) (fun _ _ => 1%Q) w_ev (fun _ => 0%Q) 3 ex (fun _ => 5%Q) m' /\ Qeq (m' 26) 1 /\ Qeq (m' 3) 0.
Proof. do 2 eexists. split; [apply sym_runs with (junk := fun _ => 7%Q)|]. split; vm_compute; reflexivity. Qed.
Example C49_versions_ex : Qeq (fc3_sum (w_ev 0) (w_ev 0) (w_ev 0) (fun p => C (inject_Z p) 1) 2) 1.
Proof. reflexivity. Qed.
