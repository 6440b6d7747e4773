(** C17, C48, C61, C62: imaginary part of self-energy. *)
From Coq Require Import ZArith QArith List Bool Lia Lqa.
From Verif Require Import Base BaseProofs Mat3 QMat Par Par2 Fc3Model Fc3Transpose Fc3Trans IseModel IseSpec IseProofs.
Import ListNotations.
Open Scope Z_scope.

Definition all_triplets : Z -> bool := fun _ => true.
Section P.
Variable bose : Q -> Q -> Q.

(** ** C48: skipping the entries marked zero loses nothing *)
Definition nrow (nb0 nfp fpi : Z) : Z := if fpi <? 0 then nb0 else nfp.
Definition row (fpi j : Z) : Z := if fpi <? 0 then j else fpi.

Lemma with_g_entries : forall nb0 nb nfp fpi gz i, 0 <= nb0 -> 0 <= nb ->
  with_g_gpos nb0 nb nfp fpi gz i = entries nb0 nb (fun j k l => arr4 (nrow nb0 nfp fpi) nb nb gz i (row fpi j) k l).
Proof.
  intros nb0 nb nfp fpi gz i H0 H1. unfold with_g_gpos, g_index_dims, g_index_shift, nrow, row, arr4.
  destruct (fpi <? 0); [rewrite g_pos_entries by auto|rewrite g_pos_freq_entries by auto]; unfold entries;
  apply flat_map_ext; intros j; apply flat_map_ext; intros k; apply flat_map_ext; intros l;
  match goal with |- (if negb (gz ?a) then _ else _) = (if negb (gz ?b) then _ else _) => replace a with b by ring end; reflexivity.
Qed.

Theorem C48_sparse_sum_equals_full_sum : forall nb0 nb ntrip nfp fpi phi freq triplets weights g gz T cutoff at_g0 at_g ise0 ise,
  0 <= nb0 -> 0 <= nb -> 0 <= ntrip -> fpi < nfp -> occ_ok bose cutoff ->
  zeros_ok ntrip (nrow nb0 nfp fpi) nb g gz ->
  (* any schedule of the loop over marked entries of every triplet, any schedule of the loop over triplets *)
  (forall i, 0 <= i < ntrip ->
     finishes Z.eq_dec (with_g_inner bose nb0 nb ntrip nfp fpi phi freq triplets weights g gz T cutoff i) (at_g0 i) (at_g i)) ->
  finishes Z.eq_dec (with_g_outer nb0 nb ntrip nfp fpi gz at_g) ise0 ise ->
  forall j, 0 <= j < nb0 ->
    Qeq (sum_triplets nb0 ntrip ise j)
        (self_energy all_triplets bose nb0 nb ntrip (nrow nb0 nfp fpi) phi freq triplets weights g T cutoff j (row fpi j)).
Proof.
  intros nb0 nb ntrip nfp fpi phi freq triplets weights g gz T cutoff at_g0 at_g ise0 ise H0 H1 H2 Hf Hocc Hz Fin Fout j Hj.
  unfold sum_triplets. rewrite fold_qsum, Qplus_0_l. apply Sum_ext. intros i Hi. unfold all_triplets. cbn iota.
  specialize (Fin i Hi). unfold with_g_inner, with_g_outer in *.
  set (z := fun i j k l => arr4 (nrow nb0 nfp fpi) nb nb gz i (row fpi j) k l).
  assert (Fout' : finishes Z.eq_dec (map (fun i => ise_at_triplet_prog (i * (1 * nb0)) nb0 1 (entries nb0 nb (z i)) (at_g i)) (zrange ntrip)) ise0 ise).
  { erewrite map_ext in Fout; [exact Fout|]. intros x. rewrite with_g_entries by auto. f_equal. ring. }
  replace (i * nb0 + j) with (i * (1 * nb0) + (0 * nb0 + j)) by ring.
  rewrite (outer_result nb0 nb ntrip 1 z at_g ise0 ise i (0 * nb0 + j)); try lia; [|exact Fout'].
  rewrite with_g_entries in Fin by auto. fold (z i) in Fin.
  assert (L1 : 0 <= 1) by lia. assert (L0 : 0 <= 0 < 1) by lia.
  pose proof (fun Hz' => triplet_sum bose _ _ _ _ _ _ _ _ _ _ _ _ _ _ _ (i * (1 * nb0)) ise0 0 j H0 H1 L1 L0 Hj Hocc Hz' Fin) as TS.
  rewrite TS; clear TS.
  - apply Qmult_comp; [reflexivity|]. apply Sum_ext. intros k Hk. apply Sum_ext. intros l Hl.
    unfold arr5, arr4, nrow, row, g_index_dims, g_index_shift. destruct (fpi <? 0); cbn [negb].
    + assert (E : forall a b c a' b' c' f1 f2, a = a' -> b = b' -> c = c' -> Qeq (contribution bose T cutoff f1 f2 (g a) (g b) (phi c)) (contribution bose T cutoff f1 f2 (g a') (g b') (phi c')))
        by (intros; subst; reflexivity). apply E; ring.
    + assert (E : forall a b c a' b' c' f1 f2, a = a' -> b = b' -> c = c' -> Qeq (contribution bose T cutoff f1 f2 (g a) (g b) (phi c)) (contribution bose T cutoff f1 f2 (g a') (g b') (phi c')))
        by (intros; subst; reflexivity). apply E; ring.
  - intros k l Hk Hl Hzz. unfold z in Hzz.
    destruct (Hz i (row fpi j) k l Hi) as [G1 G2]; auto.
    { unfold row, nrow. destruct (Z.ltb_spec fpi 0); lia. }
    unfold arr5, nrow, row in G1, G2. unfold g_index_dims, g_index_shift. destruct (fpi <? 0); cbn [negb].
    + split; [rewrite <- G1|rewrite <- G2]; match goal with |- Qeq (g ?a) (g ?b) => replace a with b by ring end; reflexivity.
    + split; [rewrite <- G1|rewrite <- G2]; match goal with |- Qeq (g ?a) (g ?b) => replace a with b by ring end; reflexivity.
Qed.

(** the low-memory path (c/pp_collision.c 67-253): g and g_zero of one triplet at a time, several
    temperatures; phi i is fc3_normal_squared of triplet i, g1 i and g23 i the planes of its g *)
Definition lowmem_gpos (nb0 nb : Z) (gz : Z -> Z -> bool) (i : Z) : list gpos := set_g_pos nb0 nb (gz i).
Definition lowmem_inner (nb0 nb : Z) (phi : Z -> Z -> Q) (freq : Z -> Q) (triplets : Z -> tp3) (weights : Z -> Z) (g : Z -> Z -> Q) (gz : Z -> Z -> bool)
    (temps : Z -> Q) (nt : Z) (cutoff : Q) (i : Z) : list (@prog Z Q) :=
  map (ise_at_g_pos_prog bose nb0 nb (phi i) freq (triplets i) (inject_Z (weights i)) (g i) (fun x => g i (nb0 * nb * nb + x)) (lowmem_gpos nb0 nb gz i)
         temps nt cutoff false) (zrange (Z.of_nat (length (lowmem_gpos nb0 nb gz i)))).
Definition lowmem_outer (nb0 nb ntrip nt : Z) (gz : Z -> Z -> bool) (at_g : Z -> Z -> Q) : list (@prog Z Q) :=
  map (fun i => ise_at_triplet_prog (i * nt * nb0) nb0 nt (lowmem_gpos nb0 nb gz i) (at_g i)) (zrange ntrip).
(** the same sum for these arrays *)
Definition lowmem_self_energy (sel : Z -> bool) (nb0 nb ntrip : Z) (phi : Z -> Z -> Q) (freq : Z -> Q) (triplets : Z -> tp3) (weights : Z -> Z)
    (g : Z -> Z -> Q) (T cutoff : Q) (b : Z) : Q :=
  Sum ntrip (fun i => if sel i then inject_Z (weights i) * Sum nb (fun k => Sum nb (fun l =>
    contribution bose T cutoff (freq (tp_at (triplets i) 1 * nb + k)%Z) (freq (tp_at (triplets i) 2 * nb + l)%Z)
      (arr4 nb0 nb nb (g i) 0 b k l) (arr4 nb0 nb nb (g i) 1 b k l) (arr4 nb0 nb nb (phi i) 0 b k l))) else 0)%Q.

Lemma ise_after_loops : forall nb0 nb ntrip nt phi freq triplets weights g gz temps cutoff at_g0 at_g ise0 ise i j b,
  0 <= nb0 -> 0 <= nb -> 0 <= nt -> occ_ok bose cutoff ->
  (forall i b k l, 0 <= i < ntrip -> 0 <= b < nb0 -> 0 <= k < nb -> 0 <= l < nb -> arr4 nb0 nb nb (gz i) 0 b k l = true ->
     Qeq (arr4 nb0 nb nb (g i) 0 b k l) 0 /\ Qeq (arr4 nb0 nb nb (g i) 1 b k l) 0) ->
  (forall i, 0 <= i < ntrip -> finishes Z.eq_dec (lowmem_inner nb0 nb phi freq triplets weights g gz temps nt cutoff i) (at_g0 i) (at_g i)) ->
  finishes Z.eq_dec (lowmem_outer nb0 nb ntrip nt gz at_g) ise0 ise ->
  0 <= i < ntrip -> 0 <= j < nt -> 0 <= b < nb0 ->
  Qeq (ise (i * nt * nb0 + j * nb0 + b)) (inject_Z (weights i) * Sum nb (fun k => Sum nb (fun l =>
    contribution bose (temps j) cutoff (freq (tp_at (triplets i) 1 * nb + k)%Z) (freq (tp_at (triplets i) 2 * nb + l)%Z)
      (arr4 nb0 nb nb (g i) 0 b k l) (arr4 nb0 nb nb (g i) 1 b k l) (arr4 nb0 nb nb (phi i) 0 b k l)))).
Proof.
  intros nb0 nb ntrip nt phi freq triplets weights g gz temps cutoff at_g0 at_g ise0 ise i j b H0 H1 H2 Hocc Hz Fin Fout Hi Hj Hb.
  specialize (Fin i Hi). unfold lowmem_inner, lowmem_outer, lowmem_gpos in *.
  set (z := fun i j k l => gz i ((j * nb + k) * nb + l)).
  assert (Fout' : finishes Z.eq_dec (map (fun i => ise_at_triplet_prog (i * (nt * nb0)) nb0 nt (entries nb0 nb (z i)) (at_g i)) (zrange ntrip)) ise0 ise).
  { erewrite map_ext in Fout; [exact Fout|]. intros x. rewrite g_pos_entries by auto. f_equal. ring. }
  replace (i * nt * nb0 + j * nb0 + b) with (i * (nt * nb0) + (j * nb0 + b)) by ring.
  rewrite (outer_result nb0 nb ntrip nt z at_g ise0 ise i (j * nb0 + b)); auto; [|apply flat_range; auto].
  rewrite g_pos_entries in Fin by auto. fold (z i) in Fin.
  pose proof (fun Hz' => triplet_sum bose _ _ _ _ _ _ _ _ _ _ _ _ _ _ _ (i * (nt * nb0)) ise0 j b H0 H1 H2 Hj Hb Hocc Hz' Fin) as TS.
  rewrite TS; clear TS.
  - apply Qmult_comp; [reflexivity|]. apply Sum_ext. intros k Hk. apply Sum_ext. intros l Hl. unfold arr4.
    assert (E : forall a b0 c a' b' c' f1 f2, a = a' -> b0 = b' -> c = c' -> Qeq (contribution bose (temps j) cutoff f1 f2 (g i a) (g i b0) (phi i c)) (contribution bose (temps j) cutoff f1 f2 (g i a') (g i b') (phi i c')))
        by (intros; subst; reflexivity). apply E; ring.
  - intros k l Hk Hl Hzz. unfold z in Hzz. destruct (Hz i b k l Hi Hb Hk Hl) as [G1 G2].
    { unfold arr4. rewrite <- Hzz. f_equal. }
    unfold arr4 in G1, G2. cbn iota zeta.
    split; [rewrite <- G1|rewrite <- G2]; match goal with |- Qeq (g i ?a) (g i ?b) => replace a with b by ring end; reflexivity.
Qed.
End P.

(** ** finalize_ise *)
Lemma fold3 : forall (f : (Z -> Q) -> Z -> Z -> Z -> (Z -> Q)) a b c (m : Z -> Q),
  fold_left (fun m i => fold_left (fun m j => fold_left (fun m k => f m i j k) (zrange c) m) (zrange b) m) (zrange a) m
  = fold_left (fun m x => f m (fst (fst x)) (snd (fst x)) (snd x))
      (flat_map (fun i => flat_map (fun j => map (fun k => (i, j, k)) (zrange c)) (zrange b)) (zrange a)) m.
Proof.
  intros f a b c m. rewrite fold_flat_map. apply fold_ext. intros m1 i _. rewrite fold_flat_map. apply fold_ext. intros m2 j _.
  rewrite fold_map. reflexivity.
Qed.
Lemma sum3d : forall (F : Z -> Z -> Z -> Q) a b c,
  Qeq (qsum (map (fun x => F (fst (fst x)) (snd (fst x)) (snd x)) (flat_map (fun i => flat_map (fun j => map (fun k => (i, j, k)) (zrange c)) (zrange b)) (zrange a))))
      (Sum a (fun i => Sum b (fun j => Sum c (fun k => F i j k)))).
Proof.
  intros F a b c. rewrite map_flat_map', qs_flat_map. apply Sum_ext. intros i _. rewrite map_flat_map', qs_flat_map.
  apply Sum_ext. intros j _. rewrite map_map. reflexivity.
Qed.
Lemma pick : forall nt nb0 j b sh (F : Z -> Z -> Q), 0 <= j < nt -> 0 <= b < nb0 ->
  Qeq (Sum nt (fun j' => Sum nb0 (fun k => if sh + (j' * nb0 + k) =? sh + (j * nb0 + b) then F j' k else 0%Q))) (F j b).
Proof.
  intros nt nb0 j b sh F Hj Hb. etransitivity; [|apply (Sum_delta nt j (fun j => F j b) Hj)]. apply Sum_ext. intros j' Hj'.
  destruct (Z.eqb_spec j' j) as [->|Nj].
  - etransitivity; [|apply (Sum_delta nb0 b (fun b => F j b) Hb)]. apply Sum_ext. intros k Hk.
    destruct (Z.eqb_spec (sh + (j * nb0 + k)) (sh + (j * nb0 + b))), (Z.eqb_spec k b); try lia; reflexivity.
  - apply Sum_zero. intros k Hk. destruct (Z.eqb_spec (sh + (j' * nb0 + k)) (sh + (j * nb0 + b))) as [E|]; [|reflexivity].
    exfalso. apply Nj. assert (E' : j' * nb0 + k = j * nb0 + b) by lia. eapply flat_inj in E'; [tauto|lia|lia].
Qed.
Lemma finalize_total : forall ise isN ntrip nt nb0 m j b, 0 <= j < nt -> 0 <= b < nb0 ->
  Qeq (finalize_ise ise isN ntrip nt nb0 false m (j * nb0 + b)) (Sum ntrip (fun i => ise (i * nt * nb0 + j * nb0 + b))).
Proof.
  intros ise isN ntrip nt nb0 m j b Hj Hb. unfold finalize_ise. rewrite (fold3 (fun m i j k => upd m (j * nb0 + k) (m (j * nb0 + k)%Z + ise (i * nt * nb0 + j * nb0 + k)%Z)%Q)).
  rewrite (accum_upd _ (fun x => snd (fst x) * nb0 + snd x) (fun x => ise (fst (fst x) * nt * nb0 + snd (fst x) * nb0 + snd x))).
  rewrite zero_upd by (apply flat_range; auto). rewrite Qplus_0_l.
  rewrite (sum3d (fun i j' k => if j' * nb0 + k =? j * nb0 + b then ise (i * nt * nb0 + j' * nb0 + k) else 0%Q)).
  apply Sum_ext. intros i Hi. apply (pick nt nb0 j b 0 (fun j' k => ise (i * nt * nb0 + j' * nb0 + k))); auto.
Qed.
Lemma finalize_NU : forall ise isN ntrip nt nb0 m j b (half : bool), 0 <= j < nt -> 0 <= b < nb0 ->
  Qeq (finalize_ise ise isN ntrip nt nb0 true m ((if half then nt * nb0 else 0) + (j * nb0 + b)))
      (Sum ntrip (fun i => if Bool.eqb (isN i) (negb half) then ise (i * nt * nb0 + j * nb0 + b)%Z else 0%Q)).
Proof.
  intros ise isN ntrip nt nb0 m j b half Hj Hb. unfold finalize_ise.
  rewrite (fold3 (fun m i j k => let a := if isN i then j * nb0 + k else nt * nb0 + j * nb0 + k in upd m a (m a + ise (i * nt * nb0 + j * nb0 + k)%Z)%Q)).
  rewrite (accum_upd _ (fun x => if isN (fst (fst x)) then snd (fst x) * nb0 + snd x else nt * nb0 + snd (fst x) * nb0 + snd x)
     (fun x => ise (fst (fst x) * nt * nb0 + snd (fst x) * nb0 + snd x))).
  pose proof (flat_range nb0 nt j b Hj Hb) as R.
  rewrite zero_upd by (destruct half; nia). rewrite Qplus_0_l.
  rewrite (sum3d (fun i j' k => if (if isN i then j' * nb0 + k else nt * nb0 + j' * nb0 + k) =? (if half then nt * nb0 else 0) + (j * nb0 + b)
                                then ise (i * nt * nb0 + j' * nb0 + k) else 0%Q)).
  apply Sum_ext. intros i Hi. destruct (isN i), half; cbn [negb Bool.eqb].
  - apply Sum_zero. intros j' Hj'. apply Sum_zero. intros k Hk. pose proof (flat_range nb0 nt j' k Hj' Hk).
    destruct (Z.eqb_spec (j' * nb0 + k) (nt * nb0 + (j * nb0 + b))); [lia|reflexivity].
  - apply (pick nt nb0 j b 0 (fun j' k => ise (i * nt * nb0 + j' * nb0 + k))); auto.
  - etransitivity; [|apply (pick nt nb0 j b (nt * nb0) (fun j' k => ise (i * nt * nb0 + j' * nb0 + k))); auto].
    apply Sum_ext. intros j' Hj'. apply Sum_ext. intros k Hk. rewrite <- Z.add_assoc. reflexivity.
  - apply Sum_zero. intros j' Hj'. apply Sum_zero. intros k Hk. pose proof (flat_range nb0 nt j' k Hj' Hk).
    destruct (Z.eqb_spec (nt * nb0 + j' * nb0 + k) (0 + (j * nb0 + b))); [lia|reflexivity].
Qed.
Lemma is_N_normal : forall addr t, tpl_is_N addr t = true <-> normal addr t.
Proof.
  intros addr [[t0 t1] t2]. unfold tpl_is_N, normal. rewrite forallb_forall. change (zrange 3) with [0; 1; 2]. cbn [fold_left tp_at Z.eqb Pos.eqb]. split.
  - intros H c Hc. assert (Hin : In c [0; 1; 2]) by (cbn; lia). specialize (H c Hin). apply Z.eqb_eq in H. lia.
  - intros H c Hc. assert (Hc' : 0 <= c < 3) by (cbn in Hc; lia). specialize (H c Hc'). apply Z.eqb_eq. lia.
Qed.
Lemma sel_split : forall ntrip (p : Z -> bool) (f : Z -> Q),
  Qeq (Sum ntrip (fun i => if p i then f i else 0%Q) + Sum ntrip (fun i => if negb (p i) then f i else 0%Q)) (Sum ntrip f).
Proof. intros. rewrite <- Sum_add. apply Sum_ext. intros i _. destruct (p i); cbn [negb]; lra. Qed.

Section P2.
Variable bose : Q -> Q -> Q.
(** C48 on the low-memory path, one temperature j, one band b *)
Theorem C48_lowmem_sparse_sum_equals_full_sum : forall nb0 nb ntrip nt phi freq triplets weights g gz temps cutoff at_g0 at_g ise0 ise m isN,
  0 <= nb0 -> 0 <= nb -> 0 <= nt -> occ_ok bose cutoff ->
  (forall i b k l, 0 <= i < ntrip -> 0 <= b < nb0 -> 0 <= k < nb -> 0 <= l < nb -> arr4 nb0 nb nb (gz i) 0 b k l = true ->
     Qeq (arr4 nb0 nb nb (g i) 0 b k l) 0 /\ Qeq (arr4 nb0 nb nb (g i) 1 b k l) 0) ->
  (forall i, 0 <= i < ntrip -> finishes Z.eq_dec (lowmem_inner bose nb0 nb phi freq triplets weights g gz temps nt cutoff i) (at_g0 i) (at_g i)) ->
  finishes Z.eq_dec (lowmem_outer nb0 nb ntrip nt gz at_g) ise0 ise ->
  forall j b, 0 <= j < nt -> 0 <= b < nb0 ->
    Qeq (finalize_ise ise isN ntrip nt nb0 false m (j * nb0 + b))
        (lowmem_self_energy bose all_triplets nb0 nb ntrip phi freq triplets weights g (temps j) cutoff b).
Proof.
  intros nb0 nb ntrip nt phi freq triplets weights g gz temps cutoff at_g0 at_g ise0 ise m isN H0 H1 H2 Hocc Hz Fin Fout j b Hj Hb.
  rewrite finalize_total by auto. apply Sum_ext. intros i Hi. unfold all_triplets. cbn iota.
  eapply ise_after_loops; eauto.
Qed.

(** ** C17 *)
(** low-memory path with N and U separated: each is the sum over its own triplets, together the total *)
Theorem C17_lowmem_N_and_U : forall addr nb0 nb ntrip nt phi freq triplets weights g gz temps cutoff at_g0 at_g ise0 ise m m2,
  0 <= nb0 -> 0 <= nb -> 0 <= nt -> occ_ok bose cutoff ->
  (forall i b k l, 0 <= i < ntrip -> 0 <= b < nb0 -> 0 <= k < nb -> 0 <= l < nb -> arr4 nb0 nb nb (gz i) 0 b k l = true ->
     Qeq (arr4 nb0 nb nb (g i) 0 b k l) 0 /\ Qeq (arr4 nb0 nb nb (g i) 1 b k l) 0) ->
  (forall i, 0 <= i < ntrip -> finishes Z.eq_dec (lowmem_inner bose nb0 nb phi freq triplets weights g gz temps nt cutoff i) (at_g0 i) (at_g i)) ->
  finishes Z.eq_dec (lowmem_outer nb0 nb ntrip nt gz at_g) ise0 ise ->
  forall (is_normal : Z -> bool), (forall i, 0 <= i < ntrip -> is_normal i = true <-> normal addr (triplets i)) ->
  let isN := fun i => tpl_is_N addr (triplets i) in
  let NU := finalize_ise ise isN ntrip nt nb0 true m in
  let total := finalize_ise ise isN ntrip nt nb0 false m2 in
  forall j b, 0 <= j < nt -> 0 <= b < nb0 ->
    Qeq (NU (j * nb0 + b)) (lowmem_self_energy bose is_normal nb0 nb ntrip phi freq triplets weights g (temps j) cutoff b) /\
    Qeq (NU (nt * nb0 + (j * nb0 + b))) (lowmem_self_energy bose (fun i => negb (is_normal i)) nb0 nb ntrip phi freq triplets weights g (temps j) cutoff b) /\
    Qeq (NU (j * nb0 + b)%Z + NU (nt * nb0 + (j * nb0 + b))%Z) (total (j * nb0 + b)).
Proof.
  intros addr nb0 nb ntrip nt phi freq triplets weights g gz temps cutoff at_g0 at_g ise0 ise m m2 H0 H1 H2 Hocc Hz Fin Fout is_normal Hn isN NU total j b Hj Hb.
  pose proof (finalize_NU ise isN ntrip nt nb0 m j b false Hj Hb) as EN. pose proof (finalize_NU ise isN ntrip nt nb0 m j b true Hj Hb) as EU.
  cbn [negb] in EN, EU. rewrite Z.add_0_l in EN. fold NU in EN, EU.
  assert (E : forall i, 0 <= i < ntrip -> isN i = is_normal i).
  { intros i Hi. unfold isN. destruct (tpl_is_N addr (triplets i)) eqn:E1.
    - apply is_N_normal in E1. symmetry. now apply Hn.
    - destruct (is_normal i) eqn:E2; [|reflexivity]. apply Hn in E2; auto. apply is_N_normal in E2. congruence. }
  split; [|split].
  - rewrite EN. apply Sum_ext. intros i Hi. rewrite E by auto. destruct (is_normal i); cbn [Bool.eqb]; [|reflexivity]. eapply ise_after_loops; eauto.
  - rewrite EU. apply Sum_ext. intros i Hi. rewrite E by auto. destruct (is_normal i); cbn [Bool.eqb negb]; [reflexivity|]. eapply ise_after_loops; eauto.
  - rewrite EN, EU. unfold total. rewrite finalize_total by auto.
    rewrite <- (sel_split ntrip isN (fun i => ise (i * nt * nb0 + j * nb0 + b))). apply Qplus_comp; apply Sum_ext; intros i Hi; destruct (isN i); reflexivity.
Qed.
End P2.

(** detailed version *)
Section P3.
Variable bose : Q -> Q -> Q.
Lemma split_NU_sum : forall nb0 ntrip ise weights isN b,
  Qeq (fst (split_NU nb0 ntrip ise weights isN b)) (Sum ntrip (fun i => if isN i then (ise (i * nb0 + b)%Z * inject_Z (weights i))%Q else 0%Q)) /\
  Qeq (snd (split_NU nb0 ntrip ise weights isN b)) (Sum ntrip (fun i => if negb (isN i) then (ise (i * nb0 + b)%Z * inject_Z (weights i))%Q else 0%Q)).
Proof.
  intros nb0 ntrip ise weights isN b. unfold split_NU, Sum.
  assert (G : forall l a c, let r := fold_left (fun s j => let v := (ise (j * nb0 + b)%Z * inject_Z (weights j))%Q in if isN j then (fst s + v, snd s)%Q else (fst s, snd s + v)%Q) l (a, c) in
    Qeq (fst r) (a + qsum (map (fun i => if isN i then (ise (i * nb0 + b)%Z * inject_Z (weights i))%Q else 0%Q) l)) /\
    Qeq (snd r) (c + qsum (map (fun i => if negb (isN i) then (ise (i * nb0 + b)%Z * inject_Z (weights i))%Q else 0%Q) l))).
  { induction l as [|x l IH]; intros a c; cbn [fold_left map]; rewrite ?qs_nil, ?qs_cons; [cbn [fst snd]; split; lra|].
    cbn [fst snd]. destruct (isN x); cbn [negb].
    - destruct (IH (a + ise (x * nb0 + b)%Z * inject_Z (weights x))%Q c) as [I1 I2]. rewrite I1, I2. split; lra.
    - destruct (IH a (c + ise (x * nb0 + b)%Z * inject_Z (weights x))%Q) as [I1 I2]. rewrite I1, I2. split; lra. }
  destruct (G (zrange ntrip) 0%Q 0%Q) as [G1 G2]. cbn zeta in *. rewrite G1, G2. split; lra.
Qed.
Definition det_S (nb0 nb i : Z) (a : dcell) : Prop :=
  match a with d_det x => i * (nb0 * nb * nb) <= x < (i + 1) * (nb0 * nb * nb) | d_ise x => i * nb0 <= x < (i + 1) * nb0 end.
(** the memory after the parallel loop, any schedule *)
Lemma detailed_result : forall nb0 nb ntrip phi freq triplets g gz T cutoff m m', 0 <= nb0 -> 0 <= nb ->
  finishes dcell_dec (map (detailed_prog bose nb0 nb ntrip phi freq triplets g gz T cutoff) (zrange ntrip)) m m' ->
  forall i j, 0 <= i < ntrip -> 0 <= j < nb0 ->
    m' (d_ise (i * nb0 + j)) = detailed_sum bose nb0 nb ntrip phi freq triplets g gz T cutoff i j /\
    forall kl, 0 <= kl < nb * nb -> m' (d_det (i * (nb0 * nb * nb) + (j * nb * nb + kl))) = detailed_elem bose nb0 nb ntrip phi freq triplets g gz T cutoff i j kl.
Proof.
  intros nb0 nb ntrip phi freq triplets g gz T cutoff m m' H0 H1 F.
  assert (Pf : forall i, In i (zrange ntrip) -> fp (det_S nb0 nb i) (det_S nb0 nb i) (detailed_prog bose nb0 nb ntrip phi freq triplets g gz T cutoff i)).
  { intros i _. unfold detailed_prog. apply fp_pfor. intros j Hj. apply in_zrange in Hj. apply fp_pseq; apply fp_wprog.
    - intros a Ha. rewrite map_map in Ha. apply in_map_iff in Ha. destruct Ha as [kl [<- Hkl]]. apply in_zrange in Hkl. cbn [fst det_S].
      assert (0 <= j * (nb * nb) + kl < nb0 * (nb * nb)) by (apply flat_range; lia). nia.
    - intros a [<-|[]]. cbn [fst det_S]. nia. }
  assert (Dj : forall x y a, In x (zrange ntrip) -> In y (zrange ntrip) -> det_S nb0 nb x a -> det_S nb0 nb y a -> x = y).
  { intros x y [a|a] _ _; cbn [det_S]; apply block_inj. }
  destruct (par_key dcell_dec (det_S nb0 nb) (zrange ntrip) _ m m' (NoDup_zrange _) Pf Dj F) as [R _].
  intros i j Hi Hj.
  set (body := fun j => pseq (wprog (map (fun ij => (d_det (i * (nb0 * nb * nb) + (j * nb * nb + ij)),
                                 detailed_elem bose nb0 nb ntrip phi freq triplets g gz T cutoff i j ij)) (zrange (nb * nb))))
         (wprog [(d_ise (i * nb0 + j), detailed_sum bose nb0 nb ntrip phi freq triplets g gz T cutoff i j)])).
  set (Sj := fun j (a : dcell) => match a with d_det x => exists kl, 0 <= kl < nb * nb /\ x = i * (nb0 * nb * nb) + (j * nb * nb + kl) | d_ise x => x = i * nb0 + j end).
  assert (L : local Sj (zrange nb0) (fun j m => run dcell_dec (body j) m)).
  { intros x Hx. assert (Fb : fp (Sj x) (Sj x) (body x)).
    { apply fp_pseq; apply fp_wprog.
      - intros a Ha. rewrite map_map in Ha. apply in_map_iff in Ha. destruct Ha as [kl [<- Hkl]]. apply in_zrange in Hkl. cbn. eauto.
      - intros a [<-|[]]. reflexivity. }
    split.
    - intros m1 a Ha. eapply run_outside; eauto.
    - intros m1 m2 E a Ha. eapply run_agree; eauto. intros b [Hb|Hb]; auto. }
  assert (D2 : forall x y a, In x (zrange nb0) -> In y (zrange nb0) -> Sj x a -> Sj y a -> x = y).
  { intros x y [a|a] _ _; cbn; [|lia]. intros [k1 [K1 ->]] [k2 [K2 E]].
    assert (E' : x * (nb * nb) + k1 = y * (nb * nb) + k2) by lia. eapply flat_inj in E'; [tauto|lia|lia]. }
  assert (Rj : forall a, det_S nb0 nb i a -> Sj j a -> m' a = run dcell_dec (body j) m a).
  { intros a Ha Hs. rewrite (R i a) by (try apply in_zrange; auto). unfold detailed_prog. rewrite run_pfor.
    apply (proj1 (fold_indep Sj (fun j m => run dcell_dec (body j) m) (zrange nb0) m L (NoDup_zrange _) D2)); [now apply in_zrange|exact Hs]. }
  split.
  - rewrite Rj; [|cbn; nia|cbn; reflexivity]. unfold body. rewrite run_pseq, !run_wprog. cbn [store fold_left fst snd]. unfold wr.
    destruct (dcell_dec _ _); [reflexivity|congruence].
  - intros kl Hkl. rewrite Rj; [| |cbn; eauto].
    + unfold body. rewrite run_pseq, !run_wprog. rewrite store_other by (intros [E|[]]; discriminate). apply store_in.
      * rewrite map_map. cbn [fst]. apply FinFun.Injective_map_NoDup; [|apply NoDup_zrange]. intros a b E. injection E as E. lia.
      * apply in_map_iff. exists kl. split; [reflexivity|now apply in_zrange].
    + cbn [det_S]. assert (0 <= j * (nb * nb) + kl < nb0 * (nb * nb)) by (apply flat_range; lia). nia.
Qed.
Lemma Sum_flat : forall n m (f : Z -> Q), 0 <= n -> 0 <= m -> Qeq (Sum (n * m) f) (Sum n (fun k => Sum m (fun l => f (k * m + l)))).
Proof.
  intros n m f Hn Hm. pattern n. apply natlike_ind; [reflexivity| |exact Hn].
  intros x Hx IH. unfold Z.succ. replace ((x + 1) * m) with (x * m + m) by ring.
  assert (G : forall y, 0 <= y -> Qeq (Sum (x * m + y) f) (Sum (x * m) f + Sum y (fun l => f (x * m + l)))).
  { intros y Hy. pattern y. apply natlike_ind; [rewrite Z.add_0_r; unfold Sum at 3; cbn; ring| |exact Hy].
    intros w Hw IHw. unfold Z.succ. unfold Sum. rewrite Z.add_assoc, !zrange_succ by nia. rewrite !map_app, !qs_app. cbn [map]. rewrite !qs_cons, !qs_nil.
    unfold Sum in IHw. rewrite IHw. ring. }
  rewrite G by exact Hm. rewrite IH. unfold Sum at 4. rewrite zrange_succ by lia. rewrite map_app, qs_app. cbn [map]. rewrite qs_cons, qs_nil. unfold Sum. ring.
Qed.
Lemma detailed_elem_spec : forall nb0 nb ntrip phi freq triplets g gz T cutoff i j k l,
  0 <= i < ntrip -> 0 <= j < nb0 -> 0 <= k < nb -> 0 <= l < nb -> occ_ok bose cutoff -> zeros_ok ntrip nb0 nb g gz ->
  Qeq (detailed_elem bose nb0 nb ntrip phi freq triplets g gz T cutoff i j (k * nb + l))
      (contribution bose T cutoff (freq (tp_at (triplets i) 1 * nb + k)%Z) (freq (tp_at (triplets i) 2 * nb + l)%Z)
         (arr5 ntrip nb0 nb nb g 0 i j k l) (arr5 ntrip nb0 nb nb g 1 i j k l) (arr4 nb0 nb nb phi i j k l)).
Proof.
  intros nb0 nb ntrip phi freq triplets g gz T cutoff i j k l Hi Hj Hk Hl Hocc Hz. unfold detailed_elem. cbn zeta.
  replace (Z.quot (k * nb + l) nb) with k by (rewrite Z.quot_div_nonneg by nia; apply (Z.div_unique_pos _ _ _ l); lia).
  replace (Z.rem (k * nb + l) nb) with l by (rewrite Z.rem_mod_nonneg by nia; apply (Z.mod_unique_pos _ _ k); lia).
  specialize (Hz i j k l Hi Hj Hk Hl). unfold arr4, arr5 in *.
  replace (i * (nb0 * nb * nb) + (j * nb * nb + (k * nb + l))) with (((i * nb0 + j) * nb + k) * nb + l) by ring.
  replace ((i + ntrip) * (nb0 * nb * nb) + (j * nb * nb + (k * nb + l))) with ((((1 * ntrip + i) * nb0 + j) * nb + k) * nb + l) by ring.
  replace ((((0 * ntrip + i) * nb0 + j) * nb + k) * nb + l) with (((i * nb0 + j) * nb + k) * nb + l) in * by ring.
  unfold detailed_value. destruct (gz _) eqn:Eg.
  - destruct (Hz eq_refl) as [G1 G2]. symmetry. now apply contribution_zero.
  - rewrite !occ_sign by exact Hocc. unfold contribution, occupation.
    destruct (qltb cutoff (freq (tp_at (triplets i) 1 * nb + k))), (qltb cutoff (freq (tp_at (triplets i) 2 * nb + l))); cbn [negb orb andb]; try reflexivity.
Qed.
(** N and U of the detailed version are the sums over the normal and over the other triplets; together
    they are what the version without details gives (both under any schedule), and the detailed entries
    are the single terms of those sums *)
Theorem C17_detailed_N_and_U : forall addr nb0 nb ntrip phi freq triplets weights g gz T cutoff m0 m at_g0 at_g ise0 ise,
  0 <= nb0 -> 0 <= nb -> 0 <= ntrip -> occ_ok bose cutoff -> zeros_ok ntrip nb0 nb g gz ->
  finishes dcell_dec (map (detailed_prog bose nb0 nb ntrip phi freq triplets g gz T cutoff) (zrange ntrip)) m0 m ->
  (forall i, 0 <= i < ntrip ->
     finishes Z.eq_dec (with_g_inner bose nb0 nb ntrip nb0 (-1) phi freq triplets weights g gz T cutoff i) (at_g0 i) (at_g i)) ->
  finishes Z.eq_dec (with_g_outer nb0 nb ntrip nb0 (-1) gz at_g) ise0 ise ->
  forall (is_normal : Z -> bool), (forall i, 0 <= i < ntrip -> is_normal i = true <-> normal addr (triplets i)) ->
  forall j, 0 <= j < nb0 ->
    let NU := split_NU nb0 ntrip (fun x => m (d_ise x)) weights (fun i => tpl_is_N addr (triplets i)) j in
    Qeq (fst NU) (self_energy is_normal bose nb0 nb ntrip nb0 phi freq triplets weights g T cutoff j j) /\
    Qeq (snd NU) (self_energy (fun i => negb (is_normal i)) bose nb0 nb ntrip nb0 phi freq triplets weights g T cutoff j j) /\
    Qeq (fst NU + snd NU) (sum_triplets nb0 ntrip ise j) /\
    (forall i k l, 0 <= i < ntrip -> 0 <= k < nb -> 0 <= l < nb ->
       Qeq (arr4 nb0 nb nb (fun x => m (d_det x)) i j k l)
           (contribution bose T cutoff (freq (tp_at (triplets i) 1 * nb + k)%Z) (freq (tp_at (triplets i) 2 * nb + l)%Z)
              (arr5 ntrip nb0 nb nb g 0 i j k l) (arr5 ntrip nb0 nb nb g 1 i j k l) (arr4 nb0 nb nb phi i j k l))).
Proof.
  intros addr nb0 nb ntrip phi freq triplets weights g gz T cutoff m0 m at_g0 at_g ise0 ise H0 H1 H2 Hocc Hz Fd Fin Fout is_normal Hn j Hj NU.
  pose proof (detailed_result nb0 nb ntrip phi freq triplets g gz T cutoff m0 m H0 H1 Fd) as D.
  assert (E : forall i, 0 <= i < ntrip -> tpl_is_N addr (triplets i) = is_normal i).
  { intros i Hi. destruct (tpl_is_N addr (triplets i)) eqn:E1.
    - apply is_N_normal in E1. symmetry. now apply Hn.
    - destruct (is_normal i) eqn:E2; [|reflexivity]. apply Hn in E2; auto. apply is_N_normal in E2. congruence. }
  assert (V : forall i, 0 <= i < ntrip -> Qeq (m (d_ise (i * nb0 + j)) * inject_Z (weights i)) (inject_Z (weights i) * Sum nb (fun k => Sum nb (fun l =>
    contribution bose T cutoff (freq (tp_at (triplets i) 1 * nb + k)%Z) (freq (tp_at (triplets i) 2 * nb + l)%Z)
      (arr5 ntrip nb0 nb nb g 0 i j k l) (arr5 ntrip nb0 nb nb g 1 i j k l) (arr4 nb0 nb nb phi i j k l))))).
  { intros i Hi. rewrite (proj1 (D i j Hi Hj)). unfold detailed_sum. rewrite fold_qsum, Qplus_0_l.
    etransitivity; [apply Qmult_comp; [apply (Sum_flat nb nb (detailed_elem bose nb0 nb ntrip phi freq triplets g gz T cutoff i j)); auto|reflexivity]|].
    rewrite Qmult_comm. apply Qmult_comp; [reflexivity|]. apply Sum_ext. intros k Hk. apply Sum_ext. intros l Hl.
    now apply detailed_elem_spec. }
  destruct (split_NU_sum nb0 ntrip (fun x => m (d_ise x)) weights (fun i => tpl_is_N addr (triplets i)) j) as [S1 S2]. fold NU in S1, S2.
  split; [|split; [|split]].
  - rewrite S1. apply Sum_ext. intros i Hi. rewrite E by auto. destruct (is_normal i); [now apply V|reflexivity].
  - rewrite S2. apply Sum_ext. intros i Hi. rewrite E by auto. destruct (is_normal i); cbn [negb]; [reflexivity|now apply V].
  - rewrite S1, S2. rewrite sel_split.
    rewrite (C48_sparse_sum_equals_full_sum bose nb0 nb ntrip nb0 (-1) phi freq triplets weights g gz T cutoff at_g0 at_g ise0 ise H0 H1 H2 ltac:(lia) Hocc Hz Fin Fout j Hj).
    apply Sum_ext. intros i Hi. unfold all_triplets. cbn iota. now apply V.
  - intros i k l Hi Hk Hl. unfold arr4 at 1. replace (((i * nb0 + j) * nb + k) * nb + l) with (i * (nb0 * nb * nb) + (j * nb * nb + (k * nb + l))) by ring.
    rewrite (proj2 (D i j Hi Hj)) by (apply flat_range; auto). now apply detailed_elem_spec.
Qed.

(** ** C61: Python and C *)
Lemma fold_Sum : forall n (F : Q -> Z -> Q) (f : Z -> Q), (forall s x, 0 <= x < n -> Qeq (F s x) (s + f x)) ->
  (forall s s' x, Qeq s s' -> Qeq (F s x) (F s' x)) -> forall a, Qeq (fold_left F (zrange n) a) (a + Sum n f).
Proof.
  intros n F f H C. unfold Sum. assert (H' : forall x, In x (zrange n) -> forall s, Qeq (F s x) (s + f x)) by (intros x Hx s; apply H; now apply in_zrange).
  clear H. induction (zrange n) as [|x l IH]; intros a; cbn [fold_left map]; rewrite ?qs_nil, ?qs_cons; [lra|].
  rewrite IH by (intros; apply H'; right; auto). rewrite (H' x) by (left; auto). lra.
Qed.
Lemma fold_cong : forall n (F : Q -> Z -> Q), (forall s s' x, Qeq s s' -> Qeq (F s x) (F s' x)) -> forall s s', Qeq s s' -> Qeq (fold_left F (zrange n) s) (fold_left F (zrange n) s').
Proof. intros n F H. induction (zrange n) as [|x l IH]; intros s s' E; cbn; auto. Qed.
Lemma py_ise_spec : forall nb0 nb ntrip phi freq triplets weights g T cutoff j, (0 < T)%Q ->
  Qeq (py_ise bose nb0 nb ntrip phi freq triplets weights g T cutoff j)
      (self_energy all_triplets bose nb0 nb ntrip nb0 phi freq triplets weights g T cutoff j j).
Proof.
  intros nb0 nb ntrip phi freq triplets weights g T cutoff j HT. unfold py_ise, self_energy. cbn zeta.
  assert (ET : qltb 0 T = true) by now apply qltb_lt.
  set (tm := fun i k l => (inject_Z (weights i) * contribution bose T cutoff (freq (tp_at (triplets i) 1 * nb + k)%Z) (freq (tp_at (triplets i) 2 * nb + l)%Z)
      (arr5 ntrip nb0 nb nb g 0 i j k l) (arr5 ntrip nb0 nb nb g 1 i j k l) (arr4 nb0 nb nb phi i j k l))%Q).
  rewrite (fold_Sum ntrip _ (fun i => Sum nb (fun k => Sum nb (fun l => tm i k l)))).
  - rewrite Qplus_0_l. apply Sum_ext. intros i Hi. unfold all_triplets. cbn iota. rewrite <- Sum_scale. apply Sum_ext. intros k Hk. rewrite <- Sum_scale.
    apply Sum_ext. intros l Hl. reflexivity.
  - intros s i Hi. rewrite (fold_Sum nb _ (fun k => Sum nb (fun l => tm i k l))); [reflexivity| |].
    + intros s' k Hk. rewrite (fold_Sum nb _ (fun l => tm i k l)); [reflexivity| |].
      * intros s'' l Hl. unfold tm, contribution, arr4, arr5. rewrite ET.
        replace (i * (nb0 * nb * nb) + ((j * nb + k) * nb + l)) with (((i * nb0 + j) * nb + k) * nb + l) by ring.
        replace ((i + ntrip) * (nb0 * nb * nb) + ((j * nb + k) * nb + l)) with ((((1 * ntrip + i) * nb0 + j) * nb + k) * nb + l) by ring.
        replace ((((0 * ntrip + i) * nb0 + j) * nb + k) * nb + l) with (((i * nb0 + j) * nb + k) * nb + l) by ring.
        destruct (_ && _); ring.
      * intros a b x Hab. destruct (qltb 0 T); [destruct (_ && _)|]; rewrite Hab; reflexivity.
    + intros a b x Hab. apply fold_cong; auto. intros a' b' x' Hab'. destruct (qltb 0 T); [destruct (_ && _)|]; rewrite Hab'; reflexivity.
  - intros a b x Hab. apply fold_cong; auto. intros a' b' x' Hab'. apply fold_cong; auto. intros a'' b'' x'' Hab''. destruct (qltb 0 T); [destruct (_ && _)|]; rewrite Hab''; reflexivity.
Qed.
Theorem C61_python_and_C_agree_above_0K : forall nb0 nb ntrip phi freq triplets weights g gz T cutoff at_g0 at_g ise0 ise,
  0 <= nb0 -> 0 <= nb -> 0 <= ntrip -> (0 < T)%Q -> occ_ok bose cutoff -> zeros_ok ntrip nb0 nb g gz ->
  (forall i, 0 <= i < ntrip ->
     finishes Z.eq_dec (with_g_inner bose nb0 nb ntrip nb0 (-1) phi freq triplets weights g gz T cutoff i) (at_g0 i) (at_g i)) ->
  finishes Z.eq_dec (with_g_outer nb0 nb ntrip nb0 (-1) gz at_g) ise0 ise ->
  forall j, 0 <= j < nb0 ->
    Qeq (py_ise bose nb0 nb ntrip phi freq triplets weights g T cutoff j) (sum_triplets nb0 ntrip ise j).
Proof.
  intros. rewrite py_ise_spec by auto. symmetry. apply (C48_sparse_sum_equals_full_sum bose nb0 nb ntrip nb0 (-1) phi freq triplets weights g gz T cutoff at_g0 at_g ise0 ise); auto. lia.
Qed.

(** ** C62: scattering event classes add up *)
Theorem C62_event_classes_add_up : forall nb0 nb ntrip nfp fpi phi freq triplets weights g gz T cutoff,
  0 <= nb0 -> 0 <= nb -> 0 <= ntrip -> fpi < nfp -> occ_ok bose cutoff -> zeros_ok ntrip (nrow nb0 nfp fpi) nb g gz ->
  forall (at_g0 : Z -> Z -> Z -> Q) at_g ise0 ise,
  (* class c, 0 = no class selected *)
  (forall c, 0 <= c <= 2 ->
     (forall i, 0 <= i < ntrip ->
       finishes Z.eq_dec (with_g_inner bose nb0 nb ntrip nfp fpi phi freq triplets weights (event_class c (ntrip * g_index_dims nb0 nb nfp fpi) g) gz T cutoff i)
         (at_g0 c i) (at_g c i)) /\
     finishes Z.eq_dec (with_g_outer nb0 nb ntrip nfp fpi gz (at_g c)) (ise0 c) (ise c)) ->
  forall j, 0 <= j < nb0 ->
    Qeq (sum_triplets nb0 ntrip (ise 1%Z) j + sum_triplets nb0 ntrip (ise 2%Z) j) (sum_triplets nb0 ntrip (ise 0%Z) j).
Proof.
  intros nb0 nb ntrip nfp fpi phi freq triplets weights g gz T cutoff H0 H1 H2 Hf Hocc Hz at_g0 at_g ise0 ise F j Hj.
  set (ec := fun c => event_class c (ntrip * g_index_dims nb0 nb nfp fpi) g).
  assert (Rr : 0 <= row fpi j < nrow nb0 nfp fpi) by (unfold row, nrow; destruct (Z.ltb_spec fpi 0); lia).
  assert (Dm : g_index_dims nb0 nb nfp fpi = nrow nb0 nfp fpi * nb * nb) by (unfold g_index_dims, nrow; destruct (fpi <? 0); reflexivity).
  set (N := nrow nb0 nfp fpi) in *.
  assert (A : forall c p i r k l, 0 <= c <= 2 -> 0 <= p <= 1 -> 0 <= i < ntrip -> 0 <= r < N -> 0 <= k < nb -> 0 <= l < nb ->
    arr5 ntrip N nb nb (ec c) p i r k l = if (c =? p + 1)%Z then 0%Q else arr5 ntrip N nb nb g p i r k l).
  { intros c p i r k l Hc Hp Hi Hr Hk Hl. unfold ec, event_class, arr5. rewrite Dm.
    pose proof (flat_range N ntrip i r Hi Hr). pose proof (flat_range nb _ _ k H Hk). pose proof (flat_range nb _ _ l H3 Hl).
    set (y := ((i * N + r) * nb + k) * nb + l) in *. replace ((((p * ntrip + i) * N + r) * nb + k) * nb + l) with (p * (ntrip * N * nb * nb) + y) by (unfold y; ring).
    replace (ntrip * (N * nb * nb)) with (ntrip * N * nb * nb) by ring. set (S := ntrip * N * nb * nb) in *.
    assert (Hcases : c = 0 \/ c = 1 \/ c = 2) by lia. assert (Hp' : p = 0 \/ p = 1) by lia.
    destruct Hcases as [-> | [-> | ->]], Hp' as [-> | ->]; cbn [Z.eqb Pos.eqb orb]; try reflexivity;
      repeat match goal with |- context [?a <? ?b] => destruct (Z.ltb_spec a b) | |- context [?a <=? ?b] => destruct (Z.leb_spec a b) end; cbn [orb]; try lia; try reflexivity;
      f_equal; lia. }
  assert (Zc : forall c, 0 <= c <= 2 -> zeros_ok ntrip N nb (ec c) gz).
  { intros c Hc i r k l Hi Hr Hk Hl E. rewrite !A by (auto; lia). destruct (Hz i r k l Hi Hr Hk Hl E) as [G1 G2].
    split; destruct (_ =? _); auto; reflexivity. }
  assert (R : forall c, 0 <= c <= 2 -> Qeq (sum_triplets nb0 ntrip (ise c) j) (self_energy all_triplets bose nb0 nb ntrip N phi freq triplets weights (ec c) T cutoff j (row fpi j))).
  { intros c Hc. destruct (F c Hc) as [F1 F2]. apply (C48_sparse_sum_equals_full_sum bose nb0 nb ntrip nfp fpi phi freq triplets weights (ec c) gz T cutoff (at_g0 c) (at_g c) (ise0 c) (ise c)); auto. }
  rewrite !R by lia. unfold self_energy, all_triplets. rewrite <- Sum_add. apply Sum_ext. intros i Hi. rewrite <- Qmult_plus_distr_r. apply Qmult_comp; [reflexivity|].
  rewrite <- Sum_add. apply Sum_ext. intros k Hk. rewrite <- Sum_add. apply Sum_ext. intros l Hl. rewrite !A by (auto; lia). cbn [Z.eqb Z.add Pos.eqb Pos.add].
  unfold contribution. destruct (_ && _); [destruct (qltb 0 T)|]; ring.
Qed.
End P3.

(** ** Examples and refutation *)
(** 1 triplet of weight 2, one band of interest, two bands; mode (1,0) is below the cutoff *)
Definition ex_freq : Z -> Q := fun x => nth (Z.to_nat x) [1#1; 2#1; 1#10; 3#1; 1#1; 4#1]%Q 0%Q.
Definition ex_trip : Z -> tp3 := fun _ => (0, 1, 2).
Definition ex_g : Z -> Q := fun x => nth (Z.to_nat x) [1#1; 1#2; 0; 1#3;  0; 1#4; 0; 1#5]%Q 0%Q.
Definition ex_gz : Z -> bool := fun x => x =? 2.
Definition ex_phi : Z -> Q := fun x => inject_Z (x + 1).
Definition ex_bose : Q -> Q -> Q := fun f T => if qltb (1#2) f then (T / f)%Q else 1%Q.
Definition seq_at_g (T : Q) (i : Z) : Z -> Q :=
  run_seq Z.eq_dec (with_g_inner ex_bose 1 2 1 1 (-1) ex_phi ex_freq ex_trip (fun _ => 2) ex_g ex_gz T (1#2) i) (fun _ => 77%Q).
Definition seq_ise (T : Q) : Z -> Q := run_seq Z.eq_dec (with_g_outer 1 2 1 1 (-1) ex_gz (seq_at_g T)) (fun _ => 55%Q).
Lemma ex_occ : forall T', occ_ok (fun f T => if qltb 0 T then (if qltb (1#2) f then (T / f)%Q else 1%Q) else 0%Q) T'.
Proof.
  intros c f T _. destruct (qltb 0 T) eqn:E; [|lra]. apply qltb_lt in E. destruct (qltb (1#2) f) eqn:Ef; [|lra]. apply qltb_lt in Ef.
  unfold Qdiv. apply Qmult_le_0_compat; [lra|]. apply Qinv_le_0_compat. lra.
Qed.
Example C48_example : zeros_ok 1 (nrow 1 1 (-1)) 2 ex_g ex_gz /\ (forall T, finishes Z.eq_dec (with_g_outer 1 2 1 1 (-1) ex_gz (seq_at_g T)) (fun _ => 55%Q) (seq_ise T)) /\
  Qeq (sum_triplets 1 1 (seq_ise 1) 0) (2 * (((1#3) + (1#4) + 1) * (1#3) + ((1#3) - (1#4)) * (1#5)) * 4 +  2 * (((1#3) + 1 + 1) * 0 + 0) * 3).
Proof.
  split; [|split].
  - intros i r k l Hi Hr Hk Hl. unfold nrow in Hr. cbn in Hr. assert (i = 0) by lia. assert (r = 0) by lia. subst.
    assert (Hc : (k = 0 \/ k = 1) /\ (l = 0 \/ l = 1)) by lia. destruct Hc as [[-> | ->] [-> | ->]]; vm_compute; intros H; try discriminate; split; reflexivity.
  - intros T. apply seq_finishes.
  - vm_compute. reflexivity.
Qed.
(** mode (1,0) is below the cutoff: the C version leaves it out at 0 K, the Python version does not *)
Theorem C61_python_and_C_agree_at_0K_refuted : exists bose nb0 nb ntrip phi freq triplets weights g gz cutoff at_g0 at_g ise0 ise j,
  0 <= nb0 /\ 0 <= nb /\ 0 <= ntrip /\ 0 <= j < nb0 /\ occ_ok bose cutoff /\ zeros_ok ntrip nb0 nb g gz /\
  (forall i, 0 <= i < ntrip -> finishes Z.eq_dec (with_g_inner bose nb0 nb ntrip nb0 (-1) phi freq triplets weights g gz 0 cutoff i) (at_g0 i) (at_g i)) /\
  finishes Z.eq_dec (with_g_outer nb0 nb ntrip nb0 (-1) gz at_g) ise0 ise /\
  ~ Qeq (py_ise bose nb0 nb ntrip phi freq triplets weights g 0 cutoff j) (sum_triplets nb0 ntrip ise j).
Proof.
  set (bs := fun f T : Q => if qltb 0 T then (if qltb (1#2) f then (T / f)%Q else 1%Q) else 0%Q).
  set (ag := fun i => run_seq Z.eq_dec (with_g_inner bs 1 2 1 1 (-1) ex_phi ex_freq ex_trip (fun _ => 2) ex_g ex_gz 0 (1#2) i) (fun _ => 77%Q)).
  exists bs, 1, 2, 1, ex_phi, ex_freq, ex_trip, (fun _ => 2), ex_g, ex_gz, (1#2)%Q, (fun _ _ => 77%Q), ag, (fun _ => 55%Q),
    (run_seq Z.eq_dec (with_g_outer 1 2 1 1 (-1) ex_gz ag) (fun _ => 55%Q)), 0.
  repeat (split; [lia|]). split; [apply ex_occ|]. split; [exact (proj1 C48_example)|]. split; [intros i _; apply seq_finishes|].
  split; [apply seq_finishes|]. vm_compute. discriminate.
Qed.
Definition ex_addr : Z -> Z -> Z := fun p c => if c =? 0 then nth (Z.to_nat p) [0; 1; 1] 0 else 0.
Example C17_example : tpl_is_N ex_addr (0, 1, 2) = false /\ tpl_is_N ex_addr (0, 0, 0) = true /\
  let m := run_seq dcell_dec (map (detailed_prog ex_bose 1 2 1 ex_phi ex_freq ex_trip ex_g ex_gz 1 (1#2)) (zrange 1)) (fun _ => 9%Q) in
  let NU := split_NU 1 1 (fun x => m (d_ise x)) (fun _ => 2) (fun i => tpl_is_N ex_addr (ex_trip i)) 0 in
  Qeq (fst NU) 0 /\ Qeq (snd NU) (sum_triplets 1 1 (seq_ise 1) 0) /\ ~ Qeq (snd NU) 0.
Proof. vm_compute. repeat split; discriminate. Qed.
Example C62_example : let tot c := sum_triplets 1 1 (run_seq Z.eq_dec (with_g_outer 1 2 1 1 (-1) ex_gz (fun i => run_seq Z.eq_dec
    (with_g_inner ex_bose 1 2 1 1 (-1) ex_phi ex_freq ex_trip (fun _ => 2) (event_class c (1 * g_index_dims 1 2 1 (-1)) ex_g) ex_gz 1 (1#2) i) (fun _ => 77%Q))) (fun _ => 55%Q)) 0 in
  Qeq (tot 1 + tot 2) (tot 0) /\ ~ Qeq (tot 1) 0 /\ ~ Qeq (tot 2) 0.
Proof. vm_compute. repeat split; discriminate. Qed.
Print Assumptions C17_lowmem_N_and_U.
Print Assumptions C17_detailed_N_and_U.
Print Assumptions C48_sparse_sum_equals_full_sum.
Print Assumptions C48_lowmem_sparse_sum_equals_full_sum.
Print Assumptions C61_python_and_C_agree_above_0K.
Print Assumptions C61_python_and_C_agree_at_0K_refuted.
Print Assumptions C62_event_classes_add_up.
