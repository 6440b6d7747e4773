(** Theorem C10: rotations in the grid basis. *)
From Coq Require Import ZArith QArith Qabs List Lia Lqa Bool.
From Verif Require Import Base BaseProofs Mat3 QMat GridSpec GridModel GridProofs SnfModel SnfProofs RotModel.
Import ListNotations.
Open Scope Z_scope.

(** [T = D Q^-1 R Q D^-1], written without division: [Qi] is the inverse of [Q]. *)
Definition exact_transform (D : V3) (Q R T : M3) : Prop :=
  forall Qi, mulMM Qi Q = I3 ->
    mulMM T (diag3 D) = mulMM (diag3 D) (mulMM Qi (mulMM R Q)).

Definition mesh_below (n : Z) (D : V3) : Prop := let '(v3 a b c) := D in a < n /\ b < n /\ c < n.

Lemma left_inv_unique : forall Q Qi, unimod Q -> mulMM Qi Q = I3 -> Qi = minv Q.
Proof.
  intros Q Qi HQ H. rewrite <- (mulMM_1_r Qi), <- (minv_r Q HQ), mulMM_assoc, H.
  apply mulMM_1_l.
Qed.

Local Open Scope Q_scope.
Lemma qinv_of_unimod : forall Q, unimod Q -> qmeq (qinv (qm_of Q)) (qm_of (minv Q)).
Proof.
  intros [a b c d e f g h i] H. unfold minv.
  assert (qdet (qm_of (m3 a b c d e f g h i)) == qz (det (m3 a b c d e f g h i))) as Ed.
  { unfold det, qdet, qm_of. rewrite ?qz_add, ?qz_mul, ?qz_sub, ?qz_mul. ring. }
  destruct (Z.eqb_spec (det (m3 a b c d e f g h i)) 1) as [E|E].
  - rewrite E in Ed. unfold qinv, qm_of at 1. fold (qm_of (m3 a b c d e f g h i)).
    change (qm (qz a) (qz b) (qz c) (qz d) (qz e) (qz f) (qz g) (qz h) (qz i))
      with (qm_of (m3 a b c d e f g h i)).
    cbn [adj qm_of qmeq]. change (qm_of (m3 a b c d e f g h i)) with (qm (qz a) (qz b) (qz c) (qz d) (qz e) (qz f) (qz g) (qz h) (qz i)) in Ed.
    rewrite !Ed, !qz_sub, !qz_mul. change (qz 1) with 1%Q. repeat split; field.
  - destruct H as [H|H]; [contradiction|]. rewrite H in Ed.
    unfold qinv, qm_of at 1.
    cbn [adj qm_of qmeq mneg]. change (qm_of (m3 a b c d e f g h i)) with (qm (qz a) (qz b) (qz c) (qz d) (qz e) (qz f) (qz g) (qz h) (qz i)) in Ed.
    rewrite !Ed, !qz_opp, !qz_sub, !qz_mul. change (qz (-1)) with (-1)%Q. repeat split; field; discriminate.
Qed.

Lemma qmulMM_m : forall a b c d, qmeq a b -> qmeq c d -> qmeq (qmulMM a c) (qmulMM b d).
Proof.
  intros [] [] [] []; cbn. intros H K.
  repeat match goal with H : _ /\ _ |- _ => destruct H end.
  repeat match goal with H : ?x == _ |- _ => rewrite H; clear H end. repeat split; reflexivity.
Qed.
Lemma qmulMM_of : forall a b, qmeq (qmulMM (qm_of a) (qm_of b)) (qm_of (mulMM a b)).
Proof. intros [] []; cbn -[qz Z.add Z.mul]. rewrite !qz_add, !qz_mul. repeat split; reflexivity. Qed.
Lemma qmeq_trans : forall a b c, qmeq a b -> qmeq b c -> qmeq a c.
Proof.
  intros [] [] []; cbn. intros H K.
  repeat match goal with H : _ /\ _ |- _ => destruct H end.
  repeat split; etransitivity; eassumption.
Qed.
Lemma qmeq_refl : forall a, qmeq a a.
Proof. intros []; cbn; repeat split; reflexivity. Qed.

Lemma similar_exact : forall R Q, unimod Q ->
  qmeq (similar_matrix_ld3 R (qm_of Q)) (qm_of (mulMM (minv Q) (mulMM R Q))).
Proof.
  intros R Q H. unfold similar_matrix_ld3.
  eapply qmeq_trans; [|apply qmulMM_of]. apply qmulMM_m; [apply qinv_of_unimod; auto|].
  apply qmulMM_of.
Qed.

Lemma entry_ok : forall r n dj dk t, (0 < dk)%Z -> r == qz n * qz dj / qz dk ->
  ((t * dk = dj * n)%Z <-> qz t == r).
Proof.
  intros r n dj dk t Hd Hr.
  assert (~ qz dk == 0) as Hnz. { intros E. apply (qz_inj dk 0) in E. lia. }
  rewrite Hr. split; intros H.
  - assert (qz t * qz dk == qz dj * qz n) as E by (rewrite <- !qz_mul, H; reflexivity).
    apply (Qmult_inj_r _ _ (qz dk) Hnz). rewrite E. field. auto.
  - apply qz_inj. rewrite !qz_mul, H. field. auto.
Qed.

Lemma entry_close : forall r n dj dk t, (0 < dk < 100000)%Z -> r == qz n * qz dj / qz dk ->
  qltb IDENTITY_TOL (Qabs (qz t - r)) = false -> (t * dk = dj * n)%Z.
Proof.
  intros r n dj dk t Hd Hr H. apply qltb_ge in H. apply Qabs_Qle_condition in H.
  destruct H as [H1 H2]. unfold IDENTITY_TOL in *.
  assert (0 < qz dk) as Hp by (apply (proj1 (qz_lt 0 dk)); lia).
  assert (qz dk < 100000) as Hu by (apply (proj1 (qz_lt dk 100000)); lia).
  assert (r * qz dk == qz n * qz dj) as E. { rewrite Hr. field. lra. }
  assert (qz (t * dk - dj * n) == (qz t - r) * qz dk) as E2.
  { rewrite qz_sub, !qz_mul. rewrite (Qmult_comm (qz dj)), <- E. ring. }
  assert (-(1) < qz (t * dk - dj * n) < 1) as [B1 B2]. { rewrite E2. split; nra. }
  apply (proj2 (qz_lt (-1) _)) in B1. apply (proj2 (qz_lt _ 1)) in B2. lia.
Qed.

Lemma entry_int : forall r n dj dk t, (0 < dk)%Z -> r == qz n * qz dj / qz dk ->
  (t * dk = dj * n)%Z -> Nint r = t /\ qltb IDENTITY_TOL (Qabs (qz t - r)) = false.
Proof.
  intros r n dj dk t Hd Hr H. apply (entry_ok r n dj dk t Hd Hr) in H.
  assert (Nint r = t) as -> by (apply Nint_int; symmetry; exact H).
  split; [reflexivity|]. apply qltb_ge. apply Qabs_Qle_condition. unfold IDENTITY_TOL. split; lra.
Qed.
Local Close Scope Q_scope.

Ltac conj_hyps := repeat match goal with H : _ /\ _ |- _ => destruct H end.

Lemma transform_sound : forall D Q R T, pos_mesh D -> mesh_below 100000 D -> unimod Q ->
  transform_rotation D Q R = Some T ->
  mulMM T (diag3 D) = mulMM (diag3 D) (mulMM (minv Q) (mulMM R Q)).
Proof.
  intros D Q R T HD Hb HQ H. unfold transform_rotation in H.
  pose proof (similar_exact R Q HQ) as E.
  destruct (similar_matrix_ld3 R (qm_of Q)) as [r0 r1 r2 r3 r4 r5 r6 r7 r8].
  destruct (mulMM (minv Q) (mulMM R Q)) as [n0 n1 n2 n3 n4 n5 n6 n7 n8].
  destruct D as [x y z]. cbn [scale_by_D cast_3d_to_3l] in H.
  destruct (check_identity_ld3 _ _ _) eqn:C in H; [|discriminate].
  apply f_equal with (f := fun o => match o with Some v => v | None => I3 end) in H. cbv beta iota in H.
  subst T. unfold check_identity_ld3 in C. rewrite negb_true_iff, !orb_false_iff in C.
  cbn [qm_of qmeq] in E. cbn [pos_mesh mesh_below] in HD, Hb. conj_hyps.
  unfold mulMM, diag3. rewrite ?Z.mul_0_r, ?Z.mul_0_l, ?Z.add_0_l, ?Z.add_0_r.
  f_equal; (eapply entry_close; [lia| |eassumption]);
    match goal with H : Qeq ?r _ |- Qeq (Qdiv (Qmult ?r _) _) _ => rewrite H; reflexivity end.
Qed.

Lemma transform_complete : forall D Q R T, pos_mesh D -> unimod Q ->
  mulMM T (diag3 D) = mulMM (diag3 D) (mulMM (minv Q) (mulMM R Q)) ->
  transform_rotation D Q R = Some T.
Proof.
  intros D Q R T HD HQ H. unfold transform_rotation.
  pose proof (similar_exact R Q HQ) as E.
  destruct (similar_matrix_ld3 R (qm_of Q)) as [r0 r1 r2 r3 r4 r5 r6 r7 r8].
  destruct (mulMM (minv Q) (mulMM R Q)) as [n0 n1 n2 n3 n4 n5 n6 n7 n8].
  destruct D as [x y z]. destruct T as [t0 t1 t2 t3 t4 t5 t6 t7 t8]. cbn [scale_by_D cast_3d_to_3l].
  cbn [qm_of qmeq] in E. cbn [pos_mesh] in HD. conj_hyps.
  unfold mulMM, diag3 in H. rewrite ?Z.mul_0_r, ?Z.mul_0_l, ?Z.add_0_l, ?Z.add_0_r in H.
  injection H as H0' H1' H2' H3' H4' H5' H6' H7' H8'.
  unfold check_identity_ld3.
  repeat match goal with
  | E : Qeq ?r (qz ?n), HT : (?t * ?dk = ?dj * ?n)%Z |- context [Nint (?r * qz ?dj / qz ?dk)] =>
      let K := fresh "K" in
      destruct (entry_int (r * qz dj / qz dk) n dj dk t ltac:(lia)
                  ltac:(rewrite E; reflexivity) HT) as [-> K]; rewrite K
  end.
  reflexivity.
Qed.

Lemma transform_list : forall D Q rots ts, transform_rotations D Q rots = Some ts <->
  Forall2 (fun R T => transform_rotation D Q R = Some T) rots ts.
Proof.
  induction rots as [|R l IH]; intros ts; cbn.
  - split; intros H; [inversion H; constructor|]. inversion H. reflexivity.
  - destruct (transform_rotation D Q R) as [t|] eqn:E.
    + destruct (transform_rotations D Q l) as [tl|].
      * split; intros H.
        -- inversion H; subst ts. constructor; auto. now apply IH.
        -- inversion H as [|? t' ? l' H1 H2]; subst. apply IH in H2. congruence.
      * split; intros H; [discriminate|]. inversion H as [|? t' ? l' H1 H2]; subst.
        apply IH in H2. discriminate.
    + split; intros H; [discriminate|]. inversion H; subst. congruence.
Qed.

(* ------------------------------------------------------------------ C10 *)
(** Success returns the exact transformed matrices, one per rotation. *)
Theorem C10_transformed_rotations_exact : forall D Q rots ts,
  pos_mesh D -> mesh_below 100000 D -> unimod Q ->
  transform_rotations D Q rots = Some ts ->
  Forall2 (exact_transform D Q) rots ts.
Proof.
  intros D Q rots ts HD Hb HQ H. apply transform_list in H.
  induction H as [|R T l tl HT _ IH]; constructor; auto.
  intros Qi HQi. apply left_inv_unique in HQi; auto. subst Qi. apply transform_sound; auto.
Qed.
Print Assumptions C10_transformed_rotations_exact.

(** It fails exactly when some rotation has no exact integer counterpart. *)
Theorem C10_failure_iff_not_integral : forall D Q rots,
  pos_mesh D -> mesh_below 100000 D -> unimod Q ->
  (transform_rotations D Q rots = None <->
   exists R, In R rots /\ forall T, ~ exact_transform D Q R T).
Proof.
  intros D Q rots HD Hb HQ. split.
  - induction rots as [|R l IH]; intros H; [discriminate|]. cbn in H.
    destruct (transform_rotation D Q R) as [t|] eqn:E.
    + destruct (transform_rotations D Q l) as [tl|]; [discriminate|].
      destruct (IH eq_refl) as [R' [Hin Hn]]. exists R'. split; [right; exact Hin|exact Hn].
    + exists R. split; [left; reflexivity|]. intros T HT.
      rewrite (transform_complete D Q R T HD HQ (HT _ (minv_l Q HQ))) in E. discriminate.
  - intros [R [Hin Hn]]. destruct (transform_rotations D Q rots) as [ts|] eqn:E; auto.
    apply C10_transformed_rotations_exact in E; auto. exfalso.
    induction E as [|R' T l tl HT _ IH]; [contradiction|].
    destruct Hin as [->|Hin]; [apply (Hn T HT)|auto].
Qed.
Print Assumptions C10_failure_iff_not_integral.

Lemma diag3_cancel : forall D A B, pos_mesh D -> mulMM A (diag3 D) = mulMM B (diag3 D) -> A = B.
Proof.
  intros [x y z] [] [] HD H. cbn [pos_mesh] in HD. unfold mulMM, diag3 in H.
  rewrite ?Z.mul_0_r, ?Z.mul_0_l, ?Z.add_0_l, ?Z.add_0_r in H.
  injection H as H0 H1 H2 H3 H4 H5 H6 H7 H8. destruct HD as [Hx [Hy Hz]].
  f_equal; eapply Z.mul_reg_r; try eassumption; lia.
Qed.

(** Products of rotations become products of transformed rotations. *)
Theorem C10_products_preserved : forall D Q R1 R2 T1 T2 T12, pos_mesh D -> unimod Q ->
  exact_transform D Q R1 T1 -> exact_transform D Q R2 T2 ->
  exact_transform D Q (mulMM R1 R2) T12 -> T12 = mulMM T1 T2.
Proof.
  intros D Q R1 R2 T1 T2 T12 HD HQ H1 H2 H12.
  specialize (H1 _ (minv_l Q HQ)). specialize (H2 _ (minv_l Q HQ)). specialize (H12 _ (minv_l Q HQ)).
  apply (diag3_cancel D); auto. rewrite H12, <- (mulMM_assoc T1 T2), H2.
  rewrite (mulMM_assoc T1), H1.
  rewrite <- (mulMM_assoc (diag3 D)). f_equal. rewrite <- !mulMM_assoc. f_equal. f_equal.
  rewrite (mulMM_assoc Q), minv_r, mulMM_1_l by auto. reflexivity.
Qed.
Print Assumptions C10_products_preserved.

Lemma mulMV_diag : forall D k, mulMV (diag3 D) k = vmul D k.
Proof. intros [] []. unfold mulMV, diag3, vmul. f_equal; ring. Qed.

Lemma exact_compat : forall D Q R T, unimod Q -> exact_transform D Q R T -> compat D T.
Proof.
  intros D Q R T HQ H k. specialize (H _ (minv_l Q HQ)).
  exists (mulMV (mulMM (minv Q) (mulMM R Q)) k).
  rewrite <- !mulMV_diag, <- !mulMV_mulMM, H. reflexivity.
Qed.

Lemma even3_half : forall v, even3 v = true -> exists t, v = vadd t t.
Proof.
  intros [x y z] H. cbn in H. rewrite !andb_true_iff, !Z.eqb_eq in H.
  destruct H as [[H1 H2] H3]. exists (v3 (x / 2) (y / 2) (z / 2)). cbn -[Z.div Z.add].
  f_equal; pose proof (Z.div_mod x 2); pose proof (Z.div_mod y 2); pose proof (Z.div_mod z 2); lia.
Qed.

(** Every rotation of an accepted grid maps the mesh and the shifted grid to
    themselves: the hypotheses of the grid theorems (C04 ...) are what is checked. *)
Theorem C10_accepted_rotations_are_grid_symmetries : forall D P Q S ops rots,
  pos_mesh D -> mesh_below 100000 D -> unimod Q ->
  set_rotations D P Q S ops = Some rots ->
  Forall2 (exact_transform D Q) ops rots /\
  forall T, In T rots -> compat D T /\
    match S with Some s => shift_ok (mulMV P s) T | None => shift_ok vzero T end.
Proof.
  intros D P Q S ops rots HD Hb HQ H. unfold set_rotations in H.
  destruct (transform_rotations D Q ops) as [ts|] eqn:E; [|discriminate].
  pose proof (C10_transformed_rotations_exact _ _ _ _ HD Hb HQ E) as F.
  assert (ts = rots) as ->.
  { destruct S as [s|]; [|congruence].
    destruct (satisfy_shift_symmetry P s ts) as [[|]|]; congruence. }
  split; [exact F|]. intros T HT.
  assert (exists R, exact_transform D Q R T) as [R HR].
  { clear -F HT. induction F as [|R' T' l tl HX _ IH]; [contradiction|].
    destruct HT as [->|HT]; eauto. }
  split; [eapply exact_compat; eauto|].
  destruct S as [s|].
  - unfold satisfy_shift_symmetry in H. destruct (Z.eqb_spec (det P) 1) as [EP|]; [|discriminate].
    destruct (forallb _ rots) eqn:EF in H; [|discriminate].
    rewrite forallb_forall in EF. specialize (EF T HT). apply even3_half in EF.
    destruct EF as [t Ht].
    assert (unimod P) as HP by (left; exact EP).
    assert (mulMM P (adj P) = I3) as EA.
    { rewrite adj_r, EP. reflexivity. }
    exists (vneg (mulMV P t)).
    assert (vsub (mulMV P s) (mulMV T (mulMV P s)) = vadd (mulMV P t) (mulMV P t)) as K.
    { rewrite <- mulMV_add, <- Ht.
      transitivity (vsub (mulMV P s) (mulMV P (mulMV (mulMM (adj P) (mulMM T P)) s))).
      - f_equal. rewrite <- (mulMV_mulMM P), (mulMM_assoc P), EA, mulMM_1_l. symmetry. apply mulMV_mulMM.
      - generalize (mulMV (mulMM (adj P) (mulMM T P)) s). intros [] . destruct P, s.
        cbn -[Z.mul Z.add Z.sub]. f_equal; ring. }
    destruct (mulMV P s), (mulMV P t), (mulMV T (v3 x y z)). cbn -[Z.add Z.sub Z.opp] in K |- *.
    injection K as K0 K1 K2. f_equal; lia.
  - exists vzero. destruct T. cbn -[Z.mul Z.add]. f_equal; ring.
Qed.
Print Assumptions C10_accepted_rotations_are_grid_symmetries.

(** Without the mesh bound the claim fails: a mesh number above 1/IDENTITY_TOL lets a
    non-integral matrix pass as a rounded one. *)
Theorem C10_large_mesh_refuted : exists D Q R T, pos_mesh D /\ unimod Q /\
  mulMM R R = I3 /\
  transform_rotations D Q [R] = Some [T] /\ ~ exact_transform D Q R T.
Proof.
  exists (v3 1 1 200000), I3, (m3 1 0 1 0 1 0 0 0 (-1)), (m3 1 0 0 0 1 0 0 0 (-1)).
  split; [cbn; lia|]. split; [left; reflexivity|]. split; [reflexivity|].
  split; [vm_compute; reflexivity|].
  intros H. specialize (H I3 eq_refl). vm_compute in H. discriminate.
Qed.
Print Assumptions C10_large_mesh_refuted.

(** Four-fold rotation on a body-centred (non-diagonal) grid. *)
Definition ex10_Q : M3 := m3 1 0 1 0 1 1 0 0 1.
Example C10_ex : unimod ex10_Q /\ mesh_below 100000 (v3 2 2 4) /\
  transform_rotations (v3 2 2 4) ex10_Q [I3; m3 0 (-1) 0 1 0 0 0 0 1] =
    Some [I3; m3 0 (-1) (-1) 1 0 0 0 0 1].
Proof. split; [left; reflexivity|]. split; [cbn; lia|]. vm_compute. reflexivity. Qed.
Example C10_ex_fail : transform_rotations (v3 2 3 4) I3 [m3 0 (-1) 0 1 0 0 0 0 1] = None.
Proof. vm_compute. reflexivity. Qed.
Example C10_ex_shift : set_rotations (v3 2 2 4) I3 I3 (Some (v3 1 1 0))
  [I3; m3 0 (-1) 0 1 0 0 0 0 1] = Some [I3; m3 0 (-1) 0 1 0 0 0 0 1] /\
  set_rotations (v3 2 2 4) I3 I3 (Some (v3 1 0 0)) [I3; m3 0 (-1) 0 1 0 0 0 0 1] = None.
Proof. vm_compute. auto. Qed.
