(** Theorems C08 and C09: the integer matrix decomposition used for generalized
    regular grids. *)
From Coq Require Import ZArith List Lia Bool.
From Verif Require Import Base BaseProofs Mat3 SnfModel SnfProofs.
Import ListNotations.
Open Scope Z_scope.

Definition vol (d : V3) : Z := let '(v3 x y z) := d in x * y * z.
Definition all_pos (d : V3) : Prop := let '(v3 x y z) := d in 0 < x /\ 0 < y /\ 0 < z.

Lemma get_snf_gen : forall F n A d P Q,
  get_snf3x3_bounds F n A = Some (d, P, Q) ->
  exists a b c, 0 < a /\ a <= b /\ b <= c /\ diag3 d = final_diag a b c /\
    diag3 d = mulMM (mulMM P A) Q /\ det P = 1 /\ unimod Q /\ det A <> 0.
Proof.
  intros F n A d P Q H. unfold get_snf3x3_bounds in H.
  destruct (Z.eqb_spec (det A) 0) as [|Hd]; [discriminate|].
  destruct (snf_loop F n (st A I3 I3)) as [[D P' Q']|] eqn:E; [|discriminate].
  inversion H; subst d P' Q'; clear H.
  apply snf_loop_spec in E; [|exact Hd].
  destruct E as [a [b [c [H1 [H2 [H3 [HD [R Hdp]]]]]]]].
  exists a, b, c. split; [exact H1|]. split; [exact H2|]. split; [exact H3|].
  assert (diag3 (v3 (mget D 0 0) (mget D 1 1) (mget D 2 2)) = D) as ED by (subst D; reflexivity).
  rewrite ED. split; [exact HD|]. destruct R as [U [V [HU [HV [E1 [E2 E3]]]]]].
  rewrite mulMM_1_r in E2, E3. subst U V. rewrite transp_transp in E1.
  split; [exact E1|]. split; [destruct HU; lia|]. split; [|exact Hd].
  unfold unimod in *. rewrite det_transp in HV. exact HV.
Qed.
Lemma get_snf_spec : forall A d P Q, get_snf3x3 A = Some (d, P, Q) ->
  exists a b c, 0 < a /\ a <= b /\ b <= c /\ diag3 d = final_diag a b c /\
    diag3 d = mulMM (mulMM P A) Q /\ det P = 1 /\ unimod Q /\ det A <> 0.
Proof. intros A d P Q H. exact (get_snf_gen 1000 100 A d P Q H). Qed.

Lemma diag3_inj_dg : forall d a b c, diag3 d = dg a b c -> d = v3 a b c.
Proof. intros [x y z] a b c H. unfold dg in H. cbn in H. inversion H. reflexivity. Qed.

(* ------------------------------------------------------------------ C08 *)
(** Reported success means an exact factorisation by unimodular integer matrices. *)
Theorem C08_decomposition_exact : forall A d P Q, get_snf3x3 A = Some (d, P, Q) ->
  diag3 d = mulMM (mulMM P A) Q /\
  det P = 1 /\
  det Q = Z.sgn (det A) /\
  all_pos d /\
  vol d = Z.abs (det A).
Proof.
  intros A d P Q H. apply get_snf_spec in H.
  destruct H as [a [b [c [H1 [H2 [H3 [HD [E [HP [HQ HA]]]]]]]]]].
  assert (all_pos d) as Hpos.
  { unfold final_diag in HD. apply diag3_inj_dg in HD. subst d. cbn -[Z.gcd lcm' Z.min Z.max].
    pose proof (lcm'_facts a b ltac:(lia) ltac:(lia)).
    pose proof (lcm'_facts (Z.min (lcm' a b) c) (Z.max (lcm' a b) c) ltac:(lia) ltac:(lia)). lia. }
  assert (vol d = det P * det A * det Q) as Ev.
  { rewrite <- !det_mulMM, <- E. destruct d. cbn. ring. }
  assert (0 < vol d) as Hv.
  { destruct d; cbn in *. destruct Hpos as [X [Y Z0]].
    apply Z.mul_pos_pos; [apply Z.mul_pos_pos|]; assumption. }
  rewrite HP in Ev.
  split; [exact E|]. split; [exact HP|].
  destruct HQ as [HQ|HQ]; rewrite HQ in Ev.
  - split; [|split; [exact Hpos|lia]]. rewrite HQ. symmetry. apply Z.sgn_pos. lia.
  - split; [|split; [exact Hpos|lia]]. rewrite HQ. symmetry. apply Z.sgn_neg. lia.
Qed.
Print Assumptions C08_decomposition_exact.

(** P and Q are invertible over the integers (so is the address transformation). *)
Theorem C08_transformations_invertible : forall A d P Q, get_snf3x3 A = Some (d, P, Q) ->
  exists Pi Qi, mulMM Pi P = I3 /\ mulMM P Pi = I3 /\ mulMM Qi Q = I3 /\ mulMM Q Qi = I3.
Proof.
  intros A d P Q H. apply get_snf_spec in H.
  destruct H as [a [b [c [_ [_ [_ [_ [_ [HP [HQ _]]]]]]]]]].
  exists (minv P), (minv Q). assert (unimod P) by (left; exact HP).
  repeat split; auto using minv_l, minv_r.
Qed.
Print Assumptions C08_transformations_invertible.

Theorem C08_singular_fails : forall A, det A = 0 -> get_snf3x3 A = None.
Proof.
  assert (forall F n A, det A = 0 -> get_snf3x3_bounds F n A = None) as K.
  { intros F n A H. unfold get_snf3x3_bounds. rewrite H. reflexivity. }
  exact (K 1000%nat 100%nat).
Qed.
Print Assumptions C08_singular_fails.

(** A conventional-cell to primitive-cell type matrix; a negative determinant. *)
Example C08_ex1 : exists d P Q, get_snf3x3 (m3 0 5 5 5 0 5 2 2 0) = Some (d, P, Q) /\ d = v3 1 5 20.
Proof. vm_compute. do 3 eexists. split; reflexivity. Qed.
Example C08_ex2 : exists d P Q, get_snf3x3 (m3 (-3) 1 0 2 4 (-6) 0 5 7) = Some (d, P, Q) /\ d = v3 1 1 188.
Proof. vm_compute. do 3 eexists. split; reflexivity. Qed.

(* ------------------------------------------------------------------ C09 *)
Definition divisor_chain (d : V3) : Prop := let '(v3 x y z) := d in (x | y) /\ (y | z).

(** The promise of the name fails: diag(2,2,3) yields (2,1,6). *)
Theorem C09_divisor_chain_refuted : exists A d P Q,
  get_snf3x3 A = Some (d, P, Q) /\ d = v3 2 1 6 /\ ~ divisor_chain d.
Proof.
  exists (m3 2 0 0 0 2 0 0 0 3). do 3 eexists.
  split; [vm_compute; reflexivity|]. split; [reflexivity|].
  intros [[k Hk] _]. lia.
Qed.
Print Assumptions C09_divisor_chain_refuted.

(** What does hold: the second diagonal number divides the third one. (Missing for
    C09: the first divides the second, refuted above.) *)
Theorem C09_second_divides_third_partial : forall A d P Q,
  get_snf3x3 A = Some (d, P, Q) ->
  let '(v3 _ y z) := d in (y | z).
Proof.
  intros A d P Q H. apply get_snf_spec in H.
  destruct H as [a [b [c [H1 [H2 [H3 [HD _]]]]]]].
  unfold final_diag in HD. apply diag3_inj_dg in HD. subst d.
  pose proof (lcm'_facts a b ltac:(lia) ltac:(lia)).
  destruct (lcm'_facts (Z.min (lcm' a b) c) (Z.max (lcm' a b) c) ltac:(lia) ltac:(lia))
    as [_ [_ [_ [_ [_ [_ [Hl _]]]]]]].
  eapply Z.divide_trans; [apply Z.gcd_divide_l|exact Hl].
Qed.
Print Assumptions C09_second_divides_third_partial.
