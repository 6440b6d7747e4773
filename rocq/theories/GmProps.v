(** Theorems C119: the sampling grid made from a given mesh. *)
From Coq Require Import ZArith QArith Qabs List Lia Lqa Bool Setoid.
From Verif Require Import Base BaseProofs Mat3 QMat GridSpec GridProofs SnfModel SnfProofs SnfProps RotModel RotProps GmModel.
Import ListNotations.
Open Scope Z_scope.

(** ** what a grid is *)
(** the q-point, in fractions of the reciprocal basis, of address a: q = Q D^-1 a *)
Definition q_of (g : grid) (a : V3) : QV :=
  let '(v3 x y z) := a in let '(v3 d e f) := g_D g in qmulMV (qm_of (g_Q g)) (qv (qz x / qz d) (qz y / qz e) (qz z / qz f)).
Definition integral (q : QV) : Prop := exists z, qveq q (qv_of z).
(** the grid g samples exactly the q-points with A q integral, each once up to whole reciprocal vectors: these are the
    wave vectors for which the supercell with basis vectors (rows of A) . lattice is a period *)
Definition samples (A : M3) (g : grid) : Prop :=
  pos_mesh (g_D g) /\
  (forall q, integral (qmulMV (qm_of A) q) <-> exists a, qveq q (q_of g a)) /\
  (forall a b, integral (qvsub (q_of g a) (q_of g b)) <-> vcong (g_D g) a b) /\
  mesh_size (g_D g) = Z.abs (det A).

Lemma qMV_mm : forall M N q, qveq (qmulMV (qm_of M) (qmulMV (qm_of N) q)) (qmulMV (qm_of (mulMM M N)) q).
Proof. intros [] [] []. cbn -[qz Z.add Z.mul]. rewrite !qz_add, !qz_mul. repeat split; ring. Qed.
Lemma qMV_1 : forall q, qveq (qmulMV (qm_of I3) q) q.
Proof. intros []. cbn. unfold qz, inject_Z. repeat split; ring. Qed.
Definition vdiv (D : V3) (q : QV) : QV := let '(v3 d e f) := D in let '(qv x y z) := q in qv (x / qz d) (y / qz e) (z / qz f).
Add Parametric Morphism D : (vdiv D) with signature qveq ==> qveq as vdiv_m.
Proof. intros [] [] [H1 [H2 H3]]. destruct D. cbn. rewrite H1, H2, H3. repeat split; reflexivity. Qed.
Lemma qz_ne : forall z, 0 < z -> ~ (qz z == 0)%Q.
Proof. intros z H E. apply (qz_inj z 0) in E. lia. Qed.
Lemma vdiv_diag : forall D q, pos_mesh D -> qveq (vdiv D (qmulMV (qm_of (diag3 D)) q)) q.
Proof. intros [d e f] [x y z] [H1 [H2 H3]]. apply qz_ne in H1, H2, H3. unfold vdiv, qmulMV, diag3, qm_of. change (qz 0) with 0%Q. repeat split; field; assumption. Qed.
Lemma diag_vdiv : forall D q, pos_mesh D -> qveq (qmulMV (qm_of (diag3 D)) (vdiv D q)) q.
Proof. intros [d e f] [x y z] [H1 [H2 H3]]. apply qz_ne in H1, H2, H3. unfold vdiv, qmulMV, diag3, qm_of. change (qz 0) with 0%Q. repeat split; field; repeat split; assumption. Qed.
Lemma q_of_eq : forall g a, q_of g a = qmulMV (qm_of (g_Q g)) (vdiv (g_D g) (qv_of a)).
Proof. intros g [x y z]. unfold q_of. destruct (g_D g). reflexivity. Qed.
Lemma vdiv_sub : forall D u v, qveq (qvsub (vdiv D u) (vdiv D v)) (vdiv D (qvsub u v)).
Proof. intros [] [] []. cbn. unfold Qdiv. repeat split; ring. Qed.
Lemma qv_of_sub : forall a b, qveq (qvsub (qv_of a) (qv_of b)) (qv_of (vsub a b)).
Proof. intros [] []. cbn -[qz Z.sub]. rewrite !qz_sub. repeat split; reflexivity. Qed.
Lemma qv_of_inj : forall a b, qveq (qv_of a) (qv_of b) -> a = b.
Proof. intros [] [] [H1 [H2 H3]]. apply qz_inj in H1, H2, H3. now subst. Qed.
Lemma integral_m : forall u v, qveq u v -> integral u -> integral v.
Proof. intros u v H [z Hz]. exists z. rewrite <- H. exact Hz. Qed.

Lemma decomposed : forall A g Pi Qi, pos_mesh (g_D g) -> diag3 (g_D g) = mulMM (mulMM (g_P g) A) (g_Q g) ->
  mulMM Pi (g_P g) = I3 -> mulMM (g_P g) Pi = I3 -> mulMM Qi (g_Q g) = I3 -> mulMM (g_Q g) Qi = I3 -> mesh_size (g_D g) = Z.abs (det A) -> samples A g.
Proof.
  intros A g Pi Qi HD E P1 P2 Q1 Q2 Hs. split; [exact HD|]. set (D := g_D g) in *. set (P := g_P g) in *. set (Qm := g_Q g) in *.
  assert (E' : mulMM P A = mulMM (diag3 D) Qi) by (rewrite E, <- mulMM_assoc, Q2, mulMM_1_r; reflexivity).
  assert (E2 : A = mulMM Pi (mulMM (diag3 D) Qi)) by (rewrite <- E', mulMM_assoc, P1, mulMM_1_l; reflexivity).
  split; [|split; [|exact Hs]].
  - intros q. split.
    + intros [z Hz]. exists (mulMV P z). rewrite q_of_eq. fold D Qm. rewrite <- qmulMV_of, <- Hz, qMV_mm, E', <- qMV_mm.
      rewrite vdiv_diag by exact HD. rewrite qMV_mm, Q2, qMV_1. reflexivity.
    + intros [a Ha]. rewrite q_of_eq in Ha. fold D Qm in Ha. exists (mulMV Pi a). rewrite Ha, E2, qMV_mm, <- !mulMM_assoc, Q1, mulMM_1_r, <- qMV_mm.
      rewrite diag_vdiv by exact HD. apply qmulMV_of.
  - intros a b.
    assert (X : qveq (qvsub (q_of g a) (q_of g b)) (qmulMV (qm_of Qm) (vdiv D (qv_of (vsub a b))))) by (rewrite !q_of_eq; fold D Qm; rewrite <- qmulMV_sub, vdiv_sub, qv_of_sub; reflexivity).
    split.
    + intros [z Hz]. rewrite X in Hz. exists (mulMV Qi z).
      assert (Y : vsub a b = mulMV (diag3 D) (mulMV Qi z)).
      { apply qv_of_inj. rewrite <- mulMV_mulMM, <- qmulMV_of, <- Hz, qMV_mm, <- mulMM_assoc, Q1, mulMM_1_r. symmetry. apply diag_vdiv, HD. }
      rewrite mulMV_diag in Y. rewrite <- Y. destruct a, b. cbn. f_equal; lia.
    + intros [k ->]. apply (integral_m _ _ (qveq_sym _ _ X)). exists (mulMV Qm k). rewrite <- qmulMV_of. apply qmulMV_m; [reflexivity|].
      replace (vsub (vadd b (vmul D k)) b) with (mulMV (diag3 D) k) by (rewrite mulMV_diag; destruct b, (vmul D k); cbn; f_equal; lia).
      rewrite <- qmulMV_of. apply vdiv_diag, HD.
Qed.
(** 791-802: what a grid generating matrix makes *)
Lemma set_matrix_good : forall f m g, set_matrix f m = Ok g -> (f = false -> meqb (diag3 (diagonal m)) m = true -> all_pos (diagonal m)) ->
  samples m g /\ unimod (g_Q g) /\ unimod (g_P g) /\ diag3 (g_D g) = mulMM (mulMM (g_P g) m) (g_Q g).
Proof.
  intros f m g H Hp. unfold set_matrix in H. destruct (meqb (diag3 (diagonal m)) m && negb f) eqn:B.
  - apply andb_true_iff in B. destruct B as [B1 B2]. apply negb_true_iff in B2. injection H as <-. specialize (Hp B2 B1). apply meqb_eq in B1.
    assert (E : diag3 (diagonal m) = mulMM (mulMM I3 m) I3) by (rewrite mulMM_1_l, mulMM_1_r; exact B1).
    split; [|split; [left; reflexivity|split; [left; reflexivity|exact E]]].
    apply (decomposed m _ I3 I3); cbn [g_D g_P g_Q]; try reflexivity; [|exact E|].
    + destruct (diagonal m). exact Hp.
    + replace (det m) with (det (diag3 (diagonal m))) by now rewrite B1. destruct (diagonal m) as [x y z]. cbn [mesh_size diag3 det]. destruct Hp as [X [Y Z0]]. replace (x * (y * z - 0 * 0) + 0 * (0 * 0 - 0 * z) + 0 * (0 * 0 - y * 0)) with (x * y * z) by ring. assert (0 < x * y * z) by (apply Z.mul_pos_pos; [apply Z.mul_pos_pos|]; assumption). lia.
  - destruct (get_snf3x3 m) as [[[d p] q]|] eqn:S; [|discriminate]. injection H as <-.
    destruct (C08_decomposition_exact _ _ _ _ S) as [H1 [H2 [H3 [H4 H5]]]]. destruct (C08_transformations_invertible _ _ _ _ S) as [Pi [Qi [K1 [K2 [K3 K4]]]]].
    split; [|split; [|split; [left; exact H2|exact H1]]].
    + apply (decomposed m _ Pi Qi); cbn [g_D g_P g_Q]; try assumption.
    + cbn [g_Q]. destruct (get_snf_spec _ _ _ _ S) as [? [? [? [_ [_ [_ [_ [_ [_ [U _]]]]]]]]]]. exact U.
Qed.

(** ** matrices of rationals *)
Lemma qmeq_sym : forall a b, qmeq a b -> qmeq b a.
Proof. intros [] [] H. cbn in *. intuition. Qed.
Add Parametric Relation : QM qmeq reflexivity proved by qmeq_refl symmetry proved by qmeq_sym transitivity proved by qmeq_trans as qmeq_rel.
Add Parametric Morphism : qmulMM with signature qmeq ==> qmeq ==> qmeq as qmulMM_mor.
Proof. intros a b H c d K. now apply qmulMM_m. Qed.
Add Parametric Morphism : qtransp with signature qmeq ==> qmeq as qtransp_mor.
Proof. intros [] [] H. cbn in *. intuition. Qed.
Definition Qone : QM := qm 1 0 0 0 1 0 0 0 1.
Lemma qmm_assoc : forall a b c, qmeq (qmulMM a (qmulMM b c)) (qmulMM (qmulMM a b) c).
Proof. intros [] [] []. cbn. repeat (split; [ring|]). ring. Qed.
Lemma qmm_1l : forall a, qmeq (qmulMM Qone a) a.
Proof. intros []. cbn. repeat (split; [ring|]). ring. Qed.
Lemma qmm_1r : forall a, qmeq (qmulMM a Qone) a.
Proof. intros []. cbn. repeat (split; [ring|]). ring. Qed.
Lemma qtransp_mm : forall a b, qmeq (qtransp (qmulMM a b)) (qmulMM (qtransp b) (qtransp a)).
Proof. intros [] []. cbn. repeat (split; [ring|]). ring. Qed.
Lemma qtransp_transp : forall a, qtransp (qtransp a) = a.
Proof. intros []. reflexivity. Qed.
Lemma qdet_mm : forall a b, (qdet (qmulMM a b) == qdet a * qdet b)%Q.
Proof. intros [] []. cbn. ring. Qed.
Lemma qdet_m : forall a b, qmeq a b -> (qdet a == qdet b)%Q.
Proof. intros [] [] H. cbn in *. destruct H as [H1 [H2 [H3 [H4 [H5 [H6 [H7 [H8 H9]]]]]]]]. now rewrite H1, H2, H3, H4, H5, H6, H7, H8, H9. Qed.
Lemma qinv_l : forall a, ~ (qdet a == 0)%Q -> qmeq (qmulMM (qinv a) a) Qone.
Proof. intros [] H. cbn in *. repeat (split; [field; assumption|]). field; assumption. Qed.
Lemma qinv_r : forall a, ~ (qdet a == 0)%Q -> qmeq (qmulMM a (qinv a)) Qone.
Proof. intros [] H. cbn in *. repeat (split; [field; assumption|]). field; assumption. Qed.
Lemma qinv_unique : forall a b, qmeq (qmulMM b a) Qone -> qmeq (qinv a) b.
Proof.
  intros a b H. assert (Hd : ~ (qdet a == 0)%Q). { intros E. pose proof (qdet_m _ _ H) as K. rewrite qdet_mm, E in K. cbn in K. assert (X : (0 == 1)%Q) by (rewrite <- (Qmult_0_r (qdet b)), K; ring). discriminate X. }
  rewrite <- (qmm_1l (qinv a)), <- H, <- qmm_assoc, (qinv_r a Hd). apply qmm_1r.
Qed.

(** ** Theorems *)
Section T.
Variable length2mesh : Q -> QM -> option (list M3) -> V3.
Variable estimate : dataset -> Z -> V3.
Variable lattice : QM.
Let make := grid_matrix length2mesh estimate lattice.

(** Three numbers: the grid has these numbers of divisions along the reciprocal basis vectors. *)
Theorem C119_three_numbers : forall v sym t use force known direct, all_pos v ->
  exists g, make (Three v) sym t use force known direct = Ok g /\ samples (diag3 v) g.
Proof.
  intros v sym t use force known direct Hv. exists (Grid None v I3 I3). split; [reflexivity|].
  assert (Ed : diagonal (diag3 v) = v) by (destruct v; reflexivity).
  refine (proj1 (set_matrix_good false (diag3 v) _ _ _)).
  - unfold set_matrix. rewrite Ed, (proj2 (meqb_eq _ _) eq_refl). reflexivity.
  - intros _ _. rewrite Ed. exact Hv.
Qed.
(** Nine numbers for a primitive cell: the grid of that matrix, with and without the enforced Smith normal form, unless
    the matrix is diagonal with a number that is not positive. *)
Definition primitive (sym : option dataset) : Prop := match sym with Some s => is_primitive_cell (ds_rots s) = true | None => True end.
Theorem C119_matrix : forall A sym t use force known direct g, primitive sym -> (force = false -> A = diag3 (diagonal A) -> all_pos (diagonal A)) ->
  make (Nine A) sym t use force known direct = Ok g -> samples A g.
Proof.
  intros A sym t use force known direct g Hp Hd H. cbn [make grid_matrix] in H. unfold make, grid_matrix, run_grg in H.
  destruct (match sym with Some s => _ | None => _ end) as [s|] eqn:Es; [|discriminate].
  assert (Pr : is_primitive_cell (ds_rots s) = true).
  { destruct sym as [s0|]; [injection Es as <-; exact Hp|]. destruct t as [t|]; [|discriminate]. unfold mock_dataset in Es.
    destruct (all2 _ _ _); [discriminate|]. destruct (_ <? 0); [discriminate|]. destruct (_ <? 1); [discriminate|]. injection Es as <-. reflexivity. }
  rewrite Pr in H. destruct (set_matrix force A) as [g'|] eqn:S; [|discriminate]. injection H as <-.
  refine (proj1 (set_matrix_good force A g' S _)). intros Hf Hm. apply meqb_eq in Hm. apply Hd; auto.
Qed.

(** ** One number and a generalized regular grid *)
Definition near (m n : QM) : Prop :=
  let '(qm a b c d e f g h i) := m in let '(qm a' b' c' d' e' f' g' h' i') := n in
  let k x y := (Qabs (x - y) < 1 # 100000)%Q in k a a' /\ k b b' /\ k c c' /\ k d d' /\ k e e' /\ k f f' /\ k g g' /\ k h h' /\ k i i'.
(** the basis vectors of C (rows) are given by the columns of X, up to 1e-5 the integers Zc *)
Definition conventional_cell (C : QM) (Zc : M3) : Prop := exists X, qmeq (qmulMM (qtransp X) lattice) C /\ near X (qm_of Zc).
Lemma all2_near : forall m n, all2 (fun a b => qltb (Qabs (a - b)) (1 # 100000))%Q m n = true -> near m n.
Proof. intros [] [] H. cbn in H. rewrite !andb_true_iff, !qltb_lt in H. cbn. tauto. Qed.
Lemma conventional_spec : forall s C tm, ~ (qdet lattice == 0)%Q -> ~ (qdet (ds_std s) == 0)%Q -> conventional lattice s = (C, tm) ->
  qmeq (qmulMM (qtransp (qinv tm)) lattice) C /\ (C = ds_std s \/ C = qmulMM (qtransp (qinv (ds_tmat s))) lattice).
Proof.
  intros s C tm HL HS H. unfold conventional in H. destruct (can_use_std_lattice _ _ _ _); injection H as <- <-; (split; [|auto]); [|reflexivity].
  set (S := ds_std s) in *. rewrite (qinv_unique _ (qtransp (qmulMM S (qinv lattice)))).
  - rewrite qtransp_transp, <- qmm_assoc, (qinv_l _ HL). apply qmm_1r.
  - rewrite <- qtransp_mm. rewrite <- qmm_assoc, (qmm_assoc (qinv S)), (qinv_l _ HS), qmm_1l, (qinv_r _ HL). reflexivity.
Qed.
(** the mesh numbers n are those of the cell C *)
Definition numbers_of (s : dataset) (x : Q) (direct : bool) (C : QM) : V3 :=
  let l := length2mesh x C None in if direct then estimate s ((vx l * vy l * vz l) * ds_ntypes s) else l.
Lemma length_matrix : forall x s t force direct g, is_primitive_cell (ds_rots s) = true -> ~ (qdet lattice == 0)%Q -> ~ (qdet (ds_std s) == 0)%Q ->
  make (One x) (Some s) t true force true direct = Ok g ->
  exists C Zc, (C = ds_std s \/ C = qmulMM (qtransp (qinv (ds_tmat s))) lattice) /\ conventional_cell C Zc /\ set_matrix force (mulMM (diag3 (numbers_of s x direct C)) (transp Zc)) = Ok g.
Proof.
  intros x s t force direct g Hp HL HS H. unfold make, grid_matrix, run_grg in H. rewrite Hp in H. unfold get_grid_matrix in H.
  destruct (conventional lattice s) as [C tm] eqn:Ec. destruct (conventional_spec s C tm HL HS Ec) as [X1 X2].
  exists C, (mrint (qinv tm)). split; [exact X2|].
  assert (En : mesh_numbers length2mesh estimate s x true direct C = Ok (numbers_of s x direct C)) by (unfold mesh_numbers, numbers_of; destruct direct; reflexivity).
  rewrite En in H. destruct (all2 _ _ _) eqn:E2; [|discriminate]. split; [exists (qinv tm); split; [exact X1|apply all2_near, E2]|].
  set (n := numbers_of s x direct C) in *. set (A := mulMM (diag3 n) (transp (mrint (qinv tm)))).
  assert (EA : A = transp (times_columns (mrint (qinv tm)) n)) by (unfold A; destruct (mrint (qinv tm)), n; cbn; f_equal; ring).
  rewrite <- EA in H. destruct (set_matrix force A) as [g'|] eqn:S; [|discriminate]. injection H as <-. reflexivity.
Qed.
(** One number, use_grg, primitive cell: the grid of the supercell made of n_j conventional cells along the conventional vector j:
    q is sampled iff n_j (q . c_j) is an integer for j = 1, 2, 3. *)
Theorem C119_length : forall x s t force direct g, is_primitive_cell (ds_rots s) = true -> ~ (qdet lattice == 0)%Q -> ~ (qdet (ds_std s) == 0)%Q ->
  make (One x) (Some s) t true force true direct = Ok g ->
  exists C Zc, (C = ds_std s \/ C = qmulMM (qtransp (qinv (ds_tmat s))) lattice) /\ conventional_cell C Zc /\
    let n := numbers_of s x direct C in let A := mulMM (diag3 n) (transp Zc) in
    ((force = false -> A = diag3 (diagonal A) -> all_pos (diagonal A)) -> samples A g).
Proof.
  intros x s t force direct g Hp HL HS H. destruct (length_matrix x s t force direct g Hp HL HS H) as [C [Zc [X1 [X2 X3]]]].
  exists C, Zc. split; [exact X1|]. split; [exact X2|]. intros n A Hd. refine (proj1 (set_matrix_good force A g X3 _)). intros Hf Hm. apply meqb_eq in Hm. apply Hd; auto.
Qed.
(** Otherwise, for one number: the mesh numbers phonopy finds for the lattice, with the operations. *)
Theorem C119_plain_length : forall x sym t force known direct use,
  use = false \/ (exists s, sym = Some s /\ is_primitive_cell (ds_rots s) = false) ->
  make (One x) sym t use force known direct = Ok (Grid None (length2mesh x lattice (option_map ds_rots sym)) I3 I3).
Proof.
  intros x sym t force known direct use [-> | [s [-> Hs]]]; unfold make, grid_matrix; [destruct sym; reflexivity|].
  destruct use; [|reflexivity]. unfold run_grg. rewrite Hs. reflexivity.
Qed.

(** ** symmetry *)
(** R (acting on q) maps sampled points to sampled points *)
Definition preserved (A R : M3) : Prop := forall q, integral (qmulMV (qm_of A) q) -> integral (qmulMV (qm_of A) (qmulMV (qm_of R) q)).
Lemma make_unimod : forall mesh sym t use force known direct g, make mesh sym t use force known direct = Ok g -> unimod (g_Q g).
Proof.
  assert (K : forall f m g, set_matrix f m = Ok g -> unimod (g_Q g)).
  { intros f m g H. unfold set_matrix in H. destruct (_ && _); [injection H as <-; left; reflexivity|]. destruct (get_snf3x3 m) as [[[d p] q]|] eqn:S; [|discriminate]. injection H as <-.
    destruct (get_snf_spec _ _ _ _ S) as [? [? [? [_ [_ [_ [_ [_ [_ [U _]]]]]]]]]]. exact U. }
  assert (K2 : forall sym t l f k d g, run_grg length2mesh estimate lattice sym t l f k d = Ok (Some g) -> unimod (g_Q g)).
  { intros sym t l f k d g H. unfold run_grg in H. destruct (match sym with Some _ => _ | None => _ end); [|discriminate]. destruct (is_primitive_cell _); [|discriminate].
    destruct (match l with inl _ => _ | inr _ => _ end); [|discriminate]. destruct (set_matrix f x0) eqn:S; [|discriminate]. injection H as <-. eapply K, S. }
  intros mesh sym t use force known direct g H. unfold make, grid_matrix in H. destruct mesh.
  - destruct use; [|injection H as <-; left; reflexivity]. destruct (run_grg _ _ _ _ _ _ _ _ _) as [[g'|]|] eqn:E; [injection H as <-; eapply K2, E|injection H as <-; left; reflexivity|discriminate].
  - injection H as <-; left; reflexivity.
  - destruct (run_grg _ _ _ _ _ _ _ _ _) as [[g'|]|] eqn:E; [injection H as <-; eapply K2, E|injection H as <-; left; reflexivity|discriminate].
  - injection H as <-; left; reflexivity.
Qed.
Lemma column_int : forall d m a, 0 < d -> (qz m / qz d == qz a)%Q -> a * d = m.
Proof. intros d m a Hd H. apply qz_ne in Hd. apply qz_inj. rewrite qz_mul, <- H. field. exact Hd. Qed.
Lemma preserved_exact : forall A g R, samples A g -> unimod (g_Q g) -> preserved A R -> exists T, exact_transform (g_D g) (g_Q g) R T.
Proof.
  intros A g R [HD [HS [_ _]]] HU HR. set (D := g_D g) in *. set (Qm := g_Q g) in *.
  assert (St : forall e, exists a, qveq (qmulMV (qm_of (mulMM (diag3 D) (mulMM (minv Qm) (mulMM R Qm)))) (vdiv D (qv_of e))) (qv_of a)).
  { intros e. assert (G : integral (qmulMV (qm_of A) (q_of g e))) by (apply HS; exists e; reflexivity).
    apply HR in G. apply HS in G. destruct G as [a Ha]. exists a. rewrite !q_of_eq in Ha. fold D Qm in Ha.
    rewrite <- qMV_mm, <- qMV_mm, <- qMV_mm, Ha, (qMV_mm (minv Qm) Qm), (minv_l Qm HU), qMV_1. apply diag_vdiv, HD. }
  destruct (St (v3 1 0 0)) as [[a1 a2 a3] Ha], (St (v3 0 1 0)) as [[b1 b2 b3] Hb], (St (v3 0 0 1)) as [[c1 c2 c3] Hc]. clear St.
  exists (m3 a1 b1 c1 a2 b2 c2 a3 b3 c3). intros Qi HQ. apply left_inv_unique in HQ; [|exact HU]. subst Qi. fold D.
  destruct (mulMM (diag3 D) (mulMM (minv Qm) (mulMM R Qm))) as [m1 m2 m3' m4 m5 m6 m7 m8 m9]. destruct D as [d e f]. destruct HD as [D1 [D2 D3]].
  unfold vdiv, qv_of, qmulMV, qm_of, qveq in Ha, Hb, Hc. change (qz 0) with 0%Q in *. change (qz 1) with 1%Q in *.
  destruct Ha as [Ha1 [Ha2 Ha3]], Hb as [Hb1 [Hb2 Hb3]], Hc as [Hc1 [Hc2 Hc3]]. pose proof (qz_ne _ D1). pose proof (qz_ne _ D2). pose proof (qz_ne _ D3).
  rewrite <- (column_int d m1 a1 D1), <- (column_int d m4 a2 D1), <- (column_int d m7 a3 D1), <- (column_int e m2 b1 D2), <- (column_int e m5 b2 D2), <- (column_int e m8 b3 D2), <- (column_int f m3' c1 D3), <- (column_int f m6 c2 D3), <- (column_int f m9 c3 D3);
    [cbn; f_equal; ring|..]; (rewrite <- Ha1 || rewrite <- Ha2 || rewrite <- Ha3 || rewrite <- Hb1 || rewrite <- Hb2 || rewrite <- Hb3 || rewrite <- Hc1 || rewrite <- Hc2 || rewrite <- Hc3); field; repeat split; assumption.
Qed.
Lemma exact_preserved : forall A g R T, samples A g -> unimod (g_Q g) -> exact_transform (g_D g) (g_Q g) R T -> preserved A R.
Proof.
  intros A g R T [HD [HS [_ _]]] HU HT q Hq. set (D := g_D g) in *. set (Qm := g_Q g) in *. apply HS in Hq. destruct Hq as [a Ha]. apply HS. exists (mulMV T a).
  rewrite Ha, !q_of_eq. fold D Qm. specialize (HT (minv Qm) (minv_l Qm HU)).
  assert (E : mulMM Qm (mulMM (minv Qm) (mulMM R Qm)) = mulMM R Qm) by (rewrite mulMM_assoc, (minv_r Qm HU), mulMM_1_l; reflexivity).
  rewrite qMV_mm, <- E, <- qMV_mm. apply qmulMV_m; [reflexivity|]. rewrite <- qmulMV_of. rewrite <- (diag_vdiv D (qv_of a) HD) at 2. rewrite (qMV_mm T), HT, <- (qMV_mm (diag3 D)). symmetry. apply vdiv_diag, HD.
Qed.
(** the operations are accepted when they map the sampled points to sampled points, and only then *)
Theorem C119_symmetry : forall mesh sym t use force known direct g A recs, make mesh sym t use force known direct = Ok g -> samples A g ->
  ((forall R, In R recs -> preserved A R) -> exists ts, transform_rotations (g_D g) (g_Q g) recs = Some ts) /\
  (mesh_below 100000 (g_D g) -> forall ts, transform_rotations (g_D g) (g_Q g) recs = Some ts -> forall R, In R recs -> preserved A R).
Proof.
  intros mesh sym t use force known direct g A recs H HS. pose proof (make_unimod _ _ _ _ _ _ _ _ H) as HU. pose proof (proj1 HS) as HD. split.
  - induction recs as [|R l IH]; intros Hr; [exists []; reflexivity|]. destruct (preserved_exact A g R HS HU (Hr R (or_introl eq_refl))) as [T HT].
    destruct IH as [ts Hts]; [intros; apply Hr; now right|]. exists (T :: ts). cbn [transform_rotations]. rewrite (transform_complete _ _ _ _ HD HU (HT _ (minv_l _ HU))), Hts. reflexivity.
  - intros Hb ts Hts R HR. pose proof (C10_transformed_rotations_exact _ _ _ _ HD Hb HU Hts) as F. clear Hts. induction F as [|R' T l l' E _ IH]; [contradiction|].
    destruct HR as [-> |HR]; [exact (exact_preserved A g R T HS HU E)|exact (IH HR)].
Qed.

(** ** the generalized regular grid has the symmetry of the crystal *)
(** phonopy's length2mesh without operations: a positive number for each reciprocal vector that depends on its length only *)
Definition reciprocal_norm2 (C : QM) (i : Z) : Q :=
  let '(qm a b c d e f g h k) := qinv C in
  if i =? 0 then (a * a + d * d + g * g)%Q else if i =? 1 then (b * b + e * e + h * h)%Q else (c * c + f * f + k * k)%Q.
Definition by_lengths : Prop := exists count : Q -> Q -> Z, (forall x l l', (l == l')%Q -> count x l = count x l') /\ (forall x l, 0 < count x l) /\
  forall x C, length2mesh x C None = v3 (count x (reciprocal_norm2 C 0)) (count x (reciprocal_norm2 C 1)) (count x (reciprocal_norm2 C 2)).
(** the operation R is an integer matrix Rc on the reciprocal vectors of the conventional cell, and mixes only those of the same length: so do all
    operations of a crystal in the conventional cells of the tables *)
Definition conventional_operation (C : QM) (Zc R : M3) : Prop :=
  exists Rc, mulMM Rc (transp Zc) = mulMM (transp Zc) R /\ forall i j, 0 <= i < 3 -> 0 <= j < 3 -> mget Rc i j <> 0 -> (reciprocal_norm2 C i == reciprocal_norm2 C j)%Q.
Theorem C119_grg_symmetry : by_lengths -> forall x s t force g recs, is_primitive_cell (ds_rots s) = true -> ~ (qdet lattice == 0)%Q -> ~ (qdet (ds_std s) == 0)%Q ->
  make (One x) (Some s) t true force true false = Ok g ->
  (force = false -> pos_mesh (g_D g)) ->
  (forall C Zc R, (C = ds_std s \/ C = qmulMM (qtransp (qinv (ds_tmat s))) lattice) -> conventional_cell C Zc -> In R recs -> conventional_operation C Zc R) ->
  exists ts, transform_rotations (g_D g) (g_Q g) recs = Some ts.
Proof.
  intros [count [Hc [Hp Hl]]] x s t force g recs Pr HL HS H Hpos Hop.
  destruct (length_matrix x s t force false g Pr HL HS H) as [C [Zc [HC [Hcell HA]]]]. unfold numbers_of in HA. rewrite Hl in HA.
  set (n := v3 _ _ _) in HA. set (A := mulMM (diag3 n) (transp Zc)) in HA.
  assert (Sa : samples A g).
  { refine (proj1 (set_matrix_good force A g HA _)). intros Hf Hm. specialize (Hpos Hf). unfold set_matrix in HA. rewrite Hm, Hf in HA. cbn [andb negb] in HA. injection HA as <-. cbn [g_D] in Hpos. destruct (diagonal A). exact Hpos. }
  apply (proj1 (C119_symmetry _ _ _ _ _ _ _ g A recs H Sa)). intros R HR q [z Hz]. destruct (Hop C Zc R HC Hcell HR) as [Rc [E1 E2]].
  assert (Cm : mulMM (diag3 n) Rc = mulMM Rc (diag3 n)).
  { assert (K : forall i j y, y = mget Rc i j -> 0 <= i < 3 -> 0 <= j < 3 -> count x (reciprocal_norm2 C i) * y = y * count x (reciprocal_norm2 C j)).
    { intros i j y -> Hi Hj. destruct (Z.eq_dec (mget Rc i j) 0) as [-> |Hn]; [ring|]. rewrite (Hc x _ _ (E2 i j Hi Hj Hn)). ring. }
    unfold n. destruct Rc as [r1 r2 r3 r4 r5 r6 r7 r8 r9].
    pose proof (K 0 1 r2 eq_refl ltac:(lia) ltac:(lia)). pose proof (K 0 2 r3 eq_refl ltac:(lia) ltac:(lia)). pose proof (K 1 0 r4 eq_refl ltac:(lia) ltac:(lia)). pose proof (K 1 2 r6 eq_refl ltac:(lia) ltac:(lia)). pose proof (K 2 0 r7 eq_refl ltac:(lia) ltac:(lia)). pose proof (K 2 1 r8 eq_refl ltac:(lia) ltac:(lia)).
    unfold diag3, mulMM. f_equal; lia. }
  exists (mulMV Rc z). assert (EA : mulMM A R = mulMM Rc A) by (unfold A; rewrite <- mulMM_assoc, <- E1, !mulMM_assoc, Cm; reflexivity).
  rewrite qMV_mm, EA, <- qMV_mm, Hz. apply qmulMV_of.
Qed.
End T.

(** ** where the grid asked for is not made *)
(** Nine numbers for a cell that is not primitive, and a wrong number of values: the 1x1x1 grid is taken *)
Theorem C119_ignored_refuted : forall l2m est L s t use force known direct A, is_primitive_cell (ds_rots s) = false ->
  grid_matrix l2m est L (Nine A) (Some s) t use force known direct = Ok (Grid None (v3 1 1 1) I3 I3) /\
  forall n sym, grid_matrix l2m est L (Other n) sym t use force known direct = Ok (Grid None (v3 1 1 1) I3 I3).
Proof. intros. split; [|reflexivity]. unfold grid_matrix, run_grg. rewrite H. reflexivity. Qed.
Definition l2m_ex (x : Q) (C : QM) (_ : option (list M3)) : V3 :=
  let c i := Z.max 1 (rint (x * x * reciprocal_norm2 C i)) in v3 (c 0) (c 1) (c 2).
Definition est_ex (_ : dataset) (_ : Z) : V3 := v3 1 1 1.
Definition L_ex : QM := qm 1 0 0 0 2 0 0 0 1.
(** a conventional cell turned by 180 degrees, as in a transformation matrix of spglib: negative numbers of divisions *)
Theorem C119_negative_refuted : exists s g, is_primitive_cell (ds_rots s) = true /\ (qdet (ds_tmat s) == 1)%Q /\
  grid_matrix l2m_ex est_ex L_ex (One 2) (Some s) None true false true false = Ok g /\ g_D g = v3 (-4) (-1) 4 /\ ~ pos_mesh (g_D g).
Proof.
  exists (Ds [I3; m3 (-1) 0 0 0 (-1) 0 0 0 1] (qm (-1) 0 0 0 (-1) 0 0 0 1) (qm (-1) 0 0 0 (-2) 0 0 0 1) 1). eexists.
  split; [reflexivity|]. split; [reflexivity|]. split; [vm_compute; reflexivity|]. split; [reflexivity|]. cbn. lia.
Qed.
(** a transformation matrix whose inverse is not an integer matrix is not refused *)
Theorem C119_transformation_matrix_refuted : exists t g, ~ (exists m, qmeq (qinv t) (qm_of m)) /\
  grid_matrix l2m_ex est_ex L_ex (Nine (diag3 (v3 2 2 2))) None (Some t) true false true false = Ok g.
Proof.
  exists (qm (2 # 3) 0 0 0 1 0 0 0 1). eexists. split; [|vm_compute; reflexivity].
  intros [[a b c d e f g h i] [H _]]. assert (E : (qz a == 3 # 2)%Q) by (rewrite <- H; reflexivity). unfold qz, inject_Z, Qeq in E. cbn -[Z.mul] in E. lia.
Qed.
Print Assumptions C119_three_numbers. Print Assumptions C119_matrix. Print Assumptions C119_length. Print Assumptions C119_plain_length. Print Assumptions C119_symmetry. Print Assumptions C119_grg_symmetry.
Print Assumptions C119_ignored_refuted. Print Assumptions C119_negative_refuted. Print Assumptions C119_transformation_matrix_refuted.
