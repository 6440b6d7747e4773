From Coq Require Import ZArith QArith List Bool Lia Lqa Setoid Morphisms.
From Verif Require Import Base BaseProofs QMat Cplx IsoSym VelModel.
Import ListNotations.
Open Scope Z_scope.

(** ** Specification *)
Definition cmeq (n : Z) (A B : mat) : Prop := forall p q, 0 <= p < n -> 0 <= q < n -> A p q =c= B p q.
Definition one : mat := fun p q => if p =? q then c1 else c0.
Definition cdiag (d : Z -> cplx) : mat := fun p q => if p =? q then d p else c0.
Definition madd (A B : mat) : mat := fun p q => cadd (A p q) (B p q).
Definition msub (A B : mat) : mat := fun p q => csub (A p q) (B p q).
Definition mconj (A : mat) : mat := fun p q => conj (A p q).
(** [v] are orthonormal eigenvectors of A with eigenvalues [w] *)
Record eigenpairs (n : Z) (A : mat) (w : Z -> Q) (v : mat) : Prop := {
  ep_left : cmeq n (matmul n (adj v) v) one;
  ep_right : cmeq n (matmul n v (adj v)) one;
  ep_decomposition : cmeq n A (matmul n v (matmul n (cdiag (fun l => C (w l) 0)) (adj v))) }.
(** a square root at the given number *)
Definition root_at (csqrt : cplx -> cplx) (x : Q) : Prop := cmul (csqrt (C x 0)) (csqrt (C x 0)) =c= C x 0.
Definition real (z : cplx) : Prop := (im z == 0)%Q.

Local Arguments CSum : simpl never.
Local Arguments matmul : simpl never.
Local Arguments sqrt_dm : simpl never.
(** ** matrices *)
Lemma CSum_delta_r : forall n a (f : Z -> cplx), 0 <= a < n -> CSum n (fun b => cmul (f b) (if b =? a then c1 else c0)) =c= f a.
Proof. intros n a f Ha. rewrite <- (CSum_delta' n a f Ha). apply CSum_ext. intros b _. rewrite Z.eqb_sym. ring. Qed.
Lemma CSum_mul_r : forall n c f, CSum n (fun i => cmul (f i) c) =c= cmul (CSum n f) c.
Proof. intros n c f. transitivity (CSum n (fun i => cmul c (f i))); [apply CSum_ext; intros; ring|]. rewrite CSum_scale. ring. Qed.
Lemma CSum_add' : forall n f g, CSum n (fun i => cadd (f i) (g i)) =c= cadd (CSum n f) (CSum n g).
Proof. intros. unfold CSum. apply csum_add. Qed.
#[global] Instance cmeq_equiv : forall n, Equivalence (cmeq n).
Proof. intros n. split; [intros A p q _ _; reflexivity | intros A B H p q Hp Hq; symmetry; now apply H | intros A B C' H G p q Hp Hq; transitivity (B p q); [now apply H|now apply G]]. Qed.
#[global] Instance matmul_proper : forall n, Proper (cmeq n ==> cmeq n ==> cmeq n) (matmul n).
Proof. intros n A A' H B B' G p q Hp Hq. apply CSum_ext. intros k Hk. now rewrite (H p k Hp Hk), (G k q Hk Hq). Qed.
#[global] Instance adj_proper : forall n, Proper (cmeq n ==> cmeq n) adj.
Proof. intros n A A' H p q Hp Hq. unfold adj. now rewrite (H q p Hq Hp). Qed.
#[global] Instance madd_proper : forall n, Proper (cmeq n ==> cmeq n ==> cmeq n) madd.
Proof. intros n A A' H B B' G p q Hp Hq. unfold madd. now rewrite (H p q Hp Hq), (G p q Hp Hq). Qed.
#[global] Instance msub_proper : forall n, Proper (cmeq n ==> cmeq n ==> cmeq n) msub.
Proof. intros n A A' H B B' G p q Hp Hq. unfold msub. now rewrite (H p q Hp Hq), (G p q Hp Hq). Qed.
#[global] Instance mconj_proper : forall n, Proper (cmeq n ==> cmeq n) mconj.
Proof. intros n A A' H p q Hp Hq. unfold mconj. now rewrite (H p q Hp Hq). Qed.
Lemma mm_a : forall n A B C', cmeq n (matmul n (matmul n A B) C') (matmul n A (matmul n B C')).
Proof.
  intros n A B C' p q _ _. unfold matmul. rewrite (CSum_ext n _ (fun k => CSum n (fun m => cmul (cmul (A p m) (B m k)) (C' k q)))) by (intros k _; now rewrite CSum_mul_r).
  rewrite CSum_swap. apply CSum_ext. intros m _. rewrite <- CSum_scale. apply CSum_ext. intros; ring.
Qed.
Lemma mm_1r : forall n A, cmeq n (matmul n A one) A.
Proof. intros n A p q Hp Hq. unfold matmul, one. now apply (CSum_delta_r n q (fun k => A p k)). Qed.
Lemma mm_1l : forall n A, cmeq n (matmul n one A) A.
Proof. intros n A p q Hp Hq. unfold matmul, one. now apply (CSum_delta' n p (fun k => A k q)). Qed.
Lemma adj_mm : forall n A B, cmeq n (adj (matmul n A B)) (matmul n (adj B) (adj A)).
Proof. intros n A B p q _ _. unfold adj, matmul. rewrite CSum_conj'. apply CSum_ext. intros k _. rewrite conj_mul. ring. Qed.
Lemma adj_adj : forall n A, cmeq n (adj (adj A)) A.
Proof. intros n A p q _ _. unfold adj. split; cbn; ring. Qed.
Lemma conj_conj : forall z, conj (conj z) =c= z.
Proof. intros z. split; cbn; ring. Qed.
Lemma mconj_mm : forall n A B, cmeq n (mconj (matmul n A B)) (matmul n (mconj A) (mconj B)).
Proof. intros n A B p q _ _. unfold mconj, matmul. rewrite CSum_conj'. apply CSum_ext. intros k _. apply conj_mul. Qed.
Lemma diag_mm : forall n d e, cmeq n (matmul n (cdiag d) (cdiag e)) (cdiag (fun l => cmul (d l) (e l))).
Proof.
  intros n d e p q Hp Hq. unfold matmul, cdiag. rewrite (CSum_ext n _ (fun k => cmul (if p =? k then c1 else c0) (cmul (d p) (if k =? q then e k else c0)))) by (intros k _; destruct (p =? k); ring).
  rewrite (CSum_delta' n p (fun k => cmul (d p) (if k =? q then e k else c0)) Hp). destruct (p =? q); [reflexivity|ring].
Qed.
Lemma diag_ext : forall n d e, (forall l, 0 <= l < n -> d l =c= e l) -> cmeq n (cdiag d) (cdiag e).
Proof. intros n d e H p q Hp Hq. unfold cdiag. destruct (p =? q); [now apply H|reflexivity]. Qed.
Lemma diag_adj : forall n d, cmeq n (adj (cdiag d)) (cdiag (fun l => conj (d l))).
Proof. intros n d p q _ _. unfold adj, cdiag. rewrite Z.eqb_sym. destruct (Z.eqb_spec p q) as [->|_]; [reflexivity|split; cbn; ring]. Qed.
Lemma mm_madd_l : forall n A B C', cmeq n (matmul n (madd A B) C') (madd (matmul n A C') (matmul n B C')).
Proof. intros n A B C' p q _ _. unfold matmul, madd. rewrite <- CSum_add'. apply CSum_ext. intros; ring. Qed.
Lemma mm_msub : forall n A B C' E, cmeq n (matmul n A (matmul n (msub B C') E)) (msub (matmul n A (matmul n B E)) (matmul n A (matmul n C' E))).
Proof.
  assert (L : forall n A B C', cmeq n (matmul n (msub A B) C') (msub (matmul n A C') (matmul n B C'))).
  { intros n A B C' p q _ _. unfold matmul, msub. transitivity (cadd (CSum n (fun k => cmul (A p k) (C' k q))) (cmul (C (-1) 0) (CSum n (fun k => cmul (B p k) (C' k q))))); [|split; cbn; ring].
    rewrite <- CSum_scale, <- CSum_add'. apply CSum_ext. intros k _. split; cbn; ring. }
  assert (R : forall n A B C', cmeq n (matmul n A (msub B C')) (msub (matmul n A B) (matmul n A C'))).
  { intros n A B C' p q _ _. unfold matmul, msub. transitivity (cadd (CSum n (fun k => cmul (A p k) (B k q))) (cmul (C (-1) 0) (CSum n (fun k => cmul (A p k) (C' k q))))); [|split; cbn; ring].
    rewrite <- CSum_scale, <- CSum_add'. apply CSum_ext. intros k _. split; cbn; ring. }
  intros n A B C' E. rewrite L, R. reflexivity.
Qed.
(** in the basis of the eigenvectors *)
Lemma ep_inner : forall n A w v, eigenpairs n A w v -> cmeq n (matmul n (adj v) (matmul n A v)) (cdiag (fun l => C (w l) 0)).
Proof.
  intros n A w v [L R E]. rewrite E. rewrite !mm_a. rewrite L, mm_1r, <- mm_a, L, mm_1l. reflexivity.
Qed.

Section P.
Variable n : Z.
Variable csqrt : cplx -> cplx.
Hypothesis csqrt_proper : forall x y, x =c= y -> csqrt x =c= csqrt y.
(** the square root as a sum over modes *)
Lemma sqrt_modes : forall eigh A w v, eigenpairs n A w v -> snd (eigh A) = v ->
  cmeq n (sqrt_dm n eigh csqrt false A) (matmul n v (matmul n (cdiag (fun l => csqrt (C (w l) 0))) (adj v))).
Proof.
  intros eigh A w v E <-. unfold sqrt_dm.
  assert (X : cmeq n (diag_part (fun p q => csqrt (matmul n (adj (snd (eigh A))) (matmul n A (snd (eigh A))) p q))) (cdiag (fun l => csqrt (C (w l) 0)))).
  { intros p q Hp Hq. unfold diag_part, cdiag. destruct (p =? q); [|reflexivity]. apply csqrt_proper. rewrite (ep_inner n A w _ E p p Hp Hp). unfold cdiag. now rewrite Z.eqb_refl. }
  rewrite X. reflexivity.
Qed.
Definition correct_at (eigh : mat -> (Z -> Q) * mat) (A : mat) : Prop := eigenpairs n A (fst (eigh A)) (snd (eigh A)).
(** ** C114 *)
Theorem C114_square : forall eigh A, correct_at eigh A -> (forall l, 0 <= l < n -> root_at csqrt (fst (eigh A) l)) ->
  let S := sqrt_dm n eigh csqrt false A in
  cmeq n (matmul n S S) A /\ ((forall l, 0 <= l < n -> real (csqrt (C (fst (eigh A) l) 0))) -> cmeq n (adj S) S).
Proof.
  intros eigh A E Rt S. set (w := fst (eigh A)) in *. set (v := snd (eigh A)).
  assert (HS : cmeq n S (matmul n v (matmul n (cdiag (fun l => csqrt (C (w l) 0))) (adj v)))) by (apply sqrt_modes; [exact E|reflexivity]).
  destruct E as [L R E]. fold w v in L, R, E. split.
  - rewrite HS. rewrite !mm_a. rewrite <- (mm_a n (adj v) v), L, mm_1l. rewrite <- (mm_a n (cdiag _) (cdiag _)), diag_mm. rewrite E.
    rewrite (diag_ext n (fun l => cmul (csqrt (C (w l) 0)) (csqrt (C (w l) 0))) (fun l => C (w l) 0) Rt). reflexivity.
  - intros Re. rewrite HS. rewrite !adj_mm, diag_adj, adj_adj, mm_a. rewrite (diag_ext n (fun l => conj (csqrt (C (w l) 0))) (fun l => csqrt (C (w l) 0))); [reflexivity|].
    intros l Hl. specialize (Re l Hl). unfold real in Re. split; cbn; [reflexivity|]. rewrite Re. ring.
Qed.
(** the square root depends on the matrix only *)
Lemma unique : forall A w v w' v', eigenpairs n A w v -> eigenpairs n A w' v' -> forall g : Q -> cplx, (forall x y, (x == y)%Q -> g x =c= g y) ->
  cmeq n (matmul n v (matmul n (cdiag (fun l => g (w l))) (adj v))) (matmul n v' (matmul n (cdiag (fun l => g (w' l))) (adj v'))).
Proof.
  intros A w v w' v' E E' g Hg. pose proof (ep_left _ _ _ _ E) as L. pose proof (ep_right _ _ _ _ E) as R. pose proof (ep_decomposition _ _ _ _ E) as Dc.
  pose proof (ep_left _ _ _ _ E') as L'. pose proof (ep_right _ _ _ _ E') as R'. pose proof (ep_decomposition _ _ _ _ E') as Dc'.
  set (U := matmul n (adj v) v').
  assert (WU : cmeq n (matmul n (cdiag (fun l => C (w l) 0)) U) (matmul n U (cdiag (fun l => C (w' l) 0)))).
  { transitivity (matmul n (adj v) (matmul n A v')).
    - rewrite Dc. unfold U. rewrite !mm_a. rewrite <- (mm_a n (adj v) v), L, mm_1l. reflexivity.
    - rewrite Dc'. unfold U. rewrite !mm_a, L', mm_1r. reflexivity. }
  assert (dl : forall d B p q, 0 <= p < n -> matmul n (cdiag d) B p q =c= cmul (d p) (B p q)).
  { intros d B p q Hp. unfold matmul, cdiag. rewrite (CSum_ext n _ (fun k => cmul (if p =? k then c1 else c0) (cmul (d p) (B k q)))) by (intros k _; destruct (p =? k); ring). now apply (CSum_delta' n p (fun k => cmul (d p) (B k q))). }
  assert (dr : forall d B p q, 0 <= q < n -> matmul n B (cdiag d) p q =c= cmul (B p q) (d q)).
  { intros d B p q Hq. unfold matmul, cdiag. rewrite (CSum_ext n _ (fun k => cmul (cmul (B p k) (d k)) (if k =? q then c1 else c0))) by (intros k _; destruct (k =? q); ring). now apply (CSum_delta_r n q (fun k => cmul (B p k) (d k))). }
  assert (GU : cmeq n (matmul n (cdiag (fun l => g (w l))) U) (matmul n U (cdiag (fun l => g (w' l))))).
  { intros p q Hp Hq. rewrite (dl _ U p q Hp), (dr _ U p q Hq). pose proof (WU p q Hp Hq) as X. rewrite (dl _ U p q Hp), (dr _ U p q Hq) in X.
    destruct (Qeq_dec (w p) (w' q)) as [Ew|Nw]; [rewrite (Hg _ _ Ew); ring|].
    assert (Z : U p q =c= c0).
    { destruct X as [X1 X2]. cbn in X1, X2. assert (Y1 : ((w p - w' q) * re (U p q) == 0)%Q) by (ring_simplify in X1; lra). assert (Y2 : ((w p - w' q) * im (U p q) == 0)%Q) by (ring_simplify in X2; lra).
      apply Qmult_integral in Y1. apply Qmult_integral in Y2. split; cbn; [destruct Y1|destruct Y2]; auto; exfalso; apply Nw; lra. }
    rewrite Z. ring. }
  assert (V' : cmeq n v' (matmul n v U)) by (unfold U; rewrite <- mm_a, R, mm_1l; reflexivity).
  assert (V : cmeq n (matmul n U (adj v')) (adj v)) by (unfold U; rewrite mm_a, R', mm_1r; reflexivity).
  rewrite <- V. rewrite <- (mm_a n (cdiag _) U), GU. rewrite V' at 2. rewrite !mm_a. reflexivity.
Qed.
Theorem C114_unique : forall eigh eigh' A A', cmeq n A A' -> correct_at eigh A -> correct_at eigh' A' ->
  cmeq n (sqrt_dm n eigh csqrt false A) (sqrt_dm n eigh' csqrt false A').
Proof.
  intros eigh eigh' A A' EA E E'. rewrite (sqrt_modes eigh A _ _ E eq_refl), (sqrt_modes eigh' A' _ _ E' eq_refl).
  apply (unique A _ _ _ _ E) with (g := fun x => csqrt (C x 0)); [destruct E' as [L R X]; split; [exact L|exact R|transitivity A'; [exact EA|exact X]]|]. intros x y H. apply csqrt_proper. split; [exact H|reflexivity].
Qed.
(** ** finite differences *)
Variable eigh : mat -> (Z -> Q) * mat.
Variable D : vec -> option vec -> mat.
Variable gonze : bool.
Variable unit_of : vec -> vec.
Variables (cell : Z -> Z -> Q) (h : Q).
Notation dsqrtD := (dsqrtD n eigh csqrt D gonze unit_of cell h).
Notation velocity := (velocity n eigh csqrt D gonze unit_of cell h).
Definition plus (q : vec) (dir : vec) : vec := fun i => (q i + step cell h dir i)%Q.
Definition minus (q : vec) (dir : vec) : vec := fun i => (q i - step cell h dir i)%Q.
(** away from the origin *)
Definition away (q dir : vec) : Prop := (norm2 (step cell h dir) <= norm2 q)%Q.
Lemma dsqrtD_away : forall q dir, away q dir -> dsqrtD q dir = fun i j => cscale (/ h / 2)%Q (csub (sqrt_dm n eigh csqrt false (D (plus q dir) None) i j) (sqrt_dm n eigh csqrt false (D (minus q dir) None) i j)).
Proof.
  intros q dir H. unfold VelModel.dsqrtD, delta_sqrt. assert (F : qltb (norm2 q) (norm2 (step cell h dir)) = false).
  { unfold qltb. destruct (Qlt_le_dec (norm2 q) (norm2 (step cell h dir))) as [X|X]; [exfalso; unfold away in H; lra|]. apply negb_false_iff. now apply Qle_bool_iff. }
  rewrite F, andb_false_r. reflexivity.
Qed.
Definition good (q : vec) : Prop := correct_at eigh (D q None) /\ forall l, 0 <= l < n -> root_at csqrt (fst (eigh (D q None)) l).
(** The finite difference X of the root of the dynamical matrix satisfies {S+ + S-, X} / 2 = (D+ - D-) / 2h. *)
Theorem C114_derivative : forall q dir, ~ (h == 0)%Q -> away q dir -> good (plus q dir) -> good (minus q dir) ->
  let S := madd (sqrt_dm n eigh csqrt false (D (plus q dir) None)) (sqrt_dm n eigh csqrt false (D (minus q dir) None)) in
  forall i j, 0 <= i < n -> 0 <= j < n ->
  cscale (1 # 2) (cadd (matmul n S (dsqrtD q dir) i j) (matmul n (dsqrtD q dir) S i j)) =c= cscale (1 / (2 * h))%Q (csub (D (plus q dir) None i j) (D (minus q dir) None i j)).
Proof.
  intros q dir H0 Aw [E1 R1] [E2 R2] S i j Hi Hj. rewrite (dsqrtD_away q dir Aw). unfold S.
  pose proof (proj1 (C114_square eigh _ E1 R1) i j Hi Hj) as Q1. pose proof (proj1 (C114_square eigh _ E2 R2) i j Hi Hj) as Q2.
  set (P := sqrt_dm n eigh csqrt false (D (plus q dir) None)) in *. set (M := sqrt_dm n eigh csqrt false (D (minus q dir) None)) in *.
  rewrite <- Q1, <- Q2. set (k := (/ h / 2)%Q).
  assert (F : forall A B, CSum n (fun x => cmul (A i x) (cscale k (B x j))) =c= cscale k (CSum n (fun x => cmul (A i x) (B x j)))).
  { intros A B. rewrite (CSum_ext n _ (fun x => cmul (C k 0) (cmul (A i x) (B x j)))) by (intros; split; cbn; ring). rewrite CSum_scale. split; cbn; ring. }
  assert (G : forall A B, CSum n (fun x => cmul (cscale k (A i x)) (B x j)) =c= cscale k (CSum n (fun x => cmul (A i x) (B x j)))).
  { intros A B. rewrite (CSum_ext n _ (fun x => cmul (C k 0) (cmul (A i x) (B x j)))) by (intros; split; cbn; ring). rewrite CSum_scale. split; cbn; ring. }
  unfold matmul at 1 2. rewrite (F (madd P M) (fun x y => csub (P x y) (M x y))), (G (fun x y => csub (P x y) (M x y)) (madd P M)). unfold madd. cbv beta.
  assert (X : cadd (CSum n (fun x => cmul (cadd (P i x) (M i x)) (csub (P x j) (M x j)))) (CSum n (fun x => cmul (csub (P i x) (M i x)) (cadd (P x j) (M x j))))
    =c= cscale 2 (csub (matmul n P P i j) (matmul n M M i j))).
  { rewrite <- CSum_add'. transitivity (cadd (cmul (C 2 0) (CSum n (fun x => cmul (P i x) (P x j)))) (cmul (C (-2) 0) (CSum n (fun x => cmul (M i x) (M x j))))).
    - rewrite <- !CSum_scale, <- CSum_add'. apply CSum_ext. intros; split; cbn; ring.
    - unfold matmul. split; cbn; ring. }
  transitivity (cscale ((1 # 2) * k)%Q (cadd (CSum n (fun x => cmul (cadd (P i x) (M i x)) (csub (P x j) (M x j)))) (CSum n (fun x => cmul (csub (P i x) (M i x)) (cadd (P x j) (M x j)))))); [split; cbn; ring|].
  rewrite X. unfold k. split; cbn; field; exact H0.
Qed.
(** Velocity operators are Hermitian, and depend neither on the direction given to run nor on the cutoff. *)
Theorem C114_hermitian : forall first factor cutoff q s s' d, velocity first factor cutoff q s s' d =c= conj (velocity first factor cutoff q s' s d).
Proof. intros. unfold VelModel.velocity. split; cbn; ring. Qed.
Theorem C114_direction_unused : forall first first' factor cutoff cutoff' q s s' d, 0 <= d < 3 -> velocity first factor cutoff q s s' d = velocity first' factor cutoff' q s s' d.
Proof.
  intros first first' factor cutoff cutoff' q s s' d Hd. unfold VelModel.velocity, directions. replace (Z.to_nat (d + 1)) with (S (Z.to_nat d)) by lia. reflexivity.
Qed.
Lemma nth_dir : forall first q d, 0 <= d < 3 -> nth (Z.to_nat (d + 1)) (map (dsqrtD q) (directions first)) (fun _ _ => c0) = dsqrtD q (axis d).
Proof. intros first q d Hd. assert (d = 0 \/ d = 1 \/ d = 2) as [-> | [-> | -> ]] by lia; reflexivity. Qed.
(** If the eigenvectors do not change from q - dq to q + dq, the velocity operator is diagonal and holds the central
    differences of the (real parts of the) frequencies. *)
Theorem C114_frequencies : forall first factor cutoff q d wp wm, 0 <= d < 3 -> away q (axis d) ->
  correct_at eigh (D (plus q (axis d)) None) -> correct_at eigh (D (minus q (axis d)) None) -> 
  let v := snd (eigh (D q None)) in eigenpairs n (D (plus q (axis d)) None) wp v -> eigenpairs n (D (minus q (axis d)) None) wm v ->
  forall s s', 0 <= s < n -> 0 <= s' < n ->
  velocity first factor cutoff q s s' d =c= if s =? s' then C (factor * (re (csqrt (C (wp s) 0)) - re (csqrt (C (wm s) 0))) * (/ h / 2))%Q 0 else c0.
Proof.
  intros first factor cutoff q d wp wm Hd Aw Cp Cm v Ep Em s s' Hs Hs'.
  assert (Sp : cmeq n (sqrt_dm n eigh csqrt false (D (plus q (axis d)) None)) (matmul n v (matmul n (cdiag (fun l => csqrt (C (wp l) 0))) (adj v)))).
  { rewrite (sqrt_modes eigh _ _ _ Cp eq_refl). apply (unique (D (plus q (axis d)) None) _ _ _ _ Cp Ep (fun x => csqrt (C x 0))). intros x y H. apply csqrt_proper. split; [exact H|reflexivity]. }
  assert (Sm : cmeq n (sqrt_dm n eigh csqrt false (D (minus q (axis d)) None)) (matmul n v (matmul n (cdiag (fun l => csqrt (C (wm l) 0))) (adj v)))).
  { rewrite (sqrt_modes eigh _ _ _ Cm eq_refl). apply (unique (D (minus q (axis d)) None) _ _ _ _ Cm Em (fun x => csqrt (C x 0))). intros x y H. apply csqrt_proper. split; [exact H|reflexivity]. }
  pose proof (ep_left _ _ _ _ Ep) as L.
  assert (In : forall w, cmeq n (matmul n (adj v) (matmul n (matmul n v (matmul n (cdiag w) (adj v))) v)) (cdiag w)) by (intros w; rewrite !mm_a, L, mm_1r, <- mm_a, L, mm_1l; reflexivity).
  set (k := (/ h / 2)%Q).
  assert (M : forall x y, 0 <= x < n -> 0 <= y < n -> matmul n (adj v) (matmul n (dsqrtD q (axis d)) v) x y =c= cscale k (if x =? y then csub (csqrt (C (wp x) 0)) (csqrt (C (wm x) 0)) else c0)).
  { intros x y Hx Hy. rewrite (dsqrtD_away q (axis d) Aw). fold k. set (P := sqrt_dm n eigh csqrt false (D (plus q (axis d)) None)) in *. set (N := sqrt_dm n eigh csqrt false (D (minus q (axis d)) None)) in *.
    transitivity (cscale k (matmul n (adj v) (matmul n (msub P N) v) x y)).
    - unfold matmul. transitivity (cmul (C k 0) (CSum n (fun a => cmul (adj v x a) (CSum n (fun b => cmul (msub P N a b) (v b y)))))); [|split; cbn; ring].
      rewrite <- CSum_scale. apply CSum_ext. intros a _. transitivity (cmul (adj v x a) (cmul (C k 0) (CSum n (fun b => cmul (msub P N a b) (v b y))))); [|ring].
      apply cmul_proper; [reflexivity|]. rewrite <- CSum_scale. apply CSum_ext. intros b _. unfold msub. split; cbn; ring.
    - apply cscale_proper; [reflexivity|]. rewrite (mm_msub n (adj v) P N v x y Hx Hy). unfold msub.
      assert (X1 : matmul n (adj v) (matmul n P v) x y =c= cdiag (fun l => csqrt (C (wp l) 0)) x y) by (rewrite <- (In _ x y Hx Hy); apply (matmul_proper n); [reflexivity|apply (matmul_proper n); [exact Sp|reflexivity]|exact Hx|exact Hy]).
      assert (X2 : matmul n (adj v) (matmul n N v) x y =c= cdiag (fun l => csqrt (C (wm l) 0)) x y) by (rewrite <- (In _ x y Hx Hy); apply (matmul_proper n); [reflexivity|apply (matmul_proper n); [exact Sm|reflexivity]|exact Hx|exact Hy]).
      rewrite X1, X2. unfold cdiag. destruct (x =? y); [reflexivity|ring]. }
  unfold VelModel.velocity. rewrite (nth_dir first q d Hd). fold v. rewrite (M s s' Hs Hs'), (M s' s Hs' Hs). rewrite (Z.eqb_sym s' s). fold k.
  destruct (Z.eqb_spec s s') as [<-|_]; split; cbn; ring.
Qed.
(** Time reversal: at -q the finite differences are minus the complex conjugates. *)
Theorem C114_time_reversal : forall q dir, (forall x, cmeq n (D (fun i => - x i)%Q None) (mconj (D x None))) -> (forall x y dr, (forall i, (x i == y i)%Q) -> cmeq n (D x dr) (D y dr)) ->
  away q dir -> let mq := (fun i => - q i)%Q in
  (forall x, In x [plus q dir; minus q dir; plus mq dir; minus mq dir] -> correct_at eigh (D x None)) ->
  (forall x l, In x [plus q dir; minus q dir] -> 0 <= l < n -> real (csqrt (C (fst (eigh (D x None)) l) 0))) ->
  forall i j, 0 <= i < n -> 0 <= j < n -> dsqrtD mq dir i j =c= copp (conj (dsqrtD q dir i j)).
Proof.
  intros q dir TR Ex Aw mq Co Re i j Hi Hj.
  assert (Aw' : away mq dir) by (unfold away, mq, norm2 in *; nra).
  rewrite (dsqrtD_away q dir Aw), (dsqrtD_away mq dir Aw').
  assert (X : forall x y, In x [plus mq dir; minus mq dir] -> In y [plus q dir; minus q dir] -> (forall k, (x k == - y k)%Q) ->
    cmeq n (sqrt_dm n eigh csqrt false (D x None)) (mconj (sqrt_dm n eigh csqrt false (D y None)))).
  { intros x y Ix Iy Hxy. assert (Cx : correct_at eigh (D x None)) by (apply Co; cbn in Ix |- *; tauto). assert (Cy : correct_at eigh (D y None)) by (apply Co; cbn in Iy |- *; tauto).
    set (w := fst (eigh (D y None))). set (v := snd (eigh (D y None))).
    assert (AdjC : forall A, cmeq n (mconj (adj A)) (adj (mconj A))) by (intros A p r _ _; reflexivity).
    assert (Dg : forall d, cmeq n (mconj (cdiag d)) (cdiag (fun l => conj (d l)))) by (intros d p r _ _; unfold mconj, cdiag; destruct (p =? r); [reflexivity|split; cbn; ring]).
    assert (Ec : eigenpairs n (D x None) w (mconj v)).
    { destruct Cy as [L R E]. fold w v in L, R, E. split.
      - rewrite <- AdjC, <- mconj_mm, L. intros p r _ _. unfold mconj, one. destruct (p =? r); split; cbn; ring.
      - rewrite <- AdjC, <- mconj_mm, R. intros p r _ _. unfold mconj, one. destruct (p =? r); split; cbn; ring.
      - rewrite (Ex x (fun k => - y k)%Q None Hxy), (TR y), E, !mconj_mm, AdjC, Dg. rewrite (diag_ext n (fun l => conj (C (w l) 0)) (fun l => C (w l) 0)) by (intros; split; cbn; ring). reflexivity. }
    rewrite (sqrt_modes eigh _ _ _ Cx eq_refl), (sqrt_modes eigh _ _ _ Cy eq_refl). fold w v.
    rewrite (unique (D x None) _ _ _ _ Cx Ec (fun z => csqrt (C z 0))) by (intros a b H; apply csqrt_proper; split; [exact H|reflexivity]).
    rewrite !mconj_mm, AdjC, Dg. rewrite (diag_ext n (fun l => conj (csqrt (C (w l) 0))) (fun l => csqrt (C (w l) 0))); [reflexivity|].
    intros l Hl. specialize (Re y l Iy Hl). unfold real in Re. fold w in Re. split; cbn; [reflexivity|rewrite Re; ring]. }
  assert (X1 := X (plus mq dir) (minus q dir) ltac:(cbn; tauto) ltac:(cbn; tauto) ltac:(intros k; unfold plus, minus, mq; ring) i j Hi Hj).
  assert (X2 := X (minus mq dir) (plus q dir) ltac:(cbn; tauto) ltac:(cbn; tauto) ltac:(intros k; unfold plus, minus, mq; ring) i j Hi Hj).
  cbv beta. rewrite X1, X2.
  unfold mconj. split; cbn; ring.
Qed.
(** Next to the origin the three modes of lowest eigenvalue are left out. *)
Theorem C114_gamma : forall A, correct_at eigh A -> (forall l, 3 <= l < n -> root_at csqrt (fst (eigh A) l)) ->
  let S := sqrt_dm n eigh csqrt true A in let v := snd (eigh A) in
  cmeq n (matmul n S S) (fun p q => CSum n (fun l => if l <? 3 then c0 else cmul (cmul (v p l) (C (fst (eigh A) l) 0)) (conj (v q l)))).
Proof.
  intros A E Rt S v p q Hp Hq. set (w := fst (eigh A)) in *.
  set (v3 := fun p l => if l <? 3 then c0 else v p l). set (s := fun l => csqrt (matmul n (adj v3) (matmul n A v3) l l)).
  assert (HS : cmeq n S (matmul n v3 (matmul n (cdiag s) (adj v3)))).
  { unfold S, sqrt_dm. fold v. fold v3. apply matmul_proper; [reflexivity|]. apply matmul_proper; [|reflexivity]. intros x y Hx Hy. unfold diag_part, cdiag. destruct (x =? y); reflexivity. }
  set (k := fun l => if l <? 3 then c0 else c1).
  assert (V3 : cmeq n v3 (matmul n v (cdiag k))).
  { intros x y Hx Hy. unfold matmul, cdiag, k. rewrite (CSum_ext n _ (fun z => cmul (v x z) (cmul (if z <? 3 then c0 else c1) (if z =? y then c1 else c0)))) by (intros z _; destruct (z =? y), (z <? 3); ring).
    rewrite (CSum_ext n _ (fun z => cmul (cmul (v x z) (if z <? 3 then c0 else c1)) (if z =? y then c1 else c0))) by (intros; ring). rewrite (CSum_delta_r n y (fun z => cmul (v x z) (if z <? 3 then c0 else c1)) Hy). unfold v3. destruct (y <? 3); ring. }
  assert (KA : cmeq n (adj (cdiag k)) (cdiag k)) by (rewrite diag_adj; apply diag_ext; intros l _; unfold k; destruct (l <? 3); split; cbn; ring).
  pose proof (ep_left _ _ _ _ E) as L. fold v in L. pose proof (ep_inner _ _ _ _ E) as In. fold v w in In.
  assert (Hs : forall l, 0 <= l < n -> ~ l < 3 -> cmul (s l) (s l) =c= C (w l) 0).
  { intros l Hl Nl. assert (Es : s l =c= csqrt (C (w l) 0)).
    { apply csqrt_proper. assert (X : cmeq n (matmul n (adj v3) (matmul n A v3)) (matmul n (cdiag k) (matmul n (cdiag (fun l => C (w l) 0)) (cdiag k)))) by (rewrite V3, adj_mm, KA, <- In, !mm_a; reflexivity).
      rewrite (X l l Hl Hl). assert (Y : cmeq n (matmul n (cdiag k) (matmul n (cdiag (fun l => C (w l) 0)) (cdiag k))) (cdiag (fun l => cmul (k l) (cmul (C (w l) 0) (k l))))) by (rewrite !diag_mm; reflexivity).
      rewrite (Y l l Hl Hl). unfold cdiag, k. rewrite Z.eqb_refl. destruct (Z.ltb_spec l 3); [lia|ring]. }
    rewrite Es. apply Rt. lia. }
  assert (SS : cmeq n (matmul n S S) (matmul n v (matmul n (cdiag (fun l => if l <? 3 then c0 else C (w l) 0)) (adj v)))).
  { assert (dd : forall a b X, cmeq n (matmul n (cdiag a) (matmul n (cdiag b) X)) (matmul n (cdiag (fun l => cmul (a l) (b l))) X)) by (intros; rewrite <- mm_a, diag_mm; reflexivity).
    rewrite HS, V3, adj_mm, KA. rewrite !mm_a. rewrite <- (mm_a n (adj v) v), L, mm_1l. rewrite !dd. rewrite (diag_ext n _ (fun l => if l <? 3 then c0 else C (w l) 0)); [reflexivity|].
    intros l Hl. unfold k. destruct (Z.ltb_spec l 3); [ring|]. rewrite <- (Hs l Hl) by lia. ring. }
  rewrite (SS p q Hp Hq). unfold matmul at 1. apply CSum_ext. intros l Hl. unfold matmul, cdiag, adj.
  rewrite (CSum_ext n _ (fun z => cmul (if l =? z then c1 else c0) (cmul (if l <? 3 then c0 else C (w l) 0) (conj (v q z))))) by (intros z _; destruct (l =? z); ring).
  rewrite (CSum_delta' n l (fun z => cmul (if l <? 3 then c0 else C (w l) 0) (conj (v q z))) Hl). destruct (l <? 3); ring.
Qed.
End P.
Print Assumptions C114_square.
Print Assumptions C114_unique.
Print Assumptions C114_derivative.
Print Assumptions C114_hermitian.
Print Assumptions C114_direction_unused.
Print Assumptions C114_frequencies.
Print Assumptions C114_time_reversal.
Print Assumptions C114_gamma.

(** ** Example and counterexample *)
Definition qroot (x : Q) : Q := let r := Qred x in (Z.sqrt (Qnum r) # Pos.sqrt (Qden r)).
Definition ex_sqrt (z : cplx) : cplx := C (qroot (re z)) 0.
Lemma ex_sqrt_proper : forall x y, x =c= y -> ex_sqrt x =c= ex_sqrt y.
Proof. intros x y [H _]. unfold ex_sqrt, qroot. rewrite (Qred_complete _ _ H). reflexivity. Qed.
Definition ex_eigh (A : mat) : (Z -> Q) * mat := (fun l => re (A l l), one).
Definition ex_D (q : vec) (_ : option vec) : mat := cdiag (fun l => C (inject_Z ((l + 1) * (l + 1)) * (q 0%Z * q 0%Z))%Q 0).
Definition ex_cell (i j : Z) : Q := if i =? j then 2%Q else 0%Q.
Definition ex_q (i : Z) : Q := if i =? 0 then (3 # 10)%Q else 0%Q.
Lemma ex_correct : forall x d, correct_at 3 ex_eigh (ex_D x d).
Proof.
  intros x d. assert (A1 : cmeq 3 (adj one) one) by (intros p q _ _; unfold adj, one; rewrite Z.eqb_sym; destruct (p =? q); split; cbn; ring).
  split; cbn [ex_eigh fst snd].
  - rewrite A1. apply mm_1l.
  - rewrite A1. apply mm_1l.
  - rewrite A1, mm_1r, mm_1l. intros p q Hp Hq. unfold ex_D, cdiag. rewrite Z.eqb_refl. reflexivity.
Qed.
Example C114_ex : let e := axis 0 in
  away ex_cell (1 # 100) ex_q e /\ good 3 ex_sqrt ex_eigh ex_D (plus ex_cell (1 # 100) ex_q e) /\ good 3 ex_sqrt ex_eigh ex_D (minus ex_cell (1 # 100) ex_q e) /\
  (forall x, cmeq 3 (ex_D (fun i => - x i)%Q None) (mconj (ex_D x None))) /\
  velocity 3 ex_eigh ex_sqrt ex_D true (fun x => x) ex_cell (1 # 100) e 5 0 ex_q 1 1 0 =c= C 20 0.
Proof.
  intros e. split; [unfold away; vm_compute; discriminate|]. split; [|split; [|split]].
  - split; [apply ex_correct|]. intros l Hl. assert (H : l = 0 \/ l = 1 \/ l = 2) by lia. destruct H as [-> | [-> | -> ]]; split; vm_compute; reflexivity.
  - split; [apply ex_correct|]. intros l Hl. assert (H : l = 0 \/ l = 1 \/ l = 2) by lia. destruct H as [-> | [-> | -> ]]; split; vm_compute; reflexivity.
  - intros x p q _ _. unfold ex_D, mconj, cdiag. destruct (p =? q); split; cbn; ring.
  - split; vm_compute; reflexivity.
Qed.
(** The docstring says that group velocities of frequencies below cutoff_frequency are set to zero. *)
Theorem C114_cutoff_refuted : exists q s d cutoff, (forall l, 0 <= l < 3 -> root_at ex_sqrt (fst (ex_eigh (ex_D q None)) l)) /\
  (frequency ex_eigh ex_D qroot 5 q s < cutoff)%Q /\ ~ velocity 3 ex_eigh ex_sqrt ex_D true (fun x => x) ex_cell (1 # 100) (axis 0) 5 cutoff q s s d =c= c0.
Proof.
  exists ex_q, 0, 0, 2%Q. split; [|split; [vm_compute; reflexivity|intros [H _]; vm_compute in H; discriminate H]].
  intros l Hl. assert (H : l = 0 \/ l = 1 \/ l = 2) by lia. destruct H as [-> | [-> | -> ]]; split; vm_compute; reflexivity.
Qed.
Print Assumptions C114_cutoff_refuted.

(** ** The displacement and the sign of the frequencies *)
(** The displacement of q is [h] times the direction in Cartesian coordinates: [rec a i] is component [a] of reciprocal
    basis vector [i] (inverse of the cell, whose row [i] is basis vector [i]). *)
Theorem C114_displacement : forall (cell rec : Z -> Z -> Q) h dir a, 0 <= a < 3 ->
  (forall a b, (0 <= a < 3)%Z -> (0 <= b < 3)%Z -> rec a 0%Z * cell 0%Z b + rec a 1%Z * cell 1%Z b + rec a 2%Z * cell 2%Z b == if (a =? b)%Z then 1 else 0)%Q ->
  (rec a 0%Z * step cell h dir 0%Z + rec a 1%Z * step cell h dir 1%Z + rec a 2%Z * step cell h dir 2%Z == h * dir a)%Q.
Proof.
  intros cell rec h dir a Ha H. pose proof (H a 0 Ha ltac:(lia)) as H0. pose proof (H a 1 Ha ltac:(lia)) as H1. pose proof (H a 2 Ha ltac:(lia)) as H2.
  unfold step.
  transitivity ((rec a 0%Z * cell 0%Z 0%Z + rec a 1%Z * cell 1%Z 0%Z + rec a 2%Z * cell 2%Z 0%Z) * (dir 0%Z * h)
    + (rec a 0%Z * cell 0%Z 1%Z + rec a 1%Z * cell 1%Z 1%Z + rec a 2%Z * cell 2%Z 1%Z) * (dir 1%Z * h)
    + (rec a 0%Z * cell 0%Z 2%Z + rec a 1%Z * cell 1%Z 2%Z + rec a 2%Z * cell 2%Z 2%Z) * (dir 2%Z * h))%Q; [ring|].
  rewrite H0, H1, H2. assert (K : a = 0 \/ a = 1 \/ a = 2) by lia. destruct K as [-> | [-> | -> ]]; cbn; ring.
Qed.
(** The frequency has the sign of the eigenvalue and its square is the magnitude of the eigenvalue in units of the factor. *)
Theorem C114_sign : forall eigh D root factor q l, let w := fst (eigh (D q None)) l in let f := frequency eigh D root factor q l in
  (0 < factor)%Q -> (forall x, (x == w \/ x == - w)%Q -> (0 < x)%Q -> (0 < root x)%Q /\ (root x * root x == x)%Q) ->
  ((0 < w -> 0 < f) /\ (w < 0 -> f < 0) /\ (w == 0 -> f == 0) /\ f * f == factor * factor * (if qltb w 0 then - w else w))%Q.
Proof.
  intros eigh D root factor q l w f F R. unfold f, frequency. fold w.
  destruct (qltb 0 w) eqn:P; [apply qltb_lt in P|apply qltb_ge in P].
  - destruct (R w (or_introl (Qeq_refl w)) P) as [R0 R1]. destruct (qltb w 0) eqn:N; [apply qltb_lt in N; lra|].
    split; [|split; [|split]]; try (intros; nra).
  - destruct (qltb w 0) eqn:N; [apply qltb_lt in N|apply qltb_ge in N].
    + destruct (R (- w)%Q (or_intror (Qeq_refl (- w)%Q)) ltac:(lra)) as [R0 R1].
      split; [|split; [|split]]; try (intros; nra).
    + assert (E : (w == 0)%Q) by lra. split; [|split; [|split]]; try (intros; lra); rewrite E; ring.
Qed.
Example C114_sign_ex : let D := fun (_ : vec) (_ : option vec) => cdiag (fun l => C (if (l =? 0)%Z then - (4) else inject_Z (l * l)) 0)%Q in
  (frequency ex_eigh D qroot 5 ex_q 0 == - (10) /\ frequency ex_eigh D qroot 5 ex_q 1 == 5)%Q /\
  (forall a b, (0 <= a < 3)%Z -> (0 <= b < 3)%Z -> (fun i j => if (i =? j)%Z then 1 # 2 else 0) a 0%Z * ex_cell 0%Z b + (fun i j => if (i =? j)%Z then 1 # 2 else 0) a 1%Z * ex_cell 1%Z b + (fun i j => if (i =? j)%Z then 1 # 2 else 0) a 2%Z * ex_cell 2%Z b == if (a =? b)%Z then 1 else 0)%Q.
Proof.
  split; [split; vm_compute; reflexivity|]. intros a b Ha Hb. assert (A : a = 0 \/ a = 1 \/ a = 2) by lia. assert (B : b = 0 \/ b = 1 \/ b = 2) by lia.
  destruct A as [-> | [-> | -> ]], B as [-> | [-> | -> ]]; vm_compute; reflexivity.
Qed.
Print Assumptions C114_displacement.
Print Assumptions C114_sign.
