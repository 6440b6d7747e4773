(** Two diagonalisations of one matrix by unitary matrices, eigenvalues in ascending order, have the same eigenvalues *)
From Coq Require Import ZArith QArith List Bool Lia Lqa Setoid Morphisms.
From Verif Require Import Base BaseProofs QMat IseSpec IseProofs Fc3Trans Cplx IsoSym VelModel VelProps DynSym.
Import ListNotations.
Open Scope Z_scope.

(** columns of V are an orthonormal basis *)
Definition unitary (n : Z) (V : Z -> Z -> cplx) : Prop :=
  (forall a b, 0 <= a < n -> 0 <= b < n -> CSum n (fun z => cmul (conj (V z a)) (V z b)) =c= if a =? b then c1 else c0) /\
  (forall y z, 0 <= y < n -> 0 <= z < n -> CSum n (fun b => cmul (V y b) (conj (V z b))) =c= if y =? z then c1 else c0).
Definition ascending (n : Z) (w : Z -> Q) : Prop := forall a b, 0 <= a -> a <= b -> b < n -> (w a <= w b)%Q.
(** what an eigenvalue solver for Hermitian matrices gives *)
Record solution (n : Z) (M : Z -> Z -> cplx) (w : Z -> Q) (V : Z -> Z -> cplx) : Prop := {
  sol_eigen : forall b, 0 <= b < n -> eigen n M (w b) (fun z => V z b);
  sol_unitary : unitary n V;
  sol_ascending : ascending n w }.

Local Arguments CSum : simpl never.
Local Arguments matmul : simpl never.
Section S.
Variable n : Z.
Lemma unitary_l : forall V, unitary n V -> cmeq n (matmul n (adj V) V) one.
Proof. intros V [H _] p q Hp Hq. unfold matmul, adj, one. now apply H. Qed.
Lemma unitary_r : forall V, unitary n V -> cmeq n (matmul n V (adj V)) one.
Proof. intros V [_ H] p q Hp Hq. unfold matmul, adj, one. now apply H. Qed.
Lemma sol_mm : forall M w V, solution n M w V -> cmeq n (matmul n M V) (matmul n V (cdiag (fun l => C (w l) 0))).
Proof.
  intros M w V S p q Hp Hq. pose proof (sol_eigen _ _ _ _ S q Hq p Hp) as E. unfold matmul at 1. rewrite E. unfold matmul, cdiag.
  transitivity (CSum n (fun k => cmul (cmul (V p k) (C (w k) 0)) (if k =? q then c1 else c0))); [|apply CSum_ext; intros k _; destruct (k =? q); ring].
  rewrite (CSum_delta_r n q (fun k => cmul (V p k) (C (w k) 0)) Hq). split; cbn; ring.
Qed.
Section Two.
Variables M V V' : Z -> Z -> cplx.
Variables w w' : Z -> Q.
Hypothesis S1 : solution n M w V.
Hypothesis S2 : solution n M w' V'.
Let U := matmul n (adj V) V'.
Let Wd := cdiag (fun l => C (w l) 0).
Let Wd' := cdiag (fun l => C (w' l) 0).
Lemma comm : cmeq n (matmul n Wd U) (matmul n U Wd').
Proof.
  pose proof (unitary_l V (sol_unitary _ _ _ _ S1)) as L1. pose proof (unitary_r V (sol_unitary _ _ _ _ S1)) as R1.
  pose proof (sol_mm _ _ _ S1) as E1. pose proof (sol_mm _ _ _ S2) as E2. fold Wd in E1. fold Wd' in E2.
  assert (A : cmeq n (matmul n (adj V) M) (matmul n Wd (adj V))).
  { transitivity (matmul n (matmul n (adj V) M) (matmul n V (adj V))); [rewrite R1, mm_1r; reflexivity|].
    rewrite mm_a, <- (mm_a n M), E1, <- !mm_a, L1, mm_1l. reflexivity. }
  unfold U. rewrite mm_a, <- E2, <- (mm_a n (adj V) M), A, mm_a. reflexivity.
Qed.
Lemma entry : forall a b, 0 <= a < n -> 0 <= b < n -> cmul (C (w a) 0) (U a b) =c= cmul (U a b) (C (w' b) 0).
Proof.
  intros a b Ha Hb. pose proof (comm a b Ha Hb) as H. change (CSum n (fun k => cmul (Wd a k) (U k b)) =c= CSum n (fun k => cmul (U a k) (Wd' k b))) in H. unfold Wd, Wd', cdiag in H.
  rewrite (CSum_ext n _ (fun k => cmul (if a =? k then c1 else c0) (cmul (C (w a) 0) (U k b)))) in H by (intros k _; destruct (a =? k); ring).
  rewrite (CSum_delta' n a (fun k => cmul (C (w a) 0) (U k b)) Ha) in H. rewrite H.
  rewrite (CSum_ext n _ (fun k => cmul (cmul (U a k) (C (w' k) 0)) (if k =? b then c1 else c0))) by (intros k _; destruct (k =? b); ring).
  apply (CSum_delta_r n b (fun k => cmul (U a k) (C (w' k) 0)) Hb).
Qed.
Lemma U_l : cmeq n (matmul n (adj U) U) one.
Proof.
  unfold U. rewrite adj_mm, adj_adj, mm_a, <- (mm_a n V), (unitary_r V (sol_unitary _ _ _ _ S1)), mm_1l. apply unitary_l, (sol_unitary _ _ _ _ S2).
Qed.
Lemma U_r : cmeq n (matmul n U (adj U)) one.
Proof.
  unfold U. rewrite adj_mm, adj_adj, mm_a, <- (mm_a n V'), (unitary_r V' (sol_unitary _ _ _ _ S2)), mm_1l. apply unitary_l, (sol_unitary _ _ _ _ S1).
Qed.
Let p (a b : Z) : Q := cnorm2 (U a b).
Lemma rows1 : forall a, 0 <= a < n -> (Sum n (fun b => p a b) == 1)%Q.
Proof.
  intros a Ha. pose proof (U_r a a Ha Ha) as [H _]. unfold matmul in H. rewrite CSum_re in H. unfold one in H. rewrite Z.eqb_refl in H. rewrite <- H. apply Sum_ext. intros b _. unfold p, cnorm2, adj. cbn. ring.
Qed.
Lemma cols1 : forall b, 0 <= b < n -> (Sum n (fun a => p a b) == 1)%Q.
Proof.
  intros b Hb. pose proof (U_l b b Hb Hb) as [H _]. unfold matmul in H. rewrite CSum_re in H. unfold one in H. rewrite Z.eqb_refl in H. rewrite <- H. apply Sum_ext. intros a _. unfold p, cnorm2, adj. cbn. ring.
Qed.
Lemma p_pair : forall a b, 0 <= a < n -> 0 <= b < n -> (p a b == 0 \/ w a == w' b)%Q.
Proof.
  intros a b Ha Hb. pose proof (entry a b Ha Hb) as [E1 E2]. unfold p, cnorm2. destruct (U a b) as [x y]. cbn in *.
  assert (F1 : ((w a - w' b) * x == 0)%Q) by lra. assert (F2 : ((w a - w' b) * y == 0)%Q) by lra.
  apply Qmult_integral in F1. apply Qmult_integral in F2. destruct F1 as [F1|F1]; [right; lra|]. destruct F2 as [F2|F2]; [right; lra|]. left. rewrite F1, F2. ring.
Qed.
Lemma same_sums : forall g : Q -> Q, (forall x y, x == y -> g x == g y)%Q -> (Sum n (fun a => g (w a)) == Sum n (fun b => g (w' b)))%Q.
Proof.
  intros g Hg. transitivity (Sum n (fun a => Sum n (fun b => g (w a) * p a b)%Q)).
  { apply Sum_ext. intros a Ha. rewrite Sum_scale, (rows1 a Ha). ring. }
  unfold Sum at 1 2. rewrite (qs_swap _ _ (fun a b => g (w a) * p a b)%Q (zrange n) (zrange n)). fold (Sum n (fun b => Sum n (fun a => g (w a) * p a b)%Q)). apply Sum_ext. intros b Hb. transitivity (Sum n (fun a => g (w' b) * p a b)%Q); [apply Sum_ext|].
  2: (rewrite Sum_scale, (cols1 b Hb); ring).
  intros a Ha. destruct (p_pair a b Ha Hb) as [E|E]; [rewrite E; ring|rewrite (Hg _ _ E); reflexivity].
Qed.
End Two.
Lemma Sum_le : forall m f g, 0 <= m -> (forall i, 0 <= i < m -> (f i <= g i)%Q) -> (Sum m f <= Sum m g)%Q.
Proof.
  intros m f g Hm. revert m Hm f g. apply (natlike_ind (fun m => forall f g, (forall i, 0 <= i < m -> (f i <= g i)%Q) -> (Sum m f <= Sum m g)%Q)).
  - intros. unfold Sum. cbn. lra.
  - intros m Hm IH f g H. unfold Sum in *. unfold Z.succ in *. rewrite zrange_succ, !map_app, !qs_app by lia. cbn [map qsum fold_right]. pose proof (IH f g ltac:(intros; apply H; lia)). pose proof (H m ltac:(lia)). cbn. lra.
Qed.
Lemma Sum_step : forall m k, 0 <= m -> 0 <= k -> k <= m -> (Sum m (fun i => if (i <? k)%Z then 1 else 0) == inject_Z k)%Q.
Proof.
  intros m k Hm. revert m Hm k. apply (natlike_ind (fun m => forall k, 0 <= k -> k <= m -> (Sum m (fun i => if (i <? k)%Z then 1 else 0) == inject_Z k)%Q)).
  - intros k H1 H2. assert (k = 0) as -> by lia. reflexivity.
  - intros m Hm IH k H1 H2. unfold Sum in *. unfold Z.succ in *. rewrite zrange_succ, !map_app, !qs_app by lia. cbn [map]. destruct (Z.eq_dec k (Z.succ m)) as [->|Ne].
    + rewrite (qs_ext _ _ (fun i => if (i <? m)%Z then 1 else 0)%Q).
      * rewrite IH by lia. rewrite (proj2 (Z.ltb_lt m (Z.succ m)) ltac:(lia)). unfold Z.succ. rewrite inject_Z_plus. cbn. ring.
      * intros i Hi. apply in_zrange in Hi. rewrite !(proj2 (Z.ltb_lt _ _)) by lia. reflexivity.
    + rewrite IH by lia. rewrite (proj2 (Z.ltb_ge m k)) by lia. cbn. ring.
Qed.
Lemma half_same : forall w w', ascending n w -> ascending n w' -> (forall g : Q -> Q, (forall x y, x == y -> g x == g y)%Q -> (Sum n (fun a => g (w a)) == Sum n (fun b => g (w' b)))%Q) ->
  forall k, 0 <= k < n -> (w k <= w' k)%Q.
Proof.
  intros w w' A A' Hs k Hk. destruct (Qlt_le_dec (w' k) (w k)) as [Lt|]; [exfalso|assumption].
  set (g := fun x => if Qle_bool x (w' k) then 1%Q else 0%Q).
  assert (G : forall x y, (x == y)%Q -> (g x == g y)%Q) by (intros x y E; unfold g; rewrite E; reflexivity).
  pose proof (Hs g G) as E.
  assert (U1 : (Sum n (fun a => g (w a)) <= inject_Z k)%Q).
  { rewrite <- (Sum_step n k) by lia. apply Sum_le; [lia|]. intros i Hi. unfold g. destruct (Z.ltb_spec i k) as [L|L]; [destruct (Qle_bool _ _); lra|].
    pose proof (A k i ltac:(lia) L ltac:(lia)). destruct (Qle_bool _ _) eqn:E1; [apply Qle_bool_iff in E1; lra|lra]. }
  assert (U2 : (inject_Z (k + 1) <= Sum n (fun b => g (w' b)))%Q).
  { rewrite <- (Sum_step n (k + 1)) by lia. apply Sum_le; [lia|]. intros i Hi. unfold g. destruct (Z.ltb_spec i (k + 1)) as [L|L]; [|destruct (Qle_bool _ _); lra].
    pose proof (A' i k ltac:(lia) ltac:(lia) ltac:(lia)) as H. apply Qle_bool_iff in H. rewrite H. lra. }
  rewrite inject_Z_plus in U2. change (inject_Z 1) with 1%Q in U2. lra.
Qed.
Theorem same_spectrum : forall M w w' V V', solution n M w V -> solution n M w' V' -> forall k, 0 <= k < n -> (w k == w' k)%Q.
Proof.
  intros M w w' V V' S1 S2 k Hk. pose proof (same_sums M V V' w w' S1 S2) as H.
  apply Qle_antisym; [apply half_same with (1 := sol_ascending _ _ _ _ S1) (2 := sol_ascending _ _ _ _ S2)|apply half_same with (1 := sol_ascending _ _ _ _ S2) (2 := sol_ascending _ _ _ _ S1)]; try exact Hk; [exact H|]. intros g Hg. symmetry. now apply H.
Qed.
End S.
