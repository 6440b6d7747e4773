From Coq Require Import ZArith List Bool Lia Setoid Morphisms Ring_theory Field_theory Ring Field Permutation.
From Verif Require Import Base BaseProofs Par Par2 DirModel DirSpec DirProofs DirSpectral.
Import ListNotations.
Open Scope Z_scope.

Section Group.
Variable K : numbers.
Declare Scope K_scope.
Delimit Scope K_scope with K.
Bind Scope K_scope with num.
Notation "0" := (n0 K) : K_scope.
Notation "1" := (n1 K) : K_scope.
Infix "+" := (nadd K) : K_scope.
Infix "*" := (nmul K) : K_scope.
Infix "-" := (nsub K) : K_scope.
Infix "/" := (ndiv K) : K_scope.
Infix "==" := (neq K) (at level 70, no associativity) : K_scope.
Add Field Kfield3 : (n_field K) (setoid (n_equiv K) (n_ext K)).
Local Notation ks := (ks K).
Local Notation Sm := (Sm K).

Variables (g n nir nb : Z) (r : Z -> Z -> Z) (irs : Z -> Z) (cart : Z -> Z -> Z -> K)
  (mul : Z -> Z -> Z) (inv : Z -> Z).
Hypothesis HG : point_group K g n r cart mul inv.
Hypothesis HI : one_of_each g n nir r irs.
Hypothesis Hnb : 0 <= nb.

(** ** Reindexing *)
Lemma zrange_bij : forall (h : Z -> Z), (forall l, 0 <= l < g -> 0 <= h l < g) ->
  (forall l m, 0 <= l < g -> 0 <= m < g -> h l = h m -> l = m) -> Permutation (map h (zrange g)) (zrange g).
Proof.
  intros h H1 H2. apply NoDup_Permutation_bis.
  - assert (G : forall L, (forall x, In x L -> 0 <= x < g) -> NoDup L -> NoDup (map h L)).
    { induction L as [|x L IH]; intros H N; [constructor|]. inversion_clear N as [|? ? N1 N2]. cbn. constructor.
      - intros I. apply in_map_iff in I. destruct I as [y [E I]]. apply N1. rewrite (H2 x y); auto; apply H; cbn; auto.
      - apply IH; auto. intros; apply H; now right. }
    apply G; [intros x; apply in_zrange|apply NoDup_zrange].
  - rewrite map_length. lia.
  - intros x I. apply in_map_iff in I. destruct I as [l [<- I]]. rewrite in_zrange in *. auto.
Qed.
Lemma Sm_mul : forall m f, 0 <= m < g -> (Sm g (fun l => f (mul m l)) == Sm g f)%K.
Proof.
  intros m f Hm. unfold DirModel.Sm. rewrite <- (ks_map K _ _ (mul m) (zrange g) f). apply ks_perm. apply zrange_bij.
  - intros; now apply (pg_mul_in _ _ _ _ _ _ _ HG).
  - intros; now apply (pg_mul_inj _ _ _ _ _ _ _ HG m).
Qed.
Lemma Sm_inv : forall f, (Sm g (fun l => f (inv l)) == Sm g f)%K.
Proof.
  intros f. unfold DirModel.Sm. rewrite <- (ks_map K _ _ inv (zrange g) f). apply ks_perm. apply zrange_bij.
  - intros; now apply (pg_inv_in _ _ _ _ _ _ _ HG).
  - intros; now apply (pg_inv_inj _ _ _ _ _ _ _ HG).
Qed.
Lemma r_inj : forall l q q', 0 <= l < g -> 0 <= q < n -> 0 <= q' < n -> r l q = r l q' -> q = q'.
Proof.
  intros l q q' Hl Hq Hq' E. rewrite <- (pg_inv _ _ _ _ _ _ _ HG l q Hl Hq), E. now apply (pg_inv _ _ _ _ _ _ _ HG).
Qed.
Lemma irs_in : forall i, 0 <= i < nir -> 0 <= irs i < n. Proof. apply HI. Qed.
Lemma r_in : forall l q, 0 <= l < g -> 0 <= q < n -> 0 <= r l q < n. Proof. exact (pg_in _ _ _ _ _ _ _ HG). Qed.
Hint Resolve irs_in r_in : grp.
Lemma r_inv_r : forall l q, 0 <= l < g -> 0 <= q < n -> r l (r (inv l) q) = q.
Proof.
  intros l q Hl Hq. pose proof (pg_inv_in _ _ _ _ _ _ _ HG l Hl) as Hi.
  apply (r_inj (inv l)); auto with grp. apply (pg_inv _ _ _ _ _ _ _ HG); auto with grp.
Qed.
(** an operation without effect on grid points *)
Lemma r_unit : exists e, 0 <= e < g /\ forall q, 0 <= q < n -> r e q = q.
Proof.
  pose proof (pg_pos _ _ _ _ _ _ _ HG) as P. assert (H0 : 0 <= 0 < g) by lia. exists (mul (inv 0) 0). split.
  - apply (pg_mul_in _ _ _ _ _ _ _ HG); auto. now apply (pg_inv_in _ _ _ _ _ _ _ HG).
  - intros q Hq. rewrite (pg_mul _ _ _ _ _ _ _ HG); auto; [|now apply (pg_inv_in _ _ _ _ _ _ _ HG)]. now apply (pg_inv _ _ _ _ _ _ _ HG).
Qed.

(** ** Orbits *)
Definition count (x q : Z) : K := Sm g (fun l => if r l x =? q then 1 else 0)%K.
Lemma count_move : forall m x q, 0 <= m < g -> 0 <= x < n -> 0 <= q < n -> (count x (r m q) == count x q)%K.
Proof.
  intros m x q Hm Hx Hq. unfold count. rewrite <- (Sm_mul m _ Hm). apply Sm_ext. intros l Hl.
  rewrite (pg_mul _ _ _ _ _ _ _ HG m l x Hm Hl Hx).
  destruct (Z.eqb_spec (r m (r l x)) (r m q)) as [E|E]; destruct (Z.eqb_spec (r l x) q) as [E'|E']; try reflexivity.
  - exfalso. apply E'. apply (r_inj m); auto with grp.
  - exfalso. apply E. now rewrite E'.
Qed.
Lemma count_star : forall l x, 0 <= l < g -> 0 <= x < n -> (count x (r l x) == count x x)%K.
Proof. intros l x Hl Hx. now apply count_move. Qed.
Lemma count_out : forall x q, (forall l, 0 <= l < g -> r l x <> q) -> (count x q == 0)%K.
Proof. intros x q H. apply Sm_0. intros l Hl. destruct (Z.eqb_spec (r l x) q) as [E|_]; [exfalso; eapply H; eauto|reflexivity]. Qed.
Lemma in_star_spec : forall x q, in_star g r x q = true <-> exists l, 0 <= l < g /\ r l x = q.
Proof.
  intros x q. unfold in_star. rewrite existsb_exists. split; intros [l [H1 H2]]; exists l.
  - apply in_zrange in H1. now apply Z.eqb_eq in H2.
  - split; [now apply in_zrange|now apply Z.eqb_eq].
Qed.
Lemma count_split : forall x q, 0 <= x < n -> (count x q == if in_star g r x q then count x x else 0)%K.
Proof.
  intros x q Hx. destruct (in_star g r x q) eqn:E.
  - apply in_star_spec in E. destruct E as [l [Hl <-]]. now apply count_star.
  - apply count_out. intros l Hl C. assert (in_star g r x q = true) by (apply in_star_spec; eauto). congruence.
Qed.
(** number of arms times order of the stabilizer *)
Lemma orbit_stabilizer : forall x, 0 <= x < n ->
  (of_nat K (length (nodup Z.eq_dec (map (fun l => r l x) (zrange g)))) * count x x == of_nat K (Z.to_nat g))%K.
Proof.
  intros x Hx. set (L := nodup Z.eq_dec (map (fun l => r l x) (zrange g))).
  transitivity (ks L (fun q => count x q)).
  - transitivity (ks L (fun _ => 1 * count x x)%K).
    + rewrite ks_mul_r, of_nat_length. reflexivity.
    + apply ks_ext. intros q I. apply nodup_In, in_map_iff in I. destruct I as [l [<- I]]. apply in_zrange in I.
      rewrite count_star by auto. ring.
  - unfold count, DirModel.Sm. rewrite ks_swap. rewrite <- (length_zrange g), <- of_nat_length.
    apply ks_ext. intros l Hl.
    assert (NL : NoDup L) by apply NoDup_nodup.
    assert (Il : In (r l x) L) by (apply nodup_In, in_map_iff; eauto).
    clearbody L. clear -NL Il. induction L as [|y L IH]; [contradiction|]. rewrite ks_cons.
    inversion_clear NL as [|? ? N1 N2]. destruct (Z.eqb_spec (r l x) y) as [E|E].
    + rewrite (ks_0 K L); [ring|]. intros z Iz. destruct (Z.eqb_spec (r l x) z) as [E'|_]; [|reflexivity]. exfalso. apply N1. congruence.
    + destruct Il as [Il|Il]; [congruence|]. rewrite (IH N2 Il). ring.
Qed.
Lemma arms_pos : forall x, 0 <= x < n -> (0 < length (nodup Z.eq_dec (map (fun l => r l x) (zrange g))))%nat.
Proof.
  intros x Hx. destruct r_unit as [e [He Hu]].
  assert (I : In x (nodup Z.eq_dec (map (fun l => r l x) (zrange g)))).
  { apply nodup_In, in_map_iff. exists e. split; [now apply Hu|now apply in_zrange]. }
  destruct (nodup _ _); [contradiction|cbn; lia].
Qed.

(** ** Weights *)
Variable wt : Z -> K.
Hypothesis Hwt : forall i, 0 <= i < nir -> (wt i * wt i * count (irs i) (irs i) == 1)%K.
Lemma wt_neq0 : forall i, 0 <= i < nir -> ~ (wt i == 0)%K.
Proof. intros i Hi E. apply (one_neq0 K). rewrite <- (Hwt i Hi), E. ring. Qed.

(** ** Vector fields *)
Definition covariant (F : Z -> Z -> Z -> K) : Prop := forall l q j a, 0 <= l < g -> 0 <= q < n -> 0 <= j < nb -> 0 <= a < 3 ->
  (F (r l q) j a == Sm 3 (fun b => cart l a b * F q j b))%K.
(** from the irreducible part to the whole grid and back *)
Definition expand (y : Z -> Z -> Z -> K) (q j a : Z) : K :=
  Sm nir (fun i => wt i * Sm g (fun l => if r l (irs i) =? q then Sm 3 (fun b => cart l a b * y i j b) else 0))%K.
Definition restrict (F : Z -> Z -> Z -> K) (i j a : Z) : K := (wt i * F (irs i) j a)%K.

Lemma expand_ext : forall y y', (forall i j a, 0 <= i < nir -> 0 <= j < nb -> 0 <= a < 3 -> y i j a == y' i j a)%K ->
  forall q j a, 0 <= j < nb -> (expand y q j a == expand y' q j a)%K.
Proof.
  intros y y' H q j a Hj. unfold expand. apply Sm_ext. intros i Hi.
  assert (E : (Sm g (fun l => if r l (irs i) =? q then Sm 3 (fun b => cart l a b * y i j b) else 0) ==
               Sm g (fun l => if r l (irs i) =? q then Sm 3 (fun b => cart l a b * y' i j b) else 0))%K).
  { apply Sm_ext. intros l Hl. destruct (r l (irs i) =? q); [|reflexivity]. apply Sm_ext. intros b Hb. rewrite (H i j b Hi Hj Hb). reflexivity. }
  rewrite E. reflexivity.
Qed.
Lemma expand_add : forall y y' q j a, (expand (fun i j a => y i j a + y' i j a) q j a == expand y q j a + expand y' q j a)%K.
Proof.
  intros y y' q j a. unfold expand. rewrite <- Sm_add. apply Sm_ext. intros i _.
  transitivity (wt i * (Sm g (fun l => if r l (irs i) =? q then Sm 3 (fun b => cart l a b * y i j b) else 0)
      + Sm g (fun l => if r l (irs i) =? q then Sm 3 (fun b => cart l a b * y' i j b) else 0)))%K; [|ring].
  apply K_mul; [reflexivity|]. rewrite <- Sm_add. apply Sm_ext. intros l _.
  destruct (r l (irs i) =? q); [|ring]. rewrite <- Sm_add. apply Sm_ext. intros; ring.
Qed.
Lemma expand_ks : forall X (L : list X) (y : X -> Z -> Z -> Z -> K) q j a,
  (expand (fun i j a => ks L (fun x => y x i j a)) q j a == ks L (fun x => expand (y x) q j a))%K.
Proof.
  intros X L y q j a. induction L as [|x L IH].
  - rewrite ks_nil. unfold expand. apply Sm_0. intros i _. transitivity (wt i * 0)%K; [|ring]. apply K_mul; [reflexivity|].
    apply Sm_0. intros l _. destruct (r l (irs i) =? q); [|reflexivity]. apply Sm_0. intros b _. rewrite ks_nil. ring.
  - rewrite ks_cons, <- IH, <- expand_add. reflexivity.
Qed.
Lemma expand_mul : forall c y q j a, (expand (fun i j a => c * y i j a) q j a == c * expand y q j a)%K.
Proof.
  intros c y q j a. unfold expand. rewrite <- Sm_mul_l. apply Sm_ext. intros i _.
  transitivity (wt i * (c * Sm g (fun l => if r l (irs i) =? q then Sm 3 (fun b => cart l a b * y i j b) else 0)))%K; [|ring].
  apply K_mul; [reflexivity|]. rewrite <- Sm_mul_l. apply Sm_ext. intros l _.
  destruct (r l (irs i) =? q); [|ring]. rewrite <- Sm_mul_l. apply Sm_ext. intros; ring.
Qed.
Lemma expand_sub : forall y y' q j a, (expand (fun i j a => y i j a - y' i j a) q j a == expand y q j a - expand y' q j a)%K.
Proof.
  intros y y' q j a. unfold expand. rewrite <- Sm_sub. apply Sm_ext. intros i _.
  transitivity (wt i * (Sm g (fun l => if r l (irs i) =? q then Sm 3 (fun b => cart l a b * y i j b) else 0)
      - Sm g (fun l => if r l (irs i) =? q then Sm 3 (fun b => cart l a b * y' i j b) else 0)))%K; [|ring].
  apply K_mul; [reflexivity|]. rewrite <- Sm_sub. apply Sm_ext. intros l _.
  destruct (r l (irs i) =? q); [|ring]. rewrite <- Sm_sub. apply Sm_ext. intros; ring.
Qed.
Lemma expand_cov : forall y, covariant (expand y).
Proof.
  intros y m q j a Hm Hq Hj Ha. unfold expand.
  transitivity (Sm nir (fun i => wt i * Sm g (fun l => if r l (irs i) =? q then Sm 3 (fun b => Sm 3 (fun c => cart m a c * cart l c b * y i j b)) else 0)))%K.
  { apply Sm_ext. intros i Hi. apply K_mul; [reflexivity|]. rewrite <- (Sm_mul m _ Hm). apply Sm_ext. intros l Hl.
    rewrite (pg_mul _ _ _ _ _ _ _ HG m l _ Hm Hl (irs_in i Hi)).
    destruct (Z.eqb_spec (r m (r l (irs i))) (r m q)) as [E|E]; destruct (Z.eqb_spec (r l (irs i)) q) as [E'|E']; try reflexivity.
    - apply Sm_ext. intros b Hb. rewrite (pg_cart_mul _ _ _ _ _ _ _ HG m l a b Hm Hl Ha Hb), <- Sm_mul_r. reflexivity.
    - exfalso. apply E'. apply (r_inj m); auto with grp.
    - exfalso. apply E. now rewrite E'. }
  symmetry. transitivity (Sm 3 (fun c => Sm nir (fun i => cart m a c * (wt i * Sm g (fun l => if r l (irs i) =? q then Sm 3 (fun b => cart l c b * y i j b) else 0)))))%K.
  { apply Sm_ext. intros c Hc. rewrite Sm_mul_l. reflexivity. }
  rewrite Sm_swap. apply Sm_ext. intros i Hi.
  transitivity (wt i * Sm 3 (fun c => cart m a c * Sm g (fun l => if r l (irs i) =? q then Sm 3 (fun b => cart l c b * y i j b) else 0)))%K.
  { rewrite <- Sm_mul_l. apply Sm_ext. intros; ring. }
  apply K_mul; [reflexivity|].
  transitivity (Sm 3 (fun c => Sm g (fun l => if r l (irs i) =? q then Sm 3 (fun b => cart m a c * cart l c b * y i j b) else 0)))%K.
  { apply Sm_ext. intros c Hc. rewrite <- Sm_mul_l. apply Sm_ext. intros l Hl. destruct (r l (irs i) =? q); [|ring].
    rewrite <- Sm_mul_l. apply Sm_ext. intros; ring. }
  rewrite Sm_swap. apply Sm_ext. intros l Hl. destruct (r l (irs i) =? q); [|now apply Sm_0]. apply Sm_swap.
Qed.
(** a covariant field is determined by its irreducible part *)
Lemma expand_restrict : forall F, covariant F -> forall q j a, 0 <= q < n -> 0 <= j < nb -> 0 <= a < 3 ->
  (expand (restrict F) q j a == F q j a)%K.
Proof.
  intros F C q j a Hq Hj Ha. destruct HI as [I1 [I2 I3]]. destruct (I2 q Hq) as [i [l0 [Hi [Hl0 E0]]]].
  unfold expand. rewrite (Sm_one K nir i); [|exact Hi|].
  - transitivity (wt i * (wt i * count (irs i) q * F q j a))%K.
    + apply K_mul; [reflexivity|]. unfold count. rewrite <- Sm_mul_l, <- Sm_mul_r. apply Sm_ext. intros l Hl.
      destruct (Z.eqb_spec (r l (irs i)) q) as [E|E]; [|ring].
      transitivity (wt i * F (r l (irs i)) j a)%K; [|rewrite E; ring]. rewrite (C l (irs i) j a); auto with grp.
      rewrite <- Sm_mul_l. apply Sm_ext. intros b Hb. unfold restrict. ring.
    + rewrite <- E0 at 1. rewrite count_star; auto with grp. transitivity ((wt i * wt i * count (irs i) (irs i)) * F q j a)%K; [ring|].
      rewrite (Hwt i Hi). ring.
  - intros i' Hi' Ne. transitivity (wt i' * 0)%K; [|ring]. apply K_mul; [reflexivity|]. apply Sm_0. intros l Hl.
    destruct (Z.eqb_spec (r l (irs i')) q) as [E|_]; [|reflexivity]. exfalso. apply Ne. apply (I3 i' i l l0); auto. congruence.
Qed.

(** ** Matrices *)
Variable om : Z -> Z -> Z -> Z -> K.
Hypothesis om_cov : forall l q j q' j', 0 <= l < g -> 0 <= q < n -> 0 <= j < nb -> 0 <= q' < n -> 0 <= j' < nb ->
  (om (r l q) j (r l q') j' == om q j q' j')%K.
Definition apply_full (F : Z -> Z -> Z -> K) (q j a : Z) : K := Sm n (fun q' => Sm nb (fun j' => om q j q' j' * F q' j' a))%K.
Lemma Sm_r : forall l f, 0 <= l < g -> (Sm n (fun q => f (r l q)) == Sm n f)%K.
Proof.
  intros l f Hl. unfold DirModel.Sm. rewrite <- (ks_map K _ _ (r l) (zrange n) f). apply ks_perm. apply NoDup_Permutation_bis.
  - assert (G : forall L, (forall x, In x L -> 0 <= x < n) -> NoDup L -> NoDup (map (r l) L)).
    { induction L as [|x L IH]; intros H N; [constructor|]. inversion_clear N as [|? ? N1 N2]. cbn. constructor.
      - intros I. apply in_map_iff in I. destruct I as [y [E I]]. apply N1. rewrite (r_inj l x y); auto; apply H; cbn; auto.
      - apply IH; auto. intros; apply H; now right. }
    apply G; [intros x; apply in_zrange|apply NoDup_zrange].
  - rewrite map_length. lia.
  - intros x I. apply in_map_iff in I. destruct I as [q [<- I]]. rewrite in_zrange in *. auto with grp.
Qed.
Lemma apply_cov : forall F, covariant F -> covariant (apply_full F).
Proof.
  intros F C l q j a Hl Hq Hj Ha. unfold apply_full. rewrite <- (Sm_r l _ Hl).
  transitivity (Sm n (fun q' => Sm nb (fun j' => Sm 3 (fun b => cart l a b * (om q j q' j' * F q' j' b)))))%K.
  - apply Sm_ext. intros q' Hq'. apply Sm_ext. intros j' Hj'. rewrite (om_cov l q j q' j' Hl Hq Hj Hq' Hj'), (C l q' j' a Hl Hq' Hj' Ha).
    rewrite <- Sm_mul_l. apply Sm_ext. intros; ring.
  - symmetry. transitivity (Sm 3 (fun b => Sm n (fun q' => Sm nb (fun j' => cart l a b * (om q j q' j' * F q' j' b)))))%K.
    { apply Sm_ext. intros b Hb. rewrite <- Sm_mul_l. apply Sm_ext. intros q' _. now rewrite <- Sm_mul_l. }
    rewrite Sm_swap. apply Sm_ext. intros q' _. apply Sm_swap.
Qed.
(** the symmetry-reduced matrix *)
Definition reduced (i j a i' j' b : Z) : K := (wt i * wt i' * Sm g (fun l => om (irs i) j (r l (irs i')) j' * cart l a b))%K.
Definition apply_reduced (y : Z -> Z -> Z -> K) (i j a : Z) : K :=
  Sm nir (fun i' => Sm nb (fun j' => Sm 3 (fun b => reduced i j a i' j' b * y i' j' b)))%K.
Lemma reduced_is_restricted : forall y i j a, 0 <= i < nir -> 0 <= j < nb -> 0 <= a < 3 ->
  (apply_reduced y i j a == restrict (apply_full (expand y)) i j a)%K.
Proof.
  intros y i j a Hi Hj Ha. unfold apply_reduced, restrict, apply_full. symmetry.
  transitivity (wt i * Sm n (fun q => Sm nb (fun j' => Sm nir (fun i' => Sm g (fun l => if r l (irs i') =? q then om (irs i) j (r l (irs i')) j' * wt i' * Sm 3 (fun b => cart l a b * y i' j' b) else 0)))))%K.
  { apply K_mul; [reflexivity|]. apply Sm_ext. intros q Hq. apply Sm_ext. intros j' Hj'. unfold expand. rewrite <- Sm_mul_l.
    apply Sm_ext. intros i' Hi'. transitivity (om (irs i) j q j' * wt i' * Sm g (fun l => if r l (irs i') =? q then Sm 3 (fun b => cart l a b * y i' j' b) else 0))%K; [ring|].
    rewrite <- Sm_mul_l. apply Sm_ext. intros l Hl. destruct (Z.eqb_spec (r l (irs i')) q) as [<-|_]; ring. }
  transitivity (wt i * Sm nir (fun i' => Sm nb (fun j' => Sm g (fun l => Sm n (fun q => if q =? r l (irs i') then om (irs i) j (r l (irs i')) j' * wt i' * Sm 3 (fun b => cart l a b * y i' j' b) else 0)))))%K.
  { apply K_mul; [reflexivity|].
    transitivity (Sm n (fun q => Sm nir (fun i' => Sm nb (fun j' => Sm g (fun l => if r l (irs i') =? q then om (irs i) j (r l (irs i')) j' * wt i' * Sm 3 (fun b => cart l a b * y i' j' b) else 0)))))%K.
    { apply Sm_ext. intros q _. apply Sm_swap. }
    rewrite Sm_swap. apply Sm_ext. intros i' _. rewrite Sm_swap. apply Sm_ext. intros j' _. rewrite Sm_swap. apply Sm_ext. intros l _.
    apply Sm_ext. intros q _. rewrite Z.eqb_sym. reflexivity. }
  rewrite <- Sm_mul_l. apply Sm_ext. intros i' Hi'. rewrite <- Sm_mul_l. apply Sm_ext. intros j' Hj'.
  transitivity (wt i * Sm g (fun l => om (irs i) j (r l (irs i')) j' * wt i' * Sm 3 (fun b => cart l a b * y i' j' b)))%K.
  { apply K_mul; [reflexivity|]. apply Sm_ext. intros l Hl.
    apply (Sm_single K n (r l (irs i')) (fun _ => om (irs i) j (r l (irs i')) j' * wt i' * Sm 3 (fun b => cart l a b * y i' j' b))%K). auto with grp. }
  unfold reduced. transitivity (Sm 3 (fun b => Sm g (fun l => wt i * wt i' * (om (irs i) j (r l (irs i')) j' * cart l a b * y i' j' b))))%K.
  { rewrite Sm_swap. rewrite <- Sm_mul_l. apply Sm_ext. intros l Hl. transitivity (wt i * wt i' * om (irs i) j (r l (irs i')) j' * Sm 3 (fun b => cart l a b * y i' j' b))%K; [ring|].
    rewrite <- Sm_mul_l. apply Sm_ext. intros; ring. }
  apply Sm_ext. intros b Hb. rewrite Sm_mul_l. transitivity (wt i * wt i' * (Sm g (fun l => om (irs i) j (r l (irs i')) j' * cart l a b) * y i' j' b))%K; [|ring].
  apply K_mul; [reflexivity|]. rewrite <- Sm_mul_r. reflexivity.
Qed.
Lemma expand_reduced : forall y q j a, 0 <= q < n -> 0 <= j < nb -> 0 <= a < 3 ->
  (expand (apply_reduced y) q j a == apply_full (expand y) q j a)%K.
Proof.
  intros y q j a Hq Hj Ha. rewrite (expand_ext _ (restrict (apply_full (expand y)))); [|intros; now apply reduced_is_restricted|exact Hj].
  apply expand_restrict; auto. apply apply_cov, expand_cov.
Qed.
End Group.
