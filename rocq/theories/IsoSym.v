(** Linewidths by mass disorder: sign, absence of disorder, choice of eigenvectors, equivalent grid points (C90) *)
From Coq Require Import ZArith QArith List Bool Lia Lqa Setoid Permutation.
From Verif Require Import Base BaseProofs QMat Par Par2 IseSpec IseProofs Fc3Trans Cplx R2rProofs R2rSym IsoModel IsoProps.
Import ListNotations.
Open Scope Z_scope.

(** ** Specification *)
(** modes of grid point g' are those of g carried by an operation: frequencies are the same, every vector is turned by R and moved to the images pm of the atoms, with a
    phase u for each atom; U mixes modes of the same frequency *)
Definition unitary (n : Z) (U : Z -> Z -> cplx) : Prop :=
  forall a b, 0 <= a < n -> 0 <= b < n -> CSum n (fun k => cmul (U a k) (conj (U b k))) =c= if a =? b then c1 else c0.
Record carried_modes (nb : Z) (R : Z -> Z -> Q) (pm : Z -> Z) (freq freq' : Z -> Q) (eig eig' : Z -> cplx) (g g' : Z) (u : Z -> cplx) (U : Z -> Z -> cplx) : Prop := {
  cm_freq : forall k, 0 <= k < nb -> (freq' (g' * nb + k)%Z == freq (g * nb + k)%Z)%Q;
  cm_unitary : unitary nb U;
  cm_degenerate : forall a b, 0 <= a < nb -> 0 <= b < nb -> ~ U a b =c= c0 -> (freq (g * nb + a)%Z == freq (g * nb + b)%Z)%Q;
  cm_phase : forall l, 0 <= l < nb / 3 -> (cnorm2 (u l) == 1)%Q;
  cm_vector : forall l m b, 0 <= l < nb / 3 -> 0 <= m < 3 -> 0 <= b < nb ->
    polarization nb eig' g' b (pm l) m =c= CSum nb (fun a => cmul (U a b) (cmul (u l) (turn1 R (polarization nb eig g a l) m))) }.
Definition orthogonal3 (R : Z -> Z -> Q) : Prop :=
  forall a b, 0 <= a < 3 -> 0 <= b < 3 -> (R 0%Z a * R 0%Z b + R 1%Z a * R 1%Z b + R 2%Z a * R 2%Z b == if (a =? b)%Z then 1 else 0)%Q.

(** ** mixing *)
Lemma ceq_dec : forall a b, {a =c= b} + {~ a =c= b}.
Proof. intros a b. destruct (Qeq_dec (re a) (re b)), (Qeq_dec (im a) (im b)); [left; split; assumption|right; intros [? ?]; contradiction..]. Qed.
Lemma CSum_delta' : forall n a (f : Z -> cplx), 0 <= a < n -> CSum n (fun b => cmul (if a =? b then c1 else c0) (f b)) =c= f a.
Proof.
  intros n a f Ha. unfold CSum. assert (In a (zrange n)) by now apply in_zrange. pose proof (NoDup_zrange n) as ND. revert H ND. generalize (zrange n). clear.
  induction l as [|x l IH]; intros Hin ND; [destruct Hin|]. inversion_clear ND as [|? ? N1 N2]. cbn [map]. rewrite csum_cons. destruct Hin as [->|Hin].
  - rewrite Z.eqb_refl. rewrite (csum_zero _ _ l); [ring|]. intros y Hy. assert (E : (a =? y) = false) by (apply Z.eqb_neq; intros ->; contradiction). rewrite E. ring.
  - assert (E : (a =? x) = false) by (apply Z.eqb_neq; intros ->; contradiction). rewrite E, IH by assumption. ring.
Qed.
Lemma CSum_re : forall n f, (re (CSum n f) == Sum n (fun i => re (f i)))%Q.
Proof. intros n f. unfold CSum, Sum. rewrite (proj1 (csum_parts _)), map_map. reflexivity. Qed.
Lemma cnorm2_re : forall z, (cnorm2 z == re (cmul z (conj z)))%Q.
Proof. intros z. unfold cnorm2. cbn [re cmul conj im]. ring. Qed.
Lemma CSum_conj' : forall n f, conj (CSum n f) =c= CSum n (fun i => conj (f i)).
Proof. intros. unfold CSum. apply csum_conj. Qed.
Lemma CSum_prod : forall n f g, cmul (CSum n f) (CSum n g) =c= CSum n (fun a => CSum n (fun b => cmul (f a) (g b))).
Proof.
  intros n f g. transitivity (cmul (CSum n g) (CSum n f)); [ring|]. rewrite <- CSum_scale. apply CSum_ext. intros a _. rewrite CSum_scale. ring.
Qed.
Lemma mixing : forall n V (h : Z -> Q) (y : Z -> cplx), unitary n V ->
  (forall a i, 0 <= a < n -> 0 <= i < n -> ~ V a i =c= c0 -> (h a == h i)%Q) ->
  (Sum n (fun i => h i * cnorm2 (CSum n (fun a => cmul (V a i) (y a)))) == Sum n (fun a => h a * cnorm2 (y a)))%Q.
Proof.
  intros n V h y HV Hh.
  transitivity (re (CSum n (fun i => CSum n (fun a => CSum n (fun b => cmul (C (h a) 0) (cmul (cmul (y a) (conj (y b))) (cmul (V a i) (conj (V b i))))))))).
  - rewrite CSum_re. apply Sum_ext. intros i Hi. rewrite cnorm2_re, CSum_conj', CSum_prod.
    transitivity (re (cmul (C (h i) 0) (CSum n (fun a => CSum n (fun b => cmul (cmul (V a i) (y a)) (conj (cmul (V b i) (y b)))))))); [cbn [re cmul im]; ring|].
    apply re_proper. rewrite <- CSum_scale. apply CSum_ext. intros a Ha. rewrite <- CSum_scale. apply CSum_ext. intros b Hb. rewrite conj_mul.
    destruct (ceq_dec (V a i) c0) as [E|E]; [rewrite E; ring|]. pose proof (Hh a i Ha Hi E) as E'.
    assert (K : C (h i) 0 =c= C (h a) 0) by (split; cbn [re im]; [symmetry; exact E'|reflexivity]). rewrite K. ring.
  - rewrite CSum_swap, CSum_re. apply Sum_ext. intros a Ha.
    rewrite CSum_swap. rewrite (CSum_ext _ _ (fun b => cmul (if a =? b then c1 else c0) (cmul (C (h a) 0) (cmul (y a) (conj (y b)))))).
    + rewrite CSum_delta' by exact Ha. rewrite cnorm2_re. cbn [re cmul im]. ring.
    + intros b Hb. transitivity (CSum n (fun i => cmul (cmul (C (h a) 0) (cmul (y a) (conj (y b)))) (cmul (V a i) (conj (V b i))))); [apply CSum_ext; intros; ring|].
      rewrite CSum_scale, (HV a b Ha Hb). ring.
Qed.
(** the sum over a list of bands *)
Lemma CSum_sub : forall n (bi : list Z) (f : Z -> cplx), NoDup bi -> (forall b, In b bi -> 0 <= b < n) -> (forall k, 0 <= k < n -> ~ In k bi -> f k =c= c0) ->
  CSum n f =c= CSum (Z.of_nat (length bi)) (fun i => f (nth (Z.to_nat i) bi 0)).
Proof.
  intros n bi f ND Hr Hz. unfold CSum at 2. rewrite <- (map_map (fun i => nth (Z.to_nat i) bi 0) f), map_nth_zrange. unfold CSum.
  set (inb := fun k => if in_dec Z.eq_dec k bi then true else false).
  transitivity (csum (map f (filter inb (zrange n)))).
  - clear ND Hr. assert (K : forall k, In k (zrange n) -> inb k = false -> f k =c= c0). { intros k Hk E. unfold inb in E. destruct (in_dec Z.eq_dec k bi); [discriminate|]. apply Hz; [now apply in_zrange|assumption]. }
    revert K. generalize (zrange n). induction l as [|k l IH]; intros K; [reflexivity|]. cbn [map filter]. rewrite csum_cons, IH by (intros; apply K; [now right|assumption]).
    destruct (inb k) eqn:E; cbn [map]; [reflexivity|]. rewrite (K k (or_introl eq_refl) E). ring.
  - apply csum_perm', Permutation_map. apply NoDup_Permutation; [apply NoDup_filter, NoDup_zrange|exact ND|]. intros k. rewrite filter_In, in_zrange. unfold inb.
    destruct (in_dec Z.eq_dec k bi); [|split; [intros [_ D]; discriminate|contradiction]]. split; [tauto|]. intros _. split; [now apply Hr|reflexivity].
Qed.
Lemma mixing_sub : forall nb (bi : list Z) U (h : Z -> Q) (y : Z -> cplx), NoDup bi -> (forall b, In b bi -> 0 <= b < nb) -> unitary nb U ->
  (forall a b, 0 <= a < nb -> 0 <= b < nb -> ~ U a b =c= c0 -> (In a bi <-> In b bi)) ->
  let n0 := Z.of_nat (length bi) in let be := fun i => nth (Z.to_nat i) bi 0 in
  (forall i j, 0 <= i < n0 -> 0 <= j < n0 -> ~ U (be i) (be j) =c= c0 -> (h i == h j)%Q) ->
  (Sum n0 (fun i => h i * cnorm2 (CSum nb (fun a => cmul (U a (be i)) (y a)))) == Sum n0 (fun i => h i * cnorm2 (y (be i))))%Q.
Proof.
  intros nb bi U h y ND Hr HU Hcl n0 be Hh.
  assert (Hbe : forall i, 0 <= i < n0 -> In (be i) bi) by (intros i Hi; unfold be; apply nth_In; unfold n0 in Hi; lia).
  rewrite (Sum_ext n0 _ (fun i => h i * cnorm2 (CSum n0 (fun a => cmul (U (be a) (be i)) (y (be a)))))%Q).
  - apply (mixing n0 (fun a i => U (be a) (be i)) h (fun a => y (be a))).
    + intros a b Ha Hb. transitivity (CSum nb (fun k => cmul (U (be a) k) (conj (U (be b) k)))); [symmetry; apply (CSum_sub nb bi (fun k => cmul (U (be a) k) (conj (U (be b) k))) ND Hr)|].
      2: { rewrite (HU _ _ (Hr _ (Hbe a Ha)) (Hr _ (Hbe b Hb))). destruct (Z.eqb_spec a b) as [->|Ne]; [rewrite Z.eqb_refl; reflexivity|].
        destruct (Z.eqb_spec (be a) (be b)) as [E|_]; [|reflexivity]. exfalso. apply Ne. unfold be in E. apply (proj1 (NoDup_nth bi 0) ND) in E; unfold n0 in Ha, Hb; lia. }
      intros k Hk Hn. destruct (ceq_dec (U (be a) k) c0) as [E|E]; [rewrite E; ring|]. exfalso. apply Hn. apply (Hcl (be a) k (Hr _ (Hbe a Ha)) Hk E), Hbe, Ha.
    + intros a i Ha Hi. apply Hh; assumption.
  - intros i Hi. apply Qmult_comp; [reflexivity|]. apply cnorm2_proper. apply (CSum_sub nb bi (fun a => cmul (U a (be i)) (y a)) ND Hr).
    intros k Hk Hn. destruct (ceq_dec (U k (be i)) c0) as [E|E]; [rewrite E; ring|]. exfalso. apply Hn. apply (Hcl k (be i) Hk (Hr _ (Hbe i Hi)) E), Hbe, Hi.
Qed.

Lemma Sum_swap' : forall n m f, (Sum n (fun i => Sum m (f i)) == Sum m (fun j => Sum n (fun i => f i j)))%Q.
Proof. intros n m f. unfold Sum. apply (qs_swap _ _ f). Qed.
Lemma Sum_bij' : forall n (b b' : Z -> Z) f, (forall i, 0 <= i < n -> 0 <= b i < n /\ 0 <= b' i < n /\ b' (b i) = i /\ b (b' i) = i) -> (Sum n f == Sum n (fun i => f (b i)))%Q.
Proof.
  intros n b b' f H. pose proof (CSum_bij n b b' (fun i => C (f i) 0) H) as K. apply re_proper in K. rewrite !CSum_re in K. exact K.
Qed.
Lemma unitary_conj : forall n U, unitary n U -> unitary n (fun a b => conj (U a b)).
Proof.
  intros n U H a b Ha Hb. rewrite (CSum_ext _ _ (fun k => conj (cmul (U a k) (conj (U b k))))) by (intros; rewrite conj_mul; reflexivity).
  rewrite <- CSum_conj', (H a b Ha Hb). destruct (a =? b); split; cbn; reflexivity.
Qed.
Lemma turn_dot : forall R x y, orthogonal3 R -> CSum 3 (fun m => cmul (turn1 R x m) (conj (turn1 R y m))) =c= CSum 3 (fun m => cmul (x m) (conj (y m))).
Proof.
  intros R x y Ho. pose proof (Ho 0 0 ltac:(lia) ltac:(lia)) as H00. pose proof (Ho 0 1 ltac:(lia) ltac:(lia)) as H01. pose proof (Ho 0 2 ltac:(lia) ltac:(lia)) as H02.
  pose proof (Ho 1 1 ltac:(lia) ltac:(lia)) as H11. pose proof (Ho 1 2 ltac:(lia) ltac:(lia)) as H12. pose proof (Ho 2 2 ltac:(lia) ltac:(lia)) as H22. clear Ho.
  cbn [Z.eqb Pos.eqb] in *. unfold turn1. rewrite !CSum3.
  generalize (x 0) (x 1) (x 2) (y 0) (y 1) (y 2) H00 H01 H02 H11 H12 H22. clear. generalize (R 0 0) (R 0 1) (R 0 2) (R 1 0) (R 1 1) (R 1 2) (R 2 0) (R 2 1) (R 2 2). intros a b c d e f g h i x0 x1 x2 y0 y1 y2 H00 H01 H02 H11 H12 H22.
  transitivity (cadd (cadd (cadd (cscale (a * a + d * d + g * g) (cmul x0 (conj y0))) (cscale (a * b + d * e + g * h) (cadd (cmul x0 (conj y1)) (cmul x1 (conj y0)))))
    (cadd (cscale (a * c + d * f + g * i) (cadd (cmul x0 (conj y2)) (cmul x2 (conj y0)))) (cscale (b * b + e * e + h * h) (cmul x1 (conj y1)))))
    (cadd (cscale (b * c + e * f + h * i) (cadd (cmul x1 (conj y2)) (cmul x2 (conj y1)))) (cscale (c * c + f * f + i * i) (cmul x2 (conj y2))))).
  - split; cbn [re im cscale cadd cmul conj]; ring.
  - rewrite H00, H01, H02, H11, H12, H22. split; cbn [re im cscale cadd cmul conj]; ring.
Qed.

Section Carried.
Variables (nb : Z) (R : Z -> Z -> Q) (pm pm' : Z -> Z) (freq freq' : Z -> Q) (eig eig' : Z -> cplx) (mv : Z -> Q).
Hypothesis Ho : orthogonal3 R.
Hypothesis Hpm : forall l, 0 <= l < nb / 3 -> 0 <= pm l < nb / 3 /\ 0 <= pm' l < nb / 3 /\ pm' (pm l) = l /\ pm (pm' l) = l.
Hypothesis Hmv : forall l, 0 <= l < nb / 3 -> (mv (pm l) == mv l)%Q.
Local Notation pol := (polarization nb eig).
Local Notation pol' := (polarization nb eig').
Definition X (q g l a a' : Z) : cplx := CSum 3 (fun m => cmul (pol q a l m) (conj (pol g a' l m))).
Lemma overlap_carried : forall q q' g g' uq ug Uq Ug b k l, carried_modes nb R pm freq freq' eig eig' q q' uq Uq -> carried_modes nb R pm freq freq' eig eig' g g' ug Ug ->
  0 <= l < nb / 3 -> 0 <= b < nb -> 0 <= k < nb ->
  (overlap2 (pol' q' b) (pol' g' k) (pm l) == cnorm2 (CSum nb (fun a => cmul (Uq a b) (CSum nb (fun a' => cmul (conj (Ug a' k)) (X q g l a a'))))))%Q.
Proof.
  intros q q' g g' uq ug Uq Ug b k l Cq Cg Hl Hb Hk. unfold overlap2.
  rewrite (CSum_ext 3 _ (fun m => cmul (cmul (uq l) (conj (ug l))) (CSum nb (fun a => cmul (Uq a b) (CSum nb (fun a' => cmul (conj (Ug a' k)) (cmul (turn1 R (pol q a l) m) (conj (turn1 R (pol g a' l) m))))))))).
  - rewrite CSum_scale, cnorm2_mul, cnorm2_mul. assert (E : (cnorm2 (conj (ug l)) == 1)%Q).
    { rewrite <- (cm_phase _ _ _ _ _ _ _ _ _ _ _ Cg l Hl). unfold cnorm2. cbn [re im conj]. ring. }
    rewrite E, (cm_phase _ _ _ _ _ _ _ _ _ _ _ Cq l Hl), !Qmult_1_l. apply cnorm2_proper. rewrite CSum_swap. apply CSum_ext. intros a _. rewrite CSum_scale. apply cmul_proper; [reflexivity|].
    rewrite CSum_swap. apply CSum_ext. intros a' _. rewrite CSum_scale. apply cmul_proper; [reflexivity|]. apply turn_dot. exact Ho.
  - intros m Hm. rewrite (cm_vector _ _ _ _ _ _ _ _ _ _ _ Cq l m b Hl Hm Hb), (cm_vector _ _ _ _ _ _ _ _ _ _ _ Cg l m k Hl Hm Hk), CSum_conj', CSum_prod.
    rewrite <- CSum_scale. apply CSum_ext. intros a _. rewrite <- !CSum_scale. apply CSum_ext. intros a' _. rewrite !conj_mul. ring.
Qed.

(** one grid point *)
Lemma grid_point_carried : forall q q' g g' uq ug Uq Ug (bi : list Z) (c : Z -> Q) (w : Z -> Q) (D : Z -> Z -> Q),
  carried_modes nb R pm freq freq' eig eig' q q' uq Uq -> carried_modes nb R pm freq freq' eig eig' g g' ug Ug ->
  NoDup bi -> (forall b, In b bi -> 0 <= b < nb) -> (forall a b, 0 <= a < nb -> 0 <= b < nb -> ~ Uq a b =c= c0 -> (In a bi <-> In b bi)) ->
  let n0 := Z.of_nat (length bi) in let be := fun i => nth (Z.to_nat i) bi 0 in
  (forall i j k, 0 <= i < n0 -> 0 <= j < n0 -> 0 <= k < nb -> ~ Uq (be i) (be j) =c= c0 -> (c i * D i k == c j * D j k)%Q) ->
  (forall i a b, 0 <= i < n0 -> 0 <= a < nb -> 0 <= b < nb -> ~ Ug a b =c= c0 -> (w a * D i a == w b * D i b)%Q) ->
  (Sum n0 (fun i => c i * Sum nb (fun k => w k * D i k * Sum (nb / 3) (fun l => mv l * overlap2 (pol' q' (be i)) (pol' g' k) l)))
   == Sum n0 (fun i => c i * Sum nb (fun k => w k * D i k * Sum (nb / 3) (fun l => mv l * overlap2 (pol q (be i)) (pol g k) l))))%Q.
Proof.
  intros q q' g g' uq ug Uq Ug bi c w D Cq Cg ND Hr Hcl n0 be Hc Hw.
  assert (Hbe : forall i, 0 <= i < n0 -> 0 <= be i < nb) by (intros i Hi; apply Hr; unfold be; apply nth_In; unfold n0 in Hi; lia).
  transitivity (Sum n0 (fun i => Sum nb (fun k => Sum (nb / 3) (fun l => w k * mv l * (c i * D i k * cnorm2 (CSum nb (fun a => cmul (Uq a (be i)) (CSum nb (fun a' => cmul (conj (Ug a' k)) (X q g l a a')))))))))%Q).
  { apply Sum_ext. intros i Hi. rewrite <- Sum_scale. apply Sum_ext. intros k Hk. rewrite (Sum_bij' (nb / 3) pm pm' _ Hpm), <- Sum_scale, <- Sum_scale. apply Sum_ext. intros l Hl.
    rewrite (Hmv l Hl), (overlap_carried q q' g g' uq ug Uq Ug (be i) k l Cq Cg Hl (Hbe i Hi) Hk). ring. }
  transitivity (Sum n0 (fun i => Sum nb (fun k => Sum (nb / 3) (fun l => c i * mv l * (w k * D i k * cnorm2 (CSum nb (fun a' => cmul (conj (Ug a' k)) (X q g l (be i) a'))))))))%Q.
  { rewrite Sum_swap'. rewrite (Sum_swap' n0). apply Sum_ext. intros k Hk. rewrite Sum_swap'. rewrite (Sum_swap' n0). apply Sum_ext. intros l Hl.
    rewrite Sum_scale.
    transitivity (w k * mv l * Sum n0 (fun i => c i * D i k * cnorm2 (CSum nb (fun a' => cmul (conj (Ug a' k)) (X q g l (be i) a')))))%Q.
    - apply Qmult_comp; [reflexivity|].
      apply (mixing_sub nb bi Uq (fun i => c i * D i k)%Q (fun a => CSum nb (fun a' => cmul (conj (Ug a' k)) (X q g l a a'))) ND Hr (cm_unitary _ _ _ _ _ _ _ _ _ _ _ Cq) Hcl).
      intros i j Hi Hj HU. apply Hc; assumption.
    - rewrite <- Sum_scale. apply Sum_ext. intros i Hi. ring. }
  apply Sum_ext. intros i Hi. rewrite Sum_swap'. rewrite <- Sum_scale.
  transitivity (Sum nb (fun k => Sum (nb / 3) (fun l => c i * mv l * (w k * D i k * overlap2 (pol q (be i)) (pol g k) l))))%Q.
  - rewrite (Sum_swap' nb). apply Sum_ext. intros l Hl. rewrite !Sum_scale. apply Qmult_comp; [reflexivity|].
    apply (mixing nb (fun a k => conj (Ug a k)) (fun k => w k * D i k)%Q (fun a' => X q g l (be i) a')); [apply unitary_conj, (cm_unitary _ _ _ _ _ _ _ _ _ _ _ Cg)|].
    intros a k Ha Hk HU. apply Hw; try assumption. intros E. apply HU. rewrite E. split; cbn; reflexivity.
  - apply Sum_ext. intros k Hk. rewrite <- !Sum_scale. apply Sum_ext. intros l Hl. ring.
Qed.
End Carried.

(** ** linewidths *)
Lemma qltb_ext : forall a b c d, (a == b)%Q -> (c == d)%Q -> qltb a c = qltb b d.
Proof.
  intros a b c d E1 E2. destruct (qltb b d) eqn:H.
  - apply qltb_lt. apply qltb_lt in H. rewrite E1, E2. exact H.
  - apply qltb_ge. apply qltb_ge in H. rewrite E1, E2. exact H.
Qed.
Definition wfac (cutoff f : Q) : Q := if qltb f cutoff then 0%Q else 1%Q.
Definition cfac (pi cutoff : Q) (N : Z) (f : Q) : Q := if qltb f cutoff then 0%Q else (pi / 4 * (f * f) / inject_Z N)%Q.
Lemma wfac_ext : forall cutoff f f', (f == f')%Q -> (wfac cutoff f == wfac cutoff f')%Q.
Proof. intros cutoff f f' E. unfold wfac. rewrite (qltb_ext f f' cutoff cutoff E (Qeq_refl _)). reflexivity. Qed.
Lemma cfac_ext : forall pi cutoff N f f', (f == f')%Q -> (cfac pi cutoff N f == cfac pi cutoff N f')%Q.
Proof. intros pi cutoff N f f' E. unfold cfac. rewrite (qltb_ext f f' cutoff cutoff E (Qeq_refl _)). destruct (qltb f' cutoff); [reflexivity|]. rewrite E. reflexivity. Qed.
Lemma golden_fac : forall pi nb freq eig mv cutoff N gps delta q b,
  (golden_rule pi nb freq eig mv cutoff N gps delta q b == cfac pi cutoff N (freq (q * nb + b)%Z) * qsum (map (fun g =>
     Sum nb (fun k => wfac cutoff (freq (g * nb + k)%Z) * delta g k * Sum (nb / 3) (fun l => mv l * overlap2 (polarization nb eig q b) (polarization nb eig g k) l))) gps))%Q.
Proof.
  intros pi nb freq eig mv cutoff N gps delta q b. unfold golden_rule, cfac. destruct (qltb (freq (q * nb + b)) cutoff); [ring|].
  apply Qmult_comp; [reflexivity|]. apply qs_ext. intros g _. apply Sum_ext. intros k _. unfold wfac. destruct (qltb (freq (g * nb + k)) cutoff); ring.
Qed.
Lemma qs_nonneg : forall X (f : X -> Q) l, (forall x, In x l -> (0 <= f x)%Q) -> (0 <= qsum (map f l))%Q.
Proof. intros X f l H. induction l as [|x l IH]; cbn [map]; [rewrite qs_nil; lra|]. rewrite qs_cons. pose proof (H x (or_introl eq_refl)). pose proof (IH (fun y Hy => H y (or_intror Hy))). lra. Qed.
Lemma qs_perm_map : forall X (f : X -> Q) l l', Permutation l l' -> (qsum (map f l) == qsum (map f l'))%Q.
Proof. intros X f l l' P. apply qs_perm, Permutation_map, P. Qed.

Lemma golden_carried : forall pi nb R pm pm' freq freq' eig eig' mv cutoff N gps gps' (img : Z -> Z) (u : Z -> Z -> cplx) (U : Z -> Z -> Z -> cplx) q (bi : list Z) (D D' : Z -> Z -> Z -> Q),
  orthogonal3 R -> (forall l, 0 <= l < nb / 3 -> 0 <= pm l < nb / 3 /\ 0 <= pm' l < nb / 3 /\ pm' (pm l) = l /\ pm (pm' l) = l) ->
  (forall l, 0 <= l < nb / 3 -> (mv (pm l) == mv l)%Q) -> Permutation gps' (map img gps) ->
  (forall g, In g (q :: gps) -> carried_modes nb R pm freq freq' eig eig' g (img g) (u g) (U g)) ->
  NoDup bi -> (forall b, In b bi -> 0 <= b < nb) -> (forall a b, 0 <= a < nb -> 0 <= b < nb -> ~ U q a b =c= c0 -> (In a bi <-> In b bi)) ->
  let n0 := Z.of_nat (length bi) in let be := fun i => nth (Z.to_nat i) bi 0 in
  (forall i g k, 0 <= i < n0 -> In g gps -> 0 <= k < nb -> (D' i (img g) k == D i g k)%Q) ->
  (forall i j g k, 0 <= i < n0 -> 0 <= j < n0 -> In g gps -> 0 <= k < nb -> ~ U q (be i) (be j) =c= c0 -> (D i g k == D j g k)%Q) ->
  (forall i g a b, 0 <= i < n0 -> In g gps -> 0 <= a < nb -> 0 <= b < nb -> ~ U g a b =c= c0 -> (D i g a == D i g b)%Q) ->
  (Sum n0 (fun i => golden_rule pi nb freq' eig' mv cutoff N gps' (D' i) (img q) (be i)) == Sum n0 (fun i => golden_rule pi nb freq eig mv cutoff N gps (D i) q (be i)))%Q.
Proof.
  intros pi nb R pm pm' freq freq' eig eig' mv cutoff N gps gps' img u U q bi D D' Ho Hpm Hmv Pg Hcm ND Hr Hcl n0 be HD HD1 HD2.
  assert (Hbe : forall i, 0 <= i < n0 -> 0 <= be i < nb) by (intros i Hi; apply Hr; unfold be; apply nth_In; unfold n0 in Hi; lia).
  pose proof (Hcm q (or_introl eq_refl)) as Cq.
  set (c := fun i => cfac pi cutoff N (freq (q * nb + be i)%Z)).
  set (A := fun i g => Sum nb (fun k => wfac cutoff (freq (g * nb + k)%Z) * D i g k * Sum (nb / 3) (fun l => mv l * overlap2 (polarization nb eig q (be i)) (polarization nb eig g k) l))%Q).
  set (B := fun i g => Sum nb (fun k => wfac cutoff (freq (g * nb + k)%Z) * D i g k * Sum (nb / 3) (fun l => mv l * overlap2 (polarization nb eig' (img q) (be i)) (polarization nb eig' (img g) k) l))%Q).
  transitivity (Sum n0 (fun i => qsum (map (fun g => c i * B i g) gps)))%Q.
  { apply Sum_ext. intros i Hi. rewrite golden_fac, (qs_perm_map _ _ _ _ Pg), map_map, qs_scale. apply Qmult_comp; [apply cfac_ext, (cm_freq _ _ _ _ _ _ _ _ _ _ _ Cq), Hbe, Hi|].
    apply qs_ext. intros g Hg. apply Sum_ext. intros k Hk. apply Qmult_comp; [|reflexivity]. apply Qmult_comp; [|exact (HD i g k Hi Hg Hk)].
    apply wfac_ext, (cm_freq _ _ _ _ _ _ _ _ _ _ _ (Hcm g (or_intror Hg)) k Hk). }
  transitivity (Sum n0 (fun i => qsum (map (fun g => c i * A i g) gps)))%Q.
  2: { apply Sum_ext. intros i Hi. rewrite golden_fac, qs_scale. reflexivity. }
  unfold Sum. rewrite (qs_swap _ _ (fun i g => c i * B i g)%Q), (qs_swap _ _ (fun i g => c i * A i g)%Q). apply qs_ext. intros g Hg.
  apply (grid_point_carried nb R pm pm' freq freq' eig eig' mv Ho Hpm Hmv q (img q) g (img g) (u q) (u g) (U q) (U g) bi c (fun k => wfac cutoff (freq (g * nb + k)%Z)) (fun i k => D i g k)
    Cq (Hcm g (or_intror Hg)) ND Hr Hcl).
  - intros i j k Hi Hj Hk HU. apply Qmult_comp; [|apply HD1; assumption]. apply cfac_ext. apply (cm_degenerate _ _ _ _ _ _ _ _ _ _ _ Cq); auto.
  - intros i a b Hi Ha Hb HU. apply Qmult_comp; [|apply HD2; assumption]. apply wfac_ext. apply (cm_degenerate _ _ _ _ _ _ _ _ _ _ _ (Hcm g (or_intror Hg))); auto.
Qed.

(** ** C90 *)
Theorem C90_sign : forall pi gauss nb freq eig mv cutoff gamma q gps bi N sw i, 0 <= nb -> 0 < N -> (0 <= pi)%Q -> 0 <= i < Z.of_nat (length bi) ->
  (forall l, 0 <= l < nb / 3 -> (0 <= mv l)%Q) -> match sw with inl _ => forall x s, (0 <= gauss x s)%Q | inr iw => forall x, (0 <= iw x)%Q end ->
  iso_run_c pi gauss nb freq eig mv cutoff gamma q gps bi N sw ->
  (0 <= gamma i)%Q /\ ((forall l, 0 <= l < nb / 3 -> (mv l == 0)%Q) -> (gamma i == 0)%Q).
Proof.
  intros pi gauss nb freq eig mv cutoff gamma q gps bi N sw i Hnb HN Hpi Hi Hmv Hw H.
  rewrite (C89_golden_rule _ _ _ _ _ _ _ _ _ _ _ _ _ i Hnb HN Hi H), golden_fac. split.
  - apply Qmult_le_0_compat.
    + unfold cfac. destruct (qltb _ cutoff); [lra|]. unfold Qdiv. apply Qmult_le_0_compat; [|apply Qinv_le_0_compat; change 0%Q with (inject_Z 0); rewrite <- Zle_Qle; lia].
      apply Qmult_le_0_compat; [|nra]. apply Qmult_le_0_compat; [exact Hpi|]. discriminate.
    + apply qs_nonneg. intros g _. apply qs_nonneg. intros k _. apply Qmult_le_0_compat.
      * apply Qmult_le_0_compat; [unfold wfac; destruct (qltb _ cutoff); lra|]. destruct sw; apply Hw.
      * apply qs_nonneg. intros l Hl. apply in_zrange in Hl. apply Qmult_le_0_compat; [now apply Hmv|apply cnorm2_nonneg].
  - intros Hz. rewrite (qs_zero _ _ gps); [ring|]. intros g _. apply Sum_zero. intros k _. rewrite (Sum_zero (nb / 3)); [ring|]. intros l Hl. rewrite (Hz l Hl). ring.
Qed.
Print Assumptions C90_sign.

Definition value_of (f : Q -> Q -> Q) : Prop := forall x y s, (x == y)%Q -> (f x s == f y s)%Q.
(** Gaussian smearing: the linewidths at q and at its image under an operation have the same sum over each set of degenerate bands; with the bands
    of a set containing one band only, the linewidth is the same *)
Theorem C90_equivalent_points : forall pi gauss nb R pm pm' freq freq' eig eig' mv cutoff N gps gps' img u U q bi sigma gamma gamma',
  0 <= nb -> 0 < N -> value_of gauss -> orthogonal3 R ->
  (forall l, 0 <= l < nb / 3 -> 0 <= pm l < nb / 3 /\ 0 <= pm' l < nb / 3 /\ pm' (pm l) = l /\ pm (pm' l) = l) ->
  (forall l, 0 <= l < nb / 3 -> (mv (pm l) == mv l)%Q) -> Permutation gps' (map img gps) ->
  (forall g, In g (q :: gps) -> carried_modes nb R pm freq freq' eig eig' g (img g) (u g) (U g)) ->
  NoDup bi -> (forall b, In b bi -> 0 <= b < nb) -> (forall a b, 0 <= a < nb -> 0 <= b < nb -> ~ U q a b =c= c0 -> (In a bi <-> In b bi)) ->
  iso_run_c pi gauss nb freq eig mv cutoff gamma q gps bi N (inl sigma) ->
  iso_run_c pi gauss nb freq' eig' mv cutoff gamma' (img q) gps' bi N (inl sigma) ->
  (Sum (Z.of_nat (length bi)) gamma' == Sum (Z.of_nat (length bi)) gamma)%Q.
Proof.
  intros pi gauss nb R pm pm' freq freq' eig eig' mv cutoff N gps gps' img u U q bi sigma gamma gamma' Hnb HN Hg Ho Hpm Hmv Pg Hcm ND Hr Hcl H H'.
  set (n0 := Z.of_nat (length bi)).
  rewrite (Sum_ext n0 gamma _ (fun i Hi => C89_golden_rule _ _ _ _ _ _ _ _ _ _ _ _ _ i Hnb HN Hi H)), (Sum_ext n0 gamma' _ (fun i Hi => C89_golden_rule _ _ _ _ _ _ _ _ _ _ _ _ _ i Hnb HN Hi H')).
  assert (Hbe : forall i, 0 <= i < n0 -> 0 <= nth (Z.to_nat i) bi 0 < nb) by (intros i Hi; apply Hr, nth_In; unfold n0 in Hi; lia).
  pose proof (Hcm q (or_introl eq_refl)) as Cq.
  apply (golden_carried pi nb R pm pm' freq freq' eig eig' mv cutoff N gps gps' img u U q bi
    (fun i g k => gauss (freq (g * nb + k)%Z - freq (q * nb + nth (Z.to_nat i) bi 0%Z)%Z)%Q sigma) (fun i g k => gauss (freq' (g * nb + k)%Z - freq' (img q * nb + nth (Z.to_nat i) bi 0%Z)%Z)%Q sigma)
    Ho Hpm Hmv Pg Hcm ND Hr Hcl); fold n0.
  - intros i g k Hi Hin Hk. apply Hg. rewrite (cm_freq _ _ _ _ _ _ _ _ _ _ _ Cq _ (Hbe i Hi)), (cm_freq _ _ _ _ _ _ _ _ _ _ _ (Hcm g (or_intror Hin)) k Hk). reflexivity.
  - intros i j g k Hi Hj Hin Hk HU. apply Hg. rewrite (cm_degenerate _ _ _ _ _ _ _ _ _ _ _ Cq _ _ (Hbe i Hi) (Hbe j Hj) HU). reflexivity.
  - intros i g a b Hi Hin Ha Hb HU. apply Hg. rewrite (cm_degenerate _ _ _ _ _ _ _ _ _ _ _ (Hcm g (or_intror Hin)) a b Ha Hb HU). reflexivity.
Qed.
Print Assumptions C90_equivalent_points.

(** tetrahedron method: the same for weights that are carried along and do not tell degenerate bands apart *)
Theorem C90_equivalent_points_tetrahedron : forall pi gauss nb R pm pm' freq freq' eig eig' mv cutoff N gps gps' img u U q bi iw iw' gamma gamma',
  0 <= nb -> 0 < N -> orthogonal3 R ->
  (forall l, 0 <= l < nb / 3 -> 0 <= pm l < nb / 3 /\ 0 <= pm' l < nb / 3 /\ pm' (pm l) = l /\ pm (pm' l) = l) ->
  (forall l, 0 <= l < nb / 3 -> (mv (pm l) == mv l)%Q) -> Permutation gps' (map img gps) ->
  (forall g, In g (q :: gps) -> carried_modes nb R pm freq freq' eig eig' g (img g) (u g) (U g)) ->
  NoDup bi -> (forall b, In b bi -> 0 <= b < nb) -> (forall a b, 0 <= a < nb -> 0 <= b < nb -> ~ U q a b =c= c0 -> (In a bi <-> In b bi)) ->
  let n0 := Z.of_nat (length bi) in let D := fun i g k => iw (g * n0 * nb + i * nb + k) in
  (forall i g k, 0 <= i < n0 -> In g gps -> 0 <= k < nb -> (iw' (img g * n0 * nb + i * nb + k)%Z == D i g k)%Q) ->
  (forall i j g k, 0 <= i < n0 -> 0 <= j < n0 -> In g gps -> 0 <= k < nb -> ~ U q (nth (Z.to_nat i) bi 0) (nth (Z.to_nat j) bi 0) =c= c0 -> (D i g k == D j g k)%Q) ->
  (forall i g a b, 0 <= i < n0 -> In g gps -> 0 <= a < nb -> 0 <= b < nb -> ~ U g a b =c= c0 -> (D i g a == D i g b)%Q) ->
  iso_run_c pi gauss nb freq eig mv cutoff gamma q gps bi N (inr iw) ->
  iso_run_c pi gauss nb freq' eig' mv cutoff gamma' (img q) gps' bi N (inr iw') ->
  (Sum n0 gamma' == Sum n0 gamma)%Q.
Proof.
  intros pi gauss nb R pm pm' freq freq' eig eig' mv cutoff N gps gps' img u U q bi iw iw' gamma gamma' Hnb HN Ho Hpm Hmv Pg Hcm ND Hr Hcl n0 D HD HD1 HD2 H H'.
  rewrite (Sum_ext n0 gamma _ (fun i Hi => C89_golden_rule _ _ _ _ _ _ _ _ _ _ _ _ _ i Hnb HN Hi H)), (Sum_ext n0 gamma' _ (fun i Hi => C89_golden_rule _ _ _ _ _ _ _ _ _ _ _ _ _ i Hnb HN Hi H')).
  exact (golden_carried pi nb R pm pm' freq freq' eig eig' mv cutoff N gps gps' img u U q bi D (fun i g k => iw' (g * n0 * nb + i * nb + k)%Z) Ho Hpm Hmv Pg Hcm ND Hr Hcl HD HD1 HD2).
Qed.
Print Assumptions C90_equivalent_points_tetrahedron.

(** Gaussian smearing: other eigenvectors for the same phonons, that is other phases and other bases of the degenerate spaces, at each grid point independently *)
Theorem C90_eigenvector_choice : forall pi gauss nb freq eig eig' mv cutoff N gps (U : Z -> Z -> Z -> cplx) q bi sigma gamma gamma',
  0 <= nb -> nb mod 3 = 0 -> 0 < N -> value_of gauss ->
  (forall g, In g (q :: gps) -> unitary nb (U g) /\ (forall a b, 0 <= a < nb -> 0 <= b < nb -> ~ U g a b =c= c0 -> (freq (g * nb + a)%Z == freq (g * nb + b)%Z)%Q) /\
     forall x b, 0 <= x < nb -> 0 <= b < nb -> eig' (g * nb * nb + x * nb + b) =c= CSum nb (fun a => cmul (U g a b) (eig (g * nb * nb + x * nb + a)))) ->
  NoDup bi -> (forall b, In b bi -> 0 <= b < nb) -> (forall a b, 0 <= a < nb -> 0 <= b < nb -> ~ U q a b =c= c0 -> (In a bi <-> In b bi)) ->
  iso_run_c pi gauss nb freq eig mv cutoff gamma q gps bi N (inl sigma) ->
  iso_run_c pi gauss nb freq eig' mv cutoff gamma' q gps bi N (inl sigma) ->
  (Sum (Z.of_nat (length bi)) gamma' == Sum (Z.of_nat (length bi)) gamma)%Q.
Proof.
  intros pi gauss nb freq eig eig' mv cutoff N gps U q bi sigma gamma gamma' Hnb H3 HN Hg HU ND Hr Hcl H H'.
  apply (C90_equivalent_points pi gauss nb (fun i j => if i =? j then 1%Q else 0%Q) (fun l => l) (fun l => l) freq freq eig eig' mv cutoff N gps gps (fun g => g) (fun _ _ => c1) U q bi sigma gamma gamma'); try assumption.
  - intros a b Ha Hb. assert (Ea : a = 0 \/ a = 1 \/ a = 2) by lia. assert (Eb : b = 0 \/ b = 1 \/ b = 2) by lia.
    destruct Ea as [-> | [-> | ->]], Eb as [-> | [-> | ->]]; vm_compute; reflexivity.
  - intros l Hl. repeat split; lia.
  - intros; reflexivity.
  - rewrite map_id. apply Permutation_refl.
  - intros g Hin. destruct (HU g Hin) as [H1 [H2 H4]]. constructor; [reflexivity|exact H1|exact H2|intros; vm_compute; reflexivity|].
    intros l m b Hl Hm Hb. unfold polarization at 1. rewrite H4; [| |exact Hb].
    + apply CSum_ext. intros a _. apply cmul_proper; [reflexivity|]. unfold turn1. rewrite CSum3. unfold polarization.
      assert (Em : m = 0 \/ m = 1 \/ m = 2) by lia. destruct Em as [-> | [-> | ->]]; cbn [Z.eqb Pos.eqb]; split; cbn [re im cscale cadd cmul c1]; ring.
    + assert (nb = nb / 3 * 3) by (pose proof (Z.div_mod nb 3); lia). lia.
Qed.
Print Assumptions C90_eigenvector_choice.

(** two grid points exchanged by the reflection x <-> y *)
Definition sw_freq (i : Z) : Q := nth (Z.to_nat i) [1; 1; 2; 1; 1; 2]%Q 0%Q.
Definition sw_eig (i : Z) : cplx := nth (Z.to_nat i) [c1; c0; c0; c0; c1; c0; c0; c0; c1; C 0 (-4#5); C 0 (3#5); c0; C 0 (3#5); C 0 (4#5); c0; c0; c0; C 0 1] c0.
Definition sw_R (i j : Z) : Q := nth (Z.to_nat (i * 3 + j)) [0; 1; 0; 1; 0; 0; 0; 0; 1]%Q 0%Q.
Definition sw_u (g l : Z) : cplx := if g =? 0 then C 0 1 else C 0 (-1).
Definition sw_U (g a b : Z) : cplx := nth (Z.to_nat (if g =? 0 then a * 3 + b else b * 3 + a)) [C (3#5) 0; C (4#5) 0; c0; C (-4#5) 0; C (3#5) 0; c0; c0; c0; c1] c0.
Ltac three x := let E := fresh in assert (E : x = 0 \/ x = 1 \/ x = 2) by lia; destruct E as [-> | [-> | ->]].
Lemma sw_carried : forall g, In g [0; 0; 1] -> carried_modes 3 sw_R (fun l => l) sw_freq sw_freq sw_eig sw_eig g (1 - g) (sw_u g) (sw_U g).
Proof.
  intros g Hg. assert (E : g = 0 \/ g = 1) by (cbn in Hg; lia). clear Hg. destruct E as [-> | ->]; constructor; unfold unitary; intros;
  repeat match goal with H : 0 <= ?x < 3 |- _ => three x; clear H end; try (assert (l = 0) as -> by (cbn in *; lia)); try (vm_compute; split; reflexivity); try (vm_compute; reflexivity);
  exfalso; match goal with H : ~ _ |- _ => apply H; vm_compute; split; reflexivity end.
Qed.
Example C90_ex : exists gamma gamma', iso_run_c 3 lorentz 3 sw_freq sw_eig (fun _ => 1%Q) 0 gamma 0 [0; 1] [0; 1] 2 (inl 1%Q) /\
  iso_run_c 3 lorentz 3 sw_freq sw_eig (fun _ => 1%Q) 0 gamma' 1 [0; 1] [0; 1] 2 (inl 1%Q) /\ (Sum 2 gamma' == Sum 2 gamma)%Q /\ ~ (gamma 0%Z == 0)%Q.
Proof.
  destruct (run_c_exists 3 lorentz 3 sw_freq sw_eig (fun _ => 1%Q) 0 0 [0; 1] [0; 1] 2 (inl 1%Q)) as [gamma H].
  destruct (run_c_exists 3 lorentz 3 sw_freq sw_eig (fun _ => 1%Q) 0 1 [0; 1] [0; 1] 2 (inl 1%Q)) as [gamma' H']. exists gamma, gamma'.
  split; [exact H|]. split; [exact H'|]. split.
  - apply (C90_equivalent_points 3 lorentz 3 sw_R (fun l => l) (fun l => l) sw_freq sw_freq sw_eig sw_eig (fun _ => 1%Q) 0 2 [0; 1] [0; 1] (fun g => 1 - g) sw_u sw_U 0 [0; 1] 1%Q); try assumption; try lia.
    + intros x y s E. unfold lorentz. rewrite E. reflexivity.
    + intros a b Ha Hb. three a; three b; vm_compute; reflexivity.
    + intros l Hl. repeat split; lia.
    + change (map (fun g : Z => 1 - g) [0; 1]) with [1; 0]. apply perm_swap.
    + exact sw_carried.
    + repeat constructor; cbn; intuition lia.
    + intros b Hb. cbn in Hb. lia.
    + intros a b Ha Hb HU. cbn [In]. three a; three b; try tauto; exfalso; apply HU; vm_compute; split; reflexivity.
  - assert (L : 0 <= 0 < Z.of_nat (length [0; 1])) by (cbn; lia). assert (P1 : 0 <= 3) by lia. assert (P2 : 0 < 2) by lia.
    rewrite (C89_golden_rule _ _ _ _ _ _ _ _ _ _ _ _ _ 0 P1 P2 L H). intros K. vm_compute in K. discriminate.
Qed.

(** the same two points by the tetrahedron method; the weights depend on the frequency only *)
Definition sw_iw (x : Z) : Q := if x mod 3 =? 2 then 1 # 7 else 2 # 7.
Example C90_tetrahedron_ex : exists gamma gamma', iso_run_c 3 lorentz 3 sw_freq sw_eig (fun _ => 1%Q) 0 gamma 0 [0; 1] [0; 1] 2 (inr sw_iw) /\
  iso_run_c 3 lorentz 3 sw_freq sw_eig (fun _ => 1%Q) 0 gamma' 1 [0; 1] [0; 1] 2 (inr sw_iw) /\ (Sum 2 gamma' == Sum 2 gamma)%Q /\ ~ (gamma 0%Z == 0)%Q.
Proof.
  destruct (run_c_exists 3 lorentz 3 sw_freq sw_eig (fun _ => 1%Q) 0 0 [0; 1] [0; 1] 2 (inr sw_iw)) as [gamma H].
  destruct (run_c_exists 3 lorentz 3 sw_freq sw_eig (fun _ => 1%Q) 0 1 [0; 1] [0; 1] 2 (inr sw_iw)) as [gamma' H']. exists gamma, gamma'.
  split; [exact H|]. split; [exact H'|]. split.
  - apply (C90_equivalent_points_tetrahedron 3 lorentz 3 sw_R (fun l => l) (fun l => l) sw_freq sw_freq sw_eig sw_eig (fun _ => 1%Q) 0 2 [0; 1] [0; 1] (fun g => 1 - g) sw_u sw_U 0 [0; 1] sw_iw sw_iw); try assumption; try lia.
    + intros a b Ha Hb. three a; three b; vm_compute; reflexivity.
    + intros l Hl. repeat split; lia.
    + change (map (fun g : Z => 1 - g) [0; 1]) with [1; 0]. apply perm_swap.
    + exact sw_carried.
    + repeat constructor; cbn; intuition lia.
    + intros b Hb. cbn in Hb. lia.
    + intros a b Ha Hb HU. cbn [In]. three a; three b; try tauto; exfalso; apply HU; vm_compute; split; reflexivity.
    + intros i g k Hi Hg Hk. cbn in Hi, Hg. assert (i = 0 \/ i = 1) as [-> | ->] by lia; assert (g = 0 \/ g = 1) as [-> | ->] by lia; three k; vm_compute; reflexivity.
    + intros i j g k Hi Hj Hg Hk _. cbn in Hi, Hj, Hg. assert (i = 0 \/ i = 1) as [-> | ->] by lia; assert (j = 0 \/ j = 1) as [-> | ->] by lia; assert (g = 0 \/ g = 1) as [-> | ->] by lia; three k; vm_compute; reflexivity.
    + intros i g a b Hi Hg Ha Hb HU. cbn in Hi, Hg. assert (i = 0 \/ i = 1) as [-> | ->] by lia; assert (g = 0 \/ g = 1) as [-> | ->] by lia; three a; three b; try (vm_compute; reflexivity); exfalso; apply HU; vm_compute; split; reflexivity.
  - assert (L : 0 <= 0 < Z.of_nat (length [0; 1])) by (cbn; lia). assert (P1 : 0 <= 3) by lia. assert (P2 : 0 < 2) by lia.
    rewrite (C89_golden_rule _ _ _ _ _ _ _ _ _ _ _ _ _ 0 P1 P2 L H). intros K. vm_compute in K. discriminate.
Qed.
(** other eigenvectors at the two points: degenerate modes turned at point 0, phases changed at point 1 *)
Definition ch_U (g a b : Z) : cplx := if g =? 0 then sw_U 0 a b else if a =? b then C 0 (-1) else c0.
Definition ch_eig (i : Z) : cplx := CSum 3 (fun a => cmul (ch_U (i / 9) a (i mod 3)) (sw_eig (i / 3 * 3 + a))).
Example C90_choice_ex : exists gamma gamma', iso_run_c 3 lorentz 3 sw_freq sw_eig (fun _ => 1%Q) 0 gamma 0 [0; 1] [0; 1] 2 (inl 1%Q) /\
  iso_run_c 3 lorentz 3 sw_freq ch_eig (fun _ => 1%Q) 0 gamma' 0 [0; 1] [0; 1] 2 (inl 1%Q) /\ (Sum 2 gamma' == Sum 2 gamma)%Q /\ ~ (gamma 0%Z == 0)%Q /\ ~ ch_eig 0 =c= sw_eig 0.
Proof.
  destruct (run_c_exists 3 lorentz 3 sw_freq sw_eig (fun _ => 1%Q) 0 0 [0; 1] [0; 1] 2 (inl 1%Q)) as [gamma H].
  destruct (run_c_exists 3 lorentz 3 sw_freq ch_eig (fun _ => 1%Q) 0 0 [0; 1] [0; 1] 2 (inl 1%Q)) as [gamma' H']. exists gamma, gamma'.
  split; [exact H|]. split; [exact H'|]. split; [|split].
  - apply (C90_eigenvector_choice 3 lorentz 3 sw_freq sw_eig ch_eig (fun _ => 1%Q) 0 2 [0; 1] ch_U 0 [0; 1] 1%Q); try assumption; try lia; try reflexivity.
    + intros x y s E. unfold lorentz. rewrite E. reflexivity.
    + intros g Hg. cbn in Hg. assert (E : g = 0 \/ g = 1) by lia. clear Hg.
      destruct E as [-> | ->]; (split; [|split]); unfold unitary; intros; repeat match goal with H : 0 <= ?x < 3 |- _ => three x; clear H end; try (vm_compute; split; reflexivity); try (vm_compute; reflexivity);
      exfalso; match goal with H : ~ _ |- _ => apply H; vm_compute; split; reflexivity end.
    + repeat constructor; cbn; intuition lia.
    + intros b Hb. cbn in Hb. lia.
    + intros a b Ha Hb HU. cbn [In]. three a; three b; try tauto; exfalso; apply HU; vm_compute; split; reflexivity.
  - assert (L : 0 <= 0 < Z.of_nat (length [0; 1])) by (cbn; lia). assert (P1 : 0 <= 3) by lia. assert (P2 : 0 < 2) by lia.
    rewrite (C89_golden_rule _ _ _ _ _ _ _ _ _ _ _ _ _ 0 P1 P2 L H). intros K. vm_compute in K. discriminate.
  - intros [K _]. vm_compute in K. discriminate.
Qed.
