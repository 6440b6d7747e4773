From Coq Require Import ZArith QArith List Bool Lia Lqa Permutation String.
From Verif Require Import Base BaseProofs QMat Fc3Model Fc3Transpose Fc3Trans IseModel IseSpec IseProofs AvgModel.
Import List ListNotations.
Open Scope Z_scope.

Lemma zin_in : forall x l, zin x l = true <-> In x l.
Proof.
  intros x l. unfold zin. rewrite existsb_exists. split.
  - intros [y [H E]]. apply Z.eqb_eq in E. now subst.
  - intros H. exists x. split; [exact H|apply Z.eqb_refl].
Qed.

(** ** C34: sets of degenerate bands. Every band is in exactly one of the sets. *)
Definition partition (sets : list (list Z)) (bands : list Z) : Prop :=
  NoDup sets /\ (forall b, In b bands -> exists s, In s sets /\ In b s) /\
  (forall b s s', In b bands -> In s sets -> In s' sets -> In b s -> In b s' -> s = s').
(** members of a set, by position *)
Definition members (bands s : list Z) : list Z := filter (fun i => zin (nth (Z.to_nat i) bands (-1)) s) (zrange (Z.of_nat (length bands))).

Lemma fold_upd_const : forall (V : Type) (v : V) l (B : Z -> V) i, fold_left (fun B j => upd B j v) l B i = if zin i l then v else B i.
Proof.
  intros V v. induction l as [|x l IH]; intros B i; [reflexivity|]. cbn [fold_left]. rewrite IH. unfold zin. cbn [existsb]. unfold upd.
  destruct (i =? x) eqn:E; cbn [orb]; [destruct (existsb (Z.eqb i) l); reflexivity|reflexivity].
Qed.
Lemma in_bi_set : forall bands s i, In i (bi_set bands s) <-> 0 <= i < Z.of_nat (length bands) /\ In (nth (Z.to_nat i) bands (-1)) s.
Proof. intros. unfold bi_set. rewrite filter_In, in_zrange, zin_in. reflexivity. Qed.

Lemma average_value : forall R sets bands (A : Z -> R -> Q) s i r, partition sets bands -> In s sets -> In i (bi_set bands s) ->
  average_by_degeneracy sets bands A i r = mean_of A (bi_set bands s) r.
Proof.
  intros R sets bands A s i r [N [C D]] Hs Hi. unfold average_by_degeneracy.
  assert (G : forall l B, (forall s', In s' l -> In s' sets) -> NoDup l -> In s l ->
    fold_left (fun se dset => let idx := bi_set bands dset in fold_left (fun se i => upd se i (mean_of A idx)) idx se) l B i = mean_of A (bi_set bands s)).
  { assert (Hb : In (nth (Z.to_nat i) bands (-1)) bands) by (apply in_bi_set in Hi; apply nth_In; lia).
    assert (St : forall s' B, In s' sets -> s' <> s -> fold_left (fun se i => upd se i (mean_of A (bi_set bands s'))) (bi_set bands s') B i = B i).
    { intros s' B Hs' Hn. rewrite fold_upd_const. destruct (zin i (bi_set bands s')) eqn:E; [|reflexivity].
      exfalso. apply Hn. apply zin_in, in_bi_set in E. apply in_bi_set in Hi. apply (D (nth (Z.to_nat i) bands (-1))); tauto. }
    assert (G1 : forall l B, (forall s', In s' l -> In s' sets) -> ~ In s l ->
      fold_left (fun se dset => let idx := bi_set bands dset in fold_left (fun se i => upd se i (mean_of A idx)) idx se) l B i = B i).
    { induction l as [|s' l IH]; intros B H1 H2; [reflexivity|]. cbn [fold_left]. cbv zeta. rewrite IH; [|intros; apply H1; now right|intros H; apply H2; now right].
      apply St; [apply H1; now left|]. intros ->. apply H2. now left. }
    induction l as [|s' l IH]; intros B H1 H2 H3; [contradiction|]. cbn [fold_left]. cbv zeta. inversion_clear H2 as [|? ? H4 H5].
    destruct H3 as [->|H3].
    - rewrite G1; [|intros; apply H1; now right|exact H4]. rewrite fold_upd_const. apply zin_in in Hi. rewrite Hi. reflexivity.
    - apply IH; auto. intros; apply H1; now right. }
  rewrite (G sets _ (fun s' H => H) N Hs). reflexivity.
Qed.
Lemma len_nz : forall X (l : list X), l <> [] -> ~ Qeq (inject_Z (Z.of_nat (length l))) 0.
Proof. intros X l Hl E. destruct l as [|x l]; [congruence|]. unfold Qeq in E. cbn [inject_Z Qnum Qden] in E. cbn [List.length] in E. lia. Qed.
Lemma mean_const : forall R (A : Z -> R -> Q) l r v, l <> [] -> (forall j, In j l -> Qeq (A j r) v) -> Qeq (mean_of A l r) v.
Proof.
  intros R A l r v Hl H. unfold mean_of. rewrite (qs_ext _ (fun j => A j r) (fun _ => v)) by auto. rewrite qs_const. field.
  apply len_nz. exact Hl.
Qed.
Lemma sum_of_const_mean : forall R (A B : Z -> R -> Q) l r, l <> [] -> (forall j, In j l -> Qeq (B j r) (mean_of A l r)) ->
  Qeq (qsum (map (fun j => B j r) l)) (qsum (map (fun j => A j r) l)).
Proof.
  intros R A B l r Hl H. rewrite (qs_ext _ (fun j => B j r) (fun _ => mean_of A l r)) by auto. rewrite qs_const. unfold mean_of. field.
  apply len_nz. exact Hl.
Qed.

Lemma qs_part : forall l (p : Z -> bool) (f : Z -> Q), Qeq (qsum (map f l)) (qsum (map f (filter p l)) + qsum (map f (filter (fun x => negb (p x)) l))).
Proof. induction l as [|x l IH]; intros p f; [reflexivity|]. cbn [filter map]. rewrite qs_cons, (IH p f). destruct (p x); cbn [negb map]; rewrite qs_cons; lra. Qed.
Lemma qs_sets : forall (sets : list (list Z)) bands (f : Z -> Q) l, NoDup sets -> (forall i, In i l -> 0 <= i < Z.of_nat (length bands)) ->
  (forall i, In i l -> exists s, In s sets /\ In (nth (Z.to_nat i) bands (-1)) s) ->
  (forall i s s', In i l -> In s sets -> In s' sets -> In (nth (Z.to_nat i) bands (-1)) s -> In (nth (Z.to_nat i) bands (-1)) s' -> s = s') ->
  Qeq (qsum (map f l)) (qsum (map (fun s => qsum (map f (filter (fun i => zin (nth (Z.to_nat i) bands (-1)) s) l))) sets)).
Proof.
  induction sets as [|s sets IH]; intros bands f l N Hr C D.
  - destruct l as [|x l]; [reflexivity|]. destruct (C x (or_introl eq_refl)) as [? [[] _]].
  - cbn [map]. rewrite qs_cons. rewrite (qs_part l (fun i => zin (nth (Z.to_nat i) bands (-1)) s) f). apply Qplus_comp; [reflexivity|].
    inversion_clear N as [|? ? N1 N2]. set (l' := filter (fun x => negb (zin (nth (Z.to_nat x) bands (-1)) s)) l).
    assert (Hl' : forall i, In i l' <-> In i l /\ ~ In (nth (Z.to_nat i) bands (-1)) s).
    { intros i. unfold l'. rewrite filter_In, negb_true_iff, <- (zin_in (nth (Z.to_nat i) bands (-1)) s). destruct (zin (nth (Z.to_nat i) bands (-1)) s); intuition congruence. }
    rewrite (IH bands f l'); auto.
    + apply qs_ext. intros s' Hs'.
      assert (filter (fun i => zin (nth (Z.to_nat i) bands (-1)) s') l' = filter (fun i => zin (nth (Z.to_nat i) bands (-1)) s') l) as ->; [|reflexivity].
      assert (G : forall m, (forall i, In i m -> In i l) -> filter (fun i => zin (nth (Z.to_nat i) bands (-1)) s') (filter (fun x => negb (zin (nth (Z.to_nat x) bands (-1)) s)) m)
        = filter (fun i => zin (nth (Z.to_nat i) bands (-1)) s') m); [|apply (G l (fun i h => h))].
      induction m as [|i m IHm]; intros Hm; [reflexivity|]. cbn [filter]. destruct (zin (nth (Z.to_nat i) bands (-1)) s) eqn:E; cbn [negb].
      * rewrite IHm by (intros; apply Hm; now right). destruct (zin (nth (Z.to_nat i) bands (-1)) s') eqn:E'; [|reflexivity].
        exfalso. apply zin_in in E, E'. apply N1. rewrite (D i s s'); auto; [apply Hm; now left|now left|now right].
      * cbn [filter]. rewrite IHm by (intros; apply Hm; now right). reflexivity.
    + intros i Hi. apply Hl' in Hi. apply Hr; tauto.
    + intros i Hi. apply Hl' in Hi. destruct (C i (proj1 Hi)) as [s' [[<-|H1] H2]]; [tauto|eauto].
    + intros i s1 s2 Hi H1 H2. apply Hl' in Hi. apply D; [tauto|now right|now right].
Qed.

(** Values become constant on each set, the sum over each set and over all bands is kept, bands alone in
    their set keep their value, averaging twice is averaging once. *)
Theorem C34_average : forall R sets bands (A : Z -> R -> Q) r, partition sets bands ->
  let n := Z.of_nat (length bands) in let B := average_by_degeneracy sets bands A in
  (forall s i j, In s sets -> In i (members bands s) -> In j (members bands s) -> B i r = B j r) /\
  (forall s, In s sets -> Qeq (qsum (map (fun i => B i r) (members bands s))) (qsum (map (fun i => A i r) (members bands s)))) /\
  Qeq (Sum n (fun i => B i r)) (Sum n (fun i => A i r)) /\
  (forall s i, In s sets -> members bands s = [i] -> Qeq (B i r) (A i r)) /\
  (forall i, 0 <= i < n -> Qeq (average_by_degeneracy sets bands B i r) (B i r)).
Proof.
  intros R sets bands A r P n B. pose proof P as [N [C D]]. change members with bi_set.
  assert (Cn : forall s i, In s sets -> In i (bi_set bands s) -> B i r = mean_of A (bi_set bands s) r) by (intros s i Hs Hi; apply average_value; auto).
  assert (Sm : forall s, In s sets -> Qeq (qsum (map (fun i => B i r) (bi_set bands s))) (qsum (map (fun i => A i r) (bi_set bands s)))).
  { intros s Hs. assert (bi_set bands s = [] \/ bi_set bands s <> []) as [->|Hn] by (destruct (bi_set bands s); [now left|right; discriminate]); [reflexivity|].
    apply sum_of_const_mean; auto. intros j Hj. rewrite (Cn s j Hs Hj). reflexivity. }
  assert (Ex : forall i, 0 <= i < n -> exists s, In s sets /\ In i (bi_set bands s)).
  { intros i Hi. destruct (C (nth (Z.to_nat i) bands (-1))) as [s [H1 H2]]; [apply nth_In; unfold n in Hi; lia|]. exists s. split; [exact H1|]. apply in_bi_set. split; [exact Hi|exact H2]. }
  split; [intros s i j Hs Hi Hj; rewrite (Cn s i), (Cn s j) by auto; reflexivity|].
  split; [exact Sm|]. split; [|split].
  - unfold Sum. assert (Hn : forall i, In i (zrange n) -> In (nth (Z.to_nat i) bands (-1)) bands).
    { intros i Hi. apply in_zrange in Hi. apply nth_In. unfold n in Hi. lia. }
    rewrite (qs_sets sets bands (fun i => B i r) (zrange n)), (qs_sets sets bands (fun i => A i r) (zrange n)); auto.
    + apply qs_ext. intros s Hs. apply (Sm s Hs).
    + intros i Hi. now apply in_zrange.
    + intros i s s' Hi. apply D. auto.
    + intros i Hi. now apply in_zrange.
    + intros i s s' Hi. apply D. auto.
  - intros s i Hs E. rewrite (Cn s i Hs) by (rewrite E; now left). rewrite E. apply mean_const; [discriminate|]. intros j [<-|[]]. reflexivity.
  - intros i Hi. destruct (Ex i Hi) as [s [Hs Hin]]. rewrite (average_value _ sets bands B s i r P Hs Hin).
    apply mean_const; [intros E; rewrite E in Hin; exact Hin|]. intros j Hj. rewrite (Cn s j Hs Hj), (Cn s i Hs Hin). reflexivity.
Qed.
Print Assumptions C34_average.
(** Bands 1, 2, 4 of which 1 and 2 are degenerate (with 0, not calculated). *)
Example C34_ex : partition [[0; 1; 2]; [3]; [4; 5]] [1; 2; 4] /\
  map (fun i => Qred (average_by_degeneracy [[0; 1; 2]; [3]; [4; 5]] [1; 2; 4] (fun i (_ : unit) => inject_Z (i * i + 1)) i tt)) (zrange 3) = [3 # 2; 3 # 2; 5 # 1]%Q.
Proof.
  split; [|vm_compute; reflexivity]. split; [|split].
  - repeat constructor; cbn; intuition congruence.
  - intros b Hb. cbn in Hb. destruct Hb as [<-|[<-|[<-|[]]]]; [exists [0; 1; 2]|exists [0; 1; 2]|exists [4; 5]]; cbn; intuition lia.
  - intros b s s' Hb Hs Hs' H1 H2. cbn in Hs, Hs'. intuition (subst; cbn in *; try reflexivity; intuition lia).
Qed.

(** Collision matrix: averaging in place along one pair of axes. *)
Definition in_set (nb : Z) (s : list Z) : list Z := filter (fun j => zin j s) (zrange nb).
Definition row_step {R} (nb : Z) (B : Z -> R -> Q) (dset : list Z) : Z -> R -> Q :=
  fold_left (fun C j => upd C j (mean_of B (in_set nb dset))) (in_set nb dset) B.
Lemma in_in_set : forall nb s j, In j (in_set nb s) <-> 0 <= j < nb /\ In j s.
Proof. intros. unfold in_set. rewrite filter_In, in_zrange, zin_in. reflexivity. Qed.
Lemma mean_ext : forall R (A B : Z -> R -> Q) l r, (forall j, In j l -> A j = B j) -> mean_of A l r = mean_of B l r.
Proof. intros R A B l r H. unfold mean_of. f_equal. f_equal. apply map_ext_in. intros j Hj. now rewrite H. Qed.
Lemma rows_other : forall R nb sets (B : Z -> R -> Q) j, (forall s, In s sets -> ~ In j (in_set nb s)) -> fold_left (row_step nb) sets B j = B j.
Proof.
  intros R nb. induction sets as [|s sets IH]; intros B j H; [reflexivity|]. cbn [fold_left]. rewrite IH by (intros; apply H; now right).
  unfold row_step. rewrite fold_upd_const. destruct (zin j (in_set nb s)) eqn:E; [|reflexivity]. exfalso. apply zin_in in E. apply (H s); [now left|exact E].
Qed.
Lemma rows_value : forall R nb sets (B : Z -> R -> Q) s j r, NoDup sets ->
  (forall b s s', 0 <= b < nb -> In s sets -> In s' sets -> In b s -> In b s' -> s = s') -> In s sets -> In j (in_set nb s) ->
  fold_left (row_step nb) sets B j r = mean_of B (in_set nb s) r.
Proof.
  intros R nb. induction sets as [|s0 sets IH]; intros B s j r N D Hs Hj; [contradiction|]. cbn [fold_left]. inversion_clear N as [|? ? N1 N2].
  assert (Dj : forall s' b, In s' sets -> In b (in_set nb s0) -> ~ In b (in_set nb s')).
  { intros s' b Hs' H1 H2. apply in_in_set in H1, H2. apply N1. rewrite (D b s0 s'); [exact Hs'|tauto|now left|now right|tauto|tauto]. }
  destruct Hs as [->|Hs].
  - rewrite rows_other by (intros s' Hs'; now apply Dj). unfold row_step. rewrite fold_upd_const. apply zin_in in Hj. rewrite Hj. reflexivity.
  - rewrite (IH _ s); auto; [|intros b s1 s2 Hb H1 H2; apply (D b s1 s2 Hb); now right].
    apply mean_ext. intros b Hb. unfold row_step. rewrite fold_upd_const. destruct (zin b (in_set nb s0)) eqn:E; [|reflexivity].
    exfalso. apply zin_in in E. apply (Dj s b); auto.
Qed.
Lemma axis_point : forall R nb x sets (A : Z -> Z -> R -> Q) y,
  fold_left (fun A dset => upd A x (row_step nb (A x) dset)) sets A y = if y =? x then fold_left (row_step nb) sets (A x) else A y.
Proof.
  intros R nb x. induction sets as [|s sets IH]; intros A y; cbn [fold_left]; [destruct (Z.eqb_spec y x) as [->|]; reflexivity|].
  rewrite IH. rewrite upd_same. unfold upd. destruct (Z.eqb_spec y x); reflexivity.
Qed.
Lemma axis_value : forall R nb pts (A : Z -> Z -> R -> Q) y, NoDup (map fst pts) ->
  average_axis nb pts A y = match find (fun p => y =? fst p) pts with Some p => fold_left (row_step nb) (snd p) (A y) | None => A y end.
Proof.
  intros R nb. unfold average_axis. induction pts as [|p pts IH]; intros A y N; [reflexivity|]. cbn [fold_left find map] in *. inversion_clear N as [|? ? N1 N2].
  rewrite IH by exact N2.
  pose proof (axis_point R nb (fst p) (snd p) A y) as E.
  destruct (Z.eqb_spec y (fst p)) as [Ey|Ey].
  - destruct (find (fun p0 => y =? fst p0) pts) as [q|] eqn:F; [|etransitivity; [exact E|rewrite Ey; reflexivity]].
    exfalso. apply find_some in F. destruct F as [F1 F2]. apply Z.eqb_eq in F2. apply N1. rewrite <- Ey, F2. apply in_map, F1.
  - destruct (find (fun p0 => y =? fst p0) pts) as [q|]; [apply (f_equal (fold_left (row_step nb) (snd q)))|]; exact E.
Qed.
Lemma axis_mean : forall R nb pts (A : Z -> Z -> R -> Q) y sets s j r, NoDup (map fst pts) -> In (y, sets) pts -> partition sets (zrange nb) -> In s sets -> In j (in_set nb s) ->
  average_axis nb pts A y j r = mean_of (A y) (in_set nb s) r.
Proof.
  intros R nb pts A y sets s j r N Hp [P1 [P2 P3]] Hs Hj. rewrite axis_value by exact N.
  assert (F : find (fun p => y =? fst p) pts = Some (y, sets)).
  { revert N Hp. clear. induction pts as [|p pts IH]; intros N H; [contradiction|]. cbn [find map] in *. inversion_clear N as [|? ? N1 N2]. destruct H as [->|H].
    - cbn [fst]. rewrite Z.eqb_refl. reflexivity.
    - destruct (Z.eqb_spec y (fst p)) as [E|E]; [|apply IH; auto]. exfalso. apply N1. rewrite <- E. apply (in_map fst _ _ H). }
  rewrite F. cbn [snd]. apply rows_value; auto. intros b s1 s2 Hb. apply P3. now apply in_zrange.
Qed.
Lemma axis_kept : forall R nb pts (A : Z -> Z -> R -> Q) y, NoDup (map fst pts) -> ~ In y (map fst pts) -> average_axis nb pts A y = A y.
Proof.
  intros R nb pts A y N H. rewrite axis_value by exact N. destruct (find (fun p => y =? fst p) pts) as [p|] eqn:F; [|reflexivity].
  exfalso. apply find_some in F. destruct F as [F1 F2]. apply Z.eqb_eq in F2. apply H. rewrite F2. apply in_map, F1.
Qed.
(** The mean over two sets of bands. *)
Definition mean2 (l l' : list Z) (f : Z -> Z -> Q) : Q :=
  (qsum (map (fun x => qsum (map (f x) l')) l) / (inject_Z (Z.of_nat (length l)) * inject_Z (Z.of_nat (length l'))))%Q.
Lemma mean2_swap : forall l l' f, Qeq (mean2 l l' f) (mean2 l' l (fun y x => f x y)).
Proof. intros l l' f. unfold mean2. rewrite qs_swap, (Qmult_comm (inject_Z _)). reflexivity. Qed.
Lemma mean_mean : forall l l' (f : Z -> Z -> Q), l <> [] -> l' <> [] ->
  Qeq (mean_of (fun y (_ : unit) => mean_of (fun x (_ : unit) => f x y) l tt) l' tt) (mean2 l l' f).
Proof.
  intros l l' f Hl Hl'. unfold mean_of, mean2.
  rewrite (qs_ext _ (fun j => qsum (map (fun x => f x j) l) / inject_Z (Z.of_nat (length l)))%Q (fun j => (/ inject_Z (Z.of_nat (length l))) * qsum (map (fun x => f x j) l))%Q)
    by (intros; unfold Qdiv; apply Qmult_comm).
  rewrite qs_scale. rewrite (qs_swap _ _ f). field. split; apply len_nz; auto.
Qed.

(** Symmetry-reduced collision matrix: each element becomes the mean over the block of degenerate bands
    of its row and its column, and a symmetric matrix stays symmetric. *)
Theorem C34_collision_blocks : forall nb nir sets m, (forall i, 0 <= i < nir -> partition (sets i) (zrange nb)) ->
  let m' := average_irreducible nb (map (fun i => (i, sets i)) (zrange nir)) m in
  (forall i j a k l b s s', 0 <= i < nir -> 0 <= k < nir -> In s (sets i) -> In s' (sets k) -> In j (in_set nb s) -> In l (in_set nb s') ->
    Qeq (m' i j a k l b) (mean2 (in_set nb s) (in_set nb s') (fun j' l' => m i j' a k l' b))) /\
  ((forall i j a k l b, Qeq (m i j a k l b) (m k l b i j a)) ->
    forall i j a k l b, 0 <= i < nir -> 0 <= j < nb -> 0 <= k < nir -> 0 <= l < nb -> Qeq (m' i j a k l b) (m' k l b i j a)).
Proof.
  intros nb nir sets m P m'. set (pts := map (fun i => (i, sets i)) (zrange nir)) in *.
  assert (N : NoDup (map fst pts)) by (unfold pts; rewrite map_map; cbn [fst]; rewrite map_id; apply NoDup_zrange).
  assert (Ip : forall i, 0 <= i < nir -> In (i, sets i) pts) by (intros i Hi; unfold pts; apply in_map_iff; exists i; split; [reflexivity|now apply in_zrange]).
  assert (V : forall i j a k l b s s', 0 <= i < nir -> 0 <= k < nir -> In s (sets i) -> In s' (sets k) -> In j (in_set nb s) -> In l (in_set nb s') ->
    Qeq (m' i j a k l b) (mean2 (in_set nb s) (in_set nb s') (fun j' l' => m i j' a k l' b))).
  { intros i j a k l b s s' Hi Hk Hs Hs' Hj Hl. unfold m', average_irreducible.
    rewrite (axis_mean _ nb pts _ k (sets k) s' l) by (auto; apply P; auto).
    rewrite <- mean_mean; [|intros E; rewrite E in Hj; exact Hj|intros E; rewrite E in Hl; exact Hl].
    unfold mean_of at 1 2. apply Qmult_comp; [|reflexivity]. apply qs_ext. intros l' Hl'. cbv beta iota.
    rewrite (axis_mean _ nb pts _ i (sets i) s j) by (auto; apply P; auto). reflexivity. }
  split; [exact V|]. intros Sy i j a k l b Hi Hj Hk Hl.
  assert (Ex : forall i j, 0 <= i < nir -> 0 <= j < nb -> exists s, In s (sets i) /\ In j (in_set nb s)).
  { intros i' j' Hi' Hj'. destruct (P i' Hi') as [_ [C _]]. destruct (C j') as [s [H1 H2]]; [now apply in_zrange|]. exists s. split; [exact H1|]. apply in_in_set. auto. }
  destruct (Ex i j Hi Hj) as [s [Hs Hjs]]. destruct (Ex k l Hk Hl) as [s' [Hs' Hls]].
  rewrite (V i j a k l b s s') by auto. rewrite (V k l b i j a s' s) by auto. rewrite mean2_swap.
  unfold mean2. apply Qmult_comp; [|reflexivity]. apply qs_ext. intros y Hy. apply qs_ext. intros x Hx. apply Sy.
Qed.
Print Assumptions C34_collision_blocks.
Example C34_collision_ex : partition [[0; 1]; [2]] (zrange 3) /\
  (let m' := average_irreducible 3 [(0, [[0; 1]; [2]])] (fun i j a k l b => inject_Z ((j + 1) * (l + 1))) in
   map (fun j => map (fun l => Qred (m' 0 j 0 0 l 0)) (zrange 3)) (zrange 3)) = [[9#4; 9#4; 9#2]; [9#4; 9#4; 9#2]; [9#2; 9#2; 9#1]]%Q.
Proof.
  split; [|vm_compute; reflexivity]. split; [|split].
  - repeat constructor; cbn; intuition congruence.
  - intros b Hb. cbn in Hb. destruct Hb as [<-|[<-|[<-|[]]]]; [exists [0; 1]|exists [0; 1]|exists [2]]; cbn; intuition lia.
  - intros b s s' Hb Hs Hs' H1 H2. cbn in Hs, Hs'. intuition (subst; cbn in *; try reflexivity; intuition lia).
Qed.
(** Full matrix on all grid points: at rows and columns of irreducible grid points the same. *)
Theorem C34_reducible_blocks_partial : forall nb pts m, NoDup (map fst pts) -> (forall x sets, In (x, sets) pts -> partition sets (zrange nb)) ->
  let m' := average_reducible nb pts m in
  forall i si j k sk l s s', In (i, si) pts -> In (k, sk) pts -> In s si -> In s' sk -> In j (in_set nb s) -> In l (in_set nb s') ->
    Qeq (m' i j k l) (mean2 (in_set nb s) (in_set nb s') (fun j' l' => m i j' k l')).
Proof.
  intros nb pts m N P m' i si j k sk l s s' Hi Hk Hs Hs' Hj Hl. unfold m', average_reducible.
  rewrite (axis_mean _ nb pts _ k sk s' l) by (auto; eapply P; eauto).
  rewrite <- mean_mean; [|intros E; rewrite E in Hj; exact Hj|intros E; rewrite E in Hl; exact Hl].
  unfold mean_of at 1 2. apply Qmult_comp; [|reflexivity]. apply qs_ext. intros l' Hl'. cbv beta iota. cbn [fst snd].
  rewrite (axis_mean _ nb pts _ i si s j) by (auto; eapply P; eauto). reflexivity.
Qed.
Print Assumptions C34_reducible_blocks_partial.
(** At the columns of the other grid points nothing is averaged: two grid points with two degenerate bands
    each, only point 0 is irreducible, elements of the row of point 0 and columns of point 1 keep
    different values for the two bands. *)
Theorem C34_reducible_columns_refuted : exists m sets, partition sets (zrange 2) /\
  In [0; 1] sets /\
  let m' := average_reducible 2 [(0, sets)] m in ~ Qeq (m' 0 0 1 0) (m' 0 0 1 1).
Proof.
  exists (fun i j k l => if (k =? 1) && (l =? 0) then 1%Q else 0%Q), [[0; 1]]. split; [|split].
  - split; [repeat constructor; cbn; tauto|split].
    + intros b Hb. exists [0; 1]. cbn in Hb. split; [now left|cbn; tauto].
    + intros b s s' _ H1 H2. cbn in H1, H2. intuition congruence.
  - now left.
  - vm_compute. discriminate.
Qed.

(** ** C35: batches of frequency points *)
Lemma zrange_app : forall a b, 0 <= a -> 0 <= b -> zrange a ++ zseq a (a + b) = zrange (a + b).
Proof.
  intros a b Ha Hb. unfold zseq. replace (a + b - a) with b by ring. pattern b. apply natlike_ind; [| |exact Hb].
  - cbn [map]. rewrite Z.add_0_r. change (zrange 0) with (@nil Z). cbn [map]. apply app_nil_r.
  - intros x Hx IH. unfold Z.succ. rewrite zrange_succ by auto. rewrite map_app, app_assoc, IH. cbn [map]. rewrite Z.add_assoc, zrange_succ by lia. reflexivity.
Qed.
Theorem C35_batches_cover_once : forall tot nelems, let n := match nelems with None => 10 | Some n => n end in
  0 <= tot -> 0 < n ->
  exists bs, get_freq_points_batches tot nelems = Some bs /\ concat bs = zrange tot /\
  (forall b, In b bs -> b <> [] /\ Z.of_nat (length b) <= n) /\
  (forall i, (S i < length bs)%nat -> Z.of_nat (length (nth i bs [])) = n).
Proof.
  intros tot nelems n Ht Hn. unfold get_freq_points_batches. fold n. rewrite (proj2 (Z.eqb_neq n 0)) by lia.
  set (q := tot / n). assert (Hq : 0 <= q) by (apply Z.div_pos; lia). pose proof (Z.div_mod tot n ltac:(lia)) as Hd. fold q in Hd.
  pose proof (Z.mod_pos_bound tot n Hn) as Hm.
  assert (C : forall k, 0 <= k -> concat (map (fun i => zseq (i * n) ((i + 1) * n)) (zrange k)) = zrange (k * n)).
  { intros k Hk. pattern k. apply natlike_ind; [reflexivity| |exact Hk]. intros x Hx IH. unfold Z.succ. rewrite zrange_succ by auto.
    rewrite map_app, concat_app, IH. cbn [map concat]. rewrite app_nil_r. rewrite Z.mul_add_distr_r, Z.mul_1_l. apply zrange_app; nia. }
  set (last := if 0 <? tot mod n then [zseq (n * q) tot] else []).
  assert (Lf : forall i, length (zseq (i * n) ((i + 1) * n)) = Z.to_nat n) by (intros i; rewrite length_zseq; f_equal; ring).
  eexists. split; [reflexivity|]. split; [|split].
  - rewrite concat_app, C by auto. unfold last. destruct (Z.ltb_spec 0 (tot mod n)); cbn [concat].
    + rewrite app_nil_r. replace (n * q) with (q * n) by ring. replace tot with (q * n + tot mod n) at 1 2 by lia. apply zrange_app; lia.
    + rewrite app_nil_r. f_equal. lia.
  - intros b Hb. apply in_app_or in Hb. destruct Hb as [Hb|Hb].
    + apply in_map_iff in Hb. destruct Hb as [i [<- _]]. split; [intros E; specialize (Lf i); rewrite E in Lf; cbn [length] in Lf; lia|]. rewrite Lf. lia.
    + unfold last in Hb. destruct (Z.ltb_spec 0 (tot mod n)); [|contradiction]. destruct Hb as [<-|[]].
      assert (L : length (zseq (n * q) tot) = Z.to_nat (tot mod n)) by (rewrite length_zseq; f_equal; lia).
      split; [intros E; rewrite E in L; cbn [length] in L; lia|]. rewrite L. lia.
  - intros i Hi. rewrite app_length, map_length, length_zrange in Hi.
    assert (Hl : (length last <= 1)%nat) by (unfold last; destruct (0 <? tot mod n); cbn [length]; lia).
    rewrite app_nth1 by (rewrite map_length, length_zrange; lia).
    rewrite (nth_indep _ [] (zseq (0 * n) ((0 + 1) * n))) by (rewrite map_length, length_zrange; lia).
    rewrite (map_nth (fun i => zseq (i * n) ((i + 1) * n)) (zrange q) 0). rewrite Lf. lia.
Qed.
Print Assumptions C35_batches_cover_once.

(** The linewidths assembled from batches are those of the frequency points one by one. *)
Theorem C35_batches_do_not_matter : forall nb0 ise (f : Q -> Z -> Q) fpts tot nelems bs gamma,
  0 <= tot -> 0 < match nelems with None => 10 | Some n => n end -> get_freq_points_batches tot nelems = Some bs ->
  (forall fs p b, 0 <= p < Z.of_nat (length fs) -> ise fs p b = f (nth (Z.to_nat p) fs 0%Q) b) ->
  forall b p, 0 <= b < nb0 -> run_batches nb0 ise fpts bs gamma b p = if (0 <=? p) && (p <? tot) then f (fpts p) b else gamma b p.
Proof.
  intros nb0 ise f fpts tot nelems bs gamma Ht Hn E Hise b p Hb.
  destruct (C35_batches_cover_once tot nelems Ht Hn) as [bs' [E' [C _]]]. assert (bs' = bs) as -> by congruence. clear E E'.
  assert (G : forall bs gamma, run_batches nb0 ise fpts bs gamma b p = if zin p (concat bs) then f (fpts p) b else gamma b p).
  { clear C gamma bs. unfold run_batches. induction bs as [|batch bs IH]; intros gamma; [reflexivity|]. cbn [fold_left concat]. rewrite IH. clear IH.
    assert (Z1 : zin p (batch ++ concat bs) = zin p batch || zin p (concat bs)) by (unfold zin; apply existsb_app). rewrite Z1.
    destruct (zin p (concat bs)) eqn:E1; [rewrite orb_true_r; reflexivity|]. rewrite orb_false_r. cbv zeta. set (v := ise (map fpts batch)).
    assert (Bd : forall i l g, NoDup l -> fold_left (fun gamma b => upd gamma b (upd (gamma b) (nth (Z.to_nat i) batch 0) (v i b))) l g b
       = if zin b l then upd (g b) (nth (Z.to_nat i) batch 0) (v i b) else g b).
    { intros i. induction l as [|x l IHl]; intros g N; [reflexivity|]. cbn [fold_left]. inversion_clear N as [|? ? N1 N2]. rewrite IHl by exact N2.
      unfold zin. cbn [existsb]. destruct (Z.eqb_spec b x) as [->|Hx]; cbn [orb].
      - destruct (existsb (Z.eqb x) l) eqn:Ex; [exfalso; apply N1; apply zin_in; exact Ex|]. apply upd_same.
      - rewrite upd_other by exact Hx. reflexivity. }
    assert (Bz : zin b (zrange nb0) = true) by (apply zin_in, in_zrange; exact Hb).
    assert (Ps : forall l g, (forall i, In i l -> 0 <= i < Z.of_nat (length batch)) ->
      fold_left (fun gamma q => fold_left (fun gamma b => upd gamma b (upd (gamma b) (nth (Z.to_nat q) batch 0) (v q b))) (zrange nb0) gamma) l g b p
      = if existsb (fun i => p =? nth (Z.to_nat i) batch 0) l then f (fpts p) b else g b p).
    { induction l as [|i l IHl]; intros g Hl; [reflexivity|]. cbn [fold_left existsb]. rewrite IHl by (intros; apply Hl; now right).
      rewrite (Bd i (zrange nb0) g (NoDup_zrange nb0)), Bz. unfold upd.
      destruct (Z.eqb_spec p (nth (Z.to_nat i) batch 0)) as [Ep|Ep]; cbn [orb]; [|reflexivity].
      destruct (existsb _ l); [reflexivity|]. unfold v. pose proof (Hl i (or_introl eq_refl)) as Hi.
      rewrite Hise by (rewrite map_length; exact Hi). rewrite (nth_indep _ 0%Q (fpts 0)) by (rewrite map_length; lia). rewrite map_nth, <- Ep. reflexivity. }
    rewrite Ps by (intros i Hi; now apply in_zrange).
    assert (existsb (fun i => p =? nth (Z.to_nat i) batch 0) (zrange (Z.of_nat (length batch))) = zin p batch) as ->; [|reflexivity].
    transitivity (zin p (map (fun i => nth (Z.to_nat i) batch 0) (zrange (Z.of_nat (length batch))))); [|now rewrite map_nth_zrange].
    unfold zin. clear. induction (zrange (Z.of_nat (length batch))) as [|x l IH]; [reflexivity|]. cbn [existsb map]. rewrite IH. reflexivity. }
  rewrite G, C. destruct (zin p (zrange tot)) eqn:E.
  - apply zin_in, in_zrange in E. rewrite (proj2 (Z.leb_le 0 p)), (proj2 (Z.ltb_lt p tot)) by lia. reflexivity.
  - destruct (Z.leb_spec 0 p), (Z.ltb_spec p tot); try reflexivity. exfalso. assert (In p (zrange tot)) as H1 by (apply in_zrange; lia). apply zin_in in H1. congruence.
Qed.
Print Assumptions C35_batches_do_not_matter.
Example C35_ex : get_freq_points_batches 23 None = Some [zrange 10; zseq 10 20; zseq 20 23] /\ get_freq_points_batches 4 (Some 2) = Some [[0; 1]; [2; 3]].
Proof. vm_compute. auto. Qed.

(** ** C36: mass variances *)
Lemma lookup_spec : forall s t d, lookup s t = Some d -> In (s, d) t.
Proof.
  intros s t d. unfold lookup. destruct (find_first _ t) as [[s' d']|] eqn:E; [|discriminate]. intros H. injection H as <-.
  apply find_first_some in E. destruct E as [E1 E2]. cbn [fst] in E2. apply String.eqb_eq in E2. subst. exact E1.
Qed.
Lemma qdot_cons : forall a b la lb, qdot (a :: la) (b :: lb) = (a * b + qdot la lb)%Q.
Proof. reflexivity. Qed.
Definition frac_ok (iso : list isotope) : Prop := forall x, In x iso -> Qle 0 (snd x).
Theorem C36_variance_nonneg : forall user default symbols gs, 
  (forall s d, In (s, d) default -> frac_ok d) -> (forall u s d, user = Some u -> In (s, d) u -> frac_ok d) ->
  get_mass_variances user default symbols = Some gs -> length gs = length symbols /\ forall g, In g gs -> Qle 0 g.
Proof.
  intros user default symbols gs Hd Hu. revert gs.
  assert (V : forall iso, frac_ok iso -> Qle 0 (mass_variance iso)).
  { intros iso Hf. unfold mass_variance. set (ma := qdot (map (fun x => snd (fst x)) iso) (map snd iso)). clearbody ma. induction iso as [|x iso IH]; [apply Qle_refl|]. cbn [map]. rewrite qdot_cons.
    assert (0 <= snd x)%Q by (apply Hf; now left). assert (0 <= qdot (map snd iso) (map (fun m => (1 - m / ma) * (1 - m / ma)) (map (fun x => snd (fst x)) iso)))%Q by (apply IH; intros y Hy; apply Hf; now right).
    set (u := (1 - snd (fst x) / ma)%Q). assert (0 <= u * u)%Q by nra. nra. }
  induction symbols as [|s symbols IH]; intros gs E; cbn [get_mass_variances] in E; [injection E as <-; split; [reflexivity|intros g []]|].
  destruct (match match user with Some u => lookup s u | None => None end with Some d => Some d | None => lookup s default end) as [d|] eqn:Ed; [|discriminate].
  destruct (get_mass_variances user default symbols) as [r|] eqn:Er; [|discriminate]. injection E as <-. destruct (IH r eq_refl) as [IL IV].
  split; [cbn [length]; now rewrite IL|]. intros g [<-|Hg]; [|auto]. apply V.
  destruct user as [u|]; [destruct (lookup s u) as [d'|] eqn:El|].
  - injection Ed as ->. apply (Hu u s d eq_refl). now apply lookup_spec.
  - apply (Hd s d). now apply lookup_spec.
  - apply (Hd s d). now apply lookup_spec.
Qed.
Print Assumptions C36_variance_nonneg.
(** With fractions that add up to one: the variance is the textbook second moment, and it vanishes exactly
    when all isotopes that occur have the same mass. *)
Theorem C36_variance_zero_iff : forall iso, frac_ok iso -> (forall x, In x iso -> Qlt 0 (snd (fst x))) -> Qeq (qsum (map snd iso)) 1 ->
  let m_ave := qsum (map (fun x => snd (fst x) * snd x)%Q iso) in
  Qeq (mass_variance iso) (qsum (map (fun x => snd x * (snd (fst x) / m_ave) * (snd (fst x) / m_ave))%Q iso) - 1) /\
  (Qeq (mass_variance iso) 0 <-> forall x y, In x iso -> In y iso -> Qlt 0 (snd x) -> Qlt 0 (snd y) -> Qeq (snd (fst x)) (snd (fst y))).
Proof.
  intros iso Hf Hm H1 ma.
  assert (Ma : qdot (map (fun x => snd (fst x)) iso) (map snd iso) = ma) by (unfold ma, qdot; clear; induction iso as [|x iso IH]; cbn [map combine]; [reflexivity|]; rewrite !qs_cons, IH; reflexivity).
  assert (Mv : Qeq (mass_variance iso) (qsum (map (fun x => snd x * ((1 - snd (fst x) / ma) * (1 - snd (fst x) / ma)))%Q iso))).
  { unfold mass_variance. rewrite Ma. clearbody ma. clear. unfold qdot. induction iso as [|x iso IH]; cbn [map combine]; [reflexivity|]. rewrite !qs_cons. cbn [fst snd]. rewrite IH. reflexivity. }
  assert (Hpos : Qlt 0 ma).
  { unfold ma. clear Ma Mv. clear ma. assert (E : Qlt 0 (qsum (map snd iso))) by (rewrite H1; reflexivity). clear H1. induction iso as [|x iso IH]; [vm_compute in E; discriminate|].
    cbn [map] in *. rewrite qs_cons in *. assert (0 < snd (fst x))%Q by (apply Hm; now left). assert (0 <= snd x)%Q by (apply Hf; now left).
    assert (N : (0 <= qsum (map (fun x => snd (fst x) * snd x) iso))%Q).
    { assert (Hf' : forall y, In y iso -> Qle 0 (snd y)) by (intros y Hy; apply Hf; now right). assert (Hm' : forall y, In y iso -> Qlt 0 (snd (fst y))) by (intros y Hy; apply Hm; now right).
      clear - Hf' Hm'. induction iso as [|y iso IH]; [apply Qle_refl|]. cbn [map]. rewrite qs_cons.
      pose proof (Hf' y (or_introl eq_refl)). pose proof (Hm' y (or_introl eq_refl)).
      assert (0 <= qsum (map (fun x => snd (fst x) * snd x) iso))%Q by (apply IH; intros; [apply Hf'|apply Hm']; now right). nra. }
    destruct (Qlt_le_dec 0 (snd x)) as [G|G]; [nra|]. assert (0 < qsum (map snd iso))%Q by lra.
    assert (0 < qsum (map (fun x => snd (fst x) * snd x) iso))%Q by (apply IH; auto; intros y Hy; [apply Hf|apply Hm]; now right). nra. }
  assert (Hnz : ~ Qeq ma 0) by (intros E; rewrite E in Hpos; discriminate).
  assert (Tx : Qeq (mass_variance iso) (qsum (map (fun x => snd x * (snd (fst x) / ma) * (snd (fst x) / ma))%Q iso) - 1)).
  { rewrite Mv. rewrite (qs_ext _ (fun x => snd x * ((1 - snd (fst x) / ma) * (1 - snd (fst x) / ma)))%Q
      (fun x => (snd x + (-2 / ma) * (snd (fst x) * snd x)) + snd x * (snd (fst x) / ma) * (snd (fst x) / ma))%Q) by (intros; field; exact Hnz).
    rewrite qs_add, qs_add, qs_scale, H1. fold ma. set (t := qsum _). field. exact Hnz. }
  split; [exact Tx|]. split.
  - intros E0. assert (Q : forall x, In x iso -> Qlt 0 (snd x) -> Qeq (snd (fst x)) ma).
    { rewrite Mv in E0. clearbody ma. clear - E0 Hf Hnz.
      assert (N : forall l, (forall x, In x l -> Qle 0 (snd x)) -> Qle 0 (qsum (map (fun x : isotope => snd x * ((1 - snd (fst x) / ma) * (1 - snd (fst x) / ma)))%Q l))).
      { induction l as [|x l IH]; intros H; [apply Qle_refl|]. cbn [map]. rewrite qs_cons. pose proof (H x (or_introl eq_refl)).
        assert (Hl : forall y, In y l -> Qle 0 (snd y)) by (intros y Hy; apply H; now right). apply IH in Hl. set (u := (1 - snd (fst x) / ma)%Q) in *. assert (0 <= u * u)%Q by nra. nra. }
      induction iso as [|x iso IH]; intros y Hy Hp; [contradiction|]. cbn [map] in E0. rewrite qs_cons in E0.
      assert (Hf' : frac_ok iso) by (intros z Hz; apply Hf; now right). pose proof (N iso Hf') as N'. pose proof (Hf x (or_introl eq_refl)) as Fx.
      set (u := (1 - snd (fst x) / ma)%Q) in *. assert (U : (0 <= u * u)%Q) by nra. assert (W : (0 <= snd x * (u * u))%Q) by nra.
      set (rest := qsum _) in E0, N'. set (v := (snd x * (u * u))%Q) in E0, W.
      assert (V0 : (v == 0)%Q) by (clear - E0 N' W; lra).
      destruct Hy as [E1|Hy].
      - subst y. unfold v in V0. apply Qmult_integral in V0. destruct V0 as [E|E]; [exfalso; rewrite E in Hp; discriminate|].
        apply Qmult_integral in E. assert (E' : (u == 0)%Q) by tauto. unfold u in E'.
        transitivity (ma * (1 - (1 - snd (fst x) / ma)))%Q; [field; exact Hnz|]. rewrite E'. ring.
      - apply IH; auto. fold rest. clear - E0 V0. lra. }
    intros x y Hx Hy Px Py. rewrite (Q x), (Q y) by auto. reflexivity.
  - intros Sm.
    assert (Mx : forall x, In x iso -> Qlt 0 (snd x) -> Qeq (snd (fst x)) ma).
    { intros x Hx Px. unfold ma. rewrite (qs_ext _ (fun y => snd (fst y) * snd y)%Q (fun y => snd (fst x) * snd y)%Q).
      - rewrite qs_scale, H1. ring.
      - intros y Hy. pose proof (Hf y Hy) as Fy. destruct (Qlt_le_dec 0 (snd y)) as [G|G]; [rewrite (Sm y x); auto; reflexivity|].
        assert (Z0 : Qeq (snd y) 0) by lra. rewrite Z0. ring. }
    rewrite Mv. apply qs_zero. intros x Hx. pose proof (Hf x Hx) as Fx. destruct (Qlt_le_dec 0 (snd x)) as [G|G].
    + rewrite (Mx x Hx G). field. exact Hnz.
    + assert (Z0 : Qeq (snd x) 0) by lra. rewrite Z0. ring.
Qed.
Print Assumptions C36_variance_zero_iff.
(** Each atom gets the value of its element: the user's data where given, the table's otherwise. *)
Theorem C36_user_data_first : forall user default symbols gs, get_mass_variances user default symbols = Some gs ->
  forall i s, nth_error symbols i = Some s ->
  (forall u d, user = Some u -> lookup s u = Some d -> nth_error gs i = Some (mass_variance d)) /\
  (forall d, (forall u, user = Some u -> lookup s u = None) -> lookup s default = Some d -> nth_error gs i = Some (mass_variance d)).
Proof.
  intros user default. induction symbols as [|s0 ss IH]; intros gs H i s Hi; [destruct i; discriminate|]. cbn [get_mass_variances] in H.
  destruct (match match user with Some u => lookup s0 u | None => None end with Some d => Some d | None => lookup s0 default end) as [d0|] eqn:E0; [|discriminate].
  destruct (get_mass_variances user default ss) as [r|] eqn:Er; [|discriminate]. injection H as <-. destruct i as [|i]; [|exact (IH r eq_refl i s Hi)].
  cbn in Hi. injection Hi as ->. cbn [nth_error]. split.
  - intros u d -> Hd. rewrite Hd in E0. congruence.
  - intros d Hu Hd. destruct user as [u|]; [rewrite (Hu u eq_refl) in E0|]; congruence.
Qed.
Print Assumptions C36_user_data_first.
(** User data take precedence; silicon-like abundances. *)
Example C36_ex : let si := [(28%Z, 28 # 1, 9 # 10); (30%Z, 30 # 1, 1 # 10)]%Q in let one := [(28%Z, 28 # 1, 1 # 1)]%Q in
  option_map (map Qred) (get_mass_variances (Some [("Si"%string, one)]) [("Si"%string, si); ("Ge"%string, si)] ["Si"%string; "Ge"%string]) = Some [0; 1 # 2209]%Q.
Proof. vm_compute. reflexivity. Qed.

(** ** C55: groups of bands *)
Theorem C55_group_average : forall groups (f : Z -> Q) i, (i < length groups)%nat -> nth i groups [] <> [] ->
  let g := nth i groups [] in
  written_average groups (map f (concat groups)) i = (qsum (map f g) / inject_Z (Z.of_nat (length g)))%Q.
Proof.
  intros groups f i Hi Hn g. unfold written_average. fold g. do 2 f_equal.
  assert (P : fold_left (fun pos j => (pos + length (nth j groups []))%nat) (seq 0 i) 0%nat = length (concat (firstn i groups))).
  { assert (G : forall k, (k <= length groups)%nat -> fold_left (fun pos j => (pos + length (nth j groups []))%nat) (seq 0 k) 0%nat = length (concat (firstn k groups))).
    { induction k as [|k IH]; intros Hk; [reflexivity|]. rewrite seq_S, fold_left_app, IH by lia. cbn [fold_left Nat.add].
      assert (E : firstn (S k) groups = firstn k groups ++ [nth k groups []]).
      { clear - Hk. revert k Hk. induction groups as [|x groups IH]; intros k Hk; [cbn in Hk; lia|]. destruct k as [|k]; [reflexivity|]. cbn [firstn nth app]. f_equal. apply IH. cbn [length] in Hk. lia. }
      rewrite E, concat_app, app_length. cbn [concat]. rewrite app_nil_r. reflexivity. }
    apply G. lia. }
  rewrite P.
  assert (E : concat groups = concat (firstn i groups) ++ g ++ concat (skipn (S i) groups)).
  { unfold g. clear - Hi. revert i Hi. induction groups as [|x groups IH]; intros i Hi; [cbn in Hi; lia|]. destruct i as [|i]; [reflexivity|].
    cbn [firstn skipn nth concat]. rewrite (IH i) at 1 by (cbn [length] in Hi; lia). rewrite app_assoc. reflexivity. }
  rewrite E, !map_app. rewrite skipn_app, skipn_all2 by (rewrite map_length; lia). rewrite map_length, Nat.sub_diag. cbn [skipn app].
  rewrite firstn_app, map_length, Nat.sub_diag. cbn [firstn]. rewrite app_nil_r. rewrite <- (map_length f g). apply firstn_all.
Qed.
Print Assumptions C55_group_average.
Example C55_ex : written_average [[0; 1]; [2]; [5; 3; 4]] (map (fun b => inject_Z (b * b)) [0; 1; 2; 5; 3; 4]) 2 = ((50 # 1) / (3 # 1))%Q.
Proof. vm_compute. reflexivity. Qed.

(** ** C65: detailed linewidths per sigma and temperature *)
Theorem C65_frequency_points : forall V nsigma ntemp (value : Z -> Z -> Z -> V) batches d j k p, 0 <= j < nsigma -> 0 <= k < ntemp -> In p (concat batches) ->
  store_detail_at_points nsigma ntemp value batches d j k p = value j k p.
Proof.
  intros V nsigma ntemp value batches d j k p Hj Hk Hp. unfold store_detail_at_points.
  (* an assignment of correct values keeps correct entries and every entry is assigned *)
  set (ok := fun d : Z -> Z -> Z -> V => d j k p = value j k p).
  set (w := fun d j k p => upd d j (upd (d j) k (upd (d j k) p (value j k p)))).
  assert (K : forall d j' k' p', ok d -> ok (w d j' k' p')).
  { intros d' j' k' p' O. unfold ok, w, upd in *. destruct (Z.eqb_spec j j') as [->|]; [|exact O]. destruct (Z.eqb_spec k k') as [->|]; [|exact O]. destruct (Z.eqb_spec p p') as [->|]; [reflexivity|exact O]. }
  assert (K1 : forall l d j' k', ok d -> ok (fold_left (fun d p => w d j' k' p) l d)) by (induction l; intros d' j' k' O; cbn [fold_left]; auto).
  assert (K2 : forall l b d j', ok d -> ok (fold_left (fun d k => fold_left (fun d p => w d j' k p) b d) l d)) by (induction l; intros b d' j' O; cbn [fold_left]; auto).
  assert (K3 : forall l d j', ok d -> ok (fold_left (fun d b => fold_left (fun d k => fold_left (fun d p => w d j' k p) b d) (zrange ntemp) d) l d)) by (induction l; intros d' j' O; cbn [fold_left]; auto).
  assert (H1 : forall l d, In p l -> ok (fold_left (fun d p => w d j k p) l d)).
  { induction l as [|x l IH]; intros d' H; [contradiction|]. cbn [fold_left]. destruct H as [->|H]; [|apply IH, H]. apply K1. unfold ok, w, upd. rewrite !Z.eqb_refl. reflexivity. }
  assert (H2 : forall l b d, In k l -> In p b -> ok (fold_left (fun d k => fold_left (fun d p => w d j k p) b d) l d)).
  { induction l as [|x l IH]; intros b d' H Hb; [contradiction|]. cbn [fold_left]. destruct H as [->|H]; [|apply IH; auto]. apply K2, H1, Hb. }
  assert (H3 : forall l d, In p (concat l) -> ok (fold_left (fun d b => fold_left (fun d k => fold_left (fun d p => w d j k p) b d) (zrange ntemp) d) l d)).
  { induction l as [|x l IH]; intros d' H; [contradiction|]. cbn [fold_left]. cbn [concat] in H. apply in_app_or in H. destruct H as [H|H]; [|apply IH, H]. apply K3, H2; [now apply in_zrange|exact H]. }
  assert (H4 : forall l d, In j l -> ok (fold_left (fun d j => fold_left (fun d b => fold_left (fun d k => fold_left (fun d p => w d j k p) b d) (zrange ntemp) d) batches d) l d)).
  { induction l as [|x l IH]; intros d' H; [contradiction|]. cbn [fold_left]. destruct H as [->|H]; [|apply IH, H].
    assert (K4 : forall l d, ok d -> ok (fold_left (fun d j => fold_left (fun d b => fold_left (fun d k => fold_left (fun d p => w d j k p) b d) (zrange ntemp) d) batches d) l d)) by (clear - K3; induction l; intros d' O; cbn [fold_left]; auto).
    apply K4, H3, Hp. }
  apply (H4 (zrange nsigma) d). now apply in_zrange.
Qed.
Print Assumptions C65_frequency_points.
(** At band frequencies: with more temperatures than sigmas the run fails, otherwise the values of one
    temperature are stored for all. *)
Theorem C65_at_bands_fails_refuted : forall V ntemp (value : Z -> Z -> V) d, 1 < ntemp -> store_detail_at_bands 1 ntemp value d = None.
Proof.
  intros V ntemp value d H. unfold store_detail_at_bands. change (zrange 1) with [0]. cbn [fold_left].
  replace (zrange ntemp) with (0 :: 1 :: map Z.of_nat (seq 2 (Z.to_nat ntemp - 2))).
  - cbn [fold_left]. change (0 <? 1) with true. change (1 <? 1) with false. cbv iota. induction (map Z.of_nat (seq 2 (Z.to_nat ntemp - 2))) as [|x l IH]; [reflexivity|exact IH].
  - unfold zrange. replace (Z.to_nat ntemp) with (S (S (Z.to_nat ntemp - 2))) at 2 by lia. reflexivity.
Qed.
Print Assumptions C65_at_bands_fails_refuted.
Theorem C65_at_bands_wrong_refuted : exists d, store_detail_at_bands 2 2 (fun j k => (j, k)) (fun _ _ => (-1, -1)) = Some d /\ d 0 1 = (1, 0) /\ d 1 0 = (1, 1).
Proof. eexists. split; [vm_compute; reflexivity|]. split; reflexivity. Qed.
