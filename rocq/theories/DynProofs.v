(** Closed forms of the loops of DynModel.v *)
From Coq Require Import ZArith QArith List Bool Lia Lqa Setoid Permutation.
From Verif Require Import Base BaseProofs QMat Par Par2 IseSpec IseProofs Cplx DynModel.
Import ListNotations.
Open Scope Z_scope.

Definition half (a : cplx) : cplx := cscale (1 # 2) a.
#[global] Instance half_proper : Proper (ceq ==> ceq) half.
Proof. intros a b H. unfold half. now rewrite H. Qed.

(** ** generic loops *)
Lemma flat_map_ext_in_ : forall X Y (f g : X -> list Y) l, (forall x, In x l -> f x = g x) -> flat_map f l = flat_map g l.
Proof. intros X Y f g. induction l as [|x l IH]; intros H; [reflexivity|]. cbn. rewrite H, IH; auto; [intros; apply H; now right|now left]. Qed.
Lemma accum_gen : forall X (step : (Z -> cplx) -> X -> (Z -> cplx)) (d : X -> Z -> cplx) l, (forall m x a, In x l -> step m x a =c= cadd (m a) (d x a)) ->
  forall m a, fold_left step l m a =c= cadd (m a) (csum (map (fun x => d x a) l)).
Proof.
  intros X step d. induction l as [|x l IH]; intros H m a; cbn [fold_left map]; rewrite ?csum_nil, ?csum_cons; [ring|].
  rewrite IH by (intros; apply H; now right). rewrite H by now left. ring.
Qed.
Lemma accum_z : forall (step : (Z -> cplx) -> Z -> (Z -> cplx)) (d : Z -> Z -> cplx) n, (forall m x a, 0 <= x < n -> step m x a =c= cadd (m a) (d x a)) ->
  forall m a, fold_left step (zrange n) m a =c= cadd (m a) (CSum n (fun x => d x a)).
Proof. intros step d n H m a. unfold CSum. rewrite (accum_gen _ step d); [reflexivity|]. intros. apply H. now apply in_zrange. Qed.
Lemma CSum_zero : forall n f, (forall i, 0 <= i < n -> f i =c= c0) -> CSum n f =c= c0.
Proof. intros n f H. apply csum_zero. intros x Hx. apply H. now apply in_zrange. Qed.
Lemma CSum_delta : forall n b (f : Z -> cplx), 0 <= b < n -> CSum n (fun i => if i =? b then f i else c0) =c= f b.
Proof.
  intros n b f Hb. unfold CSum. assert (Hin : In b (zrange n)) by now apply in_zrange.
  revert Hin. generalize (NoDup_zrange n). clear. induction (zrange n) as [|x l IH]; intros N H; [contradiction|].
  cbn [map]. rewrite csum_cons. inversion_clear N as [|? ? N1 N2]. destruct H as [->|H].
  - rewrite Z.eqb_refl. rewrite (csum_zero _ (fun i => if i =? b then f i else c0)); [ring|].
    intros y Hy. destruct (Z.eqb_spec y b); [subst; contradiction|reflexivity].
  - rewrite IH by auto. destruct (Z.eqb_spec x b); [subst; contradiction|ring].
Qed.
Lemma CSum_conj : forall n f, conj (CSum n f) =c= CSum n (fun i => conj (f i)).
Proof. intros. apply csum_conj. Qed.
Lemma CSum_add : forall n f g, CSum n (fun i => cadd (f i) (g i)) =c= cadd (CSum n f) (CSum n g).
Proof. intros. apply csum_add. Qed.
Lemma upd_add : forall (m : Z -> cplx) p w v a, w =c= cadd (m p) v -> upd m p w a =c= cadd (m a) (if a =? p then v else c0).
Proof. intros. unfold upd. destruct (Z.eqb_spec a p) as [->|]; [assumption|]. split; cbn; ring. Qed.

(** writes of given values *)
Definition ustore (m : Z -> cplx) (ws : list (Z * cplx)) : Z -> cplx := fold_left (fun m av => upd m (fst av) (snd av)) ws m.
Lemma ustore_store : forall ws m m' a, (forall a, m a = m' a) -> ustore m ws a = store Z.eq_dec m' ws a.
Proof.
  induction ws as [|[b v] ws IH]; intros m m' a H; [apply H|]. unfold ustore, store. cbn [fold_left fst snd]. apply IH. intros x. unfold upd, wr. destruct (Z.eqb_spec x b), (Z.eq_dec x b); congruence.
Qed.
Lemma ustore_in : forall ws m a v, NoDup (map fst ws) -> In (a, v) ws -> ustore m ws a = v.
Proof. intros. rewrite (ustore_store ws m m) by reflexivity. now apply store_in. Qed.

(** ** addresses *)
Definition adr (np i k j l : Z) : Z := (i * 3 + k) * (np * 3) + (j * 3 + l).
Lemma adr_eq : forall np i k j l, i * np * 9 + k * np * 3 + j * 3 + l = adr np i k j l.
Proof. intros. unfold adr. ring. Qed.
Lemma adr_eq' : forall np i k j l, (i * 3 + k) * np * 3 + j * 3 + l = adr np i k j l.
Proof. intros. unfold adr. ring. Qed.
Lemma adr_inj : forall np i k j l i' k' j' l', 0 <= k < 3 -> 0 <= j < np -> 0 <= l < 3 -> 0 <= k' < 3 -> 0 <= j' < np -> 0 <= l' < 3 ->
  adr np i k j l = adr np i' k' j' l' -> i = i' /\ k = k' /\ j = j' /\ l = l'.
Proof.
  intros np i k j l i' k' j' l' Hk Hj Hl Hk' Hj' Hl' E. unfold adr in E. apply flat_inj in E; [|lia|lia]. destruct E as [E1 E2]. apply flat_inj in E1, E2; lia.
Qed.
(** the element of a four-fold loop that is stored at a given address *)
Lemma pick4 : forall np (F : Z -> Z -> Z -> Z -> cplx) i k j l, 0 <= i < np -> 0 <= k < 3 -> 0 <= j < np -> 0 <= l < 3 ->
  CSum np (fun i' => CSum np (fun j' => CSum 3 (fun k' => CSum 3 (fun l' => if adr np i k j l =? adr np i' k' j' l' then F i' j' k' l' else c0)))) =c= F i j k l.
Proof.
  intros np F i k j l Hi Hk Hj Hl.
  assert (A : forall i' k' j' l', 0 <= k' < 3 -> 0 <= j' < np -> 0 <= l' < 3 -> (i' = i /\ k' = k /\ j' = j /\ l' = l) \/ adr np i k j l <> adr np i' k' j' l').
  { intros i' k' j' l' H1 H2 H3. destruct (Z.eq_dec (adr np i k j l) (adr np i' k' j' l')) as [E|E]; [left|now right]. apply adr_inj in E; try lia. }
  rewrite <- (CSum_delta np i (fun i => F i j k l) Hi). apply CSum_ext. intros i' Hi'. destruct (Z.eqb_spec i' i) as [->|N].
  - rewrite <- (CSum_delta np j (fun j => F i j k l) Hj). apply CSum_ext. intros j' Hj'. destruct (Z.eqb_spec j' j) as [->|N].
    + rewrite <- (CSum_delta 3 k (fun k => F i j k l) Hk). apply CSum_ext. intros k' Hk'. destruct (Z.eqb_spec k' k) as [->|N].
      * rewrite <- (CSum_delta 3 l (fun l => F i j k l) Hl). apply CSum_ext. intros l' Hl'. destruct (Z.eqb_spec l' l) as [->|N].
        -- rewrite Z.eqb_refl. reflexivity.
        -- destruct (A i k j l' Hk Hj Hl') as [X|X]; [lia|]. apply Z.eqb_neq in X. rewrite X. reflexivity.
      * apply CSum_zero. intros l' Hl'. destruct (A i k' j l' Hk' Hj Hl') as [X|X]; [lia|]. apply Z.eqb_neq in X. rewrite X. reflexivity.
    + apply CSum_zero. intros k' Hk'. apply CSum_zero. intros l' Hl'. destruct (A i k' j' l' Hk' Hj' Hl') as [X|X]; [lia|]. apply Z.eqb_neq in X. rewrite X. reflexivity.
  - apply CSum_zero. intros j' Hj'. apply CSum_zero. intros k' Hk'. apply CSum_zero. intros l' Hl'. destruct (A i' k' j' l' Hk' Hj' Hl') as [X|X]; [lia|]. apply Z.eqb_neq in X. rewrite X. reflexivity.
Qed.

(** ** make_Hermitian *)
Lemma herm_step_at : forall nb m i j x y, 0 <= i < nb -> 0 <= j < nb -> 0 <= x < nb -> 0 <= y < nb ->
  ((x = i /\ y = j) \/ (x = j /\ y = i) -> herm_step nb m i j (x * nb + y) =c= half (cadd (m (x * nb + y)) (conj (m (y * nb + x))))) /\
  (~ ((x = i /\ y = j) \/ (x = j /\ y = i)) -> herm_step nb m i j (x * nb + y) = m (x * nb + y)).
Proof.
  intros nb m i j x y Hi Hj Hx Hy. split.
  - intros K. unfold herm_step, upd. destruct (Z.eq_dec i j) as [E|E].
    + subst j. assert (x = i /\ y = i) as [-> ->] by lia. rewrite !Z.eqb_refl. split; cbn; field.
    + assert (N : i * nb + j <> j * nb + i) by (intros X; apply flat_inj in X; lia). assert (N' : j * nb + i <> i * nb + j) by auto. apply Z.eqb_neq in N, N'.
      destruct K as [[-> ->]|[-> ->]]; rewrite ?Z.eqb_refl, ?N, ?N', ?Z.eqb_refl; cbn [re im]; rewrite ?N, ?N', ?Z.eqb_refl; cbn [re im]; split; cbn; field.
  - intros K. unfold herm_step. rewrite !upd_other; [reflexivity| | | | | |]; intros X; apply K; apply flat_inj in X; lia.
Qed.
Definition pairs (nb : Z) : list (Z * Z) := flat_map (fun i => map (fun d => (i, i + d)) (zrange (nb - i))) (zrange nb).
Lemma in_pairs : forall nb i j, In (i, j) (pairs nb) <-> 0 <= i <= j /\ j < nb.
Proof.
  intros nb i j. unfold pairs. split.
  - intros H. apply in_flat_map in H as [i' [Hi H]]. apply in_map_iff in H as [d [E Hd]]. apply in_zrange in Hi, Hd. assert (i' = i /\ i' + d = j) by (split; congruence). lia.
  - intros H. apply in_flat_map. exists i. split; [apply in_zrange; lia|]. apply in_map_iff. exists (j - i). split; [f_equal; lia|apply in_zrange; lia].
Qed.
Lemma pairs_nodup : forall nb, NoDup (pairs nb).
Proof.
  intros nb. apply NoDup_flat_map; [apply NoDup_zrange| |].
  - intros i _. generalize (NoDup_zrange (nb - i)). induction (zrange (nb - i)) as [|x l IH]; intros N; cbn; constructor; inversion_clear N as [|? ? N1 N2]; auto. intros H. apply in_map_iff in H as [d [E Hd]]. apply N1. assert (i + d = i + x) by congruence. replace x with d by lia. exact Hd.
  - intros i i' p _ _ H1 H2. apply in_map_iff in H1 as [d [E1 _]], H2 as [d' [E2 _]]. congruence.
Qed.
Lemma make_Hermitian_pairs : forall nb m, make_Hermitian nb m = fold_left (fun m p => herm_step nb m (fst p) (snd p)) (pairs nb) m.
Proof. intros. unfold make_Hermitian, pairs. rewrite fold_flat_map. revert m. induction (zrange nb) as [|i L IH]; intros m; [reflexivity|]. cbn [fold_left]. rewrite IH, fold_map. reflexivity. Qed.
Lemma herm_fold : forall nb l m x y, (forall i j, In (i, j) l -> 0 <= i <= j /\ j < nb) -> NoDup l -> 0 <= x < nb -> 0 <= y < nb ->
  (In (Z.min x y, Z.max x y) l -> fold_left (fun m p => herm_step nb m (fst p) (snd p)) l m (x * nb + y) =c= half (cadd (m (x * nb + y)) (conj (m (y * nb + x))))) /\
  (~ In (Z.min x y, Z.max x y) l -> fold_left (fun m p => herm_step nb m (fst p) (snd p)) l m (x * nb + y) = m (x * nb + y)).
Proof.
  intros nb. induction l as [|[i j] l IH]; intros m x y Hr N Hx Hy; cbn [fold_left fst snd]; [split; [intros []|reflexivity]|].
  inversion_clear N as [|? ? N1 N2]. pose proof (Hr i j (or_introl eq_refl)) as Hij.
  destruct (IH (herm_step nb m i j) x y ltac:(intros; apply Hr; now right) N2 Hx Hy) as [I1 I2].
  destruct (herm_step_at nb m i j x y ltac:(lia) ltac:(lia) Hx Hy) as [S1 S2]. destruct (herm_step_at nb m i j y x ltac:(lia) ltac:(lia) Hy Hx) as [S3 S4].
  assert (D : (Z.min x y, Z.max x y) = (i, j) \/ (Z.min x y, Z.max x y) <> (i, j)) by (destruct (Z.eq_dec (Z.min x y) i), (Z.eq_dec (Z.max x y) j); [left; congruence|right; congruence|right; congruence|right; congruence]).
  destruct D as [D|D].
  - assert (Z.min x y = i /\ Z.max x y = j) by (split; congruence). rewrite D. split; [intros _|intros X; exfalso; apply X; now left]. rewrite I2 by (rewrite D; exact N1). apply S1. lia.
  - assert (D' : ~ (Z.min x y = i /\ Z.max x y = j)) by (intros [X Y]; apply D; congruence). split.
    + intros [X|X]; [congruence|]. rewrite I1 by exact X. rewrite S2, S4 by lia. reflexivity.
    + intros X. rewrite I2 by (intros Y; apply X; now right). apply S2. lia.
Qed.
Lemma make_Hermitian_at : forall nb m x y, 0 <= x < nb -> 0 <= y < nb -> make_Hermitian nb m (x * nb + y) =c= half (cadd (m (x * nb + y)) (conj (m (y * nb + x)))).
Proof.
  intros nb m x y Hx Hy. rewrite make_Hermitian_pairs. apply herm_fold; auto; [intros i j H; now apply in_pairs|apply pairs_nodup|]. apply in_pairs. lia.
Qed.

(** ** the sums *)
Section S.
Variable cis : Q -> cplx.
Variable sq ex : Q -> Q.
Variable np ns : Z.
Variable fc : Z -> Q.
Variable svecs : Z -> Z -> Q.
Variable multi : Z -> Z * Z.
Variable mass : Z -> Q.
Variable s2p p2s : Z -> Z.
Hypothesis Hnp : 0 <= np.

Lemma sum3_eq : forall f, (sum3 f == f 0%Z + f 1%Z + f 2%Z)%Q.
Proof. intros. unfold sum3. change (zrange 3) with [0; 1; 2]. cbn [fold_left]. ring. Qed.
Definition dot (a b : Z -> Q) : Q := (a 0%Z * b 0%Z + a 1%Z * b 1%Z + a 2%Z * b 2%Z)%Q.
(** mean of the phase factors over the equivalent shortest vectors *)
Definition mean_phase (q : Z -> Q) (i s : Z) : cplx :=
  cscale (/ inject_Z (fst (multi (s * np + i)))) (CSum (fst (multi (s * np + i))) (fun l => cis (sum3 (fun m => (q m * svecs (snd (multi (s * np + i)%Z) + l)%Z m)%Q)))).
Lemma dm_phase_eq : forall q i k, dm_phase cis np svecs multi q i k =c= mean_phase q i k.
Proof.
  intros q i k. unfold dm_phase, mean_phase. destruct (multi (k * np + i)) as [mp ad]. cbn [fst snd]. unfold CSum. rewrite cscale_mul, <- csum_scale.
  set (g := fun l => cis (sum3 (fun m => (q m * svecs (ad + l)%Z m)%Q))).
  assert (G : forall l s, fold_left (fun s l => C (re s + re (g l) / inject_Z mp) (im s + im (g l) / inject_Z mp)) l s =c= cadd s (csum (map (fun x => cmul (C (/ inject_Z mp) 0) (g x)) l))).
  { induction l as [|x l IH]; intros s; cbn [fold_left map]; rewrite ?csum_nil, ?csum_cons; [ring|]. rewrite IH. split; cbn; unfold Qdiv; ring. }
  etransitivity; [apply (G (zrange mp) c0)|]. change (fun x : Z => cmul (C (/ inject_Z mp) 0) (cis (sum3 (fun m : Z => (q m * svecs (ad + x)%Z m)%Q)))) with (fun x : Z => cmul (C (/ inject_Z mp) 0) (g x)). ring.
Qed.
(** element of the force constants with the non-analytical term *)
Definition fc_at (charge : option (Z -> Z -> Z -> Q)) (i j s k l : Z) : Q :=
  let e := fc (p2s i * ns * 9 + s * 9 + k * 3 + l) in match charge with Some c => (e + c (i * np + j)%Z k l)%Q | None => e end.
Definition lattice_sum (charge : option (Z -> Z -> Z -> Q)) (q : Z -> Q) (i k j l : Z) : cplx :=
  cscale (/ sq (mass i * mass j)) (CSum ns (fun s => if s2p s =? p2s j then cscale (fc_at charge i j s k l) (mean_phase q i s) else c0)).
Lemma block_eq : forall q charge i j k l, dynmat_block cis sq np ns fc svecs multi mass s2p p2s q charge i j k l =c= lattice_sum charge q i k j l.
Proof.
  intros q charge i j k l. unfold dynmat_block, lattice_sum.
  assert (G : forall L dm, fold_left (fun dm s => if s2p s =? p2s j then get_dm cis np ns fc svecs multi p2s q charge i j s dm else dm) L dm k l
    =c= cadd (dm k l) (csum (map (fun s => if s2p s =? p2s j then cscale (fc_at charge i j s k l) (mean_phase q i s) else c0) L))).
  { induction L as [|x L IH]; intros dm; cbn [fold_left map]; rewrite ?csum_nil, ?csum_cons; [ring|]. rewrite IH. destruct (s2p x =? p2s j); [|ring].
    rewrite <- dm_phase_eq. unfold get_dm, fc_at. destruct charge; split; cbn [cadd cscale re im]; ring. }
  specialize (G (zrange ns) (fun _ _ => c0)). fold (CSum ns (fun s => if s2p s =? p2s j then cscale (fc_at charge i j s k l) (mean_phase q i s) else c0)) in G.
  transitivity (cscale (/ sq (mass i * mass j)) (fold_left (fun dm s => if s2p s =? p2s j then get_dm cis np ns fc svecs multi p2s q charge i j s dm else dm) (zrange ns) (fun _ _ => c0) k l)).
  - split; cbn; unfold Qdiv; ring.
  - rewrite G. apply cscale_proper; [reflexivity|]. ring.
Qed.

(** all writes of the sequential loops *)
Definition writes q charge : list (Z * cplx) :=
  flat_map (fun i => flat_map (fun j => flat_map (fun k => map (fun l => (adr np i k j l, dynmat_block cis sq np ns fc svecs multi mass s2p p2s q charge i j k l)) (zrange 3)) (zrange 3)) (zrange np)) (zrange np).
Lemma writes_nodup : forall q charge, NoDup (map fst (writes q charge)).
Proof.
  intros q charge. unfold writes. rewrite map_flat_map'. apply NoDup_flat_map; [apply NoDup_zrange| |].
  - intros i Hi. rewrite map_flat_map'. apply NoDup_flat_map; [apply NoDup_zrange| |].
    + intros j Hj. rewrite map_flat_map'. apply NoDup_flat_map; [apply NoDup_zrange| |].
      * intros k Hk. rewrite map_map. cbn [fst]. apply in_zrange in Hj, Hk. assert (G : forall L, NoDup L -> (forall l, In l L -> 0 <= l < 3) -> NoDup (map (fun l => adr np i k j l) L)).
        { induction L as [|x L IH]; intros N HL; cbn; constructor; inversion_clear N as [|? ? N1 N2]; [|apply IH; auto; intros; apply HL; now right]. intros H. apply in_map_iff in H as [y [E Hy]]. apply N1. apply adr_inj in E; auto; [|apply HL; now right|apply HL; now left]. destruct E as [_ [_ [_ ->]]]. exact Hy. }
        apply G; [apply NoDup_zrange|intros; now apply in_zrange].
      * intros k k' b Hk Hk' H1 H2. rewrite map_map in H1, H2. apply in_map_iff in H1 as [l [E1 Hl]], H2 as [l' [E2 Hl']]. cbn in E1, E2. apply in_zrange in Hj, Hk, Hk', Hl, Hl'. rewrite <- E2 in E1. apply adr_inj in E1; tauto.
    + intros j j' b Hj Hj' H1 H2. apply in_map_iff in H1 as [[a1 v1] [E1 H1]], H2 as [[a2 v2] [E2 H2]]. cbn in E1, E2. apply in_flat_map in H1 as [k [Hk H1]], H2 as [k' [Hk' H2]]. apply in_map_iff in H1 as [l [F1 Hl]], H2 as [l' [F2 Hl']]. apply in_zrange in Hj, Hj', Hk, Hk', Hl, Hl'. assert (E : adr np i k j l = adr np i k' j' l') by congruence. apply adr_inj in E; tauto.
  - intros i i' b Hi Hi' H1 H2. apply in_map_iff in H1 as [[a1 v1] [E1 H1]], H2 as [[a2 v2] [E2 H2]]. cbn in E1, E2. apply in_flat_map in H1 as [j [Hj H1]], H2 as [j' [Hj' H2]]. apply in_flat_map in H1 as [k [Hk H1]], H2 as [k' [Hk' H2]]. apply in_map_iff in H1 as [l [F1 Hl]], H2 as [l' [F2 Hl']]. apply in_zrange in Hj, Hj', Hk, Hk', Hl, Hl'. assert (E : adr np i k j l = adr np i' k' j' l') by congruence. apply adr_inj in E; tauto.
Qed.
Lemma writes_in : forall q charge i k j l, 0 <= i < np -> 0 <= k < 3 -> 0 <= j < np -> 0 <= l < 3 ->
  In (adr np i k j l, dynmat_block cis sq np ns fc svecs multi mass s2p p2s q charge i j k l) (writes q charge).
Proof.
  intros. unfold writes. apply in_flat_map. exists i. split; [now apply in_zrange|]. apply in_flat_map. exists j. split; [now apply in_zrange|]. apply in_flat_map. exists k. split; [now apply in_zrange|]. apply in_map_iff. exists l. split; [reflexivity|now apply in_zrange].
Qed.
Lemma loops_store : forall q charge D a,
  fold_left (fun D i => fold_left (fun D j => get_dynmat_ij cis sq np ns fc svecs multi mass s2p p2s q charge i j D) (zrange np) D) (zrange np) D a = ustore D (writes q charge) a.
Proof.
  intros q charge D a. unfold ustore, writes. rewrite fold_flat_map.
  assert (X : forall L D, fold_left (fun D i => fold_left (fun D j => get_dynmat_ij cis sq np ns fc svecs multi mass s2p p2s q charge i j D) (zrange np) D) L D
    = fold_left (fun m x => fold_left (fun m av => upd m (fst av) (snd av)) (flat_map (fun j => flat_map (fun k => map (fun l => (adr np x k j l, dynmat_block cis sq np ns fc svecs multi mass s2p p2s q charge x j k l)) (zrange 3)) (zrange 3)) (zrange np)) m) L D).
  { induction L as [|i L IH]; intros D0; [reflexivity|]. cbn [fold_left]. rewrite IH. f_equal. rewrite fold_flat_map.
    clear IH. revert D0. induction (zrange np) as [|j J IHj]; intros D0; [reflexivity|]. cbn [fold_left]. rewrite IHj. f_equal. unfold get_dynmat_ij. rewrite fold_flat_map.
    clear IHj. revert D0. induction (zrange 3) as [|k K IHk] at 2 4; intros D0; [reflexivity|]. cbn [fold_left]. rewrite IHk. f_equal. rewrite fold_map. cbn [fst snd].
    clear IHk. revert D0. induction (zrange 3) as [|l M IHl]; intros D0; [reflexivity|]. cbn [fold_left]. rewrite IHl, adr_eq'. reflexivity. }
  now rewrite X.
Qed.
Lemma seq_matrix : forall q charge D i k j l, 0 <= i < np -> 0 <= k < 3 -> 0 <= j < np -> 0 <= l < 3 ->
  fold_left (fun D i => fold_left (fun D j => get_dynmat_ij cis sq np ns fc svecs multi mass s2p p2s q charge i j D) (zrange np) D) (zrange np) D (adr np i k j l) =c= lattice_sum charge q i k j l.
Proof.
  intros. rewrite loops_store. rewrite (ustore_in _ _ _ _ (writes_nodup q charge) (writes_in q charge i k j l H H0 H1 H2)). apply block_eq.
Qed.
Lemma adr_flat : forall i k j l, adr np i k j l = (i * 3 + k) * (np * 3) + (j * 3 + l). Proof. reflexivity. Qed.
Lemma dym_value : forall q charge D i k j l, 0 <= i < np -> 0 <= k < 3 -> 0 <= j < np -> 0 <= l < 3 ->
  dym_at_q cis sq np ns fc svecs multi mass s2p p2s q charge D (adr np i k j l) =c= half (cadd (lattice_sum charge q i k j l) (conj (lattice_sum charge q j l i k))).
Proof.
  intros q charge D i k j l Hi Hk Hj Hl. unfold dym_at_q. rewrite adr_flat, make_Hermitian_at by lia. rewrite <- !adr_flat. rewrite !seq_matrix by assumption. reflexivity.
Qed.
Lemma par_matrix : forall q charge D D' i k j l, finishes Z.eq_dec (dym_progs cis sq np ns fc svecs multi mass s2p p2s q charge) D D' -> 0 <= i < np -> 0 <= k < 3 -> 0 <= j < np -> 0 <= l < 3 ->
  D' (adr np i k j l) =c= lattice_sum charge q i k j l.
Proof.
  intros q charge D D' i k j l F Hi Hk Hj Hl.
  set (ws := fun i j => flat_map (fun k => map (fun l => (adr np i k j l, dynmat_block cis sq np ns fc svecs multi mass s2p p2s q charge i j k l)) (zrange 3)) (zrange 3)).
  assert (E : dym_progs cis sq np ns fc svecs multi mass s2p p2s q charge = map wprog (flat_map (fun i => map (ws i) (zrange np)) (zrange np))).
  { unfold dym_progs.
    assert (R : zrange (np * np) = flat_map (fun i => map (fun j => i * np + j) (zrange np)) (zrange np)).
    { clear -Hnp. assert (G : forall n, 0 <= n -> zrange (n * np) = flat_map (fun i => map (fun j => i * np + j) (zrange np)) (zrange n)).
      { intros n Hn. pattern n. apply natlike_ind; [reflexivity| |exact Hn]. intros x Hx IH. unfold Z.succ. rewrite zrange_succ, flat_map_app by lia. cbn [flat_map]. rewrite app_nil_r, <- IH.
        replace ((x + 1) * np) with (x * np + np) by ring.
        assert (H : forall y, 0 <= y -> zrange (x * np + y) = zrange (x * np) ++ map (fun j => x * np + j) (zrange y)).
        { intros y Hy. pattern y. apply natlike_ind; [cbn; now rewrite Z.add_0_r, app_nil_r| |exact Hy]. intros w Hw I. unfold Z.succ. rewrite Z.add_assoc, !zrange_succ by nia. rewrite I, map_app, app_assoc. reflexivity. }
        now apply H. }
      now apply G. }
    rewrite R. rewrite !map_flat_map'. apply flat_map_ext_in_. intros i' Hi'. apply in_zrange in Hi'. rewrite !map_map. apply map_ext_in. intros j' Hj'. apply in_zrange in Hj'.
    assert (Q1 : Z.quot (i' * np + j') np = i') by (rewrite Z.quot_div_nonneg by nia; symmetry; apply (Z.div_unique_pos _ _ _ j'); lia).
    assert (Q2 : Z.rem (i' * np + j') np = j') by (rewrite Z.rem_mod_nonneg by nia; symmetry; apply (Z.mod_unique_pos _ _ i'); lia).
    rewrite Q1, Q2. unfold ws. f_equal. apply flat_map_ext_in_. intros k' _. apply map_ext. intros l'. now rewrite adr_eq'. }
  rewrite E in F. assert (W : concat (flat_map (fun i => map (ws i) (zrange np)) (zrange np)) = writes q charge).
  { unfold writes. clear. induction (zrange np) as [|x L IH] at 2 4; [reflexivity|]. cbn [flat_map]. rewrite concat_app, IH. f_equal. symmetry. apply flat_map_concat_map. }
  assert (N : NoDup (map fst (concat (flat_map (fun i => map (ws i) (zrange np)) (zrange np))))) by (rewrite W; apply writes_nodup).
  rewrite (par_writes Z.eq_dec _ _ _ N F). rewrite W. rewrite (store_in Z.eq_dec _ _ _ _ (writes_nodup q charge) (writes_in q charge i k j l Hi Hk Hj Hl)). apply block_eq.
Qed.
End S.

(** ** dipole-dipole terms *)
Section DD.
Variable cis : Q -> cplx.
Variable sq ex : Q -> Q.
Variable np : Z.
Lemma if_sum : forall n (b : bool) f, CSum n (fun x => if b then f x else c0) =c= (if b then CSum n f else c0).
Proof. intros n b f. destruct b; [reflexivity|]. apply CSum_zero. reflexivity. Qed.
Lemma dd_at_g_acc : forall pos G KK i j dd a, dd_at_g cis np pos G KK i j dd a =c=
  cadd (dd a) (CSum 3 (fun k => CSum 3 (fun l => if a =? adr np i k j l then cscale (KK k l) (cis (sum3 (fun k => ((pos i k - pos j k) * G k)%Q))) else c0))).
Proof.
  intros pos G KK i j dd a. unfold dd_at_g. apply (accum_z _ (fun k a => CSum 3 (fun l => if a =? adr np i k j l then cscale (KK k l) (cis (sum3 (fun k => ((pos i k - pos j k) * G k)%Q))) else c0))). intros m k a' _.
  apply (accum_z _ (fun l a => if a =? adr np i k j l then cscale (KK k l) (cis (sum3 (fun k => ((pos i k - pos j k) * G k)%Q))) else c0)). intros m' l a'' _. rewrite adr_eq. apply upd_add. split; cbn; ring.
Qed.
Lemma get_dd_value : forall G_list q_cart dir eps pos lambda tol dd i k j l, 0 <= i < np -> 0 <= k < 3 -> 0 <= j < np -> 0 <= l < 3 ->
  get_dd cis sq ex np G_list q_cart dir eps pos lambda tol dd (adr np i k j l) =c=
  cadd (dd (adr np i k j l)) (csum (map (fun G => cscale (get_KK sq ex G q_cart dir eps lambda tol k l) (cis (sum3 (fun x => ((pos i x - pos j x) * G x)%Q)))) G_list)).
Proof.
  intros G_list q_cart dir eps pos lambda tol dd i k j l Hi Hk Hj Hl. unfold get_dd.
  rewrite (accum_gen _ _ (fun G a => CSum np (fun i => CSum np (fun j => CSum 3 (fun k => CSum 3 (fun l => if a =? adr np i k j l then cscale (get_KK sq ex G q_cart dir eps lambda tol k l) (cis (sum3 (fun x => ((pos i x - pos j x) * G x)%Q))) else c0)))))).
  - apply cadd_proper; [reflexivity|]. apply csum_ext. intros G _. apply (pick4 np (fun i j k l => cscale (get_KK sq ex G q_cart dir eps lambda tol k l) (cis (sum3 (fun x => ((pos i x - pos j x) * G x)%Q))))); assumption.
  - intros m G a _. apply (accum_z _ (fun i a => CSum np (fun j => CSum 3 (fun k => CSum 3 (fun l => if a =? adr np i k j l then cscale (get_KK sq ex G q_cart dir eps lambda tol k l) (cis (sum3 (fun x => ((pos i x - pos j x) * G x)%Q))) else c0))))). intros m' i' a' _.
    apply (accum_z _ (fun j a => CSum 3 (fun k => CSum 3 (fun l => if a =? adr np i' k j l then cscale (get_KK sq ex G q_cart dir eps lambda tol k l) (cis (sum3 (fun x => ((pos i' x - pos j x) * G x)%Q))) else c0)))). intros m'' j' a'' _. apply dd_at_g_acc.
Qed.
Lemma multiply_value : forall born dd_in dd i k j l, 0 <= i < np -> 0 <= k < 3 -> 0 <= j < np -> 0 <= l < 3 ->
  multiply_borns np born dd_in dd (adr np i k j l) =c=
  cadd (dd (adr np i k j l)) (CSum 3 (fun m => CSum 3 (fun n => cscale (born i m k * born j n l) (dd_in (adr np i m j n))))).
Proof.
  intros born dd_in dd i k j l Hi Hk Hj Hl. unfold multiply_borns.
  set (v := fun i j k l m n => C (re (dd_in (adr np i m j n)) * (born i m k * born j n l)) (im (dd_in (adr np i m j n)) * (born i m k * born j n l))).
  set (d4 := fun i j k l a => CSum 3 (fun m => CSum 3 (fun n => if a =? adr np i k j l then v i j k l m n else c0))).
  rewrite (accum_z _ (fun i a => CSum np (fun j => CSum 3 (fun k => CSum 3 (fun l => d4 i j k l a))))).
  - apply cadd_proper; [reflexivity|].
    transitivity (CSum np (fun i' => CSum np (fun j' => CSum 3 (fun k' => CSum 3 (fun l' => if adr np i k j l =? adr np i' k' j' l' then CSum 3 (fun m => CSum 3 (fun n => v i' j' k' l' m n)) else c0))))).
    + apply CSum_ext. intros i' _. apply CSum_ext. intros j' _. apply CSum_ext. intros k' _. apply CSum_ext. intros l' _. unfold d4. rewrite <- if_sum. apply CSum_ext. intros m _. apply if_sum.
    + rewrite (pick4 np (fun i j k l => CSum 3 (fun m => CSum 3 (fun n => v i j k l m n)))) by assumption. apply CSum_ext. intros m _. apply CSum_ext. intros n _. unfold v. split; cbn; ring.
  - intros m i' a _. apply (accum_z _ (fun j a => CSum 3 (fun k => CSum 3 (fun l => d4 i' j k l a)))). intros m1 j' a1 _. apply (accum_z _ (fun k a => CSum 3 (fun l => d4 i' j' k l a))). intros m2 k' a2 _. apply (accum_z _ (fun l a => d4 i' j' k' l a)). intros m3 l' a3 _.
    unfold d4. apply (accum_z _ (fun m a => CSum 3 (fun n => if a =? adr np i' k' j' l' then v i' j' k' l' m n else c0))). intros m4 m' a4 _. apply (accum_z _ (fun n a => if a =? adr np i' k' j' l' then v i' j' k' l' m' n else c0)). intros m5 n' a5 _.
    rewrite !adr_eq. apply upd_add. split; cbn; ring.
Qed.
Lemma pick3d : forall (v : Z -> Z -> Z -> cplx) i k j l, 0 <= i < np -> 0 <= k < 3 -> 0 <= j < np -> 0 <= l < 3 ->
  CSum np (fun i' => CSum 3 (fun k' => CSum 3 (fun l' => if adr np i k j l =? adr np i' k' i' l' then v i' k' l' else c0))) =c= (if i =? j then v i k l else c0).
Proof.
  intros v i k j l Hi Hk Hj Hl.
  transitivity (CSum np (fun i' => CSum np (fun j' => CSum 3 (fun k' => CSum 3 (fun l' => if adr np i k j l =? adr np i' k' j' l' then if i' =? j' then v i' k' l' else c0 else c0))))).
  - apply CSum_ext. intros i' Hi'. rewrite <- (CSum_delta np i' (fun j' => CSum 3 (fun k' => CSum 3 (fun l' => if adr np i k j l =? adr np i' k' j' l' then v i' k' l' else c0))) Hi'). apply CSum_ext. intros j' Hj'. destruct (Z.eqb_spec j' i') as [->|N].
    + apply CSum_ext. intros k' _. apply CSum_ext. intros l' _. rewrite Z.eqb_refl. reflexivity.
    + symmetry. apply CSum_zero. intros k' _. apply CSum_zero. intros l' _. destruct (Z.eqb_spec i' j'); [lia|]. destruct (_ =? _); reflexivity.
  - rewrite (pick4 np (fun i j k l => if i =? j then v i k l else c0)) by assumption. reflexivity.
Qed.
(** Born charges on both sides *)
Definition dd_sum G_list q_cart dir eps (born pos : Z -> Z -> _) lambda tol (i k j l : Z) : cplx :=
  CSum 3 (fun m => CSum 3 (fun n => cscale (born i m k * born j n l) (csum (map (fun G => cscale (get_KK sq ex G q_cart dir eps lambda tol m n) (cis (sum3 (fun x => ((pos i x - pos j x) * G x)%Q)))) G_list)))).
Lemma dd_sum_model : forall G_list q_cart dir eps born pos lambda tol i k j l, 0 <= i < np -> 0 <= k < 3 -> 0 <= j < np -> 0 <= l < 3 ->
  multiply_borns np born (get_dd cis sq ex np G_list q_cart dir eps pos lambda tol (fun _ => c0)) (fun _ => c0) (adr np i k j l) =c= dd_sum G_list q_cart dir eps born pos lambda tol i k j l.
Proof.
  intros. rewrite multiply_value by assumption. unfold dd_sum. transitivity (CSum 3 (fun m => CSum 3 (fun n => cscale (born i m k * born j n l) (get_dd cis sq ex np G_list q_cart dir eps pos lambda tol (fun _ => c0) (adr np i m j n))))); [ring|].
  apply CSum_ext. intros m Hm. apply CSum_ext. intros n Hn. apply cscale_proper; [reflexivity|]. rewrite get_dd_value by assumption. ring.
Qed.
Lemma recip_dd_value : forall dd_q0 G_list q_cart dir born eps pos factor lambda tol i k j l, 0 <= i < np -> 0 <= k < 3 -> 0 <= j < np -> 0 <= l < 3 ->
  recip_dd cis sq ex np dd_q0 G_list q_cart dir born eps pos factor lambda tol (adr np i k j l) =c=
  cscale factor (csub (dd_sum G_list q_cart dir eps born pos lambda tol i k j l) (if i =? j then dd_q0 (i * 9 + k * 3 + l) else c0)).
Proof.
  intros dd_q0 G_list q_cart dir born eps pos factor lambda tol i k j l Hi Hk Hj Hl. unfold recip_dd. cbv zeta.
  match goal with |- C (re ?X * factor) (im ?X * factor) =c= _ => transitivity (cscale factor X); [split; cbn [re im cscale]; ring|] end.
  apply cscale_proper; [reflexivity|].
  rewrite (accum_z _ (fun i a => CSum 3 (fun k => CSum 3 (fun l => if a =? adr np i k i l then copp (dd_q0 (i * 9 + k * 3 + l)) else c0)))).
  - rewrite dd_sum_model by assumption. rewrite (pick3d (fun i k l => copp (dd_q0 (i * 9 + k * 3 + l)))) by assumption. destruct (i =? j); ring.
  - intros m i' a _. apply (accum_z _ (fun k a => CSum 3 (fun l => if a =? adr np i' k i' l then copp (dd_q0 (i' * 9 + k * 3 + l)) else c0))). intros m' k' a' _.
    apply (accum_z _ (fun l a => if a =? adr np i' k' i' l then copp (dd_q0 (i' * 9 + k' * 3 + l)) else c0)). intros m'' l' a'' _. rewrite adr_eq. apply upd_add. split; cbn; ring.
Qed.
(** ** Hermitian blocks of dd_q0 *)
Lemma q0_step_at : forall dd i k l x y z, 0 <= k < 3 -> 0 <= l < 3 -> 0 <= y < 3 -> 0 <= z < 3 ->
  let d := q0_herm_step dd (i * 9 + k * 3 + l) (i * 9 + l * 3 + k) in
  ((x = i /\ y = k /\ z = l) \/ (x = i /\ y = l /\ z = k) -> d (x * 9 + y * 3 + z) =c= half (cadd (dd (x * 9 + y * 3 + z)) (conj (dd (x * 9 + z * 3 + y))))) /\
  (~ ((x = i /\ y = k /\ z = l) \/ (x = i /\ y = l /\ z = k)) -> d (x * 9 + y * 3 + z) = dd (x * 9 + y * 3 + z)).
Proof.
  intros dd i k l x y z Hk Hl Hy Hz d. subst d. unfold q0_herm_step, upd.
  set (a := i * 9 + k * 3 + l). set (t := i * 9 + l * 3 + k). set (p := x * 9 + y * 3 + z). set (p' := x * 9 + z * 3 + y). split.
  - intros H. assert (D : (p = a /\ p' = t) \/ (p = t /\ p' = a)) by (subst a t p p'; lia).
    destruct (Z.eqb_spec a t) as [E|E].
    + assert (p = t /\ p' = t) as [-> ->] by lia. rewrite E in *. rewrite !Z.eqb_refl. split; cbn; field.
    + assert (E' : t <> a) by auto. apply Z.eqb_neq in E, E'. destruct D as [[-> ->]|[-> ->]]; rewrite ?Z.eqb_refl, ?E, ?E', ?Z.eqb_refl; split; cbn; field.
  - intros H. assert (N1 : p <> a) by (subst p a; lia). assert (N2 : p <> t) by (subst p t; lia). apply Z.eqb_neq in N1, N2. rewrite N1, N2. reflexivity.
Qed.
(** sum over the second atom, before it is made Hermitian *)
Definition q0_sum G_list born eps pos lambda tol (i k l : Z) : cplx := CSum np (fun j => dd_sum G_list (fun _ => 0%Q) None eps born pos lambda tol i k j l).
Lemma pick3s : forall (v : Z -> Z -> Z -> cplx) i k l, 0 <= i < np -> 0 <= k < 3 -> 0 <= l < 3 ->
  CSum np (fun i' => CSum 3 (fun k' => CSum 3 (fun l' => if i * 9 + k * 3 + l =? i' * 9 + k' * 3 + l' then v i' k' l' else c0))) =c= v i k l.
Proof.
  intros v i k l Hi Hk Hl. rewrite <- (CSum_delta np i (fun i => v i k l) Hi). apply CSum_ext. intros i' Hi'. destruct (Z.eqb_spec i' i) as [->|N].
  - rewrite <- (CSum_delta 3 k (fun k => v i k l) Hk). apply CSum_ext. intros k' Hk'. destruct (Z.eqb_spec k' k) as [->|N].
    + rewrite <- (CSum_delta 3 l (fun l => v i k l) Hl). apply CSum_ext. intros l' Hl'. destruct (Z.eqb_spec l' l) as [->|N]; [rewrite Z.eqb_refl; reflexivity|]. assert (X : i * 9 + k * 3 + l <> i * 9 + k * 3 + l') by lia. apply Z.eqb_neq in X. rewrite X. reflexivity.
    + apply CSum_zero. intros l' Hl'. assert (X : i * 9 + k * 3 + l <> i * 9 + k' * 3 + l') by lia. apply Z.eqb_neq in X. rewrite X. reflexivity.
  - apply CSum_zero. intros k' Hk'. apply CSum_zero. intros l' Hl'. assert (X : i * 9 + k * 3 + l <> i' * 9 + k' * 3 + l') by lia. apply Z.eqb_neq in X. rewrite X. reflexivity.
Qed.
Lemma q0_value : forall G_list born eps pos lambda tol x y z, 0 <= x < np -> 0 <= y < 3 -> 0 <= z < 3 ->
  recip_dd_q0 cis sq ex np G_list born eps pos lambda tol (x * 9 + y * 3 + z) =c= half (cadd (q0_sum G_list born eps pos lambda tol x y z) (conj (q0_sum G_list born eps pos lambda tol x z y))).
Proof.
  intros G_list born eps pos lambda tol x y z Hx Hy Hz. unfold recip_dd_q0.
  set (dd2 := multiply_borns np born (get_dd cis sq ex np G_list (fun _ => 0%Q) None eps pos lambda tol (fun _ => c0)) (fun _ => c0)).
  match goal with |- fold_left _ _ ?q0 _ =c= _ => set (d0 := q0) end.
  assert (S0 : forall y z, 0 <= y < 3 -> 0 <= z < 3 -> d0 (x * 9 + y * 3 + z) =c= q0_sum G_list born eps pos lambda tol x y z).
  { clear y z Hy Hz. intros y z Hy Hz. unfold d0. set (v := fun i k l => CSum np (fun j => dd2 (adr np i k j l))).
    rewrite (accum_z _ (fun i a => CSum 3 (fun k => CSum 3 (fun l => if a =? i * 9 + k * 3 + l then v i k l else c0)))).
    - rewrite (pick3s v) by assumption. unfold v, q0_sum. transitivity (CSum np (fun j => dd2 (adr np x y j z))); [ring|]. apply CSum_ext. intros j Hj. apply dd_sum_model; assumption.
    - intros m i a _. apply (accum_z _ (fun k a => CSum 3 (fun l => if a =? i * 9 + k * 3 + l then v i k l else c0))). intros m1 k a1 _. apply (accum_z _ (fun l a => if a =? i * 9 + k * 3 + l then v i k l else c0)). intros m2 l a2 _.
      unfold v. rewrite <- if_sum. apply (accum_z _ (fun j a => if a =? i * 9 + k * 3 + l then dd2 (adr np i k j l) else c0)). intros m3 j a3 _. rewrite adr_eq. apply upd_add. reflexivity. }
  rewrite <- (S0 y z Hy Hz), <- (S0 z y Hz Hy). clear S0. clearbody d0. clear dd2. rename d0 into d.
  set (st := fun (d : Z -> cplx) (p : Z * Z * Z) => q0_herm_step d (fst (fst p) * 9 + snd (fst p) * 3 + snd p) (fst (fst p) * 9 + snd p * 3 + snd (fst p))).
  set (L := flat_map (fun i => flat_map (fun k => map (fun l => (i, k, l)) (zrange 3)) (zrange 3)) (zrange np)).
  assert (E1 : forall i K d, fold_left (fun d k => fold_left (fun d l => q0_herm_step d (i * 9 + k * 3 + l) (i * 9 + l * 3 + k)) (zrange 3) d) K d = fold_left st (flat_map (fun k => map (fun l => (i, k, l)) (zrange 3)) K) d).
  { intros i. induction K as [|k K IHk]; intros d0; [reflexivity|]. cbn [fold_left flat_map]. rewrite fold_left_app, IHk, fold_map. reflexivity. }
  assert (E2 : forall I d, fold_left (fun d i => fold_left (fun d k => fold_left (fun d l => q0_herm_step d (i * 9 + k * 3 + l) (i * 9 + l * 3 + k)) (zrange 3) d) (zrange 3) d) I d = fold_left st (flat_map (fun i => flat_map (fun k => map (fun l => (i, k, l)) (zrange 3)) (zrange 3)) I) d).
  { induction I as [|i I IH]; intros d0; [reflexivity|]. cbn [fold_left flat_map]. rewrite fold_left_app, IH, E1. reflexivity. }
  pose proof (E2 (zrange np) d) as E. fold L in E. clear E1 E2.
  rewrite E. assert (HL : forall p, In p L -> 0 <= snd (fst p) < 3 /\ 0 <= snd p < 3).
  { intros p Hp. unfold L in Hp. apply in_flat_map in Hp as [i [_ Hp]]. apply in_flat_map in Hp as [k [Hk Hp]]. apply in_map_iff in Hp as [l [<- Hl]]. apply in_zrange in Hk, Hl. auto. }
  assert (Hin : In (x, y, z) L). { unfold L. apply in_flat_map. exists x. split; [now apply in_zrange|]. apply in_flat_map. exists y. split; [now apply in_zrange|]. apply in_map_iff. exists z. split; [reflexivity|now apply in_zrange]. }
  clearbody L. clear E. set (h := half (cadd (d (x * 9 + y * 3 + z)) (conj (d (x * 9 + z * 3 + y))))).
  assert (G : forall M, (forall p, In p M -> 0 <= snd (fst p) < 3 /\ 0 <= snd p < 3) -> forall e,
    (e (x * 9 + y * 3 + z) =c= h /\ e (x * 9 + z * 3 + y) =c= conj h) \/ ((In (x, y, z) M \/ In (x, z, y) M) /\ e (x * 9 + y * 3 + z) =c= d (x * 9 + y * 3 + z) /\ e (x * 9 + z * 3 + y) =c= d (x * 9 + z * 3 + y)) ->
    fold_left st M e (x * 9 + y * 3 + z) =c= h).
  { induction M as [|[[i k] l] M IH]; intros HM e H; cbn [fold_left]; [destruct H as [[H _]|[[[]|[]] _]]; exact H|].
    destruct (HM (i, k, l) (or_introl eq_refl)) as [Hk Hl]. cbn [fst snd] in Hk, Hl. apply IH; [intros; apply HM; now right|].
    destruct (q0_step_at e i k l x y z Hk Hl Hy Hz) as [A1 A2]. destruct (q0_step_at e i k l x z y Hk Hl Hz Hy) as [B1 B2]. unfold st. cbn [fst snd].
    assert (D : ((x = i /\ y = k /\ z = l) \/ (x = i /\ y = l /\ z = k)) \/ ~ ((x = i /\ y = k /\ z = l) \/ (x = i /\ y = l /\ z = k))) by lia.
    destruct D as [D|D].
    - left. rewrite A1, B1 by lia. destruct H as [[H1 H2]|[_ [H1 H2]]]; rewrite H1, H2.
      + split; split; cbn; field.
      + split; [reflexivity|]. unfold h. split; cbn; field.
    - rewrite A2, B2 by lia. destruct H as [[H1 H2]|[H0 [H1 H2]]]; [left; auto|right]. split; [|auto].
      destruct H0 as [[H0|H0]|[H0|H0]]; [exfalso; apply D; left; repeat split; congruence|left; exact H0|exfalso; apply D; right; repeat split; congruence|right; exact H0]. }
  apply G; [exact HL|]. right. split; [left; exact Hin|]. split; reflexivity.
Qed.
Lemma q0_hermitian : forall G_list born eps pos lambda tol x y z, 0 <= x < np -> 0 <= y < 3 -> 0 <= z < 3 ->
  recip_dd_q0 cis sq ex np G_list born eps pos lambda tol (x * 9 + y * 3 + z) =c= conj (recip_dd_q0 cis sq ex np G_list born eps pos lambda tol (x * 9 + z * 3 + y)).
Proof. intros. rewrite !q0_value by assumption. split; cbn; ring. Qed.
End DD.
Section GonzeValue.
Variable cis : Q -> cplx.
Variable sq ex : Q -> Q.
Variable np ns : Z.
Variable fc : Z -> Q.
Variable svecs : Z -> Z -> Q.
Variable multi : Z -> Z * Z.
Variable mass : Z -> Q.
Variable s2p p2s : Z -> Z.
Hypothesis Hnp : 0 <= np.
Lemma gonze_value : forall q born eps rl dir nac dd_q0 G_list pos lambda tol D i k j l, 0 <= i < np -> 0 <= k < 3 -> 0 <= j < np -> 0 <= l < 3 ->
  gonze_matrix cis sq ex np ns fc svecs multi mass s2p p2s q born eps rl dir nac dd_q0 G_list pos lambda tol D (adr np i k j l) =c=
  cadd (half (cadd (lattice_sum cis sq np ns fc svecs multi mass s2p p2s None q i k j l) (conj (lattice_sum cis sq np ns fc svecs multi mass s2p p2s None q j l i k))))
    (cscale (/ sq (mass i * mass j)) (cscale nac (csub (dd_sum cis sq ex G_list (to_cart rl q) (match dir with Some d => Some (to_cart rl d) | None => None end) eps born pos lambda tol i k j l) (if i =? j then dd_q0 (i * 9 + k * 3 + l) else c0)))).
Proof.
  intros q born eps rl dir nac dd_q0 G_list pos lambda tol D i k j l Hi Hk Hj Hl. unfold gonze_matrix. cbv zeta. set (dir' := match dir with Some d => Some (to_cart rl d) | None => None end).
  set (dd := recip_dd cis sq ex np dd_q0 G_list (to_cart rl q) dir' born eps pos nac lambda tol).
  set (v := fun i j k l => C (re (dd (adr np i k j l)) / sq (mass i * mass j)) (im (dd (adr np i k j l)) / sq (mass i * mass j))).
  rewrite (accum_z _ (fun i a => CSum np (fun j => CSum 3 (fun k => CSum 3 (fun l => if a =? adr np i k j l then v i j k l else c0))))).
  - rewrite dym_value by assumption. apply cadd_proper; [reflexivity|]. rewrite (pick4 np v) by assumption. unfold v. rewrite <- (recip_dd_value cis sq ex np dd_q0 G_list (to_cart rl q) dir' born eps pos nac lambda tol i k j l) by assumption. fold dd. split; cbn; unfold Qdiv; ring.
  - intros m i' a _. apply (accum_z _ (fun j a => CSum 3 (fun k => CSum 3 (fun l => if a =? adr np i' k j l then v i' j k l else c0)))). intros m1 j' a1 _. apply (accum_z _ (fun k a => CSum 3 (fun l => if a =? adr np i' k j' l then v i' j' k l else c0))). intros m2 k' a2 _.
    apply (accum_z _ (fun l a => if a =? adr np i' k' j' l then v i' j' k' l else c0)). intros m3 l' a3 _. rewrite !adr_eq. apply upd_add. split; cbn; ring.
Qed.
End GonzeValue.
