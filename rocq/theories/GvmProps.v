From Coq Require Import ZArith QArith List Bool Lia Lqa Setoid Morphisms.
From Verif Require Import Base BaseProofs QMat Cplx IsoSym VelModel VelProps GvmModel.
Import ListNotations.
Open Scope Z_scope.
Local Arguments CSum : simpl never.
Local Arguments matmul : simpl never.
Local Arguments rot_eigvecs : simpl never.
Local Arguments scale : simpl never.
Lemma scale_out : forall x z w, cmul (conj (cscale x z)) w =c= cmul (conj z) (cmul (C x 0) w).
Proof. intros. split; cbn; ring. Qed.

(** ** Specification *)
(** the degenerate sets are disjoint and cover the bands *)
Definition partition (n : Z) (sets : list (list Z)) : Prop := NoDup (concat sets) /\ forall s, In s (concat sets) <-> 0 <= s < n.
(** <a|M|b> *)
Definition bracket (n : Z) (a : Z -> cplx) (M : mat) (b : Z -> cplx) : cplx := CSum n (fun p => cmul (conj (a p)) (CSum n (fun q => cmul (M p q) (b q)))).
Definition hermitian (n : Z) (M : mat) : Prop := cmeq n (adj M) M.

Lemma pos_some : forall l s k j, pos s l k = Some j -> k <= j < k + Z.of_nat (length l) /\ nth (Z.to_nat (j - k)) l 0 = s.
Proof.
  induction l as [|x l IH]; intros s k j H; cbn [pos] in H; [discriminate|]. destruct (Z.eqb_spec x s) as [->|N].
  - injection H as <-. cbn [length]. split; [lia|]. replace (Z.to_nat (k - k)) with O by lia. reflexivity.
  - destruct (IH s (k + 1) j H) as [B Hn]. cbn [length]. split; [lia|]. replace (Z.to_nat (j - k)) with (S (Z.to_nat (j - (k + 1)))) by lia. exact Hn.
Qed.
Lemma pos_elem : forall l k j, NoDup l -> 0 <= k < Z.of_nat (length l) -> pos (nth (Z.to_nat k) l 0) l j = Some (j + k).
Proof.
  induction l as [|x l IH]; intros k j ND H; cbn [length] in H; [lia|]. inversion_clear ND as [|? ? N1 N2]. cbn [pos].
  destruct (Z.eq_dec k 0) as [->|Nk]; [cbn; rewrite Z.eqb_refl; f_equal; lia|]. replace (Z.to_nat k) with (S (Z.to_nat (k - 1))) by lia. cbn [nth].
  assert (I : In (nth (Z.to_nat (k - 1)) l 0) l) by (apply nth_In; lia). destruct (Z.eqb_spec x (nth (Z.to_nat (k - 1)) l 0)) as [->|_]; [contradiction|].
  rewrite IH by (try assumption; lia). f_equal. lia.
Qed.
Lemma pos_none : forall l s k, ~ In s l -> pos s l k = None.
Proof. induction l as [|x l IH]; intros s k H; [reflexivity|]. cbn [pos]. destruct (Z.eqb_spec x s) as [->|_]; [exfalso; apply H; now left|]. apply IH. intros I. apply H. now right. Qed.
Lemma nodup_app_l : forall (a b : list Z), NoDup (a ++ b) -> NoDup a /\ NoDup b /\ forall x, In x a -> ~ In x b.
Proof.
  induction a as [|x a IH]; intros b H; cbn in *; [repeat split; [constructor|exact H|tauto]|]. inversion_clear H as [|? ? N1 N2]. destruct (IH b N2) as [A [B C']]. repeat split.
  - constructor; [intros I; apply N1, in_or_app; now left|exact A].
  - exact B.
  - intros y [<-|I] Ib; [apply N1, in_or_app; now right|exact (C' y I Ib)].
Qed.
Local Arguments nth : simpl never.
Section P.
Variable n : Z.
Variable eigh : Z -> mat -> (Z -> Q) * mat.
Variable rsqrt : Q -> Q.
Variables (ddms : list mat) (deg_sets : list (list Z)) (v : mat) (freqs : Z -> Q) (cutoff factor : Q).
Hypothesis sets_ok : partition n deg_sets.
Notation ddm i := (nth (Z.to_nat i) ddms (fun _ _ => c0)).
Notation gvm := (gvm n eigh rsqrt ddms deg_sets v freqs cutoff factor).
Notation rot := (rot_eigvecs n eigh (nth 0 ddms (fun _ _ => c0)) deg_sets v).
Notation sc := (scale rsqrt cutoff freqs).
Notation len deg := (Z.of_nat (length deg)).
Notation blk deg := (block n (ddm 0) (columns v deg)).
Notation E deg := (snd (eigh (len deg) (blk deg))).

Lemma rot_elem : forall deg k p, In deg deg_sets -> 0 <= k < len deg -> rot p (elem deg k) = CSum (len deg) (fun j => cmul (columns v deg p j) (E deg j k)).
Proof.
  intros deg k p I Hk. destruct sets_ok as [ND _]. unfold rot_eigvecs. change (Z.to_nat 0) with 0%nat. set (d0 := nth 0 ddms (fun _ _ : Z => c0)). clearbody d0. revert I ND. generalize (fun _ _ : Z => c0). generalize deg_sets as sets. clear - Hk.
  induction sets as [|d sets IH]; intros r I ND; [destruct I|]. cbn [concat] in ND. destruct (nodup_app_l _ _ ND) as [N1 [N2 N3]]. cbn [fold_left].
  destruct (in_dec (list_eq_dec Z.eq_dec) deg sets) as [I2|NI].
  - apply IH; assumption.
  - destruct I as [->|I]; [|contradiction]. 
    assert (X : forall sets r, ~ In (elem deg k) (concat sets) -> fold_left (fun r d => let e := rot_eigsets n eigh (len d) d0 (columns v d) in fun p s => match pos s d 0 with Some k => e p k | None => r p s end) sets r p (elem deg k) = r p (elem deg k)).
    { clear. induction sets as [|d sets IH]; intros r H; [reflexivity|]. cbn [fold_left concat] in *. rewrite IH by (intros I; apply H, in_or_app; now right). rewrite pos_none; [reflexivity|]. intros I. apply H, in_or_app. now left. }
    rewrite X by (apply N3; unfold elem; apply nth_In; lia). unfold elem. rewrite pos_elem by (try assumption; lia). unfold rot_eigsets. rewrite Z.add_0_l. reflexivity.
Qed.
Lemma gvm_bracket : forall i s s', gvm i s s' =c= cscale (factor * factor * (sc s * sc s'))%Q (bracket n (fun p => rot p s) (ddm (i + 1)) (fun p => rot p s')).
Proof.
  intros i s s'. unfold GvmModel.gvm, bracket, matmul. transitivity (cmul (C (factor * factor * (sc s * sc s')) 0) (CSum n (fun p => cmul (conj (rot p s)) (CSum n (fun q => cmul (ddm (i + 1) p q) (rot q s')))))); [|split; cbn; ring].
  rewrite <- CSum_scale. apply CSum_ext. intros p _. transitivity (cmul (conj (rot p s)) (cmul (C (factor * factor * (sc s * sc s')) 0) (CSum n (fun q => cmul (ddm (i + 1) p q) (rot q s'))))); [|ring].
  unfold adj. transitivity (cmul (conj (rot p s)) (cmul (C (sc s) 0) (CSum n (fun k => cmul (cscale (factor * factor) (ddm (i + 1) p k)) (cscale (sc s') (rot k s')))))); [apply scale_out|].
  apply cmul_proper; [reflexivity|]. rewrite <- !CSum_scale. apply CSum_ext. intros q _. split; cbn; ring.
Qed.
(** ** C115 *)
Theorem C115_hermitian : forall i, hermitian n (ddm (i + 1)) -> forall s s', gvm i s s' =c= conj (gvm i s' s).
Proof.
  intros i H s s'. rewrite !gvm_bracket. transitivity (cscale (factor * factor * (sc s * sc s')) (conj (bracket n (fun p => rot p s') (ddm (i + 1)) (fun p => rot p s)))); [|split; cbn; ring].
  apply cscale_proper; [reflexivity|]. unfold bracket. rewrite CSum_conj'.
  rewrite (CSum_ext n (fun p => cmul (conj (rot p s)) (CSum n (fun q => cmul (ddm (i + 1) p q) (rot q s')))) (fun p => CSum n (fun q => cmul (conj (rot p s)) (cmul (ddm (i + 1) p q) (rot q s'))))) by (intros p _; now rewrite CSum_scale).
  rewrite CSum_swap. apply CSum_ext. intros q Hq. rewrite conj_mul, CSum_conj', conj_conj. rewrite <- CSum_scale. apply CSum_ext. intros p Hp. rewrite conj_mul. pose proof (H p q Hp Hq) as X. unfold adj in X. rewrite <- X. ring.
Qed.
Theorem C115_cutoff : forall i s s', (freqs s <= cutoff)%Q \/ (freqs s' <= cutoff)%Q -> gvm i s s' =c= c0.
Proof.
  intros i s s' H. rewrite gvm_bracket. assert (Z : forall x, (freqs x <= cutoff)%Q -> (sc x == 0)%Q).
  { intros x Hx. unfold scale, qltb. destruct (Qlt_le_dec cutoff (freqs x)) as [G|G]; [exfalso; lra|]. apply Qle_bool_iff in G. rewrite G. reflexivity. }
  destruct H as [H|H]; rewrite (Z _ H); split; cbn; ring.
Qed.
Notation ok deg := (eigenpairs (len deg) (blk deg) (fst (eigh (len deg) (blk deg))) (E deg)).
(** brackets of the turned vectors of one set *)
Lemma bracket_set : forall M deg k k', In deg deg_sets -> 0 <= k < len deg -> 0 <= k' < len deg ->
  bracket n (fun p => rot p (elem deg k)) M (fun p => rot p (elem deg k')) =c= matmul (len deg) (adj (E deg)) (matmul (len deg) (block n M (columns v deg)) (E deg)) k k'.
Proof.
  intros M deg k k' I Hk Hk'. pose proof (fun k p => rot_elem deg k p I) as RE. set (Em := E deg) in *. clearbody Em. set (m := len deg) in *. set (r := rot) in *. clearbody r. unfold bracket.
  rewrite (CSum_ext n _ (fun p => cmul (CSum m (fun a => cmul (conj (columns v deg p a)) (conj (Em a k)))) (CSum m (fun b => cmul (CSum n (fun q => cmul (M p q) (columns v deg q b))) (Em b k'))))).
  2:{ intros p _. rewrite (RE k p Hk). rewrite CSum_conj'. apply cmul_proper; [apply CSum_ext; intros; apply conj_mul|].
      rewrite (CSum_ext n _ (fun q => CSum m (fun b => cmul (cmul (M p q) (columns v deg q b)) (Em b k')))) by (intros q _; rewrite (RE k' q Hk'); rewrite <- CSum_scale; apply CSum_ext; intros; ring).
      rewrite CSum_swap. apply CSum_ext. intros b _. apply CSum_mul_r. }
  unfold matmul, block, adj. unfold matmul.
  rewrite (CSum_ext n _ (fun p => CSum m (fun a => CSum m (fun b => cmul (conj (Em a k)) (cmul (cmul (conj (columns v deg p a)) (CSum n (fun q => cmul (M p q) (columns v deg q b)))) (Em b k')))))).
  2:{ intros p _. rewrite CSum_prod. apply CSum_ext. intros a _. apply CSum_ext. intros b _. ring. }
  rewrite CSum_swap. apply CSum_ext. intros a _. rewrite CSum_swap. rewrite <- CSum_scale. apply CSum_ext. intros b _. rewrite CSum_scale, CSum_mul_r. reflexivity.
Qed.
(** In a degenerate set the velocities along the perturbation direction form a diagonal matrix. *)
Theorem C115_degenerate : forall (dir : Z -> Q) deg k k', In deg deg_sets -> 0 <= k < len deg -> 0 <= k' < len deg -> ok deg ->
  cmeq n (ddm 0) (fun p q => CSum 3 (fun i => cscale (dir i) (ddm (i + 1) p q))) ->
  CSum 3 (fun i => cscale (dir i) (gvm i (elem deg k) (elem deg k'))) =c=
  if k =? k' then C (factor * factor * (sc (elem deg k) * sc (elem deg k)) * fst (eigh (len deg) (blk deg)) k)%Q 0 else c0.
Proof.
  intros dir deg k k' I Hk Hk' Ok Hd. set (s := elem deg k). set (s' := elem deg k'). set (f := (factor * factor * (sc s * sc s'))%Q).
  transitivity (cmul (C f 0) (bracket n (fun p => rot p s) (ddm 0) (fun p => rot p s'))).
  - transitivity (CSum 3 (fun i => cmul (C f 0) (bracket n (fun p => rot p s) (fun p q => cscale (dir i) (ddm (i + 1) p q)) (fun p => rot p s')))).
    + apply CSum_ext. intros i _. rewrite gvm_bracket. fold f. transitivity (cmul (C f 0) (cmul (C (dir i) 0) (bracket n (fun p => rot p s) (ddm (i + 1)) (fun p => rot p s')))); [split; cbn; ring|]. apply cmul_proper; [reflexivity|].
      unfold bracket. rewrite <- CSum_scale. apply CSum_ext. intros p _. transitivity (cmul (conj (rot p s)) (cmul (C (dir i) 0) (CSum n (fun q => cmul (ddm (i + 1) p q) (rot q s'))))); [ring|]. apply cmul_proper; [reflexivity|]. rewrite <- CSum_scale. apply CSum_ext. intros q _. split; cbn; ring.
    + rewrite CSum_scale. apply cmul_proper; [reflexivity|]. unfold bracket. rewrite CSum_swap. apply CSum_ext. intros p Hp. rewrite CSum_scale. apply cmul_proper; [reflexivity|]. rewrite CSum_swap. apply CSum_ext. intros q Hq. rewrite CSum_mul_r. rewrite (Hd p q Hp Hq). reflexivity.
  - unfold s, s'. rewrite (bracket_set (ddm 0) deg k k' I Hk Hk'). pose proof (ep_inner _ _ _ _ Ok k k' Hk Hk') as X. rewrite X. unfold cdiag, f, s, s'. destruct (Z.eqb_spec k k') as [<-|_]; [|ring]. generalize (sc (elem deg k)) (fst (eigh (len deg) (blk deg)) k). intros x y. split; cbn; ring.
Qed.
(** The trace over a degenerate set is that of the original eigenvectors, so it does not depend on the perturbation. *)
Theorem C115_trace : forall i deg f, In deg deg_sets -> ok deg -> (forall k, 0 <= k < len deg -> freqs (elem deg k) = f) -> (cutoff < f)%Q ->
  CSum (len deg) (fun k => gvm i (elem deg k) (elem deg k)) =c=
  cscale (factor * factor * (rsqrt (2 * f) * rsqrt (2 * f)))%Q (CSum (len deg) (fun k => bracket n (fun p => v p (elem deg k)) (ddm (i + 1)) (fun p => v p (elem deg k)))).
Proof.
  intros i deg f I Ok Hf Hc. set (m := len deg) in *. set (B := block n (ddm (i + 1)) (columns v deg)).
  assert (S : forall k, 0 <= k < m -> sc (elem deg k) = rsqrt (2 * f)%Q).
  { intros k Hk. unfold scale. rewrite (Hf k Hk). assert (G : qltb cutoff f = true) by (unfold qltb; apply negb_true_iff; apply not_true_iff_false; intros X; apply Qle_bool_iff in X; lra). now rewrite G. }
  rewrite (CSum_ext m _ (fun k => cmul (C (factor * factor * (rsqrt (2 * f) * rsqrt (2 * f))) 0) (matmul m (adj (E deg)) (matmul m B (E deg)) k k))).
  2:{ intros k Hk. rewrite gvm_bracket, (S k Hk), (bracket_set (ddm (i + 1)) deg k k I Hk Hk). fold m B. split; cbn; ring. }
  assert (HB : forall k, B k k =c= bracket n (fun p => v p (elem deg k)) (ddm (i + 1)) (fun p => v p (elem deg k))) by (intros k; reflexivity).
  pose proof (ep_right _ _ _ _ Ok) as R. fold m in R |- *. clearbody B. set (Em := snd (eigh m (blk deg))) in *. clearbody Em. clear Ok.
  rewrite CSum_scale. transitivity (cmul (C (factor * factor * (rsqrt (2 * f) * rsqrt (2 * f))) 0) (CSum m (fun k => B k k))).
  - apply cmul_proper; [reflexivity|]. unfold matmul, adj.
    transitivity (CSum m (fun k => CSum m (fun a => CSum m (fun b => cmul (B a b) (cmul (Em b k) (conj (Em a k))))))).
    { apply CSum_ext; intros k _; apply CSum_ext; intros a _. rewrite <- CSum_scale. apply CSum_ext. intros b _. ring. }
    rewrite CSum_swap. apply CSum_ext. intros a Ha. rewrite CSum_swap. 
    rewrite (CSum_ext m _ (fun b => cmul (B a b) (if b =? a then c1 else c0))); [now apply (CSum_delta_r m a (fun b => B a b))|]. intros b Hb. rewrite CSum_scale. pose proof (R b a Hb Ha) as X. unfold matmul, adj, one in X. rewrite X. reflexivity.
  - transitivity (cscale (factor * factor * (rsqrt (2 * f) * rsqrt (2 * f))) (CSum m (fun k => B k k))); [split; cbn; ring|]. apply cscale_proper; [reflexivity|]. apply CSum_ext. intros k _. apply HB.
Qed.
(** The turned vectors are orthonormal eigenvectors of the same degenerate spaces. *)
Theorem C115_orthonormal : (forall deg, In deg deg_sets -> ok deg) -> cmeq n (matmul n (adj v) v) one ->
  (cmeq n (matmul n (adj rot) rot) one) /\
  forall (A : mat) (w : Z -> Q), (forall p s, 0 <= p < n -> 0 <= s < n -> CSum n (fun q => cmul (A p q) (v q s)) =c= cscale (w s) (v p s)) ->
    (forall deg k k', In deg deg_sets -> 0 <= k < len deg -> 0 <= k' < len deg -> w (elem deg k) = w (elem deg k')) ->
    forall p s, 0 <= p < n -> 0 <= s < n -> CSum n (fun q => cmul (A p q) (rot q s)) =c= cscale (w s) (rot p s).
Proof.
  intros Ok ON. 
  assert (Cov : forall s, 0 <= s < n -> exists deg k, In deg deg_sets /\ 0 <= k < len deg /\ s = elem deg k).
  { intros s Hs. destruct sets_ok as [_ Cv]. apply Cv in Hs. apply in_concat in Hs. destruct Hs as [deg [I1 I2]]. destruct (In_nth deg s 0 I2) as [j [Hj En]]. exists deg, (Z.of_nat j). unfold elem. rewrite Nat2Z.id. repeat split; [exact I1|lia|lia|now rewrite En]. }
  assert (Rng : forall deg k, In deg deg_sets -> 0 <= k < len deg -> 0 <= elem deg k < n).
  { intros deg k I Hk. destruct sets_ok as [_ Cv]. apply Cv. apply in_concat. exists deg. split; [exact I|]. unfold elem. apply nth_In. lia. }
  assert (Inj : forall deg k deg' k', In deg deg_sets -> In deg' deg_sets -> 0 <= k < len deg -> 0 <= k' < len deg' -> elem deg k = elem deg' k' -> deg = deg' /\ k = k').
  { destruct sets_ok as [ND _]. intros deg k deg' k' I I' Hk Hk' Ee.
    assert (M : In (elem deg k) deg) by (unfold elem; apply nth_In; lia). assert (M' : In (elem deg' k') deg') by (unfold elem; apply nth_In; lia).
    assert (DD : deg = deg').
    { clear - ND I I' M M' Ee. revert ND I I'. generalize deg_sets as sets. induction sets as [|d sets IH]; intros ND I I'; [destruct I|]. cbn [concat] in ND. destruct (nodup_app_l _ _ ND) as [N1 [N2 N3]].
      destruct I as [<-|I], I' as [<-|I']; [reflexivity| | |now apply IH].
      - exfalso. apply (N3 (elem d k) M). rewrite Ee. apply in_concat. exists deg'. tauto.
      - exfalso. apply (N3 (elem d k') M'). rewrite <- Ee. apply in_concat. exists deg. tauto. }
    split; [exact DD|]. subst deg'. assert (NDd : NoDup deg).
    { clear - ND I. revert ND I. generalize deg_sets as sets. induction sets as [|d sets IH]; intros ND I; [destruct I|]. cbn [concat] in ND. destruct (nodup_app_l _ _ ND) as [N1 [N2 N3]]. destruct I as [<-|I]; [exact N1|now apply IH]. }
    unfold elem in Ee. pose proof (proj1 (NoDup_nth deg 0) NDd (Z.to_nat k) (Z.to_nat k')) as X. specialize (X ltac:(lia) ltac:(lia) Ee). lia. }
  split.
  - intros s s' Hs Hs'. destruct (Cov s Hs) as [deg [k [I [Hk ->]]]]. destruct (Cov s' Hs') as [deg' [k' [I' [Hk' ->]]]].
    unfold matmul, adj. rewrite (CSum_ext n _ (fun p => CSum (len deg) (fun a => CSum (len deg') (fun b => cmul (cmul (conj (E deg a k)) (E deg' b k')) (cmul (conj (v p (elem deg a))) (v p (elem deg' b))))))).
    2:{ intros p _. rewrite (rot_elem deg k p I Hk), (rot_elem deg' k' p I' Hk'). rewrite CSum_conj'. unfold CSum at 1 2. 
        transitivity (CSum (len deg) (fun a => cmul (conj (cmul (columns v deg p a) (E deg a k))) (CSum (len deg') (fun b => cmul (columns v deg' p b) (E deg' b k'))))); [rewrite CSum_mul_r; reflexivity|].
        apply CSum_ext. intros a _. rewrite <- CSum_scale. apply CSum_ext. intros b _. rewrite conj_mul. unfold columns. ring. }
    rewrite CSum_swap. 
    rewrite (CSum_ext (len deg) _ (fun a => CSum (len deg') (fun b => cmul (cmul (conj (E deg a k)) (E deg' b k')) (one (elem deg a) (elem deg' b))))).
    2:{ intros a Ha. rewrite CSum_swap. apply CSum_ext. intros b Hb. rewrite CSum_scale. pose proof (ON (elem deg a) (elem deg' b) (Rng deg a I Ha) (Rng deg' b I' Hb)) as X. unfold matmul, adj in X. rewrite X. reflexivity. }
    destruct (list_eq_dec Z.eq_dec deg deg') as [<-|Nd].
    + rewrite (CSum_ext (len deg) _ (fun a => cmul (conj (E deg a k)) (E deg a k'))).
      2:{ intros a Ha. rewrite (CSum_ext (len deg) _ (fun b => cmul (cmul (conj (E deg a k)) (E deg b k')) (if b =? a then c1 else c0))).
          - now apply (CSum_delta_r (len deg) a (fun b => cmul (conj (E deg a k)) (E deg b k'))).
          - intros b Hb. unfold one. destruct (Z.eqb_spec (elem deg a) (elem deg b)) as [Ee|Ne]; [destruct (Inj deg a deg b I I Ha Hb Ee) as [_ ->]; now rewrite Z.eqb_refl|]. destruct (Z.eqb_spec b a) as [->|_]; [now contradiction Ne|reflexivity]. }
      pose proof (ep_left _ _ _ _ (Ok deg I) k k' Hk Hk') as X. unfold matmul, adj in X. rewrite X. unfold one. destruct (Z.eqb_spec k k') as [->|Nk]; [now rewrite Z.eqb_refl|]. destruct (Z.eqb_spec (elem deg k) (elem deg k')) as [Ee|_]; [|reflexivity]. destruct (Inj _ _ _ _ I I Hk Hk' Ee). contradiction.
    + assert (Z : forall a b, 0 <= a < len deg -> 0 <= b < len deg' -> one (elem deg a) (elem deg' b) = c0).
      { intros a b Ha Hb. unfold one. destruct (Z.eqb_spec (elem deg a) (elem deg' b)) as [Ee|_]; [|reflexivity]. destruct (Inj _ _ _ _ I I' Ha Hb Ee). contradiction. }
      rewrite (Z k k' Hk Hk'). unfold CSum at 1. apply csum_zero. intros a Ia. apply in_zrange in Ia. unfold CSum. apply csum_zero. intros b Ib. apply in_zrange in Ib. rewrite (Z a b Ia Ib). ring.
  - intros A w HA Hw p s Hp Hs. destruct (Cov s Hs) as [deg [k [I [Hk ->]]]]. rewrite (rot_elem deg k p I Hk).
    rewrite (CSum_ext n _ (fun q => CSum (len deg) (fun j => cmul (cmul (A p q) (v q (elem deg j))) (E deg j k)))) by (intros q _; rewrite (rot_elem deg k q I Hk), <- CSum_scale; apply CSum_ext; intros; unfold columns; ring).
    rewrite CSum_swap. transitivity (cmul (C (w (elem deg k)) 0) (CSum (len deg) (fun j => cmul (columns v deg p j) (E deg j k)))); [|split; cbn; ring].
    rewrite <- CSum_scale. apply CSum_ext. intros j Hj. rewrite CSum_mul_r, (HA p (elem deg j) Hp (Rng deg j I Hj)), (Hw deg j k I Hj Hk). unfold columns. split; cbn; ring.
Qed.
(** A diagonal element is the group velocity of the turned vector. *)
Theorem C115_diagonal : forall i s, (cutoff < freqs s)%Q -> ~ (freqs s == 0)%Q -> (rsqrt (2 * freqs s) * rsqrt (2 * freqs s) == 1 / (2 * freqs s))%Q ->
  gvm i s s =c= cscale (factor * factor / (2 * freqs s))%Q (bracket n (fun p => rot p s) (ddm (i + 1)) (fun p => rot p s)).
Proof.
  intros i s Hc H0 Hr. rewrite gvm_bracket. apply cscale_proper; [|reflexivity]. unfold scale. assert (G : qltb cutoff (freqs s) = true) by (unfold qltb; apply negb_true_iff; apply not_true_iff_false; intros X; apply Qle_bool_iff in X; lra).
  rewrite G, Hr. field. exact H0.
Qed.
End P.
Print Assumptions C115_hermitian.
Print Assumptions C115_cutoff.
Print Assumptions C115_degenerate.
Print Assumptions C115_trace.
Print Assumptions C115_orthonormal.
Print Assumptions C115_diagonal.

(** ** Example: two degenerate bands, perturbation along x *)
Definition gex_V : mat := fun p q => C (nth (Z.to_nat (2 * p + q)) [3 # 5; 4 # 5; -4 # 5; 3 # 5]%Q 0%Q) 0.
Definition gex_w (l : Z) : Q := if l =? 0 then 2%Q else (-1)%Q.
Definition gex_M : mat := matmul 2 gex_V (matmul 2 (cdiag (fun l => C (gex_w l) 0)) (adj gex_V)).
Definition gex_ddms : list mat := [gex_M; gex_M; (fun p q => if p =? q then c0 else C 0 (if p <? q then 1 else -1)%Q); one].
Definition gex_eigh (m : Z) (A : mat) : (Z -> Q) * mat := (gex_w, gex_V).
Lemma cmeq_check : forall n A B, forallb (fun p => forallb (fun q => Qeq_bool (re (A p q)) (re (B p q)) && Qeq_bool (im (A p q)) (im (B p q))) (zrange n)) (zrange n) = true -> cmeq n A B.
Proof.
  intros n A B H p q Hp Hq. rewrite forallb_forall in H. specialize (H p (proj2 (in_zrange n p) Hp)). rewrite forallb_forall in H. specialize (H q (proj2 (in_zrange n q) Hq)).
  apply andb_true_iff in H. destruct H as [H1 H2]. split; now apply Qeq_bool_iff.
Qed.
Example C115_ex : partition 2 [[0; 1]] /\
  eigenpairs 2 (block 2 gex_M (columns one [0; 1])) (fst (gex_eigh 2 (block 2 gex_M (columns one [0; 1])))) (snd (gex_eigh 2 (block 2 gex_M (columns one [0; 1])))) /\
  hermitian 2 gex_M /\
  (gvm 2 gex_eigh (fun _ => 1 # 2)%Q gex_ddms [[0; 1]] one (fun _ => 2%Q) 0 3 0 1 1 =c= C (-9 # 4) 0) /\ gvm 2 gex_eigh (fun _ => 1 # 2)%Q gex_ddms [[0; 1]] one (fun _ => 2%Q) 0 3 0 0 1 =c= c0.
Proof.
  split; [|split; [|split; [|split]]].
  - split; [cbn; repeat constructor; cbn; intuition lia|]. intros s. cbn. lia.
  - split; apply cmeq_check; vm_compute; reflexivity.
  - apply cmeq_check. vm_compute. reflexivity.
  - split; vm_compute; reflexivity.
  - split; vm_compute; reflexivity.
Qed.
