(** Kubo conductivity: heat capacity matrix, the pairs that contribute, site symmetry of the velocity matrices (C103) *)
From Coq Require Import ZArith QArith Qfield Qabs Qround List Bool Lia Lqa.
From Verif Require Import Base BaseProofs QMat Fc3Model Fc3Trans IseSpec IseProofs Cplx KapModel KapProofs KapTensor GruModel GruProofs GruProps WigModel WigProofs WigProps.
Import ListNotations.
Open Scope Z_scope.

(** ** the heat capacity matrix *)
(** the functional equation of the exponential at the two values in use *)
Definition splits (ex : Q -> Q) (a b : Q) : Prop := (ex a == ex (a - b) * ex b)%Q.
(** C_ij / kb for two modes with x = h nu / kB T *)
Definition cv_pair (ex : Q -> Q) (x y : Q) : Q := ((ex x - ex y) / (x - y) * ((x + y) / 2 * ((x + y) / 2)) / ((ex x - 1) * (ex y - 1)))%Q.
Section Cv.
  Variable ex : Q -> Q.
  Variable mode_cv : Q -> Q -> Q.
  Variable kb T : Q.
  Variable freqs : Z -> Q.
  Variable cutoff : Q.
  Local Notation cvm := (mode_cv_matrix ex mode_cv kb T freqs cutoff).
  Local Notation x i := (freqs i / kb / T)%Q.
  Lemma cvm_form : forall i j, splits ex (x i) (x j) -> (cutoff <= Qabs (freqs i - freqs j))%Q -> ~ (x i - x j == 0)%Q -> ~ (ex (x i) - 1 == 0)%Q -> ~ (ex (x j) - 1 == 0)%Q ->
    (cvm i j == kb * cv_pair ex (x i) (x j))%Q.
  Proof.
    intros i j E Hc Hs Hi Hj. unfold mode_cv_matrix. apply qltb_ge in Hc. rewrite Hc. unfold cv_pair. set (a := x i) in *. set (b := x j) in *.
    unfold splits in E. rewrite E in *. generalize dependent (ex (a - b)). intros e Hi. intros E. field. repeat split; assumption.
  Qed.
  (** off the diagonal it is symmetric in the two modes *)
  Theorem C103_cv_symmetric : forall i j, splits ex (x i) (x j) -> splits ex (x j) (x i) -> (cutoff <= Qabs (freqs i - freqs j))%Q -> ~ (x i - x j == 0)%Q -> ~ (ex (x i) - 1 == 0)%Q -> ~ (ex (x j) - 1 == 0)%Q ->
    (cvm i j == cvm j i)%Q.
  Proof.
    intros i j H H' Hc Hs Hi Hj. rewrite (cvm_form i j H Hc Hs Hi Hj). rewrite (cvm_form j i H'); [|rewrite Qabs_Qminus; exact Hc|intros K; apply Hs; lra|assumption|assumption].
    unfold cv_pair. set (a := x i) in *. set (b := x j) in *. assert (Hs' : ~ (b - a == 0)%Q) by (intros K; apply Hs; lra).
    field. repeat split; assumption.
  Qed.
  Theorem C103_cv_diagonal : forall i, (0 < cutoff)%Q -> (cvm i i == mode_cv T (freqs i))%Q.
  Proof.
    intros i Hc. unfold mode_cv_matrix. assert (N : qltb (Qabs (freqs i - freqs i)) cutoff = true).
    { apply qltb_lt. setoid_replace (freqs i - freqs i)%Q with 0%Q by ring. exact Hc. }
    rewrite N. reflexivity.
  Qed.
  (** and positive, the exponential being increasing *)
  Theorem C103_cv_positive : forall i j, splits ex (x i) (x j) -> (cutoff <= Qabs (freqs i - freqs j))%Q -> (0 < kb)%Q -> (0 < x i)%Q -> (0 < x j)%Q -> (1 < ex (x i))%Q -> (1 < ex (x j))%Q ->
    (0 < (ex (x i) - ex (x j)) * (x i - x j))%Q -> (0 < cvm i j)%Q.
  Proof.
    intros i j H Hc Hk Xi Xj Ei Ej Hinc. assert (S : ~ (x i - x j == 0)%Q) by (intros K; rewrite K, Qmult_0_r in Hinc; lra).
    rewrite cvm_form; [|exact H|exact Hc|exact S|intros K; lra|intros K; lra].
    apply Qmult_lt_0_compat; [exact Hk|]. unfold cv_pair. set (a := x i) in *. set (b := x j) in *.
    assert (D : (0 < (ex a - ex b) / (a - b))%Q).
    { assert (E : ((ex a - ex b) / (a - b) == (ex a - ex b) * (a - b) * / ((a - b) * (a - b)))%Q) by (field; exact S). rewrite E. apply Qmult_lt_0_compat; [exact Hinc|]. apply Qinv_lt_0_compat.
      destruct (Qlt_le_dec (a - b) 0) as [L | L]; [nra|]. apply Qle_lteq in L. destruct L as [L | L]; [nra|exfalso; apply S; symmetry; exact L]. }
    unfold Qdiv. apply Qmult_lt_0_compat; [apply Qmult_lt_0_compat; [exact D|]|].
    - assert (0 < (a + b) * / 2)%Q by (apply Qmult_lt_0_compat; [lra|reflexivity]). apply Qmult_lt_0_compat; assumption.
    - apply Qinv_lt_0_compat. apply Qmult_lt_0_compat; lra.
  Qed.
  (** among modes closer than the cutoff the matrix is not symmetric: both elements of a row take the heat capacity of the row's mode *)
  Theorem C103_cv_asymmetric_refuted : forall i j, (Qabs (freqs i - freqs j) < cutoff)%Q -> ~ (mode_cv T (freqs i) == mode_cv T (freqs j))%Q -> ~ (cvm i j == cvm j i)%Q.
  Proof.
    intros i j Hc Hn H. unfold mode_cv_matrix in H. rewrite (Qabs_Qminus (freqs j) (freqs i)) in H. apply qltb_lt in Hc. rewrite Hc in H. exact (Hn H).
  Qed.
End Cv.
Print Assumptions C103_cv_symmetric.
Print Assumptions C103_cv_diagonal.
Print Assumptions C103_cv_positive.
Print Assumptions C103_cv_asymmetric_refuted.

(** ** temperatures *)
(** the heat capacity of a pair must not depend on the other modes; but one mode with h nu > 100 kB T removes those of all modes of the
    q-point, whatever their frequencies *)
Theorem C103_cold_refuted : forall ex mode_cv ev kb T nb freq cutoff i j s, 0 <= s < nb -> (100 < freq s * ev / (T * kb))%Q ->
  kubo_cv ex mode_cv ev kb T nb freq cutoff i j = 0%Q.
Proof.
  intros ex mode_cv ev kb T nb freq cutoff i j s Hs H. unfold kubo_cv. assert (E : existsb (fun s => qltb 100 (freq s * ev / (T * kb))%Q) (zrange nb) = true).
  { apply existsb_exists. exists s. split; [apply in_zrange; lia|apply qltb_lt; exact H]. }
  rewrite E. reflexivity.
Qed.
Theorem C103_warm : forall ex mode_cv ev kb T nb freq cutoff i j, (forall s, 0 <= s < nb -> (freq s * ev / (T * kb) <= 100)%Q) ->
  kubo_cv ex mode_cv ev kb T nb freq cutoff i j = mode_cv_matrix ex mode_cv kb T (fun s => freq s * ev)%Q (cutoff * ev)%Q i j.
Proof.
  intros ex mode_cv ev kb T nb freq cutoff i j H. unfold kubo_cv. assert (E : existsb (fun s => qltb 100 (freq s * ev / (T * kb))%Q) (zrange nb) = false).
  { apply not_true_is_false. intros K. apply existsb_exists in K. destruct K as [s [Hs K]]. apply in_zrange in Hs. apply qltb_lt in K. specialize (H s ltac:(lia)). lra. }
  rewrite E. reflexivity.
Qed.
Print Assumptions C103_cold_refuted.
Print Assumptions C103_warm.

(** ** the sum over pairs *)
Section Sum.
  Variable nb : Z.
  Variable cutoff conv : Q.
  Variable freq g : Z -> Q.
  Variable cvm : Z -> Z -> Q.
  Variable v2 : Z -> Z -> Z -> cplx.
  Local Notation pair := (kubo_pair conv freq g cvm v2).
  Local Notation modes := (kubo_modes nb cutoff conv freq g cvm v2).
  Lemma row_other : forall i l m x c, ~ In x l -> kubo_row cutoff conv freq g cvm v2 i l m x c = m x c.
  Proof.
    intros i. induction l as [|k l IH]; intros m x c H; [reflexivity|]. cbn [kubo_row]. destruct (qltb (freq k) cutoff); [reflexivity|].
    rewrite IH by (intros K; apply H; now right). destruct (x =? k) eqn:E; [|reflexivity]. apply Z.eqb_eq in E. exfalso. apply H. now left.
  Qed.
  Lemma row_stop : forall i l k l' m, (freq k < cutoff)%Q -> kubo_row cutoff conv freq g cvm v2 i (l ++ k :: l') m = kubo_row cutoff conv freq g cvm v2 i l m.
  Proof.
    intros i. induction l as [|a l IH]; intros k l' m H; cbn [app kubo_row].
    - apply qltb_lt in H. rewrite H. reflexivity.
    - destruct (qltb (freq a) cutoff); [reflexivity|]. apply IH. exact H.
  Qed.
  Lemma row_all : forall i l m x c, (forall k, In k l -> (cutoff <= freq k)%Q) -> NoDup l -> In x l -> kubo_row cutoff conv freq g cvm v2 i l m x c = pair i x c.
  Proof.
    intros i. induction l as [|k l IH]; intros m x c H ND Hx; [destruct Hx|]. inversion ND; subst. cbn [kubo_row].
    pose proof (H k (or_introl eq_refl)) as Hk. apply qltb_ge in Hk. rewrite Hk. destruct (in_dec Z.eq_dec x l) as [Hin | Hin].
    - apply IH; [intros; apply H; now right|assumption|exact Hin].
    - rewrite row_other by exact Hin. destruct Hx as [-> | Hx]; [|contradiction]. rewrite Z.eqb_refl. reflexivity.
  Qed.
  Lemma kubo_all : forall i j c, 0 <= i < nb -> 0 <= j < nb -> (forall s, 0 <= s < nb -> (cutoff <= freq s)%Q) -> modes i j c = pair i j c.
  Proof.
    intros i j c Hi Hj H. unfold kubo_modes. assert (Hl : qltb (freq i) cutoff = false) by (apply qltb_ge, H; lia). rewrite Hl.
    apply row_all; [intros k Hk; apply in_zrange in Hk; apply H; lia|apply NoDup_zrange|apply in_zrange; lia].
  Qed.
  (** with every band above the cutoff: the sum over all pairs *)
  Theorem C103_sum : forall c, (forall s, 0 <= s < nb -> (cutoff <= freq s)%Q) ->
    (kubo_kappa nb cutoff conv freq g cvm v2 c ==
     QS nb (fun i => QS nb (fun j => cvm i j * ((g i + g j) / ((freq i - freq j) * (freq i - freq j) + (g i + g j) * (g i + g j))) * conv * re (v2 i j c))))%Q.
  Proof.
    intros c H. unfold kubo_kappa, CSum. rewrite (proj1 (csum_parts _)), map_map. apply qs_ext. intros i Hi. rewrite (proj1 (csum_parts _)), map_map. apply qs_ext. intros j Hj.
    apply in_zrange in Hi. apply in_zrange in Hj. rewrite kubo_all by (assumption || lia). unfold kubo_pair.
    assert (E : ((freq j - freq i) * (freq j - freq i) == (freq i - freq j) * (freq i - freq j))%Q) by ring.
    destruct (Qeq_bool _ 0) eqn:Z; cbn [re c0 cscale].
    - apply Qeq_bool_iff in Z. rewrite E in Z. rewrite Z. unfold Qdiv. change (/ 0)%Q with 0%Q. ring.
    - rewrite E. unfold Qdiv. ring.
  Qed.
  (** a mode on the diagonal: the ordinary relaxation time formula *)
  Theorem C103_diagonal : forall i c, 0 <= i < nb -> (forall s, 0 <= s < nb -> (cutoff <= freq s)%Q) -> ~ (g i == 0)%Q ->
    (re (modes i i c) == re (v2 i i c) * cvm i i / (g i * 2) * conv)%Q.
  Proof.
    intros i c Hi H Hg. rewrite kubo_all by assumption. unfold kubo_pair.
    assert (E : ((freq i - freq i) * (freq i - freq i) + (g i + g i) * (g i + g i) == (g i * 2) * (g i * 2))%Q) by ring.
    destruct (Qeq_bool _ 0) eqn:Z; cbn [re c0 cscale].
    - apply Qeq_bool_iff in Z. rewrite E in Z. exfalso. apply Hg. apply Qmult_integral in Z. destruct Z as [Z | Z]; lra.
    - rewrite E. field. exact Hg.
  Qed.
  (** a band below the cutoff ends the loop over the second band: no pair with an equal or later second band contributes, although both of
      its modes may be far above the cutoff. At the zone centre, where the bands 0, 1 and 2 are acoustic, no pair is left *)
  Theorem C103_return_refuted : forall k i j c, 0 <= k < nb -> (freq k < cutoff)%Q -> k <= j < nb -> modes i j c = c0.
  Proof.
    intros k i j c Hk H Hj. unfold kubo_modes. destruct (qltb (freq i) cutoff); [reflexivity|].
    assert (S : exists l', zrange nb = zrange k ++ k :: l').
    { unfold zrange. replace (Z.to_nat nb) with (Z.to_nat k + S (Z.to_nat (nb - k - 1)))%nat by lia. rewrite seq_app, map_app. cbn [seq map].
      replace (Z.of_nat (0 + Z.to_nat k)) with k by lia. eexists. reflexivity. }
    destruct S as [l' E]. rewrite E, row_stop by exact H. apply row_other. intros K. apply in_zrange in K. lia.
  Qed.
End Sum.
Print Assumptions C103_sum.
Print Assumptions C103_diagonal.
Print Assumptions C103_return_refuted.

(** the Kubo and the Wigner conductivities weigh the squared velocity of a pair with the same Lorentzian; only the heat capacity differs *)
Theorem C103_wigner : forall ev conv convK freq g cv cvm v2 a b c, ~ (ev == 0)%Q -> ~ ((freq a - freq b) * (freq a - freq b) + (g a + g b) * (g a + g b) == 0)%Q -> (convK == conv / ev)%Q ->
  ((freq a + freq b) / 4 * (cv a / freq a + cv b / freq b) == cvm a b)%Q ->
  (contribution_wig ev conv freq g cv v2 a b c == re (kubo_pair convK freq g cvm v2 a b c))%Q.
Proof.
  intros ev conv convK freq g cv cvm v2 a b c He Hd Hk Hc. rewrite contribution_form by exact He. unfold kubo_pair.
  assert (E : ((freq b - freq a) * (freq b - freq a) == (freq a - freq b) * (freq a - freq b))%Q) by ring.
  destruct (Qeq_bool _ 0) eqn:Z; [apply Qeq_bool_iff in Z; rewrite E in Z; contradiction|]. cbn [re cscale]. rewrite E. unfold pair_weight. rewrite Hc, Hk. unfold Qdiv. ring.
Qed.
Print Assumptions C103_wigner.

(** ** site symmetry of the velocity matrices *)
(** what the eigenvectors demand: an operation that keeps q multiplies the eigenvectors by phases [chi] (non-degenerate bands), and the
    rotated matrix is the old one with these phases *)
Definition covariant (nb : Z) (r : Z -> Z -> Q) (chi : Z -> cplx) (v : Z -> Z -> Z -> cplx) : Prop :=
  forall i k l, 0 <= i < 3 -> 0 <= k < nb -> 0 <= l < nb -> CSum 3 (fun j => cmul (C (r i j) 0) (v j k l)) =c= cmul (cmul (chi k) (conj (chi l))) (v i k l).
Definition herm_mat (nb : Z) (v : Z -> Z -> Z -> cplx) : Prop := forall i k l, 0 <= i < 3 -> 0 <= k < nb -> 0 <= l < nb -> v i l k =c= conj (v i k l).
(** group velocities, the diagonal elements, are kept *)
Theorem C103_site_diagonal : forall nb rots (chi : (Z -> Z -> Q) -> Z -> cplx) v i k, rots <> [] -> herm_mat nb v ->
  (forall r, In r rots -> covariant nb r (chi r) v) -> (forall r k, In r rots -> 0 <= k < nb -> (cnorm2 (chi r k) == 1)%Q) -> 0 <= i < 3 -> 0 <= k < nb ->
  gvm_sym rots v i k k =c= v i k k.
Proof.
  intros nb rots chi v i k Hne Hh Hc Hn Hi Hk.
  assert (S : gvm_site rots v i k k =c= v i k k).
  { unfold gvm_site. transitivity (cscale (/ inject_Z (Z.of_nat (length rots))) (csum (map (fun _ : Z -> Z -> Q => v i k k) rots))).
    - apply cscale_proper; [reflexivity|]. apply csum_ext. intros r Hr. rewrite (Hc r Hr i k k Hi Hk Hk). specialize (Hn r k Hr Hk). unfold cnorm2 in Hn.
      assert (E : cmul (chi r k) (conj (chi r k)) =c= c1) by (split; cbn; [rewrite <- Hn|]; ring). rewrite E. ring.
    - assert (L : ~ (inject_Z (Z.of_nat (length rots)) == 0)%Q). { destruct rots; [congruence|]. cbn [length]. unfold Qeq, inject_Z. cbn [Qnum Qden]. lia. }
      split; cbn [cscale re im]; rewrite ?(proj1 (csum_parts _)), ?(proj2 (csum_parts _)), map_map, qs_const; field; exact L. }
  unfold gvm_sym. rewrite S. pose proof (Hh i k k Hi Hk Hk) as [_ H]. cbn in H. assert (I : (im (v i k k) == 0)%Q) by lra. split; cbn; [field|rewrite I; ring].
Qed.
(** but off the diagonal the average forgets the phases: a matrix that is right already, on a mirror plane with one even and one odd band,
    loses its element between them *)
Definition mirror (i j : Z) : Q := if i =? j then (if i =? 0 then (-1)%Q else 1%Q) else 0%Q.
Definition mirror_v (i k l : Z) : cplx := if (i =? 0) && negb (k =? l) then c1 else if (i =? 1) && (k =? l) then C 2 0 else c0.
Definition mirror_chi (r : Z -> Z -> Q) (k : Z) : cplx := if k =? 0 then c1 else C (r 0 0) 0.
Theorem C103_site_refuted :
  herm_mat 2 mirror_v /\ (forall r, In r [id3; mirror] -> covariant 2 r (mirror_chi r) mirror_v) /\
  (forall r k, In r [id3; mirror] -> 0 <= k < 2 -> (cnorm2 (mirror_chi r k) == 1)%Q) /\
  ~ (gvm_sym [id3; mirror] mirror_v 0 0 1 =c= mirror_v 0 0 1) /\ gvm_sym [id3; mirror] mirror_v 0 0 1 =c= c0.
Proof.
  assert (A : forall P : Z -> Prop, P 0 -> P 1 -> P 2 -> forall x, 0 <= x < 3 -> P x).
  { intros P P0 P1 P2 x Hx. assert (Cx : x = 0 \/ x = 1 \/ x = 2) by lia. destruct Cx as [-> | [-> | ->]]; assumption. }
  assert (B : forall P : Z -> Prop, P 0 -> P 1 -> forall x, 0 <= x < 2 -> P x).
  { intros P P0 P1 x Hx. assert (Cx : x = 0 \/ x = 1) by lia. destruct Cx as [-> | ->]; assumption. }
  split; [intros i k l Hi Hk Hl; revert i Hi; apply A; revert k Hk; apply B; revert l Hl; apply B; split; vm_compute; reflexivity|].
  split; [intros r [<- | [<- | []]] i k l Hi Hk Hl; revert i Hi; apply A; revert k Hk; apply B; revert l Hl; apply B; split; vm_compute; reflexivity|].
  split; [intros r k [<- | [<- | []]] Hk; revert k Hk; apply B; vm_compute; reflexivity|].
  split; [intros [H _]; vm_compute in H; discriminate|split; vm_compute; reflexivity].
Qed.
Print Assumptions C103_site_diagonal.
Print Assumptions C103_site_refuted.

(** ** examples *)
(** powers of two at integer x: frequencies 1, 3 and 4 with kb T = 1 *)
Definition two_to (x : Q) : Q := Qpower 2 (Qfloor x).
Definition kx_freq (s : Z) : Q := if s =? 0 then 1%Q else if s =? 1 then 3%Q else 4%Q.
Definition kx_cvm : Z -> Z -> Q := mode_cv_matrix two_to (fun _ f => f) 1 1 kx_freq (1 # 2).
Definition kx_v2 (i j c : Z) : cplx := C (inject_Z (1 + i + j + c)) 0.
Example C103_example :
  (forall i j, 0 <= i < 3 -> 0 <= j < 3 -> splits two_to (kx_freq i / 1 / 1) (kx_freq j / 1 / 1) /\ (1 < two_to (kx_freq i / 1 / 1))%Q /\
     (i <> j -> (0 < (two_to (kx_freq i / 1 / 1) - two_to (kx_freq j / 1 / 1)) * (kx_freq i / 1 / 1 - kx_freq j / 1 / 1))%Q)) /\
  (kx_cvm 0%Z 1%Z == kx_cvm 1%Z 0%Z)%Q /\ (kx_cvm 0%Z 1%Z == 12 # 7)%Q /\
  (0 < kubo_kappa 3 (1 # 2) 1 kx_freq (fun _ => 1 # 4) kx_cvm kx_v2 0)%Q /\
  (forall c, kubo_kappa 3 2 1 kx_freq (fun _ => 1 # 4) kx_cvm kx_v2 c == 0)%Q /\ ~ (kubo_pair 1 kx_freq (fun _ => 1 # 4) kx_cvm kx_v2 1 2 0 =c= c0).
Proof.
  assert (A : forall P : Z -> Prop, P 0 -> P 1 -> P 2 -> forall x, 0 <= x < 3 -> P x).
  { intros P P0 P1 P2 x Hx. assert (Cx : x = 0 \/ x = 1 \/ x = 2) by lia. destruct Cx as [-> | [-> | ->]]; assumption. }
  split.
  { intros i j Hi Hj. revert i Hi. apply A; revert j Hj; apply A; (split; [vm_compute; reflexivity|]; split; [vm_compute; reflexivity|]; intros Hn; (congruence || (vm_compute; reflexivity))). }
  split; [vm_compute; reflexivity|]. split; [vm_compute; reflexivity|]. split; [vm_compute; reflexivity|]. split.
  - intros c. unfold kubo_kappa, CSum. rewrite (proj1 (csum_parts _)), map_map. apply qs_zero. intros i _. rewrite (proj1 (csum_parts _)), map_map. apply qs_zero. intros j Hj. apply in_zrange in Hj.
    rewrite (C103_return_refuted 3 2 1 kx_freq (fun _ => 1 # 4)%Q kx_cvm kx_v2 0 i j c); [reflexivity|lia|reflexivity|lia].
  - intros [H _]. vm_compute in H. discriminate.
Qed.
(** one mode at x = 101 freezes out the mode at x = 1 as well *)
Example C103_cold_example : kubo_cv two_to (fun _ f => f) 1 1 1 2 (fun s => if s =? 0 then 1%Q else 101%Q) (1 # 2) 0 0 = 0%Q /\
  ~ (mode_cv_matrix two_to (fun _ f => f) 1 1 (fun s => if s =? 0 then 1%Q else 101%Q) (1 # 2) 0%Z 0%Z == 0)%Q.
Proof. split; [vm_compute; reflexivity|]. intros H. vm_compute in H. discriminate. Qed.
(** near degenerate modes *)
Example C103_asymmetric_example : let f := fun s => if s =? 0 then 1%Q else (5 # 4)%Q in
  ~ (mode_cv_matrix two_to (fun _ f => f) 1 1 f (1 # 2) 0%Z 1%Z == mode_cv_matrix two_to (fun _ f => f) 1 1 f (1 # 2) 1%Z 0%Z)%Q.
Proof. intros f H. vm_compute in H. discriminate. Qed.
