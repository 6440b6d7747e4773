(** fc3 in reciprocal space: the table of triplets whose three shortest vectors close (C82). *)
From Coq Require Import ZArith QArith Qabs List Bool Lia Lqa Setoid Permutation.
From Verif Require Import Base BaseProofs QMat Par Par2 IseSpec IseProofs Cplx DynModel DynProofs DynProps R2nProps Fc3Spec R2rModel R2rProofs.
Import ListNotations.
Open Scope Z_scope.

(** ** Specification *)
Definition veq (v w : Z -> Q) : Prop := forall c, 0 <= c < 3 -> (v c == w c)%Q.
Definition vadd (v w : Z -> Q) (c : Z) : Q := (v c + w c)%Q.
Definition vneg (v : Z -> Q) (c : Z) : Q := (- v c)%Q.
(** v leads from atom a to an image of atom b; x holds the positions, M the basis vectors of the supercell, both in units of the basis vectors of the primitive cell *)
Definition image (x : Z -> Z -> Q) (M : Z -> Z -> Z) (a b : Z) (v : Z -> Q) : Prop :=
  exists n : Z -> Z, forall c, 0 <= c < 3 -> (v c == x b c - x a c + inject_Z (n 0%Z * M 0%Z c + n 1%Z * M 1%Z c + n 2%Z * M 2%Z c))%Q.
(** and is among the shortest ones within a tolerance *)
Definition nearest (len : (Z -> Q) -> Q) (tol : Q) x M (a b : Z) (v : Z -> Q) : Prop :=
  image x M a b v /\ exists m, image x M a b m /\ (forall w, image x M a b w -> (len m <= len w)%Q) /\ (len v < len m + tol)%Q.
Definition length_like (len : (Z -> Q) -> Q) : Prop := (forall v w, veq v w -> (len v == len w)%Q) /\ (forall v, (len (vneg v) == len v)%Q).
(** the tables list exactly the shortest vectors, once each *)
Definition shortest_table (len : (Z -> Q) -> Q) (tol : Q) x M (np ns : Z) (svecs : Z -> Z -> Q) (multi : Z -> Z * Z) (p2s : Z -> Z) : Prop :=
  forall p s, 0 <= p < np -> 0 <= s < ns -> let mu := tab_mult np multi p s in let v := tab_vec np svecs multi p s in
    0 < mu /\ (forall a, 0 <= a < mu -> nearest len tol x M (p2s p) s (v a)) /\ (forall w, nearest len tol x M (p2s p) s w -> exists a, 0 <= a < mu /\ veq w (v a)) /\
    (forall a b, 0 <= a < mu -> 0 <= b < mu -> veq (v a) (v b) -> a = b).
(** perms are translations by vectors of the primitive lattice *)
Definition translations (x : Z -> Z -> Q) (M : Z -> Z -> Z) (ns ntrans : Z) (perms : Z -> Z -> Z) : Prop :=
  forall t, 0 <= t < ntrans -> exists tau : Z -> Z, forall s, 0 <= s < ns -> image x M s (perms t s) (fun c => inject_Z (tau c)).
(** fc3 as a function of three (supercell atom, direction) slots *)
Definition represents (np ns : Z) (p2s : Z -> Z) (is_compact : bool) (fc3 : Z -> Q) (F : Z * Z -> Z * Z -> Z * Z -> Q) : Prop :=
  forall i s t l m n, 0 <= i < np -> 0 <= s < ns -> 0 <= t < ns -> 0 <= l < 3 -> 0 <= m < 3 -> 0 <= n < 3 ->
    (fc3_at ns p2s is_compact fc3 i s t l m n == F (p2s i, l) (s, m) (t, n))%Q.
Definition invariant3 (ns ntrans : Z) (perms : Z -> Z -> Z) (F : Z * Z -> Z * Z -> Z * Z -> Q) : Prop :=
  forall u a b c l m n, 0 <= u < ntrans -> 0 <= a < ns -> 0 <= b < ns -> 0 <= c < ns -> 0 <= l < 3 -> 0 <= m < 3 -> 0 <= n < 3 ->
    (F (perms u a, l) (perms u b, m) (perms u c, n) == F (a, l) (b, m) (c, n))%Q.
(** mean of the lattice sums seen from the first, second and third atom *)
Definition r0_average (cis : Q -> cplx) (np ns : Z) svecs multi p2s s2p (Phi : Z -> Z -> Z -> Z -> Z -> Z -> Q) (q : Z -> Z -> Q) (i j k l m n : Z) : cplx :=
  let one := fun _ _ _ : Z => 1%Q in let lat := lattice3 cis np ns svecs multi p2s s2p in let pre := origin_phase cis np svecs multi p2s q in
  cscale (1 # 3) (cadd (cadd
    (cmul (lat (fun i s t => Phi i s t l m n) one (q 1) (q 2) i j k) (pre i))
    (cmul (lat (fun j s t => Phi j s t m l n) one (q 0) (q 2) j i k) (pre j)))
    (cmul (lat (fun k s t => Phi k s t n m l) one (q 1) (q 0) k j i) (pre k))).

Lemma veq_refl : forall v, veq v v. Proof. intros v c _. reflexivity. Qed.
Lemma veq_sym : forall v w, veq v w -> veq w v. Proof. intros v w H c Hc. symmetry. now apply H. Qed.
Lemma veq_trans : forall u v w, veq u v -> veq v w -> veq u w. Proof. intros u v w H1 H2 c Hc. rewrite (H1 c Hc). now apply H2. Qed.
Lemma vdot_veq : forall q v w, veq v w -> (vdot q v == vdot q w)%Q. Proof. intros q v w H. unfold vdot. rewrite (H 0), (H 1), (H 2) by lia. reflexivity. Qed.

Lemma ceq_refl : forall a, a =c= a. Proof. reflexivity. Qed.
Lemma cscale_assoc : forall x p g, cmul (cscale x p) g =c= cscale x (cmul p g). Proof. intros. split; cbn; ring. Qed.
Section G.
Variable x : Z -> Z -> Q.
Variable M : Z -> Z -> Z.
Variable len : (Z -> Q) -> Q.
Variable tol : Q.
Hypothesis Hlen : length_like len.
Hypothesis Htol : (0 < tol)%Q.
Local Notation image := (image x M).
Local Notation nearest := (nearest len tol x M).

Lemma image_ext : forall a b v w, veq v w -> image a b v -> image a b w.
Proof. intros a b v w E [n H]. exists n. intros c Hc. rewrite <- (E c Hc). now apply H. Qed.
Lemma image_neg : forall a b v, image a b v -> image b a (vneg v).
Proof. intros a b v [n H]. exists (fun i => - n i). intros c Hc. unfold vneg. rewrite (H c Hc), !inject_Z_plus, !inject_Z_mult, !inject_Z_opp. ring. Qed.
Lemma image_add : forall a b c v w, image a b v -> image b c w -> image a c (vadd v w).
Proof. intros a b c v w [n H] [n' H']. exists (fun i => n i + n' i). intros d Hd. unfold vadd. rewrite (H d Hd), (H' d Hd), !inject_Z_plus, !inject_Z_mult, !inject_Z_plus. ring. Qed.
Lemma neg_neg : forall v, veq (vneg (vneg v)) v. Proof. intros v c _. unfold vneg. ring. Qed.
Lemma image_move : forall a b a' b' tau v, image a a' tau -> image b b' tau -> image a b v -> image a' b' v.
Proof.
  intros a b a' b' tau v Ha Hb H. apply (image_ext _ _ (vadd (vadd (vneg tau) v) tau)); [intros c _; unfold vadd, vneg; ring|].
  eapply image_add; [eapply image_add; [apply image_neg; exact Ha|exact H]|exact Hb].
Qed.
Lemma nearest_of : forall a b a' b', (forall v, image a b v <-> image a' b' v) -> forall v, nearest a b v <-> nearest a' b' v.
Proof. intros a b a' b' H v. unfold R2rShort.nearest. rewrite (H v). split; (intros [H1 [m [H2 [H3 H4]]]]; split; [exact H1|exists m; split; [now apply H|split; [intros w Hw; apply H3, H, Hw|exact H4]]]). Qed.
Lemma nearest_neg : forall a b v, nearest a b v -> nearest b a (vneg v).
Proof.
  intros a b v [H1 [m [H2 [H3 H4]]]]. destruct Hlen as [L1 L2]. split; [now apply image_neg|]. exists (vneg m). split; [now apply image_neg|]. split.
  - intros w Hw. rewrite L2. rewrite <- (L2 w). apply H3. now apply image_neg.
  - rewrite !L2. exact H4.
Qed.
Lemma nearest_ext : forall a b v w, veq v w -> nearest a b v -> nearest a b w.
Proof. intros a b v w E [H1 [m [H2 [H3 H4]]]]. split; [now apply (image_ext _ _ v)|]. exists m. rewrite <- (proj1 Hlen v w E). auto. Qed.
Definition uniq (a b : Z) (v : Z -> Q) : Prop := nearest a b v /\ forall w, nearest a b w -> veq w v.
Lemma uniq_neg : forall a b v, uniq a b v -> uniq b a (vneg v).
Proof.
  intros a b v [H1 H2]. split; [now apply nearest_neg|]. intros w Hw. apply nearest_neg in Hw. apply H2 in Hw. intros c Hc. specialize (Hw c Hc). unfold vneg in *. rewrite <- Hw. ring.
Qed.
Lemma uniq_of : forall a b a' b', (forall v, image a b v <-> image a' b' v) -> forall v, uniq a b v -> uniq a' b' v.
Proof. intros a b a' b' H v [H1 H2]. split; [now apply (nearest_of a b a' b' H)|]. intros w Hw. apply H2. now apply (nearest_of a b a' b' H). Qed.
Lemma uniq_ext : forall a b v w, veq v w -> uniq a b v -> uniq a b w.
Proof. intros a b v w E [H1 H2]. split; [now apply (nearest_ext _ _ v)|]. intros u Hu. apply (veq_trans _ v); auto. Qed.
(** a vector as long as the only shortest one is that one *)
Lemma uniq_length : forall a b f v, uniq a b f -> image a b v -> (len v < len f + tol)%Q -> veq v f.
Proof.
  intros a b f v [[F1 [m [F2 [F3 F4]]]] U] Hv L. apply U. split; [exact Hv|]. exists m. split; [exact F2|]. split; [exact F3|].
  assert (E : veq m f) by (apply U; split; [exact F2|]; exists m; split; [exact F2|]; split; [exact F3|lra]). rewrite (proj1 Hlen m f E). exact L.
Qed.
(** unique shortest vectors between three atoms that close *)
Definition closes (a b c : Z) : Prop := exists u v w, uniq a b u /\ uniq a c v /\ uniq b c w /\ veq (vadd u w) v.
Lemma closes_12 : forall a b c, closes a b c -> closes b a c.
Proof.
  intros a b c [u [v [w [U [V [W E]]]]]]. exists (vneg u), w, v. split; [now apply uniq_neg|]. split; [exact W|]. split; [exact V|].
  intros d Hd. specialize (E d Hd). unfold vadd, vneg in *. rewrite <- E. ring.
Qed.
Lemma closes_13 : forall a b c, closes a b c -> closes c b a.
Proof.
  intros a b c [u [v [w [U [V [W E]]]]]]. exists (vneg w), (vneg v), (vneg u). split; [now apply uniq_neg|]. split; [now apply uniq_neg|]. split; [now apply uniq_neg|].
  intros d Hd. specialize (E d Hd). unfold vadd, vneg in *. rewrite <- E. ring.
Qed.
Lemma closes_of : forall a b c a' b' c', (forall v, image a b v <-> image a' b' v) -> (forall v, image a c v <-> image a' c' v) -> (forall v, image b c v <-> image b' c' v) -> closes a b c -> closes a' b' c'.
Proof. intros a b c a' b' c' H1 H2 H3 [u [v [w [U [V [W E]]]]]]. exists u, v, w. split; [now apply (uniq_of a b)|]. split; [now apply (uniq_of a c)|]. split; [now apply (uniq_of b c)|exact E]. Qed.

Variable np ns ntrans : Z.
Variable perms : Z -> Z -> Z.
Hypothesis Tr : translations x M ns ntrans perms.
Lemma image_perm : forall t a b v, 0 <= t < ntrans -> 0 <= a < ns -> 0 <= b < ns -> image a b v <-> image (perms t a) (perms t b) v.
Proof.
  intros t a b v Ht Ha Hb. destruct (Tr t Ht) as [tau H]. split; intros I.
  - apply (image_move a b _ _ (fun c => inject_Z (tau c))); auto.
  - apply (image_move (perms t a) (perms t b) a b (vneg (fun c => inject_Z (tau c)))); auto; apply image_neg; auto.
Qed.
Lemma closes_perm : forall t a b c, 0 <= t < ntrans -> 0 <= a < ns -> 0 <= b < ns -> 0 <= c < ns -> closes a b c <-> closes (perms t a) (perms t b) (perms t c).
Proof. intros t a b c Ht Ha Hb Hc. split; apply closes_of; intros v; rewrite <- image_perm by assumption; reflexivity. Qed.

Variable svecs : Z -> Z -> Q.
Variable multi : Z -> Z * Z.
Variable p2s s2p p2p nsym : Z -> Z.
Hypothesis Tab : shortest_table len tol x M np ns svecs multi p2s.
Hypothesis LT : lattice_tables p2s (fun s => p2p (s2p s)) nsym perms ns np ntrans.
Hypothesis Hs2p : forall s, 0 <= s < ns -> s2p s = p2s (p2p (s2p s)).
Local Notation s2pp := (fun s => p2p (s2p s)).

Lemma mult_uniq : forall p s, 0 <= p < np -> 0 <= s < ns -> (mult np multi s p = 1 <-> exists v, uniq (p2s p) s v).
Proof.
  intros p s Hp Hs. destruct (Tab p s Hp Hs) as [H1 [H2 [H3 H4]]]. unfold tab_mult, mult in *. split.
  - intros E. exists (tab_vec np svecs multi p s 0). split; [apply H2; lia|]. intros w Hw. destruct (H3 w Hw) as [a [Ha V]]. replace a with 0 in V by lia. exact V.
  - intros [v [V1 V2]]. destruct (Z.eq_dec (fst (multi (s * np + p))) 1) as [|N]; [assumption|exfalso]. assert (X : 0 = 1); [|lia]. apply H4; [lia|lia|]. apply (veq_trans _ v); [apply V2, H2; lia|apply veq_sym, V2, H2; lia].
Qed.
Lemma first_uniq : forall p s, 0 <= p < np -> 0 <= s < ns -> mult np multi s p = 1 -> uniq (p2s p) s (first_vec np svecs multi s p).
Proof.
  intros p s Hp Hs E. destruct (proj1 (mult_uniq p s Hp Hs) E) as [v V]. apply (uniq_ext _ _ v); [|exact V]. apply veq_sym. apply V. destruct (Tab p s Hp Hs) as [H1 [H2 _]].
  specialize (H2 0 ltac:(lia)). unfold tab_vec in H2. rewrite Z.add_0_r in H2. exact H2.
Qed.
Lemma home_hd : forall s, 0 <= s < ns -> let t := hd 0 (where_home p2s s2p p2p ntrans perms s) in 0 <= t < ntrans /\ perms t s = p2s (s2pp s).
Proof.
  intros s Hs t. assert (I : In (nsym s) (where_home p2s s2p p2p ntrans perms s)).
  { unfold where_home. apply filter_In. split; [apply in_zrange; now apply (lt_nsym _ _ _ _ _ _ _ LT)|]. apply Z.eqb_eq. unfold R2rModel.s2pp. now apply (lt_home _ _ _ _ _ _ _ LT). }
  assert (J : In t (where_home p2s s2p p2p ntrans perms s)) by (unfold t; destruct (where_home _ _ _ _ _ _); [destruct I|now left]).
  unfold where_home in J. apply filter_In in J as [J1 J2]. apply in_zrange in J1. apply Z.eqb_eq in J2. auto.
Qed.
Lemma is_shortest_spec : forall i j k, 0 <= i < np -> 0 <= j < ns -> 0 <= k < ns -> is_shortest len np svecs multi p2s s2p p2p ntrans perms tol i j k = true <-> closes (p2s i) j k.
Proof.
  intros i j k Hi Hj Hk. pose proof (lt_p2s _ _ _ _ _ _ _ LT i Hi) as Hpi. unfold is_shortest. destruct (home_hd j Hj) as [Ht Et]. set (t := hd 0 _) in *. set (k' := perms t k). assert (Hk' : 0 <= k' < ns) by (apply (lt_perm _ _ _ _ _ _ _ LT); assumption).
  unfold R2rModel.s2pp. pose proof (lt_s2pp _ _ _ _ _ _ _ LT j Hj) as Hjp. cbn beta in Hjp. set (jp := p2p (s2p j)) in *.
  assert (Im : forall v, image j k v <-> image (p2s jp) k' v) by (intros v; rewrite (image_perm t j k v Ht Hj Hk), Et; reflexivity).
  assert (P1 := proj1 (Tab i j Hi Hj)). assert (P2 := proj1 (Tab i k Hi Hk)). assert (P3 := proj1 (Tab jp k' Hjp Hk')). unfold tab_mult in P1, P2, P3.
  assert (B : forall s p, 0 < mult np multi s p -> (1 <? mult np multi s p) = false <-> mult np multi s p = 1) by (intros s p H; rewrite Z.ltb_ge; lia).
  split.
  - destruct (1 <? mult np multi j i) eqn:M1; [discriminate|]. destruct (1 <? mult np multi k i) eqn:M2; [discriminate|]. destruct (1 <? mult np multi k' jp) eqn:M3; [discriminate|]. intros L. apply qltb_lt in L.
    apply B in M1, M2, M3; try assumption. apply first_uniq in M1, M2, M3; try assumption.
    set (u := first_vec np svecs multi j i) in *. set (v := first_vec np svecs multi k i) in *. set (f := first_vec np svecs multi k' jp) in *.
    assert (W : uniq j k f) by (apply (uniq_of (p2s jp) k'); [intros z; symmetry; apply Im|exact M3]). exists u, v, f. split; [exact M1|]. split; [exact M2|]. split; [exact W|].
    assert (I : image j k (fun c => v c - u c)%Q). { apply (image_ext _ _ (vadd (vneg u) v)); [intros c _; unfold vadd, vneg; ring|]. eapply image_add; [apply image_neg; apply M1|apply M2]. }
    assert (E : veq (fun c => v c - u c)%Q f). { apply (uniq_length j k); [exact W|exact I|]. apply Qabs_Qlt_condition in L. destruct L as [L1 L2]. lra. }
    intros c Hc. unfold vadd. rewrite <- (E c Hc). ring.
  - intros [u [v [w [U [V [W E]]]]]]. assert (W' : uniq (p2s jp) k' w) by (apply (uniq_of j k); [exact Im|exact W]).
    assert (M1 : mult np multi j i = 1) by (apply mult_uniq; eauto). assert (M2 : mult np multi k i = 1) by (apply mult_uniq; eauto). assert (M3 : mult np multi k' jp = 1) by (apply mult_uniq; eauto).
    rewrite (proj2 (B _ _ P1) M1), (proj2 (B _ _ P2) M2), (proj2 (B _ _ P3) M3). apply first_uniq in M1, M2, M3; try assumption.
    apply qltb_lt. set (u' := first_vec np svecs multi j i) in *. set (v' := first_vec np svecs multi k i) in *. set (f := first_vec np svecs multi k' jp) in *.
    assert (X : (len f == len (fun c => v' c - u' c))%Q). { apply (proj1 Hlen). intros c Hc. assert (Ef : veq f w) by (apply W'; apply M3). assert (Eu : veq u' u) by (apply U; apply M1). assert (Ev : veq v' v) by (apply V; apply M2).
      rewrite (Ef c Hc), (Eu c Hc), (Ev c Hc), <- (E c Hc). unfold vadd. ring. }
    rewrite X. setoid_replace (len (fun c => v' c - u' c) - len (fun c => v' c - u' c))%Q with 0%Q by ring. exact Htol.
Qed.

(** ** moving pairs of atoms to another origin *)
Lemma p2s_inj : forall i j, 0 <= i < np -> 0 <= j < np -> p2s i = p2s j -> i = j.
Proof. intros i j Hi Hj E. rewrite <- (lt_prim _ _ _ _ _ _ _ LT i Hi), <- (lt_prim _ _ _ _ _ _ _ LT j Hj). now rewrite E. Qed.
Lemma class_iff : forall s j, 0 <= s < ns -> 0 <= j < np -> s2p s = p2s j <-> s2pp s = j.
Proof. intros s j Hs Hj. rewrite (Hs2p s Hs). cbn beta. split; [|intros ->; reflexivity]. apply p2s_inj; [now apply (lt_s2pp _ _ _ _ _ _ _ LT)|exact Hj]. Qed.
(** bringing s home and then the image of a home undoes both *)
Lemma home_back : forall s i a, 0 <= s < ns -> 0 <= i < np -> 0 <= a < ns -> let s' := perms (nsym s) (p2s i) in perms (nsym s') (perms (nsym s) a) = a.
Proof.
  intros s i a Hs Hi Ha s'. pose proof (lt_p2s _ _ _ _ _ _ _ LT i Hi) as Hpi. pose proof (lt_nsym _ _ _ _ _ _ _ LT s Hs) as Ht. assert (Hs' : 0 <= s' < ns) by (apply (lt_perm _ _ _ _ _ _ _ LT); assumption).
  pose proof (lt_nsym _ _ _ _ _ _ _ LT s' Hs') as Ht'. destruct (lt_comp _ _ _ _ _ _ _ LT _ _ Ht Ht') as [u [Hu Eu]]. rewrite <- Eu by exact Ha. apply (lt_free _ _ _ _ _ _ _ LT u (p2s i) Hu Hpi); [|exact Ha].
  rewrite Eu by exact Hpi. fold s'. rewrite (lt_home _ _ _ _ _ _ _ LT s' Hs'). cbn beta. f_equal. unfold s' at 1. rewrite (lt_orbit _ _ _ _ _ _ _ LT _ _ Ht Hpi). apply (lt_prim _ _ _ _ _ _ _ LT i Hi).
Qed.
Definition to_second (i : Z) (y : Z * Z) : Z * Z := (perms (nsym (fst y)) (p2s i), perms (nsym (fst y)) (snd y)).
Definition to_third (i : Z) (y : Z * Z) : Z * Z := (perms (nsym (snd y)) (fst y), perms (nsym (snd y)) (p2s i)).
Lemma to_second_ok : forall i j k y, 0 <= i < np -> 0 <= j < np -> 0 <= k < np -> In y (atom_pairs ns p2s s2p j k) -> In (to_second i y) (atom_pairs ns p2s s2p i k) /\ to_second j (to_second i y) = y.
Proof.
  intros i j k [s t] Hi Hj Hk H. apply atom_pairs_in in H as [Hs [Ht [Es Et]]]. pose proof (lt_p2s _ _ _ _ _ _ _ LT i Hi) as Hpi. pose proof (lt_nsym _ _ _ _ _ _ _ LT s Hs) as Hn. unfold to_second. cbn [fst snd]. split.
  - apply atom_pairs_in. assert (A : 0 <= perms (nsym s) (p2s i) < ns) by (apply (lt_perm _ _ _ _ _ _ _ LT); assumption). assert (B : 0 <= perms (nsym s) t < ns) by (apply (lt_perm _ _ _ _ _ _ _ LT); assumption).
    split; [exact A|]. split; [exact B|]. split; apply class_iff; try assumption; rewrite (lt_orbit _ _ _ _ _ _ _ LT) by assumption; [apply (lt_prim _ _ _ _ _ _ _ LT i Hi)|now apply class_iff].
  - pose proof (home_back s i) as HB. cbv zeta in HB. rewrite HB by assumption. f_equal. apply class_iff in Es; try assumption. transitivity (perms (nsym (perms (nsym s) (p2s i))) (perms (nsym s) s)); [|now apply HB]. f_equal. rewrite (lt_home _ _ _ _ _ _ _ LT s Hs). cbn beta in *. now rewrite Es.
Qed.
Lemma to_third_ok : forall i j k y, 0 <= i < np -> 0 <= j < np -> 0 <= k < np -> In y (atom_pairs ns p2s s2p j k) -> In (to_third i y) (atom_pairs ns p2s s2p j i) /\ to_third k (to_third i y) = y.
Proof.
  intros i j k [s t] Hi Hj Hk H. apply atom_pairs_in in H as [Hs [Ht [Es Et]]]. pose proof (lt_p2s _ _ _ _ _ _ _ LT i Hi) as Hpi. pose proof (lt_nsym _ _ _ _ _ _ _ LT t Ht) as Hn. unfold to_third. cbn [fst snd]. split.
  - apply atom_pairs_in. assert (A : 0 <= perms (nsym t) (p2s i) < ns) by (apply (lt_perm _ _ _ _ _ _ _ LT); assumption). assert (B : 0 <= perms (nsym t) s < ns) by (apply (lt_perm _ _ _ _ _ _ _ LT); assumption).
    split; [exact B|]. split; [exact A|]. split; apply class_iff; try assumption; rewrite (lt_orbit _ _ _ _ _ _ _ LT) by assumption; [now apply class_iff|apply (lt_prim _ _ _ _ _ _ _ LT i Hi)].
  - pose proof (home_back t i) as HB. cbv zeta in HB. rewrite HB by assumption. f_equal. apply class_iff in Et; try assumption. transitivity (perms (nsym (perms (nsym t) (p2s i))) (perms (nsym t) t)); [|now apply HB]. f_equal. rewrite (lt_home _ _ _ _ _ _ _ LT t Ht). cbn beta in *. now rewrite Et.
Qed.

(** ** phases *)
Variable cis : Q -> cplx.
Variable A : Q -> Prop.
Hypothesis Tn : turns A cis.
Hypothesis Hcis : forall x y, (x == y)%Q -> cis x =c= cis y.
Variable q : Z -> Z -> Q.
Hypothesis HA : forall a p s b, 0 <= a < 3 -> 0 <= p < np -> 0 <= s < ns -> 0 <= b < tab_mult np multi p s -> A (vdot (q a) (tab_vec np svecs multi p s b)).
Variable G : Z -> Z.
Hypothesis HG : forall c, 0 <= c < 3 -> (q 0%Z c + q 1%Z c + q 2%Z c == inject_Z (G c))%Q.
(** positions differ from those of the supercell lattice by integers *)
Local Notation avg := (avg_phase cis np svecs multi).
Local Notation pre := (origin_phase cis np svecs multi p2s q).

Lemma avg_uniq : forall a p s u, 0 <= a < 3 -> 0 <= p < np -> 0 <= s < ns -> uniq (p2s p) s u -> A (vdot (q a) u) /\ avg (q a) p s =c= cis (vdot (q a) u).
Proof.
  intros a p s u Ha Hp Hs U. assert (E1 : mult np multi s p = 1) by (apply mult_uniq; eauto). unfold mult in E1. destruct (Tab p s Hp Hs) as [H1 [H2 _]].
  assert (E : veq (tab_vec np svecs multi p s 0) u) by (apply U, H2; lia). specialize (HA a p s 0 Ha Hp Hs ltac:(lia)).
  destruct Tn as [T1 _]. destruct (T1 _ _ (vdot_veq (q a) _ _ E) HA) as [B1 B2]. split; [exact B1|].
  unfold avg_phase, tab_mult. rewrite E1. rewrite <- B2. unfold CSum. change (zrange 1) with [0]. cbn [map]. rewrite csum_cons, csum_nil. split; cbn; field.
Qed.
Lemma pre_image : forall i, 0 < np -> 0 <= i < np -> exists r, image (p2s 0) (p2s i) r /\ A (vdot (q 0) r) /\ A (vdot (q 1) r) /\ A (vdot (q 2) r) /\ pre i =c= cis (vdot (q 0) r + vdot (q 1) r + vdot (q 2) r)%Q.
Proof.
  intros i Hn Hi. pose proof (lt_p2s _ _ _ _ _ _ _ LT i Hi) as Hpi. destruct (Tab 0 (p2s i) ltac:(lia) Hpi) as [H1 [H2 _]]. exists (tab_vec np svecs multi 0 (p2s i) 0). split; [apply H2; lia|].
  assert (A0 := HA 0 0 (p2s i) 0 ltac:(lia) ltac:(lia) Hpi ltac:(lia)). assert (A1 := HA 1 0 (p2s i) 0 ltac:(lia) ltac:(lia) Hpi ltac:(lia)). assert (A2 := HA 2 0 (p2s i) 0 ltac:(lia) ltac:(lia) Hpi ltac:(lia)).
  repeat (split; [assumption|]). unfold origin_phase. destruct Tn as [T1 [T2 T3]]. set (r := tab_vec _ _ _ _ _ _) in *. destruct (T2 _ _ A0 A1) as [A01 _]. destruct (T2 _ _ A01 A2) as [A012 _].
  symmetry. apply (T1 _ (vdot (fun c : Z => (q 0 c + q 1 c + q 2 c)%Q) r)); [unfold vdot; ring|exact A012].
Qed.
(** the phase of a triplet of atoms does not depend on the origin when its vectors close *)
Lemma image_int : forall a b v w, image a b v -> image a b w -> exists n : Z -> Z, forall c, 0 <= c < 3 -> (v c - w c == inject_Z (n c))%Q.
Proof.
  intros a b v w [n H] [n' H']. exists (fun c => (n 0 - n' 0) * M 0 c + (n 1 - n' 1) * M 1 c + (n 2 - n' 2) * M 2 c). intros c Hc. rewrite (H c Hc), (H' c Hc). unfold Zminus. rewrite !inject_Z_plus, !inject_Z_mult, !inject_Z_plus, !inject_Z_opp. ring.
Qed.
Lemma sum_phase : forall X Y, A X -> A Y -> (exists N, (X == Y + inject_Z N)%Q) -> cis X =c= cis Y.
Proof.
  intros X Y HX HY [N E]. destruct Tn as [T1 [T2 T3]]. destruct (T3 N) as [AN CN]. destruct (T2 _ _ HY AN) as [_ C2]. destruct (T1 _ _ E HX) as [_ C1]. rewrite C1, C2, CN. ring.
Qed.
Lemma cis3 : forall a b c d e, A a -> A b -> A c -> A d -> A e -> A (a + b + (c + d + e))%Q /\ cmul (cmul (cis a) (cis b)) (cis (c + d + e)) =c= cis (a + b + (c + d + e))%Q.
Proof.
  intros a b c d e Ha Hb Hc Hd He. destruct Tn as [T1 [T2 T3]]. destruct (T2 _ _ Ha Hb) as [Aab Cab]. destruct (T2 _ _ Hc Hd) as [Acd _]. destruct (T2 _ _ Acd He) as [Acde _]. destruct (T2 _ _ Aab Acde) as [A5 C5]. split; [exact A5|]. rewrite C5, Cab. reflexivity.
Qed.
Lemma G_int : forall v n, (forall c, 0 <= c < 3 -> (v c == inject_Z (n c))%Q) -> (vdot (q 0) v + vdot (q 1) v + vdot (q 2) v == inject_Z (G 0%Z * n 0%Z + G 1%Z * n 1%Z + G 2%Z * n 2%Z))%Q.
Proof.
  intros v n H. rewrite !inject_Z_plus, !inject_Z_mult, <- !HG by lia. unfold vdot. rewrite !H by lia. ring.
Qed.
Lemma phase_second : forall i j k s t, 0 < np -> 0 <= i < np -> 0 <= j < np -> 0 <= k < np -> In (s, t) (atom_pairs ns p2s s2p j k) -> closes (p2s i) s t ->
  cmul (cmul (avg (q 1) i s) (avg (q 2) i t)) (pre i) =c= cmul (cmul (avg (q 0) j (fst (to_second i (s, t)))) (avg (q 2) j (snd (to_second i (s, t))))) (pre j).
Proof.
  intros i j k s t Hn Hi Hj Hk H Cl. destruct (to_second_ok i j k (s, t) Hi Hj Hk H) as [H' _]. cbn [to_second fst snd] in *. apply atom_pairs_in in H as [Hs [Ht [Es Et]]]. apply atom_pairs_in in H' as [Hs' [Ht' _]].
  pose proof (lt_p2s _ _ _ _ _ _ _ LT i Hi) as Hpi. pose proof (lt_nsym _ _ _ _ _ _ _ LT s Hs) as Htr. assert (Eh : perms (nsym s) s = p2s j). { rewrite (lt_home _ _ _ _ _ _ _ LT s Hs). apply class_iff in Es; try assumption. cbn beta in *. now rewrite Es. }
  destruct Cl as [u [v [w [U [V [W E]]]]]].
  assert (U' : uniq (p2s j) (perms (nsym s) (p2s i)) (vneg u)). { rewrite <- Eh. apply (uniq_of s (p2s i)); [intros z; now apply image_perm|now apply uniq_neg]. }
  assert (W' : uniq (p2s j) (perms (nsym s) t) w). { rewrite <- Eh. apply (uniq_of s t); [intros z; now apply image_perm|exact W]. }
  destruct (avg_uniq 1 i s u ltac:(lia) Hi Hs U) as [A1 ->]. destruct (avg_uniq 2 i t v ltac:(lia) Hi Ht V) as [A2 ->]. destruct (avg_uniq 0 j _ _ ltac:(lia) Hj Hs' U') as [A3 ->]. destruct (avg_uniq 2 j _ _ ltac:(lia) Hj Ht' W') as [A4 ->].
  destruct (pre_image i Hn Hi) as [r [Ir [R0 [R1 [R2 ->]]]]]. destruct (pre_image j Hn Hj) as [r' [Ir' [R0' [R1' [R2' ->]]]]].
  destruct (cis3 _ _ _ _ _ A1 A2 R0 R1 R2) as [X1 ->]. destruct (cis3 _ _ _ _ _ A3 A4 R0' R1' R2') as [X2 ->]. apply sum_phase; [exact X1|exact X2|].
  assert (Z0 : exists n : Z -> Z, forall c, 0 <= c < 3 -> (vadd (vadd r u) (vneg r') c == inject_Z (n c))%Q).
  { destruct (Tr _ Htr) as [tau Ht0]. specialize (Ht0 s Hs). rewrite Eh in Ht0. destruct (image_int _ _ _ _ (image_add _ _ _ _ _ (image_add _ _ _ _ _ Ir (proj1 (proj1 U))) Ht0) Ir') as [n Hd]. exists (fun c => n c - tau c). intros c Hc. unfold Zminus. rewrite inject_Z_plus, inject_Z_opp, <- (Hd c Hc). unfold vadd, vneg. ring. }
  destruct Z0 as [n Hz]. eexists. rewrite <- (G_int _ _ Hz). assert (Y : (vdot (q 2) v == vdot (q 2) (vadd u w))%Q) by (apply vdot_veq, veq_sym, E). rewrite Y. unfold vdot, vadd, vneg. ring.
Qed.
Lemma phase_third : forall i j k s t, 0 < np -> 0 <= i < np -> 0 <= j < np -> 0 <= k < np -> In (s, t) (atom_pairs ns p2s s2p j k) -> closes (p2s i) s t ->
  cmul (cmul (avg (q 1) i s) (avg (q 2) i t)) (pre i) =c= cmul (cmul (avg (q 1) k (fst (to_third i (s, t)))) (avg (q 0) k (snd (to_third i (s, t))))) (pre k).
Proof.
  intros i j k s t Hn Hi Hj Hk H Cl. destruct (to_third_ok i j k (s, t) Hi Hj Hk H) as [H' _]. cbn [to_third fst snd] in *. apply atom_pairs_in in H as [Hs [Ht [Es Et]]]. apply atom_pairs_in in H' as [Hs' [Ht' _]].
  pose proof (lt_p2s _ _ _ _ _ _ _ LT i Hi) as Hpi. pose proof (lt_nsym _ _ _ _ _ _ _ LT t Ht) as Htr. assert (Eh : perms (nsym t) t = p2s k). { rewrite (lt_home _ _ _ _ _ _ _ LT t Ht). apply class_iff in Et; try assumption. cbn beta in *. now rewrite Et. }
  destruct Cl as [u [v [w [U [V [W E]]]]]].
  assert (V' : uniq (p2s k) (perms (nsym t) (p2s i)) (vneg v)). { rewrite <- Eh. apply (uniq_of t (p2s i)); [intros z; now apply image_perm|now apply uniq_neg]. }
  assert (W' : uniq (p2s k) (perms (nsym t) s) (vneg w)). { rewrite <- Eh. apply (uniq_of t s); [intros z; now apply image_perm|now apply uniq_neg]. }
  destruct (avg_uniq 1 i s u ltac:(lia) Hi Hs U) as [A1 ->]. destruct (avg_uniq 2 i t v ltac:(lia) Hi Ht V) as [A2 ->]. destruct (avg_uniq 1 k _ _ ltac:(lia) Hk Hs' W') as [A3 ->]. destruct (avg_uniq 0 k _ _ ltac:(lia) Hk Ht' V') as [A4 ->].
  destruct (pre_image i Hn Hi) as [r [Ir [R0 [R1 [R2 ->]]]]]. destruct (pre_image k Hn Hk) as [r' [Ir' [R0' [R1' [R2' ->]]]]].
  destruct (cis3 _ _ _ _ _ A1 A2 R0 R1 R2) as [X1 ->]. destruct (cis3 _ _ _ _ _ A3 A4 R0' R1' R2') as [X2 ->]. apply sum_phase; [exact X1|exact X2|].
  assert (Z0 : exists n : Z -> Z, forall c, 0 <= c < 3 -> (vadd (vadd r v) (vneg r') c == inject_Z (n c))%Q).
  { destruct (Tr _ Htr) as [tau Ht0]. specialize (Ht0 t Ht). rewrite Eh in Ht0. destruct (image_int _ _ _ _ (image_add _ _ _ _ _ (image_add _ _ _ _ _ Ir (proj1 (proj1 V))) Ht0) Ir') as [n Hd]. exists (fun c => n c - tau c). intros c Hc. unfold Zminus. rewrite inject_Z_plus, inject_Z_opp, <- (Hd c Hc). unfold vadd, vneg. ring. }
  destruct Z0 as [n Hz]. eexists. rewrite <- (G_int _ _ Hz). assert (Y : (vdot (q 1) w == vdot (q 1) (vadd v (vneg u)))%Q) by (apply vdot_veq; intros c Hc; specialize (E c Hc); unfold vadd, vneg in *; rewrite <- E; ring).
  assert (Y' : (vdot (q 1) (vneg w) == - vdot (q 1) w)%Q) by (unfold vdot, vneg; ring). rewrite Y', Y. unfold vdot, vadd, vneg. ring.
Qed.

(** ** the shortcut *)
Variable F : Z * Z -> Z * Z -> Z * Z -> Q.
Hypothesis Sym : symmetric3 ns F.
Hypothesis Inv : invariant3 ns ntrans perms F.
Variable is_compact : bool.
Variable fc3 : Z -> Q.
Hypothesis Rep : represents np ns p2s is_compact fc3 F.
Local Notation Phi := (fc3_at ns p2s is_compact fc3).
Variable sh : Z -> bool.
Hypothesis Hsh : get_all_shortest len np ns svecs multi p2s s2p p2p ntrans perms tol = Some sh.
Lemma sh_spec : forall i s t, 0 <= i < np -> 0 <= s < ns -> 0 <= t < ns -> sh (i * ns * ns + s * ns + t) = true <-> closes (p2s i) s t.
Proof.
  intros i s t Hi Hs Ht. unfold get_all_shortest in Hsh. destruct (forallb _ _); [|discriminate]. injection Hsh as <-.
  replace (Z.quot (i * ns * ns + s * ns + t) (ns * ns)) with i by (replace (i * ns * ns + s * ns + t) with (i * (ns * ns) + (s * ns + t)) by ring; symmetry; apply quot_flat; nia).
  replace (i * ns * ns + s * ns + t) with ((i * ns + s) * ns + t) by ring. rewrite quot_flat, rem_flat, rem_flat by nia. now apply is_shortest_spec.
Qed.
Lemma slot : forall a l, 0 <= a < ns -> 0 <= l < 3 -> slot_ok ns (a, l). Proof. intros. split; assumption. Qed.
Lemma closing_second : forall i j k s t, 0 <= i < np -> 0 <= j < np -> 0 <= k < np -> In (s, t) (atom_pairs ns p2s s2p j k) ->
  closes (p2s j) (fst (to_second i (s, t))) (snd (to_second i (s, t))) <-> closes (p2s i) s t.
Proof.
  intros i j k s t Hi Hj Hk H. apply atom_pairs_in in H as [Hs [Ht [Es Et]]]. cbn [to_second fst snd]. pose proof (lt_p2s _ _ _ _ _ _ _ LT i Hi) as Hpi. pose proof (lt_nsym _ _ _ _ _ _ _ LT s Hs) as Htr.
  assert (Eh : perms (nsym s) s = p2s j). { rewrite (lt_home _ _ _ _ _ _ _ LT s Hs). apply class_iff in Es; try assumption. cbn beta in *. now rewrite Es. }
  rewrite <- Eh, <- closes_perm by assumption. split; apply closes_12.
Qed.
Lemma closing_third : forall i j k s t, 0 <= i < np -> 0 <= j < np -> 0 <= k < np -> In (s, t) (atom_pairs ns p2s s2p j k) ->
  closes (p2s k) (fst (to_third i (s, t))) (snd (to_third i (s, t))) <-> closes (p2s i) s t.
Proof.
  intros i j k s t Hi Hj Hk H. apply atom_pairs_in in H as [Hs [Ht [Es Et]]]. cbn [to_third fst snd]. pose proof (lt_p2s _ _ _ _ _ _ _ LT i Hi) as Hpi. pose proof (lt_nsym _ _ _ _ _ _ _ LT t Ht) as Htr.
  assert (Eh : perms (nsym t) t = p2s k). { rewrite (lt_home _ _ _ _ _ _ _ LT t Ht). apply class_iff in Et; try assumption. cbn beta in *. now rewrite Et. }
  rewrite <- Eh, <- closes_perm by assumption. split; apply closes_13.
Qed.
Lemma Phi_second : forall i j k s t l m n, 0 <= i < np -> 0 <= j < np -> 0 <= k < np -> 0 <= l < 3 -> 0 <= m < 3 -> 0 <= n < 3 -> In (s, t) (atom_pairs ns p2s s2p j k) ->
  (Phi j (fst (to_second i (s, t))) (snd (to_second i (s, t))) m l n == Phi i s t l m n)%Q.
Proof.
  intros i j k s t l m n Hi Hj Hk Hl Hm Hn H. destruct (to_second_ok i j k (s, t) Hi Hj Hk H) as [H' _]. cbn [to_second fst snd] in *. apply atom_pairs_in in H as [Hs [Ht [Es Et]]]. apply atom_pairs_in in H' as [Hs' [Ht' _]].
  pose proof (lt_p2s _ _ _ _ _ _ _ LT i Hi) as Hpi. pose proof (lt_nsym _ _ _ _ _ _ _ LT s Hs) as Htr. assert (Eh : perms (nsym s) s = p2s j). { rewrite (lt_home _ _ _ _ _ _ _ LT s Hs). apply class_iff in Es; try assumption. cbn beta in *. now rewrite Es. }
  pose proof Rep as Rp. unfold represents in Rp. rewrite !Rp by assumption. pose proof Inv as Iv. unfold invariant3 in Iv. rewrite <- Eh, (Iv (nsym s) s (p2s i) t) by assumption. apply (proj1 (Sym (s, m) (p2s i, l) (t, n) (slot _ _ Hs Hm) (slot _ _ Hpi Hl) (slot _ _ Ht Hn))).
Qed.
Lemma Phi_third : forall i j k s t l m n, 0 <= i < np -> 0 <= j < np -> 0 <= k < np -> 0 <= l < 3 -> 0 <= m < 3 -> 0 <= n < 3 -> In (s, t) (atom_pairs ns p2s s2p j k) ->
  (Phi k (fst (to_third i (s, t))) (snd (to_third i (s, t))) n m l == Phi i s t l m n)%Q.
Proof.
  intros i j k s t l m n Hi Hj Hk Hl Hm Hn H. destruct (to_third_ok i j k (s, t) Hi Hj Hk H) as [H' _]. cbn [to_third fst snd] in *. apply atom_pairs_in in H as [Hs [Ht [Es Et]]]. apply atom_pairs_in in H' as [Hs' [Ht' _]].
  pose proof (lt_p2s _ _ _ _ _ _ _ LT i Hi) as Hpi. pose proof (lt_nsym _ _ _ _ _ _ _ LT t Ht) as Htr. assert (Eh : perms (nsym t) t = p2s k). { rewrite (lt_home _ _ _ _ _ _ _ LT t Ht). apply class_iff in Et; try assumption. cbn beta in *. now rewrite Et. }
  pose proof Rep as Rp. unfold represents in Rp. rewrite !Rp by assumption. pose proof Inv as Iv. unfold invariant3 in Iv. rewrite <- Eh, (Iv (nsym t) t s (p2s i)) by assumption. assert (S1 := slot _ _ Hs Hm). assert (S2 := slot _ _ Hpi Hl). assert (S3 := slot _ _ Ht Hn).
  rewrite (proj1 (Sym _ _ _ S3 S1 S2)), (proj2 (Sym _ _ _ S1 S3 S2)). apply (proj1 (Sym _ _ _ S1 S2 S3)).
Qed.
Lemma lat_split : forall w ga gb i j k (P : Z -> Z -> Z -> Q) g, 
  cmul (lattice3 cis np ns svecs multi p2s s2p P w (q ga) (q gb) i j k) g =c= csum (map (fun y => cscale (w i (fst y) (snd y)) (cmul (cscale (P i (fst y) (snd y)) (cmul (avg (q ga) i (fst y)) (avg (q gb) i (snd y)))) g)) (atom_pairs ns p2s s2p j k)).
Proof.
  intros. unfold lattice3. rewrite pairs_sum. match goal with |- cmul ?X _ =c= _ => transitivity (cmul g X); [ring|] end. rewrite <- csum_scale. apply csum_ext. intros [s t] _. split; cbn; ring.
Qed.
Theorem shortcut : forall mem mem', 0 < np -> real_to_reciprocal cis np ns fc3 svecs multi p2s s2p is_compact sh true q mem mem' ->
  forall i j k l m n, 0 <= i < np -> 0 <= j < np -> 0 <= k < np -> 0 <= l < 3 -> 0 <= m < 3 -> 0 <= n < 3 ->
  mem' (rec_adr np i l j m k n) =c= r0_average cis np ns svecs multi p2s s2p Phi q i j k l m n.
Proof.
  intros mem mem' Hnp Run i j k l m n Hi Hj Hk Hl Hm Hn. rewrite (average_value cis np ns fc3 svecs multi p2s s2p is_compact sh Hcis ltac:(lia) q mem mem' Run) by assumption.
  unfold r0_average. cbv zeta. apply cscale_proper; [reflexivity|]. rewrite !lat_split.
  set (f1 := fun y : Z * Z => cmul (cscale (Phi i (fst y) (snd y) l m n) (cmul (avg (q 1) i (fst y)) (avg (q 2) i (snd y)))) (pre i)).
  set (f2 := fun y : Z * Z => cmul (cscale (Phi j (fst y) (snd y) m l n) (cmul (avg (q 0) j (fst y)) (avg (q 2) j (snd y)))) (pre j)).
  set (f3 := fun y : Z * Z => cmul (cscale (Phi k (fst y) (snd y) n m l) (cmul (avg (q 1) k (fst y)) (avg (q 0) k (snd y)))) (pre k)).
  set (on := fun (c : Z) (y : Z * Z) => if sh (c * ns * ns + fst y * ns + snd y) then 1%Q else 0%Q).
  assert (B2 : csum (map (fun y => cscale (on j y) (f2 y)) (atom_pairs ns p2s s2p i k)) =c= csum (map (fun y => cscale (on i y) (f1 y)) (atom_pairs ns p2s s2p j k))).
  { rewrite (csum_bij _ _ _ _ (to_second i) (to_second j) _ (atom_pairs_nodup ns p2s s2p j k) (atom_pairs_nodup ns p2s s2p i k) (fun y Hy => to_second_ok i j k y Hi Hj Hk Hy) (fun y Hy => to_second_ok j i k y Hj Hi Hk Hy)).
    apply csum_ext. intros [s t] Hy. unfold on. assert (Sh : sh (j * ns * ns + fst (to_second i (s, t)) * ns + snd (to_second i (s, t))) = sh (i * ns * ns + s * ns + t)).
    { destruct (to_second_ok i j k (s, t) Hi Hj Hk Hy) as [H' _]. destruct (to_second i (s, t)) as [s' t'] eqn:Ey. apply atom_pairs_in in H' as [Hs' [Ht' _]]. pose proof Hy as Hy'. apply atom_pairs_in in Hy' as [Hs [Ht _]]. cbn [fst snd].
      pose proof (closing_second i j k s t Hi Hj Hk Hy) as Cl. rewrite Ey in Cl. cbn [fst snd] in Cl. apply Bool.eq_iff_eq_true. rewrite !sh_spec by assumption. exact Cl. }
    rewrite Sh. cbn [fst snd]. destruct (sh (i * ns * ns + s * ns + t)) eqn:E; [|split; cbn; ring]. apply cscale_proper; [reflexivity|]. unfold f1, f2. rewrite (Phi_second i j k s t l m n) by assumption. pose proof Hy as Hy'. apply atom_pairs_in in Hy' as [Hs [Ht _]]. apply sh_spec in E; try assumption.
    pose proof (phase_second i j k s t Hnp Hi Hj Hk Hy E) as Ph. cbn [fst snd]. rewrite !cscale_assoc, Ph. reflexivity. }
  assert (B3 : csum (map (fun y => cscale (on k y) (f3 y)) (atom_pairs ns p2s s2p j i)) =c= csum (map (fun y => cscale (on i y) (f1 y)) (atom_pairs ns p2s s2p j k))).
  { rewrite (csum_bij _ _ _ _ (to_third i) (to_third k) _ (atom_pairs_nodup ns p2s s2p j k) (atom_pairs_nodup ns p2s s2p j i) (fun y Hy => to_third_ok i j k y Hi Hj Hk Hy) (fun y Hy => to_third_ok k j i y Hk Hj Hi Hy)).
    apply csum_ext. intros [s t] Hy. unfold on. assert (Sh : sh (k * ns * ns + fst (to_third i (s, t)) * ns + snd (to_third i (s, t))) = sh (i * ns * ns + s * ns + t)).
    { destruct (to_third_ok i j k (s, t) Hi Hj Hk Hy) as [H' _]. destruct (to_third i (s, t)) as [s' t'] eqn:Ey. apply atom_pairs_in in H' as [Hs' [Ht' _]]. pose proof Hy as Hy'. apply atom_pairs_in in Hy' as [Hs [Ht _]]. cbn [fst snd].
      pose proof (closing_third i j k s t Hi Hj Hk Hy) as Cl. rewrite Ey in Cl. cbn [fst snd] in Cl. apply Bool.eq_iff_eq_true. rewrite !sh_spec by assumption. exact Cl. }
    rewrite Sh. cbn [fst snd]. destruct (sh (i * ns * ns + s * ns + t)) eqn:E; [|split; cbn; ring]. apply cscale_proper; [reflexivity|]. unfold f1, f3. rewrite (Phi_third i j k s t l m n) by assumption. pose proof Hy as Hy'. apply atom_pairs_in in Hy' as [Hs [Ht _]]. apply sh_spec in E; try assumption.
    pose proof (phase_third i j k s t Hnp Hi Hj Hk Hy E) as Ph. cbn [fst snd]. rewrite !cscale_assoc, Ph. reflexivity. }
  assert (W1 : csum (map (fun y => cscale (leg_weight ns sh 1 i (fst y) (snd y)) (f1 y)) (atom_pairs ns p2s s2p j k)) =c= cadd (csum (map (fun y => cscale 1 (f1 y)) (atom_pairs ns p2s s2p j k))) (cmul (C 2 0) (csum (map (fun y => cscale (on i y) (f1 y)) (atom_pairs ns p2s s2p j k))))).
  { rewrite <- csum_scale, <- csum_add. apply csum_ext. intros y _. unfold leg_weight, on. cbn [Z.ltb Z.eqb Z.compare andb Pos.eqb Pos.compare Pos.compare_cont]. destruct (sh _); split; cbn; ring. }
  assert (W2 : csum (map (fun y => cscale (leg_weight ns sh 2 j (fst y) (snd y)) (f2 y)) (atom_pairs ns p2s s2p i k)) =c= csub (csum (map (fun y => cscale 1 (f2 y)) (atom_pairs ns p2s s2p i k))) (csum (map (fun y => cscale (on j y) (f2 y)) (atom_pairs ns p2s s2p i k)))).
  { transitivity (cadd (csum (map (fun y => cscale 1 (f2 y)) (atom_pairs ns p2s s2p i k))) (cmul (C (-1) 0) (csum (map (fun y => cscale (on j y) (f2 y)) (atom_pairs ns p2s s2p i k))))); [|split; cbn; ring].
    rewrite <- csum_scale, <- csum_add. apply csum_ext. intros y _. unfold leg_weight, on. cbn [Z.ltb Z.eqb Z.compare andb Pos.eqb Pos.compare Pos.compare_cont]. destruct (sh _); split; cbn; ring. }
  assert (W3 : csum (map (fun y => cscale (leg_weight ns sh 3 k (fst y) (snd y)) (f3 y)) (atom_pairs ns p2s s2p j i)) =c= csub (csum (map (fun y => cscale 1 (f3 y)) (atom_pairs ns p2s s2p j i))) (csum (map (fun y => cscale (on k y) (f3 y)) (atom_pairs ns p2s s2p j i)))).
  { transitivity (cadd (csum (map (fun y => cscale 1 (f3 y)) (atom_pairs ns p2s s2p j i))) (cmul (C (-1) 0) (csum (map (fun y => cscale (on k y) (f3 y)) (atom_pairs ns p2s s2p j i))))); [|split; cbn; ring].
    rewrite <- csum_scale, <- csum_add. apply csum_ext. intros y _. unfold leg_weight, on. cbn [Z.ltb Z.eqb Z.compare andb Pos.eqb Pos.compare Pos.compare_cont]. destruct (sh _); split; cbn; ring. }
  assert (X : forall a b c a' b' c' : cplx, a =c= a' -> b =c= b' -> c =c= c' -> forall a0 b0 d0 z, a' =c= cadd a0 (cmul (C 2 0) z) -> b' =c= csub b0 z -> c' =c= csub d0 z -> cadd (cadd a b) c =c= cadd (cadd a0 b0) d0).
  { intros a b c a' b' c' E1 E2 E3 a0 b0 d0 z E4 E5 E6. rewrite E1, E2, E3, E4, E5, E6. split; cbn; ring. }
  rewrite B2 in W2. rewrite B3 in W3. exact (X _ _ _ _ _ _ (ceq_refl _) (ceq_refl _) (ceq_refl _) _ _ _ _ W1 W2 W3).
Qed.
End G.
