(** Property C120: third-order force constants with a cutoff pair distance. *)
From Coq Require Import ZArith QArith Qabs List Bool Lia Lqa Setoid Permutation.
From Verif Require Import Base BaseProofs QMat DsModel DispModel DispProps Fc3Model Fc3Spec Fc3Proofs Fc3Trans Fc3Dist Fc3DistProps FcoModel FcoAvg FcoDone.
Import ListNotations.
Open Scope Z_scope.

Section Cutoff.
Variables (close : vec -> bool) (positions : list vec) (ops : list sop) (dist : Z -> Z -> Q) (cutoff : option Q) (red : fir -> list rot) (firsts : list fir).
Let n := Z.of_nat (length positions).
(** the crystal, the dataset and the reduced site symmetries fit together *)
Definition consistent : Prop := crystal close positions ops /\ dataset_ok positions firsts /\ (forall f, In f firsts -> red f <> [] /\ site_ops positions ops (f_num f) (red f)).
Let is_computed := computed positions ops dist cutoff firsts.

(** Stored pair distances agree with the crystal (for entries without the key "included"): no assertion fails. *)
Definition distances_ok : Prop := forall f s c d, In f firsts -> In s (f_second f) -> s_incl s = None -> cutoff = Some c -> s_dist s = Some d -> Qlt (Qabs (dist (f_num f) (s_num s) - d)) (1 # 10000).

(** The table of computed pairs is made without an exception, and contains exactly the images of the computed pairs
    of the dataset under the operations of the crystal. *)
Theorem C120_pairs : consistent -> distances_ok ->
  exists done, get_fc3_done close positions ops dist cutoff red firsts = Some done /\ forall a b, In (a, b) done <-> is_computed a b.
Proof.
  intros [CR [DS RED]] DO.
  assert (EX : exists done, get_fc3_done close positions ops dist cutoff red firsts = Some done).
  { unfold get_fc3_done. destruct (sequence_total _ _ (fun g => sequence (map (atom_by_symmetry close positions g) (zrange n))) ops) as [am Eam].
    { intros g Hg. apply sequence_total. intros i Hi. apply in_zrange in Hi. destruct (cr_sym _ _ _ CR g i Hg Hi) as [j Sj]. exists j. now apply (atom_sends close positions ops CR). }
    unfold atom_mapping. fold n. rewrite Eam. destruct (sequence_total _ _ (done_of_first close positions dist cutoff red am) firsts) as [ls Els]; [|rewrite Els; cbn; eauto].
    intros f Hf. destruct (DS f Hf) as [Ra Rs]. destruct (RED f Hf) as [NE SO]. unfold done_of_first, least_second_atoms.
    destruct (sequence_total _ _ (second_counts dist cutoff (f_num f)) (f_second f)) as [bs Ebs].
    { intros s Hs. unfold second_counts. destruct (s_incl s) eqn:Ei; [eauto|]. destruct cutoff as [c|] eqn:Ec; [|eauto].
      destruct (s_dist s) as [d|] eqn:Ed; [|cbn; eauto]. cbv zeta. unfold qltb. pose proof (DO f s c d Hf Hs Ei Ec Ed) as L.
      assert (Qle_bool (1 # 10000) (Qabs (dist (f_num f) (s_num s) - d)) = false) as ->; [|cbn; eauto]. apply not_true_iff_false. intros K. apply Qle_bool_iff in K. lra. }
    rewrite Ebs. cbn [option_map]. unfold second_atom_nums.
    set (least := unique _ _). set (sh := map _ positions).
    destruct (sequence_total _ _ (fun r => sequence (map (atom_by_symmetry close sh (r, vec0)) least)) (red f)) as [rr Err].
    { intros r Hr. apply sequence_total. intros x Hx. unfold least in Hx. apply in_unique in Hx. destruct Hx as [_ Hx]. destruct (SO r Hr) as [t [Ht Hfix]].
      destruct (cr_sym _ _ _ CR (r, t) x Ht Hx) as [j Sj]. exists j. now apply (shifted_sends close positions ops CR (f_num f) r t x j). }
    rewrite Err. destruct rr as [|l0 t0]; [|cbn; eauto]. exfalso. apply NE. destruct (red f) as [|r rs]; [reflexivity|]. exfalso. cbn in Err.
    destruct (sequence (map (atom_by_symmetry close sh (r, vec0)) least)); [|discriminate]. destruct (sequence (map (fun r => sequence (map (atom_by_symmetry close sh (r, vec0)) least)) rs)); discriminate. }
  destruct EX as [done E]. exists done. split; [exact E|]. intros a b. unfold is_computed. rewrite <- (done_iff close positions ops dist cutoff red firsts CR DS RED done E).
  unfold is_done. rewrite existsb_exists. split; [intros H; exists (a, b); split; [exact H|unfold keyb; cbn; now rewrite !Z.eqb_refl]|].
  intros [[x y] [Hin K]]. unfold keyb in K. cbn in K. apply andb_true_iff in K. destruct K as [K1 K2]. apply Z.eqb_eq in K1, K2. now subst.
Qed.

(** The force constants after _cutoff_fc3_for_cutoff_pairs, from the array m of the full shape. *)
Definition contracted (m m' : Z -> Q) : Prop := exists done, get_fc3_done close positions ops dist cutoff red firsts = Some done /\ m' = cutoff_pairs n done m.
Definition atoms (a b c : Z) : Prop := 0 <= a < n /\ 0 <= b < n /\ 0 <= c < n.
(** some two of the three atoms, in some order, were displaced together *)
Definition reached (a b c : Z) : Prop := is_computed a b \/ is_computed b a \/ is_computed a c \/ is_computed c a \/ is_computed b c \/ is_computed c b.

(** Exchanging (atom, direction) pairs does not change the element. *)
Theorem C120_symmetric : forall m m' a b c i j k, contracted m m' -> atoms a b c -> In (i, j, k) comps ->
  Qeq (raw n m' b a c (j, i, k)) (raw n m' a b c (i, j, k)) /\ Qeq (raw n m' a c b (i, k, j)) (raw n m' a b c (i, j, k)).
Proof.
  intros m m' a b c i j k [done [_ ->]] [Ha [Hb Hc]] Hq. destruct (in_comps_perm _ _ _ Hq) as [P1 [P2 _]].
  rewrite !cutoff_pairs_mean by auto. split; apply mean_perm; cbn; auto.
Qed.
(** Elements none of whose pairs was computed are zero. *)
Theorem C120_zero : forall m m' a b c q, consistent -> contracted m m' -> atoms a b c -> In q comps -> ~ reached a b c -> Qeq (raw n m' a b c q) 0.
Proof.
  intros m m' a b c [[i j] k] [CR [DS RED]] [done [E ->]] [Ha [Hb Hc]] Hq NR. rewrite cutoff_pairs_mean by auto.
  pose proof (done_iff close positions ops dist cutoff red firsts CR DS RED done E) as D. fold is_computed in D. unfold reached in NR. unfold mean_of_done, names. cbn [filter].
  assert (F : forall x y, ~ is_computed x y -> is_done done x y = false) by (intros x y K; apply not_true_iff_false; now rewrite D).
  rewrite !F by tauto. reflexivity.
Qed.
(** The element is the mean of the stored values over the orders of the three atoms whose first pair was computed
    (w is the indicator of the computed pairs). *)
Theorem C120_mean : forall m m' w a b c i j k, consistent -> contracted m m' -> atoms a b c -> In (i, j, k) comps ->
  (forall x y, is_computed x y -> Qeq (w x y) 1) -> (forall x y, ~ is_computed x y -> Qeq (w x y) 0) ->
  Qeq (raw n m' a b c (i, j, k) * (w a b + w a c + w b a + w b c + w c a + w c b))
      (w a b * raw n m a b c (i, j, k) + w a c * raw n m a c b (i, k, j) + w b a * raw n m b a c (j, i, k) + w b c * raw n m b c a (j, k, i)
       + w c a * raw n m c a b (k, i, j) + w c b * raw n m c b a (k, j, i)).
Proof.
  intros m m' w a b c i j k [CR [DS RED]] [done [E ->]] [Ha [Hb Hc]] Hq W1 W0. rewrite cutoff_pairs_mean by auto.
  pose proof (done_iff close positions ops dist cutoff red firsts CR DS RED done E) as D. fold is_computed in D.
  assert (W : forall x y, Qeq (w x y) (if is_done done x y then 1 else 0)).
  { intros x y. destruct (is_done done x y) eqn:F; [apply W1, D, F|apply W0; rewrite <- D, F; discriminate]. }
  rewrite !W. unfold mean_of_done, names. cbn [filter].
  destruct (is_done done a b), (is_done done a c), (is_done done b a), (is_done done b c), (is_done done c a), (is_done done c b);
    cbn [filter map qsum fold_right length Z.of_nat Pos.of_succ_nat Pos.succ]; field.
Qed.
(** Where the array was right for every computed first pair, it is right for every element with a computed pair. *)
Theorem C120_exact : forall m m' F0 a b c q, consistent -> contracted m m' ->
  (forall x y z i j k, atoms x y z -> In (i, j, k) comps -> Qeq (F0 y x z (j, i, k)) (F0 x y z (i, j, k)) /\ Qeq (F0 x z y (i, k, j)) (F0 x y z (i, j, k))) ->
  (forall x y z p, is_computed x y -> atoms x y z -> In p comps -> Qeq (raw n m x y z p) (F0 x y z p)) ->
  atoms a b c -> In q comps -> reached a b c -> Qeq (raw n m' a b c q) (F0 a b c q).
Proof.
  intros m m' F0 a b c [[i j] k] [CR [DS RED]] [done [E ->]] SY OK [Ha [Hb Hc]] Hq R. rewrite cutoff_pairs_mean by auto.
  pose proof (done_iff close positions ops dist cutoff red firsts CR DS RED done E) as D. fold is_computed in D.
  destruct (in_comps_perm _ _ _ Hq) as [P1 [P2 [P3 [P4 P5]]]].
  assert (S : forall x y z p, In (x, y, z, p) (names a b c (i, j, k)) -> Qeq (F0 x y z p) (F0 a b c (i, j, k))).
  { assert (A0 : atoms a b c) by (repeat split; tauto). assert (A1 : atoms a c b) by (repeat split; tauto). assert (A2 : atoms b a c) by (repeat split; tauto).
    assert (A3 : atoms b c a) by (repeat split; tauto). assert (A4 : atoms c a b) by (repeat split; tauto).
    destruct (SY a b c i j k A0 Hq) as [E1 E2]. destruct (SY b a c j i k A2 P2) as [_ E3]. destruct (SY a c b i k j A1 P1) as [E4 _]. destruct (SY b c a j k i A3 P3) as [E5 _].
    intros x y z p H. cbn [names In] in H. destruct H as [F|[F|[F|[F|[F|[F|[]]]]]]]; injection F as <- <- <- <-.
    - reflexivity.
    - exact E2.
    - exact E1.
    - rewrite E3. exact E1.
    - rewrite E4. exact E2.
    - rewrite E5, E3. exact E1. }
  assert (V : Qeq (mean_of_done done (raw n m) a b c (i, j, k)) (mean_of_done done (fun _ _ _ _ => F0 a b c (i, j, k)) a b c (i, j, k))).
  { apply mean_ext. intros x y z p H Hd. rewrite OK; [now apply S|now apply D| |]; cbn [names In] in H; destruct H as [F|[F|[F|[F|[F|[F|[]]]]]]]; injection F as <- <- <- <-; auto; repeat split; tauto. }
  rewrite V. unfold reached in R. rewrite <- !D in R. unfold mean_of_done, names. cbn [filter].
  destruct (is_done done a b), (is_done done a c), (is_done done b a), (is_done done b c), (is_done done c a), (is_done done c b);
    try (exfalso; intuition discriminate); cbn [filter map qsum fold_right length Z.of_nat Pos.of_succ_nat Pos.succ]; field.
Qed.
(** A dataset made for the cutoff (no entry says "included", every pair of atoms is the image of a pair of the dataset):
    exactly the elements with all three distances at least the cutoff are zeroed without having been computed. *)
Theorem C120_distances : forall cut, cutoff = Some cut -> crystal close positions ops -> dataset_ok positions firsts ->
  (forall f s, In f firsts -> In s (f_second f) -> s_incl s = None) ->
  (forall g a b a' b', In g ops -> 0 <= a < n -> 0 <= b < n -> sends positions g a a' -> sends positions g b b' -> Qeq (dist a' b') (dist a b)) ->
  (forall a b, Qeq (dist a b) (dist b a)) ->
  (forall a b, 0 <= a < n -> 0 <= b < n -> exists f s g, In f firsts /\ In s (f_second f) /\ In g ops /\ sends positions g (f_num f) a /\ sends positions g (s_num s) b) ->
  forall a b c, atoms a b c -> (reached a b c <-> Qlt (dist a b) cut \/ Qlt (dist b c) cut \/ Qlt (dist a c) cut).
Proof.
  intros cut Ec CR DS NI INV SYM ALL a b c [Ha [Hb Hc]].
  assert (K : forall x y, 0 <= x < n -> 0 <= y < n -> (is_computed x y <-> Qlt (dist x y) cut)).
  { intros x y Hx Hy. unfold is_computed, computed. split.
    - intros [f [s [g [Hf [Hs [Hcn [Hg [S1 S2]]]]]]]]. destruct (DS f Hf) as [Ra Rs]. rewrite (INV g (f_num f) (s_num s) x y) by auto.
      unfold counts in Hcn. rewrite (NI f s Hf Hs), Ec in Hcn. exact Hcn.
    - intros L. destruct (ALL x y Hx Hy) as [f [s [g [Hf [Hs [Hg [S1 S2]]]]]]]. exists f, s, g. repeat (split; [assumption|]). split; [|auto].
      destruct (DS f Hf) as [Ra Rs]. unfold counts. rewrite (NI f s Hf Hs), Ec. rewrite <- (INV g (f_num f) (s_num s) x y) by auto. exact L. }
  unfold reached. rewrite !K by auto. rewrite (SYM b a), (SYM c a), (SYM c b). tauto.
Qed.
End Cutoff.
Print Assumptions C120_pairs.
Print Assumptions C120_symmetric.
Print Assumptions C120_zero.
Print Assumptions C120_mean.
Print Assumptions C120_exact.
Print Assumptions C120_distances.

(** ** Three atoms on a line, the identity and the inversion; only the pairs of an atom with itself are within the cutoff. *)
Definition eye : rot := ((1, 0, 0), (0, 1, 0), (0, 0, 1)).
Definition inversion : rot := ((-1, 0, 0), (0, -1, 0), (0, 0, -1)).
Definition l_positions : list vec := [(0, 0, 0); (1 # 3, 0, 0); (2 # 3, 0, 0)]%Q.
Definition l_ops : list sop := [(eye, vec0); (inversion, vec0)].
Definition l_sec (j : Z) : sec := Sec j (0, 0, 1 # 10)%Q None None None None None.
Definition l_fir (i : Z) : fir := Fir i (1 # 10, 0, 0)%Q None None None [l_sec 0; l_sec 1; l_sec 2].
Definition l_dist (a b : Z) : Q := if a =? b then 0%Q else 1%Q.
Definition l_red (f : fir) : list rot := if f_num f =? 0 then [eye; inversion] else [eye].
Definition l_firsts : list fir := [l_fir 0; l_fir 1].
Lemma integral_vint : forall v, integral v = true <-> vint v.
Proof.
  assert (K : forall x : Q, (Zpos (Qden (Qred x)) =? 1) = true <-> exists a, Qeq x (inject_Z a)).
  { intros x. rewrite Z.eqb_eq. split.
    - intros H. exists (Qnum (Qred x)). rewrite <- (Qred_correct x) at 1. destruct (Qred x) as [p d]. cbn in *. injection H as ->. reflexivity.
    - intros [a H]. rewrite (Qred_complete _ _ H). unfold inject_Z. assert (Qred (a # 1) = (a # 1)) as ->; [|reflexivity].
      unfold Qred. pose proof (Z.ggcd_correct_divisors a 1) as G. pose proof (Z.ggcd_gcd a 1) as G1. destruct (Z.ggcd a 1) as [g [p d]]. cbn [fst snd] in *.
      rewrite Z.gcd_1_r in G1. subst g. destruct G as [G2 G3]. rewrite !Z.mul_1_l in *. subst. reflexivity. }
  intros [[x y] z]. unfold integral, vint. rewrite !andb_true_iff, !K. split; [intros [[[a A] [b B]] [c C]]; eauto 8|intros [a [b [c [A [B C]]]]]; eauto 8].
Qed.
Lemma l_sends : forall g i j, In g l_ops -> 0 <= i < 3 -> sends l_positions g i j <-> j = (if Z.eqb (fst (fst (fst (fst (fst g))))) 1 then i else (3 - i) mod 3).
Proof.
  assert (C : forallb (fun g => forallb (fun i => forallb (fun j => Bool.eqb (integral (vsub3 (pos_at l_positions j) (vadd3 (qrot (fst g) (pos_at l_positions i)) (snd g))))
     (j =? (if Z.eqb (fst (fst (fst (fst (fst g))))) 1 then i else (3 - i) mod 3))) (zrange 3)) (zrange 3)) l_ops = true) by (vm_compute; reflexivity).
  intros g i j Hg Hi. rewrite forallb_forall in C. specialize (C g Hg). rewrite forallb_forall in C. specialize (C i (proj2 (in_zrange 3 i) Hi)). rewrite forallb_forall in C.
  unfold sends. rewrite <- integral_vint. change (Z.of_nat (length l_positions)) with 3. split.
  - intros [Hj V]. specialize (C j (proj2 (in_zrange 3 j) Hj)). apply eqb_prop in C. rewrite V in C. symmetry in C. now apply Z.eqb_eq.
  - intros E. assert (Hj : 0 <= j < 3). { rewrite E. destruct (_ =? 1); [exact Hi|apply Z.mod_pos_bound; lia]. } split; [exact Hj|].
    specialize (C j (proj2 (in_zrange 3 j) Hj)). apply eqb_prop in C. rewrite C. now apply Z.eqb_eq.
Qed.
Lemma l_crystal : crystal integral l_positions l_ops.
Proof.
  constructor.
  - intros v w H. apply eq_true_iff_eq. rewrite !integral_vint. split; apply vint_ext; [exact H|]. destruct v as [[x y] z], w as [[a b] c]. cbn in *. intuition (symmetry; auto).
  - intros v H. now apply integral_vint.
  - intros i j x Hi Hj V C. apply integral_vint in C. pose proof (vint_sub _ _ C V) as D.
    assert (E : integral (vsub3 (pos_at l_positions i) (pos_at l_positions j)) = true).
    { apply integral_vint. eapply vint_ext; [|exact D]. destruct (pos_at l_positions i) as [[a b] c], (pos_at l_positions j) as [[a' b'] c'], x as [[x0 x1] x2]. cbn. repeat split; ring. }
    change (Z.of_nat (length l_positions)) with 3 in *. assert (i = 0 \/ i = 1 \/ i = 2) as [-> | [-> | -> ]] by lia; assert (j = 0 \/ j = 1 \/ j = 2) as [-> | [-> | -> ]] by lia; try reflexivity; vm_compute in E; discriminate.
  - intros g i Hg Hi. eexists. apply l_sends; [exact Hg|exact Hi|reflexivity].
  - intros g h Hg Hh. change (Z.of_nat (length l_positions)) with 3.
    assert (X : exists k, In k l_ops /\ forall i, 0 <= i < 3 -> (if Z.eqb (fst (fst (fst (fst (fst k))))) 1 then i else (3 - i) mod 3) =
       (let j := if Z.eqb (fst (fst (fst (fst (fst h))))) 1 then i else (3 - i) mod 3 in if Z.eqb (fst (fst (fst (fst (fst g))))) 1 then j else (3 - j) mod 3)).
    { cbn [In l_ops] in Hg, Hh. destruct Hg as [<-|[<-|[]]], Hh as [<-|[<-|[]]]; [exists (eye, vec0)|exists (inversion, vec0)|exists (inversion, vec0)|exists (eye, vec0)]; (split; [cbn; tauto|]); intros i Hi;
      (assert (i = 0 \/ i = 1 \/ i = 2) as [-> | [-> | -> ]] by lia; reflexivity). }
    destruct X as [k [Hk X]]. exists k. split; [exact Hk|]. intros i j l Hi S1 S2. pose proof S1 as [Hj _]. apply l_sends in S1; auto. apply l_sends in S2; auto. apply l_sends; auto. rewrite X by auto. cbv zeta. now rewrite <- S1.
  - intros g Hg. change (Z.of_nat (length l_positions)) with 3. exists g. split; [exact Hg|]. intros i j Hi S. pose proof S as [Hj _]. apply l_sends in S; auto. apply l_sends; auto. subst j.
    cbn [In l_ops] in Hg. destruct Hg as [<-|[<-|[]]]; assert (i = 0 \/ i = 1 \/ i = 2) as [-> | [-> | -> ]] by lia; reflexivity.
Qed.
Lemma l_consistent : consistent integral l_positions l_ops l_red l_firsts.
Proof.
  split; [exact l_crystal|]. split.
  - intros f Hf. cbn [In l_firsts] in Hf. destruct Hf as [<-|[<-|[]]]; cbn; (split; [lia|]); intros s [<-|[<-|[<-|[]]]]; cbn; lia.
  - intros f Hf. cbn [In l_firsts] in Hf. destruct Hf as [<-|[<-|[]]]; (split; [discriminate|]); intros r Hr; cbn in Hr.
    + destruct Hr as [<-|[<-|[]]]; exists vec0; (split; [cbn; tauto|]); apply l_sends; cbn; auto; lia.
    + destruct Hr as [<-|[]]; exists vec0; (split; [cbn; tauto|]); apply l_sends; cbn; auto; lia.
Qed.
(** The computed pairs: each atom with itself; the pair (2, 2) is the image of (1, 1). *)
Example C120_ex_pairs : distances_ok l_dist (Some (1 # 2)%Q) l_firsts /\
  get_fc3_done integral l_positions l_ops l_dist (Some (1 # 2)%Q) l_red l_firsts = Some [(0, 0); (0, 0); (1, 1); (2, 2)].
Proof. split; [|vm_compute; reflexivity]. intros f s c d Hf Hs _ _ E. cbn [In l_firsts] in Hf. destruct Hf as [<-|[<-|[]]]; cbn in Hs; destruct Hs as [<-|[<-|[<-|[]]]]; discriminate. Qed.
(** A tensor with permutation symmetry and vanishing sums over each atom index. *)
Definition l_charge (a : Z) : Q := if a =? 2 then (-2)%Q else 1%Q.
Definition l_fc (a b c : Z) (q : Z * Z * Z) : Q := (l_charge a * l_charge b * l_charge c)%Q.
Definition l_array (p : Z) : Q := let t := p / 27 in l_fc (t / 9) (t / 3 mod 3) (t mod 3) (0, 0, 0).
Lemma l_raw : forall a b c q, 0 <= a < 3 -> 0 <= b < 3 -> 0 <= c < 3 -> In q comps -> raw 3 l_array a b c q = l_fc a b c q.
Proof.
  intros a b c q Ha Hb Hc Hq. pose proof (off_range q Hq) as O. unfold raw, l_array. cbv zeta.
  assert (((a * 3 * 3 + b * 3 + c) * 27 + off q) / 27 = a * 9 + b * 3 + c) as -> by (symmetry; apply (Z.div_unique _ _ _ (off q)); lia).
  assert ((a * 9 + b * 3 + c) / 9 = a) as -> by (symmetry; apply (Z.div_unique _ _ _ (b * 3 + c)); lia).
  assert ((a * 9 + b * 3 + c) / 3 = a * 3 + b) as -> by (symmetry; apply (Z.div_unique _ _ _ c); lia).
  assert ((a * 3 + b) mod 3 = b) as -> by (symmetry; apply (Z.mod_unique _ _ a); lia).
  assert ((a * 9 + b * 3 + c) mod 3 = c) as -> by (symmetry; apply (Z.mod_unique _ _ (a * 3 + b)); lia). reflexivity.
Qed.
Definition l_done := [(0, 0); (0, 0); (1, 1); (2, 2)].
(** The element of three different atoms becomes zero, the elements with two equal atoms are kept. *)
Example C120_ex : let m' := cutoff_pairs 3 l_done l_array in
  contracted integral l_positions l_ops l_dist (Some (1 # 2)%Q) l_red l_firsts l_array m' /\
  Qeq (raw 3 m' 0 1 2 (0, 1, 2)) 0 /\ Qeq (raw 3 m' 0 1 1 (0, 1, 2)) 1 /\ Qeq (raw 3 m' 2 1 2 (0, 1, 2)) 4 /\ Qeq (raw 3 l_array 0 1 2 (0, 1, 2)) (-2).
Proof.
  cbv zeta. split; [exists l_done; split; [apply C120_ex_pairs|reflexivity]|].
  assert (In (0, 1, 2) comps) by (apply in_comps; lia). rewrite !cutoff_pairs_mean by (auto; lia).
  split; [reflexivity|]. split; [vm_compute; reflexivity|]. split; [vm_compute; reflexivity|]. vm_compute. reflexivity.
Qed.
(** The sums over an atom index, zero before, are not zero afterwards. *)
Theorem C120_sum_rule_refuted : exists close positions ops dist cutoff red firsts m m',
  let n := Z.of_nat (length positions) in
  consistent close positions ops red firsts /\ contracted close positions ops dist cutoff red firsts m m' /\
  (forall a b q, 0 <= a < n -> 0 <= b < n -> In q comps -> Qeq (qsum (map (fun c => raw n m a b c q) (zrange n))) 0) /\
  ~ Qeq (qsum (map (fun c => raw n m' 0 1 c (0, 0, 0)) (zrange n))) 0.
Proof.
  exists integral, l_positions, l_ops, l_dist, (Some (1 # 2)%Q), l_red, l_firsts, l_array, (cutoff_pairs 3 l_done l_array). cbv zeta. change (Z.of_nat (length l_positions)) with 3.
  split; [exact l_consistent|]. split; [exists l_done; split; [apply C120_ex_pairs|reflexivity]|]. split.
  - intros a b q Ha Hb Hq. change (zrange 3) with [0; 1; 2]. cbn [map qsum fold_right]. rewrite !l_raw by (auto; lia). unfold l_fc, l_charge. cbn [Z.eqb Pos.eqb]. ring.
  - change (zrange 3) with [0; 1; 2]. cbn [map qsum fold_right]. assert (In (0, 0, 0) comps) by (apply in_comps; lia). rewrite !cutoff_pairs_mean by (auto; lia). vm_compute. discriminate.
Qed.
Print Assumptions C120_sum_rule_refuted.
(** The hypotheses of C120_distances hold for this crystal. *)
Example C120_ex_distances : forall a b, 0 <= a < 3 -> 0 <= b < 3 -> exists f s g, In f l_firsts /\ In s (f_second f) /\ In g l_ops /\ sends l_positions g (f_num f) a /\ sends l_positions g (s_num s) b.
Proof.
  intros a b Ha Hb. set (g := if a =? 2 then (inversion, vec0) else (eye, vec0)). set (f := if a =? 0 then l_fir 0 else l_fir 1).
  exists f, (l_sec (if a =? 2 then (3 - b) mod 3 else b)), g.
  assert (a = 0 \/ a = 1 \/ a = 2) as [-> | [-> | -> ]] by lia; assert (b = 0 \/ b = 1 \/ b = 2) as [-> | [-> | -> ]] by lia; cbn [g f Z.eqb Pos.eqb];
    (split; [cbn; tauto|]); (split; [cbn; tauto|]); (split; [cbn; tauto|]); split; apply l_sends; cbn; auto; try lia; try tauto.
Qed.
