(** * C117: collective phonons, mean free paths and f-vectors of the direct solution *)
From Coq Require Import ZArith QArith List Bool Lia Lqa Setoid Morphisms Ring_theory Field_theory Ring Field.
From Verif Require Import Base BaseProofs Par Par2 DirModel DirSpec DirProofs DirSpectral DirGroup DirMain DirPinv DirProps ChaModel ChaProofs QMat KapModel KapLbte.
Import ListNotations.
Open Scope Z_scope.

Section Any.
Variable K : numbers.
Declare Scope K_scope.
Delimit Scope K_scope with K.
Bind Scope K_scope with num.
Notation "0" := (n0 K) : K_scope.
Notation "1" := (n1 K) : K_scope.
Infix "+" := (nadd K) : K_scope.
Infix "*" := (nmul K) : K_scope.
Infix "-" := (nsub K) : K_scope.
Infix "/" := (ndiv K) : K_scope.
Infix "==" := (neq K) (at level 70, no associativity) : K_scope.
Add Field Kfield10 : (n_field K) (setoid (n_equiv K) (n_ext K)).
Local Notation Sm := (Sm K).

(** ** Specification: a calculation with solve_collective_phonon.  Any solver; the
    diagonalizations of the collision matrix [A] (order [size]) and of the matrices
    of the tensor elements may give any of the possible eigenvectors. *)
Definition collective_run (g nir nb : Z) (cart : Z -> Z -> Z -> K) (small : K -> bool) (absn : K -> K) (ltbn : K -> K -> bool) (method : Z) (cutoff factor : K)
  (A : Z -> Z -> K) (X Y : Z -> Z -> K) (mode : Z -> Z -> Z -> Z -> K) : Prop :=
  let size := (nir * nb * 3)%Z in
  exists solver w mem, diagonalized_by K solver size A w mem /\
    let oi := omega_inv K size (eigvecs K solver size mem) (eigvals_pinv K absn ltbn method cutoff w) in
    Y = cha_Y K size oi X /\
    forall a b, 0 <= a < 3 -> 0 <= b < 3 -> exists w2 mem2,
      (forall I, get_I K g cart small a b = Some I ->
         diagonalized_by K solver size (triangle K (cha_mat K size oi I)) w2 mem2) /\
      forall i j, mode i j a b = cha_mode K g nir nb cart small factor X (eigvecs K solver size mem2) w2 a b i j.

Variables (g n nir nb : Z) (r : Z -> Z -> Z) (cart : Z -> Z -> Z -> K) (mul : Z -> Z -> Z) (inv : Z -> Z).
Hypothesis HG : point_group K g n r cart mul inv.
Hypothesis Hn : 0 <= nir /\ 0 <= nb.

(** ** r_sum commutes with the operations *)
Lemma r_part_t : forall a b i j, 0 <= a < 3 -> 0 <= b < 3 -> 0 <= i < 3 -> 0 <= j < 3 ->
  (r_part K g cart a b i j == Sm g (fun l => cart l i a * cart l j b))%K.
Proof.
  intros a b i j Ha Hb Hi Hj. rewrite <- (Sm_inv K g n r cart mul inv HG (fun l => cart l i a * cart l j b)%K). apply Sm_ext. intros l Hl.
  rewrite !(pg_cart_inv _ _ _ _ _ _ _ HG) by auto. reflexivity.
Qed.
Lemma r_part_inv : forall m a b i j, 0 <= m < g -> 0 <= a < 3 -> 0 <= b < 3 -> 0 <= i < 3 -> 0 <= j < 3 ->
  (r_part K g cart a b i j == Sm 3 (fun c => Sm 3 (fun d => cart m i c * r_part K g cart a b c d * cart m j d)))%K.
Proof.
  intros m a b i j Hm Ha Hb Hi Hj. rewrite r_part_t by auto. rewrite <- (Sm_mul K g n r cart mul inv HG m _ Hm).
  transitivity (Sm g (fun l => Sm 3 (fun c => Sm 3 (fun d => cart m i c * (cart l c a * cart l d b) * cart m j d))))%K.
  { apply Sm_ext. intros l Hl. rewrite !(pg_cart_mul _ _ _ _ _ _ _ HG) by auto. rewrite <- Sm_mul_r. apply Sm_ext. intros c Hc.
    rewrite <- Sm_mul_l. apply Sm_ext. intros d Hd. ring. }
  rewrite Sm_swap. apply Sm_ext. intros c Hc. rewrite Sm_swap. apply Sm_ext. intros d Hd. rewrite Sm_mul_r, Sm_mul_l, r_part_t by auto. reflexivity.
Qed.
Lemma r_part_comm : forall m a b i k, 0 <= m < g -> 0 <= a < 3 -> 0 <= b < 3 -> 0 <= i < 3 -> 0 <= k < 3 ->
  (Sm 3 (fun j => r_part K g cart a b i j * cart m j k) == Sm 3 (fun c => cart m i c * r_part K g cart a b c k))%K.
Proof.
  intros m a b i k Hm Ha Hb Hi Hk.
  transitivity (Sm 3 (fun j => Sm 3 (fun c => Sm 3 (fun d => cart m i c * r_part K g cart a b c d * (cart m j d * cart m j k)))))%K.
  { apply Sm_ext. intros j Hj. rewrite (r_part_inv m a b i j) by auto. rewrite <- Sm_mul_r. apply Sm_ext. intros c Hc. rewrite <- Sm_mul_r. apply Sm_ext. intros; ring. }
  rewrite Sm_swap. apply Sm_ext. intros c Hc. rewrite Sm_swap. rewrite (Sm_one K 3 k); [|exact Hk|].
  - rewrite Sm_mul_l, (pg_cart_orth _ _ _ _ _ _ _ HG m k k) by auto. rewrite Z.eqb_refl. ring.
  - intros d Hd Ne. rewrite Sm_mul_l, (pg_cart_orth _ _ _ _ _ _ _ HG m d k) by auto. destruct (Z.eqb_spec d k); [congruence|ring].
Qed.
Lemma r_part_swap : forall a b i j, (r_part K g cart a b j i == r_part K g cart b a i j)%K.
Proof. intros. apply Sm_ext. intros; ring. Qed.
Lemma r_sum_sym : forall a b i j, (r_sum K g cart a b i j == r_sum K g cart a b j i)%K.
Proof. intros. unfold r_sum. ring. Qed.
(** 3x3 blocks that commute with r_sum *)
Definition cm (a b : Z) (M : Z -> Z -> K) : Prop := forall i k, 0 <= i < 3 -> 0 <= k < 3 ->
  (Sm 3 (fun j => r_sum K g cart a b i j * M j k) == Sm 3 (fun c => M i c * r_sum K g cart a b c k))%K.
Lemma cm_cart : forall a b m, 0 <= m < g -> 0 <= a < 3 -> 0 <= b < 3 -> cm a b (cart m).
Proof.
  intros a b m Hm Ha Hb i k Hi Hk. unfold r_sum.
  transitivity (Sm 3 (fun j => r_part K g cart a b i j * cart m j k) + Sm 3 (fun j => r_part K g cart b a i j * cart m j k))%K.
  { rewrite <- Sm_add. apply Sm_ext. intros j Hj. rewrite (r_part_swap a b i j). ring. }
  rewrite !r_part_comm by auto. rewrite <- Sm_add. apply Sm_ext. intros c Hc. rewrite (r_part_swap a b c k). ring.
Qed.
Lemma cm_ext : forall a b M M', (forall i j, 0 <= i < 3 -> 0 <= j < 3 -> M i j == M' i j)%K -> cm a b M -> cm a b M'.
Proof.
  intros a b M M' H C i k Hi Hk. rewrite <- (Sm_ext K 3 (fun j => r_sum K g cart a b i j * M j k)%K) by (intros j Hj; rewrite (H j k Hj Hk); reflexivity).
  rewrite (C i k Hi Hk). apply Sm_ext. intros c Hc. rewrite (H i c Hi Hc). reflexivity.
Qed.
Lemma cm_add : forall a b M M', cm a b M -> cm a b M' -> cm a b (fun i j => M i j + M' i j)%K.
Proof.
  intros a b M M' C C' i k Hi Hk.
  transitivity (Sm 3 (fun j => r_sum K g cart a b i j * M j k) + Sm 3 (fun j => r_sum K g cart a b i j * M' j k))%K; [rewrite <- Sm_add; apply Sm_ext; intros; ring|].
  rewrite (C i k Hi Hk), (C' i k Hi Hk), <- Sm_add. apply Sm_ext. intros; ring.
Qed.
Lemma cm_scale : forall a b M c, cm a b M -> cm a b (fun i j => M i j * c)%K.
Proof.
  intros a b M c C i k Hi Hk. transitivity (Sm 3 (fun j => r_sum K g cart a b i j * M j k) * c)%K; [rewrite <- Sm_mul_r; apply Sm_ext; intros; ring|].
  rewrite (C i k Hi Hk), <- Sm_mul_r. apply Sm_ext. intros; ring.
Qed.
Lemma cm_0 : forall a b, cm a b (fun _ _ => 0%K).
Proof. intros a b i k Hi Hk. rewrite !Sm_0; [reflexivity| |]; intros; ring. Qed.
Lemma cm_ks : forall a b X (L : list X) (M : X -> Z -> Z -> K), (forall y, In y L -> cm a b (M y)) -> cm a b (fun i j => ks K L (fun y => M y i j)).
Proof.
  intros a b X L M. induction L as [|y L IH]; intros H; [apply cm_0|].
  apply (cm_add a b (M y) (fun i j => ks K L (fun y => M y i j))); [apply H; now left|apply IH; intros; apply H; now right].
Qed.
Lemma cm_t : forall a b M, cm a b M -> cm a b (fun i j => M j i).
Proof.
  intros a b M C i k Hi Hk. transitivity (Sm 3 (fun j => M k j * r_sum K g cart a b j i))%K; [apply Sm_ext; intros j Hj; rewrite (r_sum_sym a b i j); ring|].
  rewrite <- (C k i Hk Hi). apply Sm_ext. intros j Hj. rewrite (r_sum_sym a b j k). ring.
Qed.

(** ** The collision matrix commutes with I *)
Variables (rot : Z -> Z -> Z) (irs : Z -> Z) (root : K -> K) (mi : Z -> Z -> Z -> Z -> Z -> Z -> K) (di : Z -> Z -> K) (om : Z -> Z -> Z -> Z -> Z -> K).
(** the off-diagonal part is a sum over the operations (C33_irreducible_matrix) *)
Hypothesis Hmi : forall i j a i' j' b, 0 <= i < nir -> 0 <= j < nb -> 0 <= a < 3 -> 0 <= i' < nir -> 0 <= j' < nb -> 0 <= b < 3 ->
  (mi i j a i' j' b == Sm g (fun l => om l i j i' j' * cart l a b))%K.
Local Notation S := (nir * nb * 3).
Local Notation A := (ir_matrix K g nb rot irs cart root mi di).
Definition block (k k' a b : Z) : K := weighted K g rot root (combine K g rot irs cart mi di) (k / nb) (k mod nb) a (k' / nb) (k' mod nb) b.
Lemma k_in : forall k, 0 <= k < nir * nb -> 0 <= k / nb < nir /\ 0 <= k mod nb < nb.
Proof.
  intros k Hk. assert (0 < nb) by nia. split; [|apply Z.mod_pos_bound; lia].
  split; [apply Z.div_pos; lia|apply Z.div_lt_upper_bound; nia].
Qed.
Lemma cm_block : forall a b k k', 0 <= a < 3 -> 0 <= b < 3 -> 0 <= k < nir * nb -> 0 <= k' < nir * nb -> cm a b (block k k').
Proof.
  intros a b k k' Ha Hb Hk Hk'. destruct (k_in k Hk) as [H1 H2]. destruct (k_in k' Hk') as [H3 H4]. unfold block, weighted. apply cm_scale.
  assert (C0 : cm a b (fun i j => mi (k / nb) (k mod nb) i (k' / nb) (k' mod nb) j)).
  { apply (cm_ext a b (fun i j => Sm g (fun l => cart l i j * om l (k / nb) (k mod nb) (k' / nb) (k' mod nb))))%K.
    - intros i j Hi Hj. rewrite Hmi by auto. apply Sm_ext. intros; ring.
    - apply cm_ks. intros l Hl. apply in_zrange in Hl. apply cm_scale. now apply cm_cart. }
  apply (cm_ext a b (fun i j => mi (k / nb) (k mod nb) i (k' / nb) (k' mod nb) j +
     Sm g (fun l => cart l i j * (if ((k / nb =? k' / nb) && (k mod nb =? k' mod nb) && (rot (k / nb) l =? irs (k / nb)))%bool then di (k / nb) (k mod nb) else 0)))%K).
  - intros i j Hi Hj. unfold combine. destruct ((k / nb =? k' / nb) && (k mod nb =? k' mod nb))%bool; cbn [andb].
    + generalize (mi (k / nb) (k mod nb) i (k' / nb) (k' mod nb) j). unfold DirModel.Sm. induction (zrange g) as [|l L IH]; intros s.
      * cbn [fold_left]. rewrite ks_nil. ring.
      * cbn [fold_left]. rewrite <- IH, ks_cons. destruct (rot (k / nb) l =? irs (k / nb)); ring.
    + rewrite Sm_0; [ring|]. intros; ring.
  - apply cm_add; [exact C0|]. apply cm_ks. intros l Hl. apply in_zrange in Hl. apply cm_scale. now apply cm_cart.
Qed.
Lemma A_block : forall p q, (A p q == (block (p / 3) (q / 3) (p mod 3) (q mod 3) + block (q / 3) (p / 3) (q mod 3) (p mod 3)) / (1 + 1))%K.
Proof. reflexivity. Qed.
Definition Imat (a b p q : Z) : K := if p / 3 =? q / 3 then r_sum K g cart a b (p mod 3) (q mod 3) else 0%K.
Lemma kc : forall k c, 0 <= c < 3 -> (k * 3 + c) / 3 = k /\ (k * 3 + c) mod 3 = c.
Proof. intros k c Hc. split; [rewrite Z.div_add_l, Z.div_small by lia; lia|rewrite Z.add_comm, Z.mod_add, Z.mod_small by lia; lia]. Qed.
Lemma p_in : forall p, 0 <= p < S -> 0 <= p / 3 < nir * nb /\ 0 <= p mod 3 < 3.
Proof. intros p Hp. split; [|apply Z.mod_pos_bound; lia]. split; [apply Z.div_pos; lia|apply Z.div_lt_upper_bound; lia]. Qed.
Lemma I_left : forall a b B p q, 0 <= p < S -> (matmul K S (Imat a b) B p q == Sm 3 (fun c => r_sum K g cart a b (p mod 3) c * B (p / 3 * 3 + c)%Z q))%K.
Proof.
  intros a b B p q Hp. destruct (p_in p Hp) as [P1 P2]. unfold matmul. rewrite Sm_flat by lia. rewrite (Sm_one K (nir * nb) (p / 3)); [|exact P1|].
  - apply Sm_ext. intros c Hc. unfold Imat. destruct (kc (p / 3) c Hc) as [-> ->]. rewrite Z.eqb_refl. reflexivity.
  - intros k Hk Ne. apply Sm_0. intros c Hc. unfold Imat. destruct (kc k c Hc) as [-> ->]. destruct (Z.eqb_spec (p / 3) k); [congruence|ring].
Qed.
Lemma I_right : forall a b B p q, 0 <= q < S -> (matmul K S B (Imat a b) p q == Sm 3 (fun c => B p (q / 3 * 3 + c)%Z * r_sum K g cart a b c (q mod 3)))%K.
Proof.
  intros a b B p q Hq. destruct (p_in q Hq) as [P1 P2]. unfold matmul. rewrite Sm_flat by lia. rewrite (Sm_one K (nir * nb) (q / 3)); [|exact P1|].
  - apply Sm_ext. intros c Hc. unfold Imat. destruct (kc (q / 3) c Hc) as [-> ->]. rewrite Z.eqb_refl. reflexivity.
  - intros k Hk Ne. apply Sm_0. intros c Hc. unfold Imat. destruct (kc k c Hc) as [-> ->]. destruct (Z.eqb_spec k (q / 3)); [congruence|ring].
Qed.
Lemma I_sym : forall a b p q, (Imat a b p q == Imat a b q p)%K.
Proof. intros a b p q. unfold Imat. rewrite (Z.eqb_sym (p / 3)). destruct (q / 3 =? p / 3); [apply r_sum_sym|reflexivity]. Qed.
Lemma I_comm : forall a b, 0 <= a < 3 -> 0 <= b < 3 -> same_matrix K S (matmul K S (Imat a b) A) (matmul K S A (Imat a b)).
Proof.
  intros a b Ha Hb p q Hp Hq. rewrite I_left, I_right by auto. destruct (p_in p Hp) as [P1 P2]. destruct (p_in q Hq) as [Q1 Q2].
  set (M := fun i j => ((block (p / 3) (q / 3) i j + block (q / 3) (p / 3) j i) * (1 / (1 + 1)))%K).
  assert (C : cm a b M).
  { unfold M. apply (cm_scale a b (fun i j => block (p / 3) (q / 3) i j + block (q / 3) (p / 3) j i)%K). apply cm_add; [now apply cm_block|].
    apply (cm_t a b (block (q / 3) (p / 3))). now apply cm_block. }
  pose proof (two_neq0 K) as T.
  transitivity (Sm 3 (fun c => r_sum K g cart a b (p mod 3) c * M c (q mod 3)))%K.
  { apply Sm_ext. intros c Hc. rewrite A_block. destruct (kc (p / 3) c Hc) as [-> ->]. unfold M. field. exact T. }
  rewrite (C (p mod 3) (q mod 3) P2 Q2). apply Sm_ext. intros c Hc. rewrite A_block. destruct (kc (q / 3) c Hc) as [-> ->]. unfold M. field. exact T.
Qed.

Variables (small : K -> bool) (absn : K -> K) (ltbn : K -> K -> bool) (method : Z) (cutoff factor : K).
Local Notation kp := (kept K absn ltbn method cutoff).
Hypothesis Hk : sound_test K kp.
Local Notation ep := (eigvals_pinv K absn ltbn method cutoff).
Lemma get_I_some : forall a b I, get_I K g cart small a b = Some I -> I = Imat a b.
Proof. intros a b I H. unfold get_I in H. destruct (forallb _ _); [discriminate|]. injection H as <-. reflexivity. Qed.

Section OneRun.
Variables (gvi : Z -> Z -> Z -> K) (fsi : Z -> Z -> K) (wts : Z -> K) (Y : Z -> Z -> K) (mode : Z -> Z -> Z -> Z -> K).
Local Notation X := (get_X K nb gvi fsi wts).
Hypothesis Run : collective_run g nir nb cart small absn ltbn method cutoff factor A X Y mode.
Let Xf (m : Z) : K := X (m / 3)%Z (m mod 3).

Lemma vals_total : forall size v2 w2 X0, size = S -> diagonalizes K size (fun p q => Sm size (fun l => v2 p l * w2 l * v2 q l))%K w2 v2 ->
  (Sm nir (fun i => Sm nb (fun j => cha_vals K size v2 w2 X0 (i * nb + j)%Z)) == Sm size (fun l => spectrum K size v2 w2 X0 l))%K.
Proof.
  intros size v2 w2 X0 -> D2.
  transitivity (Sm (nir * nb) (fun p => Sm S (fun l => spectrum K S v2 w2 X0 l * Sm 3 (fun c => v2 (p * 3 + c)%Z l * v2 (p * 3 + c)%Z l))))%K.
  { rewrite (Sm_flat K nir nb) by lia. apply Sm_ext. intros i Hi. apply Sm_ext. intros j Hj. unfold cha_vals. rewrite fold_ks.
    change (0 + Sm S (fun l => spectrum K S v2 w2 X0 l * Sm 3 (fun c => v2 ((i * nb + j) * 3 + c)%Z l * v2 ((i * nb + j) * 3 + c)%Z l)) ==
            Sm S (fun l => spectrum K S v2 w2 X0 l * Sm 3 (fun c => v2 ((i * nb + j) * 3 + c)%Z l * v2 ((i * nb + j) * 3 + c)%Z l)))%K. ring. }
  rewrite Sm_swap. apply Sm_ext. intros l Hl. rewrite Sm_mul_l.
  destruct D2 as [_ [D2 _]]. pose proof (D2 l l Hl Hl) as E. rewrite Z.eqb_refl in E. rewrite (Sm_flat K (nir * nb) 3) in E by lia.
  rewrite E. ring.
Qed.
Lemma spectrum_total : forall size v2 w2 M, diagonalizes K size M w2 v2 ->
  (Sm size (fun l => spectrum K size v2 w2 X l) == form K size Xf M Xf)%K.
Proof.
  intros size v2 w2 M [D1 _]. rewrite (form_ext K size Xf Xf M _ D1). unfold form, spectrum.
  transitivity (Sm size (fun p => Sm size (fun q => Sm size (fun l => (Xf p * v2 p l) * w2 l * (v2 q l * Xf q)))))%K.
  2: { apply Sm_ext. intros p Hp. apply Sm_ext. intros q Hq. rewrite <- Sm_mul_l, <- Sm_mul_r. apply Sm_ext. intros; ring. }
  transitivity (Sm size (fun l => Sm size (fun p => Sm size (fun q => (Xf p * v2 p l) * w2 l * (v2 q l * Xf q)))))%K.
  { apply Sm_ext. intros l Hl. fold Xf. change (fun m => v2 m l * X (m / 3) (m mod 3))%K with (fun m => v2 m l * Xf m)%K. set (d := Sm size (fun m => v2 m l * Xf m)%K).
    transitivity (Sm size (fun p => Xf p * v2 p l * w2 l * d))%K.
    - rewrite !Sm_mul_r. transitivity (d * w2 l * d)%K; [ring|]. unfold d at 1. apply K_mul; [|reflexivity]. apply K_mul; [|reflexivity]. apply Sm_ext. intros; ring.
    - apply Sm_ext. intros p Hp. unfold d. rewrite <- Sm_mul_l. apply Sm_ext. intros; ring. }
  rewrite Sm_swap. apply Sm_ext. intros p Hp. apply Sm_swap.
Qed.
(** the sum over modes of the tensor of the ordinary solution *)
Lemma ordinary_total : forall a b, (forall j, 0 <= j < nb -> j < 3 -> fsi 0%Z j == 0)%K ->
  (Sm nir (fun i => Sm nb (fun j => mode_kappa K g nb cart factor X Y i j a b)) == form K S Xf (Imat a b) (fun m => Y (m / 3)%Z (m mod 3)) * factor)%K.
Proof.
  intros a b Hf. destruct Hn as [Hn1 Hn2].
  assert (L : (form K S Xf (Imat a b) (fun m => Y (m / 3)%Z (m mod 3)) ==
               Sm (nir * nb) (fun p => Sm 3 (fun c => Sm 3 (fun d => X p c * r_sum K g cart a b c d * Y p d))))%K).
  { unfold form. rewrite (Sm_flat K (nir * nb) 3) by lia. apply Sm_ext. intros p Hp. apply Sm_ext. intros c Hc.
    rewrite (Sm_flat K (nir * nb) 3) by lia. rewrite (Sm_one K (nir * nb) p); [|exact Hp|].
    - apply Sm_ext. intros d Hd. unfold Xf, Imat. destruct (kc p c Hc) as [-> ->]. destruct (kc p d Hd) as [-> ->]. rewrite Z.eqb_refl. reflexivity.
    - intros k Hk' Ne. apply Sm_0. intros d Hd. unfold Imat. destruct (kc p c Hc) as [-> _]. destruct (kc k d Hd) as [-> _].
      destruct (Z.eqb_spec p k); [congruence|ring]. }
  rewrite L, (Sm_flat K nir nb) by lia. rewrite <- Sm_mul_r. apply Sm_ext. intros i Hi. rewrite <- Sm_mul_r. apply Sm_ext. intros j Hj.
  set (p := (i * nb + j)%Z).
  assert (G : (Sm 3 (fun c => Sm 3 (fun d => X p c * r_sum K g cart a b c d * Y p d)) ==
     Sm g (fun l => rotv K cart l (X p) a * rotv K cart l (Y p) b) + Sm g (fun l => rotv K cart l (X p) b * rotv K cart l (Y p) a))%K).
  { assert (Q : forall a b, (Sm g (fun l => rotv K cart l (X p) a * rotv K cart l (Y p) b) == Sm 3 (fun c => Sm 3 (fun d => X p c * r_part K g cart a b c d * Y p d)))%K).
    { intros a0 b0. unfold rotv.
      transitivity (Sm g (fun l => Sm 3 (fun c => Sm 3 (fun d => X p c * (cart l a0 c * cart l b0 d) * Y p d))))%K.
      { apply Sm_ext. intros l Hl. rewrite <- Sm_mul_r. apply Sm_ext. intros c Hc. rewrite <- Sm_mul_l. apply Sm_ext. intros; ring. }
      rewrite Sm_swap. apply Sm_ext. intros c Hc. rewrite Sm_swap. apply Sm_ext. intros d Hd. rewrite Sm_mul_r, Sm_mul_l. reflexivity. }
    rewrite !Q, <- Sm_add. apply Sm_ext. intros c Hc. rewrite <- Sm_add. apply Sm_ext. intros d Hd. unfold r_sum. rewrite (r_part_swap a b c d). ring. }
  rewrite G. unfold mode_kappa. fold p. destruct ((i =? 0) && (j <? 3))%bool eqn:E; [|reflexivity].
  apply andb_true_iff in E. destruct E as [E1 E2]. apply Z.eqb_eq in E1. apply Z.ltb_lt in E2. subst i.
  assert (X0 : forall c, (X p c == 0)%K).
  { intros c. unfold get_X, p. cbv zeta. replace ((0 * nb + j) / nb)%Z with 0%Z by (symmetry; apply Z.div_small; lia). replace ((0 * nb + j) mod nb)%Z with j by (symmetry; apply Z.mod_small; lia).
    rewrite (Hf j Hj E2). ring. }
  rewrite <- G. rewrite Sm_0; [ring|]. intros c Hc. apply Sm_0. intros d Hd. rewrite X0. ring.
Qed.
Lemma run_facts : exists v w, diagonalizes K S A w v /\
  (forall p a, 0 <= p * 3 + a < S -> Y p a == Sm S (fun m => omega_inv K S v (ep w) (p * 3 + a)%Z m * Xf m))%K /\
  forall a b, 0 <= a < 3 -> 0 <= b < 3 ->
    (get_I K g cart small a b = None /\ forall i j, (mode i j a b == 0)%K) \/
    exists w2 v2, diagonalizes K S (matmul K S (Imat a b) (omega_inv K S v (ep w))) w2 v2 /\
      forall i j, (mode i j a b == cha_vals K S v2 w2 X (i * nb + j)%Z * factor)%K.
Proof.
  destruct Run as [s [w [mem [D [EY RM]]]]]. cbv zeta in EY, RM. destruct (layout K s S A w mem D) as [V Hs].
  set (v := eigvecs K s S mem) in *. exists v, w. split; [exact V|]. split.
  - intros p a Hp. rewrite EY. reflexivity.
  - intros a b Ha Hb. destruct (RM a b Ha Hb) as [w2 [mem2 [D2 E2]]]. unfold cha_mode in E2. destruct (get_I K g cart small a b) as [I|] eqn:EI.
    + right. pose proof (get_I_some a b I EI) as ->. specialize (D2 _ eq_refl). destruct (layout K s S _ w2 mem2 D2) as [V2 _].
      exists w2, (eigvecs K s S mem2). split; [|intros i j; rewrite E2; reflexivity].
      destruct V2 as [V21 V22]. split; [|exact V22]. intros p p' Hp Hp'. rewrite <- (V21 p p' Hp Hp'). unfold triangle.
      destruct (p' <=? p); [reflexivity|].
      exact (Ioi_sym K kp (proj1 Hk) (proj2 Hk) S A w v V (Imat a b) (I_comm a b Ha Hb) (fun p q _ _ => I_sym a b p q) p p' Hp Hp').
    + left. split; [reflexivity|]. intros i j. rewrite E2. ring.
Qed.
Lemma Xmode : forall m, 0 <= m < S -> m / 3 * 3 + m mod 3 = m. Proof. intros m _. apply split3. Qed.
End OneRun.

(** The conductivity is that of the ordinary solution. *)
Theorem C117_collective_total : forall gvi fsi wts Y mode,
  collective_run g nir nb cart small absn ltbn method cutoff factor A (get_X K nb gvi fsi wts) Y mode ->
  (forall j, 0 <= j < nb -> j < 3 -> fsi 0%Z j == 0)%K ->
  forall a b, 0 <= a < 3 -> 0 <= b < 3 -> (forall i j, small (r_sum K g cart a b i j) = true -> r_sum K g cart a b i j == 0)%K ->
  (Sm nir (fun i => Sm nb (fun j => mode i j a b)) ==
   Sm nir (fun i => Sm nb (fun j => mode_kappa K g nb cart factor (get_X K nb gvi fsi wts) Y i j a b)))%K.
Proof.
  intros gvi fsi wts Y mode Run Hf a b Ha Hb Hsm. destruct (run_facts gvi fsi wts Y mode Run) as [v [w [V [EY RM]]]].
  rewrite (ordinary_total gvi fsi wts Y a b Hf). set (X := get_X K nb gvi fsi wts) in *. set (Xf := fun m : Z => X (m / 3) (m mod 3)) in *.
  destruct (RM a b Ha Hb) as [[EI Em]|[w2 [v2 [V2 Em]]]].
  - transitivity 0%K; [apply Sm_0; intros i Hi; apply Sm_0; intros j Hj; apply Em|].
    assert (Z0 : forall i j, 0 <= i < 3 -> 0 <= j < 3 -> (r_sum K g cart a b i j == 0)%K).
    { intros i j Hi Hj. apply Hsm. unfold get_I in EI. destruct (forallb _ _) eqn:E; [|discriminate]. rewrite forallb_forall in E.
      specialize (E i (proj2 (in_zrange 3 i) Hi)). rewrite forallb_forall in E. exact (E j (proj2 (in_zrange 3 j) Hj)). }
    unfold form. rewrite Sm_0; [ring|]. intros p Hp. apply Sm_0. intros q Hq. unfold Imat. destruct (p_in p Hp) as [_ P2]. destruct (p_in q Hq) as [_ Q2].
    destruct (p / 3 =? q / 3); [rewrite Z0 by auto|]; ring.
  - transitivity (Sm nir (fun i => Sm nb (fun j => cha_vals K S v2 w2 X (i * nb + j)%Z)) * factor)%K.
    { rewrite <- Sm_mul_r. apply Sm_ext. intros i Hi. rewrite <- Sm_mul_r. apply Sm_ext. intros j Hj. apply Em. }
    apply K_mul; [|reflexivity]. rewrite (vals_total S v2 w2 X eq_refl).
    2: { destruct V2 as [_ V22]. split; [intros; reflexivity|exact V22]. }
    etransitivity; [exact (spectrum_total gvi fsi wts S v2 w2 _ V2)|]. fold X. fold Xf. rewrite form_mul. apply form_ext_v; [reflexivity|].
    intros p Hp. rewrite (EY (p / 3) (p mod 3)) by (rewrite split3; exact Hp). rewrite split3. reflexivity.
Qed.
(** Y, hence the f-vectors, are those of the ordinary solution. *)
Theorem C117_collective_Y : forall gvi fsi wts Y mode solver w mem Y',
  collective_run g nir nb cart small absn ltbn method cutoff factor A (get_X K nb gvi fsi wts) Y mode ->
  diagonalized_by K solver S A w mem -> get_Y K absn ltbn false solver method cutoff S w mem (get_X K nb gvi fsi wts) Y' ->
  forall p a, 0 <= p < nir * nb -> 0 <= a < 3 -> (Y p a == Y' p a)%K.
Proof.
  intros gvi fsi wts Y mode solver w' mem' Y' Run D' G' p a Hp Ha. destruct (run_facts gvi fsi wts Y mode Run) as [v [w [V [EY _]]]].
  assert (S0 : 0 <= S) by nia. destruct (get_Y_ir K absn ltbn method cutoff Hk _ _ _ _ _ _ _ S0 D' G') as [v' [V' H']].
  assert (HY : forall p a, 0 <= p * 3 + a < S -> (Y p a == solve_ir K S v (ep w) (get_X K nb gvi fsi wts) p a)%K).
  { intros q c Hq. rewrite (EY q c Hq). rewrite (oi_mul K kp S w v _ (q * 3 + c) Hq). unfold solve_ir, co. reflexivity. }
  destruct (kc p a Ha) as [E1 E2].
  pose proof (truncated_unique K kp (proj1 Hk) (proj2 Hk) S A (diag_symm K _ _ _ _ V) _ (fun p => Y (p / 3)%Z (p mod 3)) (fun p => Y' (p / 3)%Z (p mod 3))
    (ir_truncated K absn ltbn method cutoff Hk S A w v (get_X K nb gvi fsi wts) Y V HY) (ir_truncated K absn ltbn method cutoff Hk S A w' v' (get_X K nb gvi fsi wts) Y' V' H') (p * 3 + a)%Z ltac:(lia)) as E.
  cbn beta in E. rewrite E1, E2 in E. exact E.
Qed.
(** The diagonal elements of every mode are not negative when no negative eigenvalue is kept. *)
Theorem C117_collective_positive : forall gvi fsi wts Y mode P eqb,
  collective_run g nir nb cart small absn ltbn method cutoff factor A (get_X K nb gvi fsi wts) Y mode ->
  nonneg K P -> (forall x y, eqb x y = true <-> (x == y)%K) -> (forall x, kp x = true -> P x) -> P factor ->
  forall a i j, 0 <= a < 3 -> P (mode i j a a).
Proof.
  intros gvi fsi wts Y mode P eqb Run HP He Pk Pf a i j Ha. destruct (run_facts gvi fsi wts Y mode Run) as [v [w [V [EY RM]]]].
  set (X := get_X K nb gvi fsi wts) in *.
  destruct (RM a a Ha Ha) as [[EI Em]|[w2 [v2 [V2 Em]]]]; [apply (nn_ext _ _ HP 0%K); [now rewrite Em|exact (P0 K P HP)]|].
  apply (nn_ext _ _ HP (cha_vals K S v2 w2 X (i * nb + j)%Z * factor)%K); [now rewrite Em|]. apply (nn_mul _ _ HP); [|exact Pf].
  assert (Pe : forall l, 0 <= l < S -> P (pe K kp w l)).
  { intros l Hl. unfold pe. destruct (kp (w l)) eqn:El; [|exact (P0 K P HP)]. pose proof (proj2 Hk _ El) as Nz.
    apply (nn_ext _ _ HP (w l * ((1 / w l) * (1 / w l)))%K); [field; exact Nz|]. apply (nn_mul _ _ HP); [now apply Pk|apply (nn_square _ _ HP)]. }
  (* I(a,a) is a sum of squares *)
  set (fac := fun t b p : Z => (if (p / 3 =? b)%Z then cart (t mod g) a (p mod 3) else 0)%K).
  assert (Isq : forall p q, 0 <= p < S -> 0 <= q < S -> (Imat a a p q == Sm (2 * g) (fun t => Sm (nir * nb) (fun b => fac t b p * fac t b q)))%K).
  { intros p q Hp Hq. destruct (p_in p Hp) as [P1 P2]. pose proof (pg_pos _ _ _ _ _ _ _ HG) as G0.
    transitivity (Sm (2 * g) (fun t => if (p / 3 =? q / 3)%Z then cart (t mod g) a (p mod 3) * cart (t mod g) a (q mod 3) else 0))%K.
    - rewrite (Sm_flat K 2 g) by lia. unfold Imat, r_sum.
      transitivity (Sm 2 (fun _ => if (p / 3 =? q / 3)%Z then r_part K g cart a a (p mod 3) (q mod 3) else 0))%K.
      + rewrite Sm_const. change (Z.to_nat 2) with 2%nat. rewrite !of_nat_S. unfold of_nat. cbn [repeat]. rewrite ks_nil.
        destruct (p / 3 =? q / 3); [|ring]. rewrite (r_part_swap a a (p mod 3) (q mod 3)). ring.
      + apply Sm_ext. intros t Ht. destruct (p / 3 =? q / 3); [|symmetry; apply Sm_0; reflexivity].
        apply Sm_ext. intros l Hl. replace ((t * g + l) mod g) with l; [reflexivity|]. rewrite Z.add_comm, Z.mod_add, Z.mod_small by lia. reflexivity.
    - apply Sm_ext. intros t Ht. rewrite (Sm_one K (nir * nb) (p / 3)); [|exact P1|].
      + unfold fac. rewrite Z.eqb_refl. rewrite (Z.eqb_sym (q / 3)). destruct (p / 3 =? q / 3); ring.
      + intros b Hb Ne. unfold fac. destruct (Z.eqb_spec (p / 3) b); [congruence|ring]. }
  assert (Pw : forall l, 0 <= l < S -> P (w2 l)).
  { intros l Hl. apply (nn_ext _ _ HP (form K S (fun p => v2 p l) (matmul K S (Imat a a) (omega_inv K S v (ep w))) (fun p => v2 p l))).
    - unfold form. transitivity (Sm S (fun p => v2 p l * Sm S (fun q => matmul K S (Imat a a) (omega_inv K S v (ep w)) p q * v2 q l)))%K.
      { apply Sm_ext. intros p Hp. rewrite <- Sm_mul_l. apply Sm_ext. intros; ring. }
      transitivity (Sm S (fun p => w2 l * (v2 p l * v2 p l)))%K.
      { apply Sm_ext. intros p Hp. rewrite (A_eig K S _ w2 v2 V2 l p Hl Hp). ring. }
      rewrite Sm_mul_l. destruct V2 as [_ [V22 _]]. rewrite (V22 l l Hl Hl), Z.eqb_refl. ring.
    - apply (Ioi_pos K kp (proj1 Hk) (proj2 Hk) S A w v V (Imat a a) (I_comm a a Ha Ha) P HP eqb He (2 * g) fac (nir * nb) Isq (fun p => v2 p l) Pe). }
  unfold cha_vals. apply (nn_ext _ _ HP (Sm S (fun l => spectrum K S v2 w2 X l * Sm 3 (fun c => v2 ((i * nb + j) * 3 + c)%Z l * v2 ((i * nb + j) * 3 + c)%Z l)))%K).
  { rewrite fold_ks. change (ks K (zrange S)) with (Sm S). ring. }
  apply (PSm K P HP). intros l Hl. apply (nn_mul _ _ HP).
  - unfold spectrum. apply (nn_mul _ _ HP); [apply (nn_square _ _ HP)|now apply Pw].
  - apply (PSm K P HP). intros c Hc. apply (nn_square _ _ HP).
Qed.
End Any.

(** ** Mean free paths *)
Section Mfp.
Variable K : numbers.
Add Field Kfield11 : (n_field K) (setoid (n_equiv K) (n_ext K)).
Lemma mfp_mode : forall g nb cart (root : K -> K) tiny kb pi t conv gv fs cv w Y i j a b,
  let X := get_X K nb gv fs w in
  0 <= i -> 0 <= j < nb -> ((i =? 0) && (j <? 3))%bool = false -> tiny (cv i j) = false ->
  ~ neq K (w i) (n0 K) -> ~ neq K pi (n0 K) -> ~ neq K (cv i j) (n0 K) ->
  neq K (nmul K (root (ndiv K kb (cv i j))) (root (ndiv K kb (cv i j)))) (ndiv K kb (cv i j)) ->
  neq K (nmul K (nmul K (nmul K (nadd K (n1 K) (n1 K)) t) (fs i j)) (root (ndiv K kb (cv i j)))) (n1 K) ->
  0 <= a < 3 -> 0 <= b < 3 ->
  neq K (mode_from_mfp K g cart pi conv gv (cha_mfp K nb root tiny kb pi t cv (f_vector K nb w Y)) cv w i j a b)
        (mode_kappa K g nb cart (nmul K (nmul K conv kb) (nmul K t t)) X Y i j a b).
Proof.
  intros g nb cart root tiny kb pi t conv gv fs cv w Y i j a b X Hi Hj Hg Ht Hw Hpi Hcv Hr H1 Ha Hb.
  set (rho := root (ndiv K kb (cv i j))) in *. set (p := (i * nb + j)%Z).
  assert (Ep : (p / nb)%Z = i) by (unfold p; rewrite Z.div_add_l, Z.div_small by lia; lia).
  assert (Em : p mod nb = j) by (unfold p; rewrite Z.add_comm, Z.mod_add, Z.mod_small by lia; lia).
  set (two := nadd K (n1 K) (n1 K)) in *. pose proof (two_neq0 K) as T2. fold two in T2.
  set (c := nopp K (ndiv K (nmul K t rho) (nmul K (nmul K two pi) (w i)))).
  assert (Hmfp : forall d, 0 <= d < 3 -> neq K (cha_mfp K nb root tiny kb pi t cv (f_vector K nb w Y) i j d) (nmul K (Y p d) c)).
  { intros d Hd. unfold cha_mfp. rewrite Ht. fold rho two p. unfold f_vector. rewrite Ep. fold two. unfold c. unfold two in *. field. repeat split; assumption. }
  assert (HX : forall d, neq K (X p d) (nmul K (gv i j d) (nmul K (w i) (fs i j)))).
  { intros d. unfold X, get_X. rewrite Ep, Em. ring. }
  unfold mode_from_mfp, mode_kappa. rewrite Hg. fold p. cbv zeta.
  assert (S1 : forall a b, neq K (Sm K g (fun l => nmul K (rotv K cart l (gv i j) a) (rotv K cart l (cha_mfp K nb root tiny kb pi t cv (f_vector K nb w Y) i j) b)))
     (nmul K (Sm K g (fun l => nmul K (rotv K cart l (gv i j) a) (rotv K cart l (Y p) b))) c)).
  { intros a0 b0. rewrite <- Sm_mul_r. apply Sm_ext. intros l Hl.
    assert (E : neq K (rotv K cart l (cha_mfp K nb root tiny kb pi t cv (f_vector K nb w Y) i j) b0) (nmul K (rotv K cart l (Y p) b0) c)).
    { unfold rotv. rewrite <- Sm_mul_r. apply Sm_ext. intros d Hd. rewrite (Hmfp d Hd). ring. }
    rewrite E. ring. }
  assert (S2 : forall a b, neq K (Sm K g (fun l => nmul K (rotv K cart l (X p) a) (rotv K cart l (Y p) b)))
     (nmul K (Sm K g (fun l => nmul K (rotv K cart l (gv i j) a) (rotv K cart l (Y p) b))) (nmul K (w i) (fs i j)))).
  { intros a0 b0. rewrite <- Sm_mul_r. apply Sm_ext. intros l Hl.
    assert (E : neq K (rotv K cart l (X p) a0) (nmul K (rotv K cart l (gv i j) a0) (nmul K (w i) (fs i j)))).
    { unfold rotv. rewrite <- Sm_mul_r. apply Sm_ext. intros d Hd. rewrite (HX d). ring. }
    rewrite E. ring. }
  rewrite !S1, !S2.
  set (s1 := Sm K g (fun l => nmul K (rotv K cart l (gv i j) a) (rotv K cart l (Y p) b))). set (s2 := Sm K g (fun l => nmul K (rotv K cart l (gv i j) b) (rotv K cart l (Y p) a))).
  (* cv rho = 2 kb t fs *)
  assert (E : neq K (nmul K (cv i j) rho) (nmul K (nmul K (nmul K two kb) t) (fs i j))).
  { assert (Hr' : neq K (nmul K (cv i j) (nmul K rho rho)) kb) by (rewrite Hr; field; exact Hcv).
    transitivity (nmul K (nmul K (cv i j) rho) (nmul K (nmul K (nmul K two t) (fs i j)) rho)); [rewrite H1; ring|].
    transitivity (nmul K (nmul K (nmul K two t) (fs i j)) (nmul K (cv i j) (nmul K rho rho))); [ring|]. rewrite Hr'. ring. }
  transitivity (nmul K (nmul K (nmul K (nadd K s1 s2) (nmul K conv (nmul K (w i) t))) (nmul K (cv i j) rho)) (ndiv K (n1 K) two)).
  { unfold c. fold two. unfold two in *. field. repeat split; assumption. }
  rewrite E. unfold two in *. field. exact T2.
Qed.
End Mfp.

(** The thermal factor and the heat capacity: 2 T F sqrt(kb / cv) = 1 *)
Lemma fs_root : forall mode_cv sinh root cutoff ev kb T f, (0 < ev)%Q -> (0 < kb)%Q -> (0 < T)%Q -> (0 <= cutoff)%Q -> (cutoff < f)%Q ->
  thermal mode_cv sinh ev kb T f -> (0 <= root (kb / mode_cv T (f * ev)))%Q -> root_of root (kb / mode_cv T (f * ev))%Q ->
  (0 < mode_cv T (f * ev))%Q /\ ((1 + 1) * T * lbte_sinh sinh cutoff ev kb T f * root (kb / mode_cv T (f * ev)) == 1)%Q.
Proof.
  intros mode_cv sinh root cutoff ev kb T f Hev Hkb HT Hc Hf Th R0 R1. pose proof (sinh_factor mode_cv sinh cutoff ev kb T Hkb f Hf HT Th) as SF.
  set (cv := mode_cv T (f * ev)%Q) in *. set (rho := root (kb / cv)%Q) in *. set (F := lbte_sinh sinh cutoff ev kb T f) in *.
  assert (KT : (0 < kb * (T * T))%Q) by (apply Qmult_lt_0_compat; [exact Hkb|apply Qmult_lt_0_compat; exact HT]).
  assert (F0 : (0 < F)%Q).
  { destruct Th as [e [He [Es _]]]. unfold F, lbte_sinh. replace (qltb cutoff f) with true by (symmetry; apply qltb_lt; exact Hf).
    assert (Hs : (0 < sinh (f * ev / (2 * kb * T)))%Q).
    { rewrite Es. assert (E1 : ((e - / e) / 2 == (e * e - 1) / (2 * e))%Q) by (field; lra). rewrite E1. apply Qlt_shift_div_l; nra. }
    replace (qltb 0 (sinh (f * ev / (2 * kb * T))%Q)) with true by (symmetry; apply qltb_lt; exact Hs).
    assert (0 < f * ev)%Q by nra. pose proof KT.
    apply Qlt_shift_div_l; [nra|]. rewrite Qmult_0_l. apply Qmult_lt_0_compat; [assumption|]. apply Qlt_shift_div_l; [assumption|lra]. }
  assert (C0 : (0 < cv)%Q) by (rewrite <- SF; assert (0 < F * F)%Q by (apply Qmult_lt_0_compat; exact F0); apply Qmult_lt_0_compat; [lra|assumption]).
  split; [exact C0|]. unfold root_of in R1. fold rho in R1.
  assert (E : ((2 * T * F * rho) * (2 * T * F * rho) == 1)%Q).
  { transitivity ((4 * kb * (T * T) * (F * F)) * (rho * rho) / kb)%Q; [field; lra|]. rewrite SF, R1. field. split; lra. }
  assert (0 < 2 * T * F)%Q by nra. assert (0 <= 2 * T * F * rho)%Q by nra. set (y := (2 * T * F * rho)%Q) in *.
  transitivity y; [unfold y; ring|]. assert ((y - 1) * (y + 1) == 0)%Q by nra. destruct (Qmult_integral _ _ H1) as [Z0|Z0]; lra.
Qed.

(** The tensors of the solution are those made of heat capacities, group velocities and the mean free paths, for the modes for which
    mean free paths are computed. *)
Theorem C117_mean_free_path : forall g nb cart root tiny mode_cv sinh cutoff ev kb pi t conv gv freq w Y i j a b,
  let cv i j := mode_cv t (freq i j * ev)%Q in
  let fs i j := lbte_sinh sinh cutoff ev kb t (freq i j) in
  (0 < ev)%Q -> (0 < kb)%Q -> (0 < t)%Q -> (0 <= cutoff)%Q -> (cutoff < freq i j)%Q -> ~ (pi == 0)%Q -> ~ (w i == 0)%Q ->
  thermal mode_cv sinh ev kb t (freq i j) -> (0 <= root (kb / cv i j))%Q -> root_of root (kb / cv i j)%Q ->
  0 <= i -> 0 <= j < nb -> ((i =? 0) && (j <? 3))%bool = false -> tiny (cv i j) = false -> 0 <= a < 3 -> 0 <= b < 3 ->
  (mode_from_mfp Qnum g cart pi conv gv (cha_mfp Qnum nb root tiny kb pi t cv (f_vector Qnum nb w Y)) cv w i j a b ==
   mode_kappa Qnum g nb cart (conv * kb * (t * t)) (get_X Qnum nb gv fs w) Y i j a b)%Q.
Proof.
  intros g nb cart root tiny mode_cv sinh cutoff ev kb pi t conv gv freq w Y i j a b cv fs Hev Hkb HT Hc Hf Hpi Hw Th R0 R1 Hi Hj Hg Ht Ha Hb.
  destruct (fs_root mode_cv sinh root cutoff ev kb t (freq i j) Hev Hkb HT Hc Hf Th R0 R1) as [C0 E1].
  apply (mfp_mode Qnum g nb cart root tiny kb pi t conv gv fs cv w Y i j a b); auto.
  cbn [neq Qnum n0]. change (~ (mode_cv t (freq i j * ev) == 0)%Q). lra.
Qed.
(** In the relaxation time approximation (Y = X / Gamma) it is the group velocity times the lifetime 1 / (2 * 2 pi Gamma) with the sign changed. *)
Theorem C117_mean_free_path_rta : forall nb root tiny mode_cv sinh cutoff ev kb pi t gv freq w gamma i j a,
  let cv i j := mode_cv t (freq i j * ev)%Q in
  let fs i j := lbte_sinh sinh cutoff ev kb t (freq i j) in
  let Y p a := (get_X Qnum nb gv fs w p a / gamma p)%Q in
  (0 < ev)%Q -> (0 < kb)%Q -> (0 < t)%Q -> (0 <= cutoff)%Q -> (cutoff < freq i j)%Q -> ~ (pi == 0)%Q -> ~ (w i == 0)%Q -> ~ (gamma (i * nb + j)%Z == 0)%Q ->
  thermal mode_cv sinh ev kb t (freq i j) -> (0 <= root (kb / cv i j))%Q -> root_of root (kb / cv i j)%Q ->
  0 <= j < nb -> tiny (cv i j) = false ->
  (cha_mfp Qnum nb root tiny kb pi t cv (f_vector Qnum nb w Y) i j a == - (gv i j a * (1 / (2 * (2 * pi * gamma (i * nb + j)%Z)))))%Q.
Proof.
  intros nb root tiny mode_cv sinh cutoff ev kb pi t gv freq w gamma i j a cv fs Y Hev Hkb HT Hc Hf Hpi Hw Hgm Th R0 R1 Hj Ht.
  destruct (fs_root mode_cv sinh root cutoff ev kb t (freq i j) Hev Hkb HT Hc Hf Th R0 R1) as [C0 E1].
  unfold cha_mfp. rewrite Ht. unfold f_vector, Y, get_X. cbv zeta. set (p := (i * nb + j)%Z) in *.
  assert (Ep : (p / nb)%Z = i) by (unfold p; rewrite Z.div_add_l, Z.div_small by lia; lia).
  assert (Em : p mod nb = j) by (unfold p; rewrite Z.add_comm, Z.mod_add, Z.mod_small by lia; lia).
  rewrite Ep, Em. fold (cv i j) in E1. fold (fs i j) in E1. set (rho := root (kb / cv i j)%Q) in *.
  cbn [Qnum nopp nadd nmul ndiv n1 num]. change (DirModel.ndiv Qnum kb (cv i j)) with (kb / cv i j)%Q. fold rho.
  transitivity (- (gv i j a * (1 / (2 * (2 * pi * gamma p)))) * ((1 + 1) * t * fs i j * rho))%Q; [field; repeat split; assumption|].
  rewrite E1. ring.
Qed.

(** ** f-vectors: the array holds those of the last smearing width and the last temperature above zero *)
Lemma inner_last : forall A (sol : Z -> A) (pos : Z -> bool) l t0 zero, In t0 l -> pos t0 = true -> (forall t, In t l -> pos t = true -> t <= t0) ->
  (forall a b l1 l2, l = l1 ++ a :: b :: l2 -> a < b) ->
  fold_left (fun st t => if pos t then sol t else st) l zero = sol t0.
Proof.
  intros A sol pos l. induction l as [|x l IH] using rev_ind; intros t0 zero I P Mx Inc; [destruct I|].
  rewrite fold_left_app. cbn [fold_left]. apply in_app_iff in I. destruct I as [I|[<-|[]]].
  - destruct (pos x) eqn:E.
    + assert (L : x <= t0) by (apply Mx; [apply in_app_iff; right; now left|exact E]).
      assert (L' : t0 < x).
      { clear - I Inc. induction l as [|y l IHl] using rev_ind; [destruct I|]. apply in_app_iff in I.
        assert (Q : y < x) by (apply (Inc y x l []); rewrite <- app_assoc; reflexivity).
        destruct I as [I|[<-|[]]]; [|exact Q].
        assert (R : t0 < y).
        { clear Q IHl. assert (Inc' : forall a b l1 l2, l ++ [y] = l1 ++ a :: b :: l2 -> a < b).
          { intros a b l1 l2 E. apply (Inc a b l1 (l2 ++ [x])). rewrite E, <- app_assoc. reflexivity. }
          clear Inc x. revert y Inc'. induction l as [|z l IHl] using rev_ind; intros y Inc; [destruct I|]. apply in_app_iff in I.
          assert (Q : z < y) by (apply (Inc z y l []); rewrite <- app_assoc; reflexivity).
          destruct I as [I|[<-|[]]]; [|exact Q]. transitivity z; [|exact Q]. apply (IHl I). intros a b l1 l2 E. apply (Inc a b l1 (l2 ++ [y])). rewrite E, <- app_assoc. reflexivity. }
        lia. }
      lia.
    + apply IH; auto.
      * intros t It. apply Mx. apply in_app_iff. now left.
      * intros a b l1 l2 E'. apply (Inc a b l1 (l2 ++ [x])). rewrite E', <- app_assoc. reflexivity.
  - rewrite P. reflexivity.
Qed.
Lemma zrange_last : forall n, 0 < n -> zrange n = zrange (n - 1) ++ [n - 1].
Proof.
  intros n Hn. unfold zrange. replace (Z.to_nat n) with (S (Z.to_nat (n - 1))) by lia. rewrite seq_S, map_app. cbn [map Nat.add]. rewrite Z2Nat.id by lia. reflexivity.
Qed.
Lemma zrange_inc : forall n a b l1 l2, zrange n = l1 ++ a :: b :: l2 -> a < b.
Proof.
  intros n a b l1 l2 E. unfold zrange in E.
  assert (G : forall k m l1, map Z.of_nat (seq k m) = l1 ++ a :: b :: l2 -> a < b).
  { intros k m. revert k. induction m as [|m IH]; intros k l0 E0; [destruct l0; discriminate|]. cbn [seq map] in E0. destruct l0 as [|y l0].
    - cbn [app] in E0. injection E0 as <- E1. destruct m; [discriminate|]. cbn [seq map] in E1. injection E1 as <- _. lia.
    - cbn [app] in E0. injection E0 as _ E1. apply (IH _ _ E1). }
  exact (G 0%nat _ l1 E).
Qed.
Theorem C117_f_vectors : forall A (solution : Z -> Z -> A) pos ns nt zero t0, 0 < ns -> 0 <= t0 < nt -> pos t0 = true ->
  (forall t, t0 < t < nt -> pos t = false) -> f_vectors_array solution pos ns nt zero = solution (ns - 1) t0.
Proof.
  intros A solution pos ns nt zero t0 Hs Ht P L. unfold f_vectors_array. rewrite (zrange_last ns Hs), fold_left_app. cbn [fold_left].
  apply inner_last; [now apply in_zrange|exact P| |apply zrange_inc].
  intros t It Pt. apply in_zrange in It. destruct (Z.le_gt_cases t t0) as [|G]; [assumption|]. rewrite (L t) in Pt by lia. discriminate.
Qed.
(** ... which the files of all smearing widths hold *)
Theorem C117_f_vectors_refuted : exists (solution : Z -> Z -> Z) pos ns nt zero s, 0 <= s < ns /\ (forall t, pos t = true) /\
  forall t, 0 <= t < nt -> f_vectors_file solution pos ns nt zero s <> solution s t.
Proof.
  exists (fun s t => 10 * s + t), (fun _ => true), 2, 2, (-1), 0. split; [lia|]. split; [reflexivity|]. intros t Ht E. change (11 = 10 * 0 + t) in E. lia.
Qed.

(** ** Example: operations diag(+-1, +-1, 1), the Gamma point and two stars of four, one mode at each *)
Section Ex.
Let r (l q : Z) : Z := if q =? 0 then 0 else 1 + 4 * ((q - 1) / 4) + Z.lxor l ((q - 1) mod 4).
Let irs (i : Z) : Z := if i =? 0 then 0 else 4 * i - 3.
Let rot (i l : Z) : Z := r l (irs i).
Let flip (l a : Z) : Q := if ((a =? 0) && Z.testbit l 0 || (a =? 1) && Z.testbit l 1)%bool then (-1)%Q else 1%Q.
Let cart (l a b : Z) : Q := if a =? b then flip l a else 0%Q.
Let om (l i j i' j' : Z) : Q := if ((l =? 0) && (0 <? i) && (0 <? i') && negb (i =? i'))%bool then (-12)%Q else 0%Q.
Let mi (i j a i' j' b : Z) : Q := Sm Qnum 4 (fun l => om l i j i' j' * cart l a b)%Q.
Let di (i j : Z) : Q := if i =? 0 then 1%Q else if i =? 1 then 41%Q else 34%Q.
Let gvi (i j a : Z) : Q := if i =? 1 then 1%Q else (-5)%Q.
Let fsi (i j : Z) : Q := if i =? 0 then 0%Q else 1%Q.
Let root (x : Q) : Q := if Qeq_bool x 4 then 2%Q else 1%Q.
Let cutoff : Q := 1 # 100.
Let small (x : Q) : bool := Qltb (Qab x) (1 # 10000000000).
Let w (l : Z) : Q := nth (Z.to_nat l) [0; 0; 1; 25; 25; 25; 50; 50; 50]%Q 0%Q.
(* eigenvectors: those of the Gamma point, and (3/5, 4/5), (-4/5, 3/5) on the other two *)
Let mem (k : Z) : Q := let p := k / 9 in let l := k mod 9 in
  if p mod 3 =? l mod 3 then
    nth (Z.to_nat (p / 3 * 3 + l / 3)) [1; 0; 0;  0; 3 # 5; -4 # 5;  0; 4 # 5; 3 # 5]%Q 0%Q
  else 0%Q.
Let A := ir_matrix Qnum 4 1 rot irs cart root mi di.
Let X := get_X Qnum 1 gvi fsi (fun _ => 1%Q).
Let oi := omega_inv Qnum 9 (eigvecs Qnum 3 9 mem) (eigvals_pinv Qnum Qab Qltb 1 cutoff w).
Let Y := cha_Y Qnum 9 oi X.
Let w2 (a l : Z) : Q := if l mod 3 =? a then (8 * eigvals_pinv Qnum Qab Qltb 1 cutoff w l)%Q else 0%Q.
Let mode (i j a b : Z) : Q := cha_mode Qnum 4 3 1 cart small 1%Q X (eigvecs Qnum 3 9 mem) (w2 a) a b i j.

Lemma cha_ex_group : point_group Qnum 4 9 r cart Z.lxor (fun l => l).
Proof.
  assert (C3 : forall (P : Z -> Z -> Z -> bool) n m k, forallb (fun x => forallb (fun y => forallb (P x y) (zrange k)) (zrange m)) (zrange n) = true ->
    forall x y z, 0 <= x < n -> 0 <= y < m -> 0 <= z < k -> P x y z = true).
  { intros P n m k H x y z Hx Hy Hz. pose proof (all_range _ _ H x Hx) as H1. pose proof (all_range _ _ H1 y Hy) as H2. exact (all_range _ _ H2 z Hz). }
  assert (R : forall l q, 0 <= l < 4 -> 0 <= q < 9 -> 0 <= r l q < 9).
  { intros l q Hl Hq. assert (H := C3 (fun l q _ => (0 <=? r l q) && (r l q <? 9))%bool 4 9 1 eq_refl l q 0 Hl Hq ltac:(lia)). cbn beta in H. lia. }
  assert (M : forall l m, 0 <= l < 4 -> 0 <= m < 4 -> 0 <= Z.lxor l m < 4).
  { intros l m Hl Hm. assert (H := C3 (fun l q _ => (0 <=? Z.lxor l q) && (Z.lxor l q <? 4))%bool 4 4 1 eq_refl l m 0 Hl Hm ltac:(lia)). cbn beta in H. lia. }
  split; auto; try lia.
  - intros l m m' _ _ _ E. apply (f_equal (Z.lxor l)) in E. now rewrite <- !Z.lxor_assoc, Z.lxor_nilpotent, !Z.lxor_0_l in E.
  - intros l m q Hl Hm Hq. assert (H := C3 (fun l m q => r (Z.lxor l m) q =? r l (r m q)) 4 4 9 eq_refl l m q Hl Hm Hq). cbn beta in H. lia.
  - intros l q Hl Hq. assert (H := C3 (fun l q _ => r l (r l q) =? q) 4 9 1 eq_refl l q 0 Hl Hq ltac:(lia)). cbn beta in H. lia.
  - intros l m a b Hl Hm Ha Hb. apply Qeq_bool_iff.
    assert (H := C3 (fun l m k => Qeq_bool (cart (Z.lxor l m) (k / 3) (k mod 3)) (Sm Qnum 3 (fun c => cart l (k / 3)%Z c * cart m c (k mod 3))%Q)) 4 4 9 ltac:(vm_compute; reflexivity) l m (a * 3 + b) Hl Hm ltac:(lia)).
    cbn beta in H. rewrite Z.div_add_l, Z.div_small, Z.add_0_r in H by lia. rewrite Z.add_comm, Z.mod_add, Z.mod_small in H by lia. exact H.
  - intros l a b Hl Ha Hb. unfold cart. destruct (Z.eqb_spec a b) as [->|N]; [rewrite Z.eqb_refl; apply Qeq_refl|]. destruct (Z.eqb_spec b a); [congruence|apply Qeq_refl].
  - intros l a b Hl Ha Hb. apply Qeq_bool_iff.
    exact (C3 (fun l a b => Qeq_bool (Sm Qnum 3 (fun c => cart l c a * cart l c b)%Q) (if a =? b then 1%Q else 0%Q)) 4 3 3 ltac:(vm_compute; reflexivity) l a b Hl Ha Hb).
Qed.
(* the inverse, with reduced fractions *)
Let oiT (p q : Z) : Q := if p mod 3 =? q mod 3 then
  if p / 3 =? 0 then (if (p =? 2) && (q =? 2) then 1%Q else 0%Q)%bool
  else if q / 3 =? 0 then 0%Q else if p / 3 =? q / 3 then (if p / 3 =? 1 then 17 # 625 else 41 # 1250)%Q else (6 # 625)%Q else 0%Q.
Lemma cha_ex_oi : forall p q, 0 <= p < 9 -> 0 <= q < 9 -> (oi p q == oiT p q)%Q.
Proof.
  intros p q Hp Hq. apply Qeq_bool_iff.
  exact (all_range _ _ (all_range 9 (fun p => forallb (fun q => Qeq_bool (oi p q) (oiT p q)) (zrange 9)) ltac:(vm_compute; reflexivity) p Hp) q Hq).
Qed.
Lemma cha_ex_mat : forall a I p q, get_I Qnum 4 cart small a a = Some I -> 0 <= a < 3 -> 0 <= p < 9 -> 0 <= q < 9 ->
  (cha_mat Qnum 9 oi I p q == if (p mod 3 =? a) && (q mod 3 =? a) then 8 * oiT p q else 0)%Q.
Proof.
  intros a I p q EI Ha Hp Hq. pose proof (get_I_some Qnum 4 cart small _ _ I EI) as ->. unfold cha_mat.
  transitivity (Sm Qnum 9 (fun m => (if p / 3 =? m / 3 then r_sum Qnum 4 cart a a (p mod 3) (m mod 3) else 0) * oiT m q)%Q).
  { apply (Sm_ext Qnum 9). intros m Hm. cbn [neq nmul Qnum]. rewrite (cha_ex_oi m q Hm Hq). reflexivity. }
  apply Qeq_bool_iff.
  exact (all_range _ _ (all_range _ _ (all_range 3 (fun a => forallb (fun p => forallb (fun q => Qeq_bool
    (Sm Qnum 9 (fun m => (if p / 3 =? m / 3 then r_sum Qnum 4 cart a a (p mod 3) (m mod 3) else 0) * oiT m q)%Q)
    (if (p mod 3 =? a) && (q mod 3 =? a) then 8 * oiT p q else 0)%Q) (zrange 9)) (zrange 9)) ltac:(vm_compute; reflexivity) a Ha) p Hp) q Hq).
Qed.
Lemma cha_ex_run : collective_run Qnum 4 3 1 cart small Qab Qltb 1 cutoff 1%Q A X Y mode.
Proof.
  exists 3, w, mem. split; [right; split; [auto|]; apply diag_check; vm_compute; reflexivity|]. cbv zeta. split; [reflexivity|].
  intros a b Ha Hb. exists (w2 a), mem. split; [|reflexivity].
  intros I EI. right. split; [auto|]. change (3 * 1 * 3)%Z with 9. fold oi.
  assert (D : diagonalizes Qnum 9 (fun p q => if (p mod 3 =? a) && (q mod 3 =? a) then 8 * oiT p q else 0)%Q (w2 a) (fun p l => mem (p * 9 + l))).
  { clear - Ha. assert (a = 0 \/ a = 1 \/ a = 2) as [-> | [-> | -> ]] by lia; apply diag_check; vm_compute; reflexivity. }
  destruct (Z.eq_dec a b) as [<-|N].
  - destruct D as [D1 [D2 D3]]. split; [|split; [exact D2|exact D3]]. intros p q Hp Hq.
    etransitivity; [|exact (D1 p q Hp Hq)]. unfold triangle. destruct (q <=? p).
    + exact (cha_ex_mat a I p q EI Ha Hp Hq).
    + etransitivity; [exact (cha_ex_mat a I q p EI Ha Hq Hp)|]. apply Qeq_bool_iff.
      exact (all_range _ _ (all_range _ _ (all_range 3 (fun a => forallb (fun p => forallb (fun q => Qeq_bool
        (if (q mod 3 =? a) && (p mod 3 =? a) then 8 * oiT q p else 0)%Q
        (if (p mod 3 =? a) && (q mod 3 =? a) then 8 * oiT p q else 0)%Q) (zrange 9)) (zrange 9)) ltac:(vm_compute; reflexivity) a Ha) p Hp) q Hq).
  - exfalso. assert (E : get_I Qnum 4 cart small a b = None); [|congruence]. clear - Ha Hb N.
    assert (a = 0 \/ a = 1 \/ a = 2) as [-> | [-> | -> ]] by lia; assert (b = 0 \/ b = 1 \/ b = 2) as [-> | [-> | -> ]] by lia; first [lia | vm_compute; reflexivity].
Qed.
Lemma cha_ex_fs : forall j, 0 <= j < 1 -> j < 3 -> (fsi 0%Z j == 0)%Q. Proof. intros; reflexivity. Qed.
Lemma cha_ex_small : forall a b i j, 0 <= a < 3 -> 0 <= b < 3 -> small (r_sum Qnum 4 cart a b i j) = true -> (r_sum Qnum 4 cart a b i j == 0)%Q.
Proof.
  intros a b i j Ha Hb H.
  assert (V : forall x y, (r_part Qnum 4 cart a b x y == if ((a =? x) && (b =? y))%bool then (if (a =? b)%Z then 4 else 0) else 0)%Q).
  { intros x y. unfold r_part. transitivity (Sm Qnum 4 (fun l => (if ((a =? x) && (b =? y))%bool then flip l a * flip l b else 0)%Q)).
    { apply (Sm_ext Qnum 4). intros l Hl. unfold cart. cbn [neq nmul Qnum]. destruct (a =? x), (b =? y); cbn [andb]; ring. }
    destruct ((a =? x) && (b =? y))%bool; [|reflexivity].
    clear - Ha Hb. assert (a = 0 \/ a = 1 \/ a = 2) as [-> | [-> | -> ]] by lia; assert (b = 0 \/ b = 1 \/ b = 2) as [-> | [-> | -> ]] by lia; vm_compute; reflexivity. }
  assert (E : (r_sum Qnum 4 cart a b i j == (if ((a =? i) && (b =? j))%bool then (if (a =? b)%Z then 4 else 0) else 0) + (if ((a =? j) && (b =? i))%bool then (if (a =? b)%Z then 4 else 0) else 0))%Q).
  { unfold r_sum. cbn [nadd Qnum]. now rewrite !V. }
  unfold small in H. apply Qltb_lt in H. unfold Qab in H. revert E H. generalize (r_sum Qnum 4 cart a b i j). clear. intros x E H.
  destruct (Qltb x 0) eqn:L; [apply Qltb_lt in L|];
    destruct ((a =? i) && (b =? j))%bool, ((a =? j) && (b =? i))%bool, (a =? b)%Z; lra.
Qed.
Example C117_collective_total_example : forall a b, 0 <= a < 3 -> 0 <= b < 3 ->
  (Sm Qnum 3 (fun i => Sm Qnum 1 (fun j => mode i j a b)) == Sm Qnum 3 (fun i => Sm Qnum 1 (fun j => mode_kappa Qnum 4 1 cart 1%Q X Y i j a b)))%Q.
Proof.
  intros a b Ha Hb. refine (C117_collective_total Qnum 4 9 3 1 r cart _ _ cha_ex_group ltac:(lia) rot irs root mi di om _ small Qab Qltb 1 cutoff 1%Q
    (Q_sound 1 cutoff ltac:(vm_compute; discriminate)) gvi fsi (fun _ => 1%Q) Y mode cha_ex_run cha_ex_fs a b Ha Hb _).
  - intros. apply Qeq_refl.
  - intros i j. now apply cha_ex_small.
Qed.
Example C117_collective_positive_example : forall a i j, 0 <= a < 3 -> (0 <= mode i j a a)%Q.
Proof.
  refine (C117_collective_positive Qnum 4 9 3 1 r cart _ _ cha_ex_group ltac:(lia) rot irs root mi di om _ small Qab Qltb 1 cutoff 1%Q
    (Q_sound 1 cutoff ltac:(vm_compute; discriminate)) gvi fsi (fun _ => 1%Q) Y mode (fun x => (0 <= x)%Q) Qeq_bool cha_ex_run Q_nonneg _ _ _).
  - intros. apply Qeq_refl.
  - intros x y. apply Qeq_bool_iff.
  - intros x H. unfold kept in H. apply Qltb_lt in H. cbn in H. unfold cutoff in H. lra.
  - vm_compute. discriminate.
Qed.
Example C117_collective_Y_example : forall p a, 0 <= p < 3 -> 0 <= a < 3 ->
  (Y p a == solve_ir Qnum 9 (eigvecs Qnum 3 9 mem) (eigvals_pinv Qnum Qab Qltb 1 cutoff w) X p a)%Q.
Proof.
  refine (C117_collective_Y Qnum 4 9 3 1 r cart _ _ cha_ex_group ltac:(lia) rot irs root mi di om _ small Qab Qltb 1 cutoff 1%Q
    (Q_sound 1 cutoff ltac:(vm_compute; discriminate)) gvi fsi (fun _ => 1%Q) Y mode 3 w mem _ cha_ex_run _ _).
  - intros. apply Qeq_refl.
  - right. split; [auto|]. apply diag_check. vm_compute. reflexivity.
  - reflexivity.
Qed.
(** The modes themselves have other values: here a negative one of the ordinary solution. *)
Theorem C117_collective_modes_refuted : exists g n nir nb r cart mul inv rot irs root mi di om small method cutoff factor gvi fsi wts Y mode i j a,
  point_group Qnum g n r cart mul inv /\
  (forall i j a i' j' b, 0 <= i < nir -> 0 <= j < nb -> 0 <= a < 3 -> 0 <= i' < nir -> 0 <= j' < nb -> 0 <= b < 3 ->
     (mi i j a i' j' b == Sm Qnum g (fun l => om l i j i' j' * cart l a b))%Q) /\
  collective_run Qnum g nir nb cart small Qab Qltb method cutoff factor (ir_matrix Qnum g nb rot irs cart root mi di) (get_X Qnum nb gvi fsi wts) Y mode /\
  (0 < factor)%Q /\ (0 < mode i j a a)%Q /\ (mode_kappa Qnum g nb cart factor (get_X Qnum nb gvi fsi wts) Y i j a a < 0)%Q.
Proof.
  exists 4, 9, 3, 1, r, cart, Z.lxor, (fun l => l), rot, irs, root, mi, di, om, small, 1, cutoff, 1%Q, gvi, fsi, (fun _ => 1%Q), Y, mode, 1, 0, 0.
  split; [exact cha_ex_group|]. split; [intros; apply Qeq_refl|]. split; [exact cha_ex_run|]. split; [reflexivity|]. split; vm_compute; reflexivity.
Qed.
End Ex.

(** ** Mean free paths: examples *)
Definition ex_freq (i j : Z) : Q := 1.
Definition ex_rt (x : Q) : Q := 3 # 2.
Definition ex_tiny (x : Q) : bool := Qltb x (1 # 10000000000).
Definition ex_id (l a b : Z) : Q := if a =? b then 1%Q else 0%Q.
Definition ex_gv (i j a : Z) : Q := inject_Z (a + 1).
Example C117_mean_free_path_example :
  (mode_from_mfp Qnum 1 ex_id 3 2 ex_gv (cha_mfp Qnum 1 ex_rt ex_tiny 1 3 1 (fun i j => l_cv 1 (ex_freq i j * 1)) (f_vector Qnum 1 (fun _ => 2%Q) (fun p a => inject_Z (p + 2 * a)))) (fun i j => l_cv 1 (ex_freq i j * 1)) (fun _ => 2%Q) 1 0 0 1 ==
   mode_kappa Qnum 1 1 ex_id (2 * 1 * (1 * 1)) (get_X Qnum 1 ex_gv (fun i j => lbte_sinh l_sinh (1 # 2) 1 1 1 (ex_freq i j)) (fun _ => 2%Q)) (fun p a => inject_Z (p + 2 * a)) 1 0 0 1)%Q.
Proof.
  apply (C117_mean_free_path 1 1 ex_id ex_rt ex_tiny l_cv l_sinh (1 # 2) 1 1 3 1 2%Q ex_gv ex_freq (fun _ => 2%Q) (fun p a => inject_Z (p + 2 * a)) 1 0 0 1); try reflexivity; try (vm_compute; discriminate); try lia.
  apply l_thermal. reflexivity.
Qed.
Example C117_mean_free_path_rta_example :
  (cha_mfp Qnum 1 ex_rt ex_tiny 1 3 1 (fun i j => l_cv 1 (ex_freq i j * 1)) (f_vector Qnum 1 (fun _ => 2%Q) (fun p a => get_X Qnum 1 ex_gv (fun i j => lbte_sinh l_sinh (1 # 2) 1 1 1 (ex_freq i j)) (fun _ => 2%Q) p a / 5)) 1 0 1 == - (2 * (1 / (2 * (2 * 3 * 5)))))%Q.
Proof.
  apply (C117_mean_free_path_rta 1 ex_rt ex_tiny l_cv l_sinh (1 # 2) 1 1 3 1 ex_gv ex_freq (fun _ => 2%Q) (fun _ => 5%Q) 1 0 1); try reflexivity; try (vm_compute; discriminate); try lia.
  apply l_thermal. reflexivity.
Qed.
(** "The mean free path is the group velocity times the lifetime in the relaxation time approximation": the sign is the opposite one. *)
Theorem C117_mean_free_path_sign_refuted : exists nb root tiny mode_cv sinh cutoff ev kb pi t gv freq w gamma i j a,
  let cv i j := mode_cv t (freq i j * ev)%Q in
  let fs i j := lbte_sinh sinh cutoff ev kb t (freq i j) in
  let Y p a := (get_X Qnum nb gv fs w p a / gamma p)%Q in
  (0 < ev)%Q /\ (0 < kb)%Q /\ (0 < t)%Q /\ (0 <= cutoff)%Q /\ (cutoff < freq i j)%Q /\ (0 < pi)%Q /\ (0 < w i)%Q /\ (0 < gamma (i * nb + j)%Z)%Q /\
  thermal mode_cv sinh ev kb t (freq i j) /\ (0 <= root (kb / cv i j))%Q /\ root_of root (kb / cv i j)%Q /\ 0 <= j < nb /\ tiny (cv i j) = false /\
  ~ (cha_mfp Qnum nb root tiny kb pi t cv (f_vector Qnum nb w Y) i j a == gv i j a * (1 / (2 * (2 * pi * gamma (i * nb + j)%Z))))%Q.
Proof.
  exists 1, ex_rt, ex_tiny, l_cv, l_sinh, (1 # 2), 1%Q, 1%Q, 3%Q, 1%Q, ex_gv, ex_freq, (fun _ => 2%Q), (fun _ => 5%Q), 1, 0, 1. cbv zeta.
  split; [reflexivity|]. split; [reflexivity|]. split; [reflexivity|]. split; [vm_compute; discriminate|]. split; [reflexivity|]. split; [reflexivity|]. split; [reflexivity|]. split; [reflexivity|].
  split; [apply l_thermal; reflexivity|]. split; [vm_compute; discriminate|]. split; [vm_compute; reflexivity|]. split; [lia|]. split; [vm_compute; reflexivity|]. vm_compute. discriminate.
Qed.
(** A mode with a heat capacity below 1e-10 gets no mean free path though it conducts. *)
Definition ex_big : Q := 1000000.
Theorem C117_mean_free_path_small_refuted : exists g nb cart root mode_cv sinh cutoff ev kb pi t conv gv freq w Y i j a,
  let tiny x := Qltb x (1 # 10000000000) in
  let cv i j := mode_cv t (freq i j * ev)%Q in
  let fs i j := lbte_sinh sinh cutoff ev kb t (freq i j) in
  (0 < ev)%Q /\ (0 < kb)%Q /\ (0 < t)%Q /\ (0 <= cutoff)%Q /\ (cutoff < freq i j)%Q /\ (0 < pi)%Q /\ (0 < w i)%Q /\
  thermal mode_cv sinh ev kb t (freq i j) /\ 0 <= i /\ 0 <= j < nb /\ ((i =? 0) && (j <? 3))%bool = false /\
  ~ (mode_kappa Qnum g nb cart (conv * kb * (t * t)) (get_X Qnum nb gv fs w) Y i j a a == 0)%Q /\
  forall c, (cha_mfp Qnum nb root tiny kb pi t cv (f_vector Qnum nb w Y) i j c == 0)%Q.
Proof.
  exists 1, 1, ex_id, ex_rt, (fun T f => 1 * (f / (1 * T)) * (f / (1 * T)) * (ex_big * ex_big) / ((ex_big * ex_big - 1) * (ex_big * ex_big - 1)))%Q, (fun _ => (ex_big - / ex_big) / 2)%Q,
    0%Q, 1%Q, 1%Q, 3%Q, 1%Q, 1%Q, ex_gv, ex_freq, (fun _ => 1%Q), (fun _ _ => 1%Q), 1, 0, 0. cbv zeta.
  split; [reflexivity|]. split; [reflexivity|]. split; [reflexivity|]. split; [vm_compute; discriminate|]. split; [reflexivity|]. split; [reflexivity|]. split; [reflexivity|].
  split; [exists ex_big; split; [reflexivity|]; split; vm_compute; reflexivity|]. split; [lia|]. split; [lia|]. split; [reflexivity|]. split; [vm_compute; discriminate|].
  intros c. unfold cha_mfp. replace (Qltb _ _) with true by (symmetry; vm_compute; reflexivity). reflexivity.
Qed.
Example C117_f_vectors_example : f_vectors_array (fun s t => 10 * s + t) (fun t => negb (t =? 2)) 3 3 (-1) = 21.
Proof. apply (C117_f_vectors Z (fun s t => 10 * s + t) (fun t => negb (t =? 2)) 3 3 (-1) 1); try lia; try reflexivity. Qed.

Print Assumptions C117_collective_total.
Print Assumptions C117_collective_Y.
Print Assumptions C117_collective_positive.
Print Assumptions C117_collective_modes_refuted.
Print Assumptions C117_mean_free_path.
Print Assumptions C117_mean_free_path_rta.
Print Assumptions C117_mean_free_path_sign_refuted.
Print Assumptions C117_mean_free_path_small_refuted.
Print Assumptions C117_f_vectors.
Print Assumptions C117_f_vectors_refuted.
