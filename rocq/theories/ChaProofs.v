(** Collective phonons: proofs. *)
From Coq Require Import ZArith List Bool Lia Setoid Morphisms Ring_theory Field_theory Ring Field.
From Verif Require Import Base BaseProofs Par Par2 DirModel DirSpec DirProofs DirSpectral DirGroup ChaModel.
Import ListNotations.
Open Scope Z_scope.

Section Any.
Variable K : numbers.
Declare Scope K_scope.
Delimit Scope K_scope with K.
Bind Scope K_scope with num.
Notation "0" := (n0 K) : K_scope.
Notation "1" := (n1 K) : K_scope.
Infix "+" := (nadd K) : K_scope.
Infix "*" := (nmul K) : K_scope.
Infix "-" := (nsub K) : K_scope.
Infix "/" := (ndiv K) : K_scope.
Notation "- x" := (nopp K x) : K_scope.
Infix "==" := (neq K) (at level 70, no associativity) : K_scope.
Add Field Kfield9 : (n_field K) (setoid (n_equiv K) (n_ext K)).
Local Notation Sm := (Sm K).

(** ** Matrices that commute *)
Lemma mm_ext : forall n A B A' B', same_matrix K n A A' -> same_matrix K n B B' -> same_matrix K n (matmul K n A B) (matmul K n A' B').
Proof. intros n A B A' B' H H' p p' Hp Hp'. apply Sm_ext. intros m Hm. rewrite (H p m), (H' m p'); auto. reflexivity. Qed.
Lemma mm_assoc : forall n A B C p q, (matmul K n (matmul K n A B) C p q == matmul K n A (matmul K n B C) p q)%K.
Proof.
  intros n A B C p q. unfold matmul.
  transitivity (Sm n (fun m => Sm n (fun k => A p k * B k m * C m q)))%K; [apply Sm_ext; intros m Hm; rewrite <- Sm_mul_r; reflexivity|].
  rewrite Sm_swap. apply Sm_ext. intros k Hk. rewrite <- Sm_mul_l. apply Sm_ext. intros; ring.
Qed.
Definition form (n : Z) (u : Z -> K) (M : Z -> Z -> K) (v : Z -> K) : K := Sm n (fun p => Sm n (fun q => u p * M p q * v q))%K.
Lemma form_ext : forall n u v M M', same_matrix K n M M' -> (form n u M v == form n u M' v)%K.
Proof. intros n u v M M' H. apply Sm_ext. intros p Hp. apply Sm_ext. intros q Hq. rewrite (H p q Hp Hq). reflexivity. Qed.
Lemma form_ext_v : forall n u v u' v' M, (forall p, 0 <= p < n -> u p == u' p)%K -> (forall p, 0 <= p < n -> v p == v' p)%K -> (form n u M v == form n u' M v')%K.
Proof. intros n u v u' v' M H H'. apply Sm_ext. intros p Hp. apply Sm_ext. intros q Hq. rewrite (H p Hp), (H' q Hq). reflexivity. Qed.
Lemma form_swap : forall n u v M, (forall p q, 0 <= p < n -> 0 <= q < n -> M p q == M q p)%K -> (form n u M v == form n v M u)%K.
Proof.
  intros n u v M S. unfold form. rewrite Sm_swap. apply Sm_ext. intros q Hq. apply Sm_ext. intros p Hp. rewrite (S p q Hp Hq). ring.
Qed.

Section Comm.
Variable kp : K -> bool.
Hypothesis kp_ext : forall x y, (x == y)%K -> kp x = kp y.
Hypothesis kp_neq0 : forall x, kp x = true -> ~ (x == 0)%K.
Variables (n : Z) (A : Z -> Z -> K) (w : Z -> K) (v : Z -> Z -> K).
Hypothesis D : diagonalizes K n A w v.
Variable I : Z -> Z -> K.
Hypothesis C : same_matrix K n (matmul K n I A) (matmul K n A I).
Definition pe (l : Z) : K := if kp (w l) then (1 / w l)%K else 0%K.
Local Notation x l m := (form n (fun p => v p l) I (fun p => v p m)).

Lemma A_eig : forall l p, 0 <= l < n -> 0 <= p < n -> (Sm n (fun m => A p m * v m l) == w l * v p l)%K.
Proof.
  intros l p Hl Hp. assert (E := diag_eig K n A w v l (n1 K) p D Hl Hp). unfold mapp in E.
  transitivity (Sm n (fun m => A p m * (v m l * 1)))%K; [apply Sm_ext; intros; ring|]. rewrite E. ring.
Qed.
Lemma A_sym : forall p q, 0 <= p < n -> 0 <= q < n -> (A p q == A q p)%K.
Proof. exact (diag_symm K _ _ _ _ D). Qed.
Lemma A_eig' : forall l p, 0 <= l < n -> 0 <= p < n -> (Sm n (fun m => v m l * A m p) == w l * v p l)%K.
Proof. intros l p Hl Hp. rewrite <- (A_eig l p Hl Hp). apply Sm_ext. intros m Hm. rewrite (A_sym m p Hm Hp). ring. Qed.
Lemma x_comm : forall l m, 0 <= l < n -> 0 <= m < n -> (x l m * (w l - w m) == 0)%K.
Proof.
  intros l m Hl Hm.
  assert (E1 : (form n (fun p => v p l) (matmul K n I A) (fun p => v p m) == w m * x l m)%K).
  { unfold form, matmul. rewrite <- Sm_mul_l. apply Sm_ext. intros p Hp.
    transitivity (Sm n (fun q => Sm n (fun k => v p l * I p k * (A k q * v q m))))%K.
    { apply Sm_ext. intros q Hq. transitivity (v p l * v q m * Sm n (fun k => I p k * A k q))%K; [ring|]. rewrite <- Sm_mul_l. apply Sm_ext. intros; ring. }
    rewrite Sm_swap. rewrite <- Sm_mul_l. apply Sm_ext. intros k Hk. rewrite Sm_mul_l, (A_eig m k Hm Hk). ring. }
  assert (E2 : (form n (fun p => v p l) (matmul K n A I) (fun p => v p m) == w l * x l m)%K).
  { unfold form, matmul. rewrite Sm_swap.
    transitivity (Sm n (fun q => w l * Sm n (fun k => v k l * I k q * v q m)))%K.
    2: { rewrite Sm_mul_l, Sm_swap. reflexivity. }
    apply Sm_ext. intros q Hq.
    transitivity (Sm n (fun p => Sm n (fun k => v p l * A p k * (I k q * v q m))))%K.
    { apply Sm_ext. intros p Hp. transitivity (v p l * v q m * Sm n (fun k => A p k * I k q))%K; [ring|]. rewrite <- Sm_mul_l. apply Sm_ext. intros; ring. }
    rewrite Sm_swap. rewrite <- Sm_mul_l. apply Sm_ext. intros k Hk. rewrite Sm_mul_r, (A_eig' l k Hl Hk). ring. }
  rewrite (form_ext n _ _ _ _ C) in E1. rewrite E2 in E1.
  transitivity (w l * x l m - w m * x l m)%K; [ring|]. rewrite E1. ring.
Qed.
Lemma x_comm_e : forall l m, 0 <= l < n -> 0 <= m < n -> (x l m * (pe l - pe m) == 0)%K.
Proof.
  intros l m Hl Hm. pose proof (x_comm l m Hl Hm) as E. unfold pe.
  destruct (kp (w l)) eqn:Kl; destruct (kp (w m)) eqn:Km.
  - pose proof (kp_neq0 _ Kl). pose proof (kp_neq0 _ Km).
    transitivity (- (1 / (w l * w m)) * (x l m * (w l - w m)))%K; [field; auto|]. rewrite E. ring.
  - assert (Nz : ~ (w l - w m == 0)%K).
    { intros Z0. assert (Q : (w l == w m)%K) by (transitivity (w l - w m + w m)%K; [ring|rewrite Z0; ring]). rewrite (kp_ext _ _ Q) in Kl. congruence. }
    assert (Z0 : (x l m == 0)%K) by (apply (mul_neq0 K (w l - w m)%K); [exact Nz|rewrite <- E; ring]). rewrite Z0. ring.
  - assert (Nz : ~ (w l - w m == 0)%K).
    { intros Z0. assert (Q : (w l == w m)%K) by (transitivity (w l - w m + w m)%K; [ring|rewrite Z0; ring]). rewrite (kp_ext _ _ Q) in Kl. congruence. }
    assert (Z0 : (x l m == 0)%K) by (apply (mul_neq0 K (w l - w m)%K); [exact Nz|rewrite <- E; ring]). rewrite Z0. ring.
  - ring.
Qed.
(** coordinates in the basis of eigenvectors *)
Definition co (u : Z -> K) (l : Z) : K := Sm n (fun p => v p l * u p)%K.
Lemma co_back : forall u p, 0 <= p < n -> (Sm n (fun l => v p l * co u l) == u p)%K.
Proof.
  intros u p Hp. unfold co.
  transitivity (Sm n (fun l => Sm n (fun q => v p l * v q l * u q)))%K; [apply Sm_ext; intros l Hl; rewrite <- Sm_mul_l; apply Sm_ext; intros; ring|].
  rewrite Sm_swap. rewrite (Sm_one K n p); [|exact Hp|].
  - rewrite Sm_mul_r. destruct D as [_ [_ D3]]. rewrite (D3 p p Hp Hp), Z.eqb_refl. ring.
  - intros q Hq Ne. rewrite Sm_mul_r. destruct D as [_ [_ D3]]. rewrite (D3 p q Hp Hq). destruct (Z.eqb_spec p q); [congruence|ring].
Qed.
Lemma form_add_r : forall M u (f : Z -> Z -> K), (form n u M (fun p => Sm n (fun l => f l p)) == Sm n (fun l => form n u M (f l)))%K.
Proof.
  intros M u f. unfold form.
  transitivity (Sm n (fun p => Sm n (fun l => Sm n (fun q => u p * M p q * f l q))))%K; [|apply Sm_swap].
  apply Sm_ext. intros p Hp. rewrite Sm_swap. apply Sm_ext. intros q Hq. rewrite <- Sm_mul_l. reflexivity.
Qed.
Lemma form_add_l : forall M u (f : Z -> Z -> K), (form n (fun p => Sm n (fun l => f l p)) M u == Sm n (fun l => form n (f l) M u))%K.
Proof.
  intros M u f. unfold form.
  transitivity (Sm n (fun p => Sm n (fun l => Sm n (fun q => f l p * M p q * u q))))%K; [|apply Sm_swap].
  apply Sm_ext. intros p Hp. rewrite Sm_swap. apply Sm_ext. intros q Hq. rewrite <- !Sm_mul_r. reflexivity.
Qed.
Lemma form_scale : forall M u u' c c', (form n (fun p => u p * c) M (fun p => u' p * c') == c * c' * form n u M u')%K.
Proof.
  intros M u u' c c'. unfold form. rewrite <- Sm_mul_l. apply Sm_ext. intros p Hp. rewrite <- Sm_mul_l. apply Sm_ext. intros; ring.
Qed.
Lemma form_co : forall u u', (form n u I u' == Sm n (fun l => Sm n (fun m => co u l * co u' m * x l m)))%K.
Proof.
  intros u u'.
  rewrite <- (form_ext_v n (fun p => Sm n (fun l => v p l * co u l)) (fun p => Sm n (fun m => v p m * co u' m)) u u' I)%K by (intros p Hp; now apply co_back).
  rewrite (form_add_l I _ (fun l p => v p l * co u l)%K). apply Sm_ext. intros l Hl.
  rewrite (form_add_r I _ (fun l p => v p l * co u' l)%K). apply Sm_ext. intros m Hm. apply form_scale.
Qed.
Local Notation oi := (omega_inv K n v pe).
Lemma oi_mul : forall u p, 0 <= p < n -> (Sm n (fun q => oi p q * u q) == Sm n (fun l => v p l * (pe l * co u l)))%K.
Proof.
  intros u p Hp. unfold omega_inv, co.
  transitivity (Sm n (fun q => Sm n (fun l => v p l * pe l * (v q l * u q))))%K; [apply Sm_ext; intros q Hq; rewrite <- Sm_mul_r; apply Sm_ext; intros; ring|].
  rewrite Sm_swap. apply Sm_ext. intros l Hl. rewrite Sm_mul_l. ring.
Qed.
Lemma co_v : forall m c l, 0 <= l < n -> 0 <= m < n -> (co (fun p => v p m * c) l == if (l =? m)%Z then c else 0)%K.
Proof.
  intros m c l Hl Hm. unfold co. transitivity (Sm n (fun p => v p l * v p m) * c)%K; [rewrite <- Sm_mul_r; apply Sm_ext; intros; ring|].
  destruct D as [_ [D2 _]]. rewrite (D2 l m Hl Hm). destruct (l =? m); ring.
Qed.
Lemma co_oi : forall u l, 0 <= l < n -> (co (fun p => Sm n (fun q => oi p q * u q)) l == pe l * co u l)%K.
Proof.
  intros u l Hl. unfold co at 1.
  transitivity (Sm n (fun p => Sm n (fun m => v p l * (v p m * (pe m * co u m)))))%K; [apply Sm_ext; intros p Hp; rewrite (oi_mul u p Hp), <- Sm_mul_l; reflexivity|].
  rewrite Sm_swap. rewrite (Sm_one K n l); [|exact Hl|].
  - pose proof (co_v l (pe l * co u l)%K l Hl Hl) as E. unfold co at 1 in E. rewrite E, Z.eqb_refl. reflexivity.
  - intros m Hm Ne. pose proof (co_v m (pe m * co u m)%K l Hl Hm) as E. unfold co at 1 in E. rewrite E. destruct (Z.eqb_spec l m); [congruence|reflexivity].
Qed.
Lemma form_mul : forall u M N u', (form n u (matmul K n M N) u' == form n u M (fun p => Sm n (fun q => N p q * u' q)))%K.
Proof.
  intros u M N u'. unfold form, matmul. apply Sm_ext. intros p Hp.
  transitivity (Sm n (fun q => Sm n (fun m => u p * M p m * (N m q * u' q))))%K; [apply Sm_ext; intros q Hq; rewrite <- Sm_mul_l, <- Sm_mul_r; apply Sm_ext; intros; ring|].
  rewrite Sm_swap. apply Sm_ext. intros m Hm. rewrite <- Sm_mul_l. reflexivity.
Qed.
(** the form of I times the inverse, in the basis of eigenvectors *)
Lemma form_Ioi : forall u u', (form n u (matmul K n I oi) u' == Sm n (fun l => Sm n (fun m => co u l * (pe m * co u' m) * x l m)))%K.
Proof.
  intros u u'. rewrite form_mul, form_co. apply Sm_ext. intros l Hl. apply Sm_ext. intros m Hm. rewrite (co_oi u' m Hm). reflexivity.
Qed.
Lemma form_entry : forall M p q, 0 <= p < n -> 0 <= q < n ->
  (form n (fun k => if k =? p then 1 else 0) M (fun k => if k =? q then 1 else 0) == M p q)%K.
Proof.
  intros M p q Hp Hq. unfold form. rewrite (Sm_one K n p); [|exact Hp|].
  - rewrite (Sm_one K n q); [|exact Hq|]; rewrite ?Z.eqb_refl; [ring|]. intros k Hk Ne. apply Z.eqb_neq in Ne. rewrite Ne. ring.
  - intros k Hk Ne. apply Z.eqb_neq in Ne. apply Sm_0. intros i Hi. rewrite Ne. ring.
Qed.
Hypothesis Isym : forall p q, 0 <= p < n -> 0 <= q < n -> (I p q == I q p)%K.
Lemma x_sym : forall l m, (x l m == x m l)%K. Proof. intros l m. now apply form_swap. Qed.
Lemma Ioi_sym : forall p q, 0 <= p < n -> 0 <= q < n -> (matmul K n I oi p q == matmul K n I oi q p)%K.
Proof.
  intros p q Hp Hq. rewrite <- (form_entry (matmul K n I oi) p q Hp Hq), <- (form_entry (matmul K n I oi) q p Hq Hp), !form_Ioi.
  set (u := fun k : Z => (if k =? p then 1 else 0)%K). set (u' := fun k : Z => (if k =? q then 1 else 0)%K).
  rewrite (Sm_swap K n n (fun l m => co u' l * (pe m * co u m) * x l m)%K). apply Sm_ext. intros l Hl. apply Sm_ext. intros m Hm.
  rewrite (x_sym m l). pose proof (x_comm_e l m Hl Hm) as E.
  transitivity (co u l * (pe l * co u' m) * x l m - co u l * co u' m * (x l m * (pe l - pe m)))%K; [ring|]. rewrite E. ring.
Qed.
(** not negative if I is not *)
Variable P : K -> Prop.
Hypothesis HP : nonneg K P.
Variable eqb : K -> K -> bool.
Hypothesis eqb_spec : forall y z, eqb y z = true <-> (y == z)%K.
Variables (gg : Z) (fac : Z -> Z -> Z -> K).
(** I is a sum of squares: I p q = sum over t of fac t b p * fac t b q *)
Variable nb' : Z.
Hypothesis Isq : forall p q, 0 <= p < n -> 0 <= q < n -> (I p q == Sm gg (fun t => Sm nb' (fun b => fac t b p * fac t b q)))%K.
Lemma P0 : P 0%K. Proof. apply (nn_ext _ _ HP (0 * 0)%K); [ring|apply (nn_square _ _ HP)]. Qed.
Lemma P1 : P 1%K. Proof. apply (nn_ext _ _ HP (1 * 1)%K); [ring|apply (nn_square _ _ HP)]. Qed.
Lemma PS : forall X (L : list X) (f : X -> K), (forall y, In y L -> P (f y)) -> P (ks K L f).
Proof.
  intros X. induction L as [|y L IH]; intros f Hf; [exact P0|]. rewrite ks_cons. apply (nn_add _ _ HP); [apply Hf; now left|apply IH; intros; apply Hf; now right].
Qed.
Lemma PSm : forall m f, (forall i, 0 <= i < m -> P (f i)) -> P (Sm m f).
Proof. intros m f H. apply PS. intros y Hy. apply H. now apply in_zrange. Qed.
Definition mates (l : Z) : K := Sm n (fun m => if eqb (pe l) (pe m) then 1 else 0)%K.
Lemma eqb_refl' : forall y, eqb y y = true. Proof. intros. apply eqb_spec. reflexivity. Qed.
Lemma eqb_sym' : forall y z, eqb y z = eqb z y.
Proof. intros y z. apply eq_true_iff_eq. rewrite !eqb_spec. split; intros; now symmetry. Qed.
Lemma eqb_ext : forall y z t, eqb y z = true -> eqb y t = eqb z t.
Proof. intros y z t E. apply eqb_spec in E. apply eq_true_iff_eq. rewrite !eqb_spec. rewrite E. reflexivity. Qed.
Lemma mates_len : forall l, (mates l == of_nat K (length (filter (fun m => eqb (pe l) (pe m)) (zrange n))))%K.
Proof. intros l. rewrite <- of_nat_length, ks_filter. reflexivity. Qed.
Lemma mates_neq0 : forall l, 0 <= l < n -> ~ (mates l == 0)%K.
Proof.
  intros l Hl. rewrite mates_len. apply of_nat_neq0. destruct (filter (fun m => eqb (pe l) (pe m)) (zrange n)) as [|y L] eqn:E; [|cbn; lia].
  exfalso. assert (Q : In l (filter (fun m => eqb (pe l) (pe m)) (zrange n))) by (apply filter_In; split; [now apply in_zrange|apply eqb_refl']). rewrite E in Q. destruct Q.
Qed.
Lemma mates_ext : forall l m, eqb (pe l) (pe m) = true -> (mates l == mates m)%K.
Proof. intros l m E. apply Sm_ext. intros k Hk. rewrite (eqb_ext _ _ (pe k) E). reflexivity. Qed.
Lemma P_mates_inv : forall l, 0 <= l < n -> P (1 / mates l)%K.
Proof.
  intros l Hl. apply (nn_ext _ _ HP (mates l * ((1 / mates l) * (1 / mates l)))%K); [field; now apply mates_neq0|].
  apply (nn_mul _ _ HP); [|apply (nn_square _ _ HP)]. apply PSm. intros m Hm. destruct (eqb (pe l) (pe m)); [exact P1|exact P0].
Qed.
Lemma classes : forall y : Z -> K, (forall l, 0 <= l < n -> P (pe l)) ->
  P (Sm n (fun l => Sm n (fun m => if eqb (pe l) (pe m) then pe l * y l * y m else 0)))%K.
Proof.
  intros y He. set (Sc := fun l => Sm n (fun m => if eqb (pe l) (pe m) then y m else 0)%K).
  apply (nn_ext _ _ HP (Sm n (fun k => pe k * (1 / mates k) * (Sc k * Sc k)))%K).
  2: { apply PSm. intros k Hk. apply (nn_mul _ _ HP); [|apply (nn_square _ _ HP)]. apply (nn_mul _ _ HP); [now apply He|now apply P_mates_inv]. }
  transitivity (Sm n (fun k => Sm n (fun l => Sm n (fun m => if (eqb (pe k) (pe l) && eqb (pe k) (pe m))%bool then pe k * (1 / mates k) * (y l * y m) else 0))))%K.
  { apply Sm_ext. intros k Hk. unfold Sc. rewrite <- Sm_mul_r, <- Sm_mul_l. apply Sm_ext. intros l Hl. rewrite <- !Sm_mul_l. apply Sm_ext. intros m Hm.
    destruct (eqb (pe k) (pe l)); destruct (eqb (pe k) (pe m)); cbn [andb]; ring. }
  rewrite Sm_swap. apply Sm_ext. intros l Hl. rewrite Sm_swap. apply Sm_ext. intros m Hm.
  destruct (eqb (pe l) (pe m)) eqn:E.
  - transitivity (Sm n (fun k => (if eqb (pe l) (pe k) then 1 else 0) * (pe l * (1 / mates l) * (y l * y m))))%K.
    + apply Sm_ext. intros k Hk. rewrite (eqb_sym' (pe l)). destruct (eqb (pe k) (pe l)) eqn:E1; cbn [andb]; [|ring].
      rewrite (eqb_ext _ _ (pe m) E1), E. rewrite (mates_ext _ _ E1). apply eqb_spec in E1. rewrite E1. ring.
    + rewrite Sm_mul_r. fold (mates l). field. now apply mates_neq0.
  - apply Sm_0. intros k Hk. destruct (eqb (pe k) (pe l)) eqn:E1; [|reflexivity]. cbn [andb]. rewrite (eqb_ext _ _ (pe m) E1), E. reflexivity.
Qed.
Lemma x_squares : forall l m, 0 <= l < n -> 0 <= m < n -> (x l m == Sm gg (fun t => Sm nb' (fun b => co (fac t b) l * co (fac t b) m)))%K.
Proof.
  intros l m Hl Hm. unfold form.
  transitivity (Sm n (fun p => Sm n (fun q => Sm gg (fun t => Sm nb' (fun b => v p l * fac t b p * (v q m * fac t b q))))))%K.
  { apply Sm_ext. intros p Hp. apply Sm_ext. intros q Hq. rewrite (Isq p q Hp Hq), <- Sm_mul_l, <- Sm_mul_r. apply Sm_ext. intros t Ht.
    rewrite <- Sm_mul_l, <- Sm_mul_r. apply Sm_ext. intros; ring. }
  transitivity (Sm n (fun p => Sm gg (fun t => Sm nb' (fun b => v p l * fac t b p * co (fac t b) m))))%K.
  { apply Sm_ext. intros p Hp. rewrite Sm_swap. apply Sm_ext. intros t Ht. rewrite Sm_swap. apply Sm_ext. intros b Hb. rewrite Sm_mul_l. reflexivity. }
  rewrite Sm_swap. apply Sm_ext. intros t Ht. rewrite Sm_swap. apply Sm_ext. intros b Hb. rewrite Sm_mul_r. reflexivity.
Qed.
Lemma Ioi_pos : forall u, (forall l, 0 <= l < n -> P (pe l)) -> P (form n u (matmul K n I oi) u).
Proof.
  intros u He. apply (nn_ext _ _ HP (Sm gg (fun t => Sm nb' (fun b => Sm n (fun l => Sm n (fun m =>
    if eqb (pe l) (pe m) then pe l * (co u l * co (fac t b) l) * (co u m * co (fac t b) m) else 0)))))%K).
  2: { apply PSm. intros t Ht. apply PSm. intros b Hb. apply (classes (fun l => co u l * co (fac t b) l)%K He). }
  rewrite form_Ioi.
  transitivity (Sm n (fun l => Sm n (fun m => Sm gg (fun t => Sm nb' (fun b => if eqb (pe l) (pe m) then pe l * (co u l * co (fac t b) l) * (co u m * co (fac t b) m) else 0)))))%K.
  { transitivity (Sm gg (fun t => Sm n (fun l => Sm n (fun m => Sm nb' (fun b => if eqb (pe l) (pe m) then pe l * (co u l * co (fac t b) l) * (co u m * co (fac t b) m) else 0)))))%K.
    - apply Sm_ext. intros t Ht. rewrite Sm_swap. apply Sm_ext. intros l Hl. rewrite Sm_swap. reflexivity.
    - rewrite Sm_swap. apply Sm_ext. intros l Hl. rewrite Sm_swap. reflexivity. }
  apply Sm_ext. intros l Hl. apply Sm_ext. intros m Hm. destruct (eqb (pe l) (pe m)) eqn:E.
  - rewrite (x_squares l m Hl Hm). apply eqb_spec in E. rewrite <- Sm_mul_l. apply Sm_ext. intros t Ht. rewrite <- Sm_mul_l. apply Sm_ext. intros b Hb. rewrite E. ring.
  - transitivity 0%K; [apply Sm_0; intros; apply Sm_0; reflexivity|]. pose proof (x_comm_e l m Hl Hm) as Q.
    assert (Nz : ~ (pe l - pe m == 0)%K).
    { intros Z0. assert (Q1 : (pe l == pe m)%K) by (transitivity (pe l - pe m + pe m)%K; [ring|rewrite Z0; ring]). apply eqb_spec in Q1. congruence. }
    assert (Z0 : (x l m == 0)%K) by (apply (mul_neq0 K (pe l - pe m)%K); [exact Nz|rewrite <- Q; ring]). rewrite Z0. ring.
Qed.
End Comm.
End Any.
