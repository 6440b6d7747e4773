From Coq Require Import ZArith QArith List Bool Lia Setoid Morphisms Ring_theory Field_theory Ring Field Lqa.
From Verif Require Import Base BaseProofs Par Par2 DirModel DirSpec DirProofs DirProps SschaModel.
Import ListNotations.
Open Scope Z_scope.

Section P.
Variable K : numbers.
Declare Scope K_scope.
Delimit Scope K_scope with K.
Bind Scope K_scope with num.
Notation "0" := (n0 K) : K_scope.
Notation "1" := (n1 K) : K_scope.
Infix "+" := (nadd K) : K_scope.
Infix "*" := (nmul K) : K_scope.
Infix "-" := (nsub K) : K_scope.
Infix "/" := (ndiv K) : K_scope.
Notation "- x" := (nopp K x) : K_scope.
Infix "==" := (neq K) (at level 70, no associativity) : K_scope.
Add Field Kfield9 : (n_field K) (setoid (n_equiv K) (n_ext K)).
Local Notation Sm := (Sm K).

Lemma Sm_mul2 : forall a b f g, (Sm a f * Sm b g == Sm a (fun i => Sm b (fun j => f i * g j)))%K.
Proof. intros a b f g. rewrite <- Sm_mul_r. apply Sm_ext. intros i _. rewrite <- Sm_mul_l. reflexivity. Qed.
Lemma Sm_mulf : forall a b c f g, (Sm a (fun i => Sm b (fun j => f i j) * g i) == c)%K -> (Sm a (fun i => Sm b (fun j => f i j * g i)) == c)%K.
Proof. intros a b c f g H. rewrite <- H. apply Sm_ext. intros i _. now rewrite Sm_mul_r. Qed.
Lemma Sm_delta : forall n k (f : Z -> K), 0 <= k < n -> (Sm n (fun i => f i * (if i =? k then 1 else 0)) == f k)%K.
Proof. intros n k f Hk. rewrite (Sm_one K n k) by (try exact Hk; intros i _ Hi; rewrite (proj2 (Z.eqb_neq _ _) Hi); ring). rewrite Z.eqb_refl. ring. Qed.
Lemma Sm_delta2 : forall n k (f : Z -> K), 0 <= k < n -> (Sm n (fun i => f i * (if k =? i then 1 else 0)) == f k)%K.
Proof. intros n k f Hk. rewrite <- (Sm_delta n k f Hk). apply Sm_ext. intros i _. now rewrite Z.eqb_sym. Qed.

(** ** Specification *)
(** product of matrices of order n, unit matrix *)
Definition mm (n : Z) (A B : Z -> Z -> K) (p q : Z) : K := Sm n (fun k => A p k * B k q)%K.
Definition delta (p q : Z) : K := if p =? q then 1%K else 0%K.
Definition meq (n : Z) (A B : Z -> Z -> K) : Prop := forall p q, 0 <= p < n -> 0 <= q < n -> (A p q == B p q)%K.
Definition mt (A : Z -> Z -> K) (p q : Z) : K := A q p.
Definition orthonormal (n : Z) (v : Z -> Z -> K) : Prop := meq n (mm n (mt v) v) delta /\ meq n (mm n v (mt v)) delta.
(** Moore-Penrose inverse *)
Definition penrose (n : Z) (C Y : Z -> Z -> K) : Prop :=
  meq n (mm n (mm n C Y) C) C /\ meq n (mm n (mm n Y C) Y) Y /\ meq n (mt (mm n C Y)) (mm n C Y) /\ meq n (mt (mm n Y C)) (mm n Y C).

Lemma mm_ext : forall n A A' B B', meq n A A' -> meq n B B' -> meq n (mm n A B) (mm n A' B').
Proof. intros n A A' B B' H G p q Hp Hq. apply Sm_ext. intros k Hk. now rewrite (H p k Hp Hk), (G k q Hk Hq). Qed.
Lemma mm_assoc : forall n A B C p q, (mm n (mm n A B) C p q == mm n A (mm n B C) p q)%K.
Proof.
  intros n A B C p q. unfold mm. rewrite (Sm_ext K n _ (fun k => Sm n (fun m => A p m * B m k * C k q)%K)) by (intros k _; now rewrite <- Sm_mul_r).
  rewrite Sm_swap. apply Sm_ext. intros m _. rewrite <- Sm_mul_l. apply Sm_ext. intros k _. ring.
Qed.
Lemma mm_delta_r : forall n A p q, 0 <= q < n -> (mm n A delta p q == A p q)%K.
Proof. intros n A p q Hq. unfold mm, delta. now rewrite Sm_delta. Qed.
Lemma mm_delta_l : forall n A p q, 0 <= p < n -> (mm n delta A p q == A p q)%K.
Proof. intros n A p q Hp. unfold mm, delta. rewrite <- (Sm_delta n p (fun k => A k q) Hp). apply Sm_ext. intros k _. rewrite Z.eqb_sym. ring. Qed.

Section Corr.
Variables (n : Z) (sqm : Z -> K).
Hypothesis sqm_pos : forall i, ~ (sqm i == 0)%K.
Variables (freq sig : K -> K) (ltbn : K -> K -> bool) (cutoff : K).
Notation condition := (condition K freq ltbn cutoff).
Notation a2 := (mode_a2 K freq sig ltbn cutoff).
Notation a2i := (mode_a2_inv K freq sig ltbn cutoff).
Notation psi := (psi K n sqm freq sig ltbn cutoff).
Notation upsilon := (upsilon K n sqm freq sig ltbn cutoff).
Notation in_modes := (in_modes K n).

Lemma modes_mul : forall a b v p q, orthonormal n v -> (Sm n (fun k => in_modes a v p k * in_modes b v k q) == in_modes (fun l => a l * b l) v p q)%K.
Proof.
  intros a b v p q [O _]. unfold in_modes at 1 2.
  rewrite (Sm_ext K n _ (fun k => Sm n (fun l => Sm n (fun m => a l * b m * v p l * v q m * (v k l * v k m))))%K)
    by (intros k _; rewrite Sm_mul2; apply Sm_ext; intros l _; apply Sm_ext; intros m _; ring).
  rewrite Sm_swap. apply Sm_ext. intros l Hl. rewrite Sm_swap.
  rewrite (Sm_ext K n _ (fun m => (a l * b m * v p l * v q m) * (if l =? m then 1 else 0))%K).
  - rewrite Sm_delta2 by exact Hl. ring.
  - intros m Hm. rewrite Sm_mul_l. specialize (O l m Hl Hm). unfold mm, mt, delta in O. now rewrite O.
Qed.
Lemma modes_sym : forall a v p q, (in_modes a v p q == in_modes a v q p)%K.
Proof. intros. apply Sm_ext. intros l _. ring. Qed.
Lemma isq_sq : forall p, (isq K sqm p * sq K sqm p == 1)%K.
Proof. intros p. unfold isq, sq. field. apply sqm_pos. Qed.
Lemma psi_ups : forall a b v p q, orthonormal n v ->
  (mm n (scale_t K (isq K sqm) (in_modes a v)) (scale_t K (sq K sqm) (in_modes b v)) p q == isq K sqm p * sq K sqm q * in_modes (fun l => a l * b l) v p q)%K.
Proof.
  intros a b v p q O. rewrite <- (modes_mul a b v p q O), <- Sm_mul_l. apply Sm_ext. intros k _. unfold scale_t.
  rewrite (modes_sym a v k p), (modes_sym b v q k). transitivity (isq K sqm p * sq K sqm q * (isq K sqm k * sq K sqm k) * (in_modes a v p k * in_modes b v k q))%K; [ring|]. rewrite isq_sq. ring.
Qed.
Lemma ups_psi : forall a b v p q, orthonormal n v ->
  (mm n (scale_t K (sq K sqm) (in_modes a v)) (scale_t K (isq K sqm) (in_modes b v)) p q == sq K sqm p * isq K sqm q * in_modes (fun l => a l * b l) v p q)%K.
Proof.
  intros a b v p q O. rewrite <- (modes_mul a b v p q O), <- Sm_mul_l. apply Sm_ext. intros k _. unfold scale_t.
  rewrite (modes_sym a v k p), (modes_sym b v q k). transitivity (sq K sqm p * isq K sqm q * (isq K sqm k * sq K sqm k) * (in_modes a v p k * in_modes b v k q))%K; [ring|]. rewrite isq_sq. ring.
Qed.
(** ** C113: correlation matrix and its inverse *)
Theorem C113_inverse : forall w v, orthonormal n v -> (forall l, 0 <= l < n -> condition w l = true -> ~ (sig (freq (w l)) == 0)%K) ->
  meq n (mm n (mm n (psi w v) (upsilon w v)) (psi w v)) (psi w v) /\ meq n (mm n (mm n (upsilon w v) (psi w v)) (upsilon w v)) (upsilon w v) /\
  meq n (mt (psi w v)) (psi w v) /\ meq n (mt (upsilon w v)) (upsilon w v) /\
  ((forall l, 0 <= l < n -> condition w l = true) -> meq n (mm n (psi w v) (upsilon w v)) delta).
Proof.
  intros w v O S.
  assert (E : forall l, 0 <= l < n -> (a2 w l * a2i w l == if condition w l then 1 else 0)%K).
  { intros l Hl. unfold mode_a2, mode_a2_inv, where_. specialize (S l Hl). destruct (condition w l); [|ring]. field. now apply S. }
  assert (E2 : forall l, 0 <= l < n -> (a2 w l * (if condition w l then 1 else 0) == a2 w l)%K) by (intros l _; unfold mode_a2, where_; destruct (condition w l); ring).
  assert (E3 : forall l, 0 <= l < n -> (a2i w l * (if condition w l then 1 else 0) == a2i w l)%K) by (intros l _; unfold mode_a2_inv, where_; destruct (condition w l); ring).
  assert (ME : forall a b p q, (forall l, 0 <= l < n -> (a l == b l)%K) -> (in_modes a v p q == in_modes b v p q)%K) by (intros a b p q H; apply Sm_ext; intros l Hl; now rewrite (H l Hl)).
  split; [|split; [|split; [|split]]].
  - intros p q Hp Hq. rewrite mm_assoc. etransitivity; [apply (mm_ext n (psi w v) (psi w v) (mm n (upsilon w v) (psi w v)) (fun k q => sq K sqm k * isq K sqm q * in_modes (fun l => a2i w l * a2 w l) v k q)%K); [intros x y _ _; reflexivity | intros x y _ _; apply ups_psi, O | exact Hp | exact Hq]|].
    unfold mm. rewrite (Sm_ext K n _ (fun k => isq K sqm p * isq K sqm q * (in_modes (a2 w) v p k * in_modes (fun l => a2i w l * a2 w l) v k q))%K).
    + rewrite Sm_mul_l, (modes_mul _ _ _ _ _ O). unfold psi, scale_t. rewrite (modes_sym (a2 w) v q p), (ME (fun l => a2 w l * (a2i w l * a2 w l))%K (a2 w)); [ring|].
      intros l Hl. rewrite <- (E2 l Hl) at 3. rewrite <- (E l Hl). ring.
    + intros k _. unfold psi, scale_t. rewrite (modes_sym (a2 w) v k p). transitivity (isq K sqm p * isq K sqm q * (isq K sqm k * sq K sqm k) * (in_modes (a2 w) v p k * in_modes (fun l => a2i w l * a2 w l) v k q))%K; [ring|]. rewrite isq_sq. ring.
  - intros p q Hp Hq. rewrite mm_assoc. etransitivity; [apply (mm_ext n (upsilon w v) (upsilon w v) (mm n (psi w v) (upsilon w v)) (fun k q => isq K sqm k * sq K sqm q * in_modes (fun l => a2 w l * a2i w l) v k q)%K); [intros x y _ _; reflexivity | intros x y _ _; apply psi_ups, O | exact Hp | exact Hq]|].
    unfold mm. rewrite (Sm_ext K n _ (fun k => sq K sqm p * sq K sqm q * (in_modes (a2i w) v p k * in_modes (fun l => a2 w l * a2i w l) v k q))%K).
    + rewrite Sm_mul_l, (modes_mul _ _ _ _ _ O). unfold upsilon, scale_t. rewrite (modes_sym (a2i w) v q p), (ME (fun l => a2i w l * (a2 w l * a2i w l))%K (a2i w)); [ring|].
      intros l Hl. rewrite (E l Hl). apply E3, Hl.
    + intros k _. unfold upsilon, scale_t. rewrite (modes_sym (a2i w) v k p). transitivity (sq K sqm p * sq K sqm q * (isq K sqm k * sq K sqm k) * (in_modes (a2i w) v p k * in_modes (fun l => a2 w l * a2i w l) v k q))%K; [ring|]. rewrite isq_sq. ring.
  - intros p q _ _. unfold mt, psi, scale_t. rewrite (modes_sym (a2 w) v p q). ring.
  - intros p q _ _. unfold mt, upsilon, scale_t. rewrite (modes_sym (a2i w) v p q). ring.
  - intros A p q Hp Hq. unfold psi, upsilon. rewrite (psi_ups _ _ _ _ _ O). rewrite (ME _ (fun _ => 1%K)).
    + destruct O as [_ O]. specialize (O p q Hp Hq). unfold mm, mt in O. transitivity (isq K sqm p * sq K sqm q * delta p q)%K; [rewrite <- O; unfold in_modes; rewrite (Sm_ext K n (fun l => 1 * v p l * v q l)%K (fun l => v p l * v q l)%K) by (intros; ring); reflexivity|].
      unfold delta. destruct (Z.eqb_spec p q) as [<-|_]; [rewrite isq_sq; ring|ring].
    + intros l Hl. rewrite (E l Hl), (A l Hl). reflexivity.
Qed.
(** The exponent of the distribution: minus one half of the sum, over the modes above the cutoff, of squared
    normal coordinates by sigma^2. *)
Theorem C113_exponent : forall w v d,
  (exponent K n (upsilon w v) d == - (Sm n (fun l => if condition w l then
      (1 / sig (freq (w l))) * (Sm n (fun p => v p l * (sqm (p / 3)%Z * d p)) * Sm n (fun p => v p l * (sqm (p / 3)%Z * d p))) else 0)) / (1 + 1))%K.
Proof.
  intros w v d. unfold exponent. rewrite (Sm_ext K n _ (fun p => Sm n (fun q => Sm n (fun l => a2i w l * ((v p l * (sq K sqm p * d p)) * (v q l * (sq K sqm q * d q))))))%K).
  2:{ intros p _. rewrite <- Sm_mul_l. apply Sm_ext. intros q _. unfold upsilon, scale_t, in_modes. rewrite <- !Sm_mul_l. apply Sm_ext. intros l _. ring. }
  rewrite (Sm_ext K n _ (fun p => Sm n (fun l => Sm n (fun q => a2i w l * ((v p l * (sq K sqm p * d p)) * (v q l * (sq K sqm q * d q))))))%K) by (intros p _; apply Sm_swap).
  rewrite Sm_swap. rewrite (Sm_ext K n _ (fun l => if condition w l then
      (1 / sig (freq (w l))) * (Sm n (fun p => v p l * (sqm (p / 3)%Z * d p)) * Sm n (fun p => v p l * (sqm (p / 3)%Z * d p))) else 0)%K); [reflexivity|].
  intros l _. rewrite (Sm_ext K n _ (fun p => a2i w l * Sm n (fun q => (v p l * (sq K sqm p * d p)) * (v q l * (sq K sqm q * d q))))%K) by (intros p _; now rewrite Sm_mul_l).
  rewrite Sm_mul_l, <- Sm_mul2. unfold mode_a2_inv, where_. destruct (condition w l); [reflexivity|ring].
Qed.
(** Whatever eigenvectors are returned for equal eigenvalues, the matrices are the same (for numbers whose
    equality can be decided). *)
Theorem C113_eigenvectors : forall A w v w' v', (forall x y : K, {(x == y)%K} + {~ (x == y)%K}) ->
  (forall x y, (x == y)%K -> (freq x == freq y)%K) -> (forall x y, (x == y)%K -> (sig x == sig y)%K) -> (forall x y, (x == y)%K -> ltbn cutoff x = ltbn cutoff y) ->
  diagonalizes K n A w v -> diagonalizes K n A w' v' -> meq n (psi w v) (psi w' v') /\ meq n (upsilon w v) (upsilon w' v').
Proof.
  intros A w v w' v' dec Ef Es El [D1 [D2 D3]] [D1' [D2' D3']].
  set (U := fun l m => Sm n (fun p => v p l * v' p m)%K).
  assert (WU : forall l m, 0 <= l < n -> 0 <= m < n -> (w l * U l m == U l m * w' m)%K).
  { intros l m Hl Hm. transitivity (Sm n (fun p => Sm n (fun q => v p l * A p q * v' q m)))%K.
    - transitivity (Sm n (fun q => Sm n (fun p => v p l * A p q) * v' q m))%K.
      + unfold U. rewrite <- Sm_mul_l. apply Sm_ext. intros q Hq. rewrite (Sm_ext K n _ (fun p => Sm n (fun k => w k * v q k * (v p l * v p k)))%K).
        2:{ intros p Hp. rewrite (D1 p q Hp Hq), <- Sm_mul_l. apply Sm_ext. intros k _. ring. }
        rewrite Sm_swap, (Sm_ext K n _ (fun k => w k * v q k * (if l =? k then 1 else 0))%K) by (intros k Hk; rewrite Sm_mul_l, (D2 l k Hl Hk); reflexivity).
        rewrite Sm_delta2 by exact Hl. ring.
      + rewrite Sm_swap. apply Sm_ext. intros q _. rewrite <- Sm_mul_r. reflexivity.
    - unfold U. rewrite <- Sm_mul_r. apply Sm_ext. intros p Hp. rewrite (Sm_ext K n _ (fun q => v p l * Sm n (fun k => w' k * v' p k * (v' q k * v' q m)))%K).
      2:{ intros q Hq. rewrite (D1' p q Hp Hq), <- !Sm_mul_l, <- Sm_mul_r. apply Sm_ext. intros k _. ring. }
      rewrite Sm_mul_l, Sm_swap, (Sm_ext K n _ (fun k => w' k * v' p k * (if k =? m then 1 else 0))%K) by (intros k Hk; rewrite Sm_mul_l, (D2' k m Hk Hm); reflexivity).
      rewrite Sm_delta by exact Hm. ring. }
  assert (FU : forall h : K -> K, (forall x y, (x == y)%K -> (h x == h y)%K) -> forall l m, 0 <= l < n -> 0 <= m < n -> (h (w l) * U l m == U l m * h (w' m))%K).
  { intros h Hh l m Hl Hm. destruct (dec (w l) (w' m)) as [E|E]; [rewrite (Hh _ _ E); ring|].
    assert (Z : (U l m == 0)%K).
    { apply (mul_neq0 K (w l - w' m)%K); [intros X; apply E; transitivity (w l - w' m + w' m)%K; [ring|rewrite X; ring]|]. transitivity (w l * U l m - U l m * w' m)%K; [ring|]. rewrite (WU l m Hl Hm). ring. }
    rewrite Z. ring. }
  assert (VU : forall p m, 0 <= p < n -> 0 <= m < n -> (Sm n (fun l => v p l * U l m) == v' p m)%K).
  { intros p m Hp Hm. unfold U. rewrite (Sm_ext K n _ (fun l => Sm n (fun q => v p l * v q l * v' q m))%K) by (intros l _; rewrite <- Sm_mul_l; apply Sm_ext; intros; ring).
    rewrite Sm_swap, (Sm_ext K n _ (fun q => v' q m * (if p =? q then 1 else 0))%K) by (intros q Hq; rewrite Sm_mul_r, (D3 p q Hp Hq); ring). apply (Sm_delta2 n p (fun q => v' q m) Hp). }
  assert (UV : forall q l, 0 <= q < n -> 0 <= l < n -> (Sm n (fun m => U l m * v' q m) == v q l)%K).
  { intros q l Hq Hl. unfold U. rewrite (Sm_ext K n _ (fun m => Sm n (fun p => v p l * (v' p m * v' q m)))%K) by (intros m _; rewrite <- Sm_mul_r; apply Sm_ext; intros; ring).
    rewrite Sm_swap, (Sm_ext K n _ (fun p => v p l * (if p =? q then 1 else 0))%K) by (intros p Hp; rewrite Sm_mul_l, (D3' p q Hp Hq); reflexivity). apply (Sm_delta n q (fun p => v p l) Hq). }
  assert (G : forall h : K -> K, (forall x y, (x == y)%K -> (h x == h y)%K) -> meq n (in_modes (fun l => h (w l)) v) (in_modes (fun l => h (w' l)) v')).
  { intros h Hh p q Hp Hq. unfold in_modes. rewrite (Sm_ext K n _ (fun l => Sm n (fun m => v p l * (h (w l) * U l m) * v' q m))%K).
    2:{ intros l Hl. rewrite <- (UV q l Hq Hl), <- Sm_mul_l. apply Sm_ext. intros m _. ring. }
    rewrite Sm_swap. apply Sm_ext. intros m Hm. rewrite <- (VU p m Hp Hm). rewrite <- Sm_mul_l, <- Sm_mul_r. apply Sm_ext. intros l Hl. rewrite (FU h Hh l m Hl Hm). ring. }
  assert (C : forall x y, (x == y)%K -> ltbn cutoff (freq x) = ltbn cutoff (freq y)) by (intros x y E; apply El, Ef, E).
  split; intros p q Hp Hq.
  - unfold psi, scale_t. pose proof (G (fun x => where_ K (ltbn cutoff (freq x)) (sig (where_ K (ltbn cutoff (freq x)) (freq x) 1%K)) 0%K) ltac:(intros x y E; cbv beta; rewrite (C x y E); unfold where_; destruct (ltbn cutoff (freq y)); [apply Es, Ef, E|reflexivity]) q p Hq Hp) as X. cbv beta in X. unfold mode_a2, mode_a2_inv, condition. rewrite X. reflexivity.
  - unfold upsilon, scale_t. pose proof (G (fun x => where_ K (ltbn cutoff (freq x)) (1 / sig (where_ K (ltbn cutoff (freq x)) (freq x) 1))%K 0%K) ltac:(intros x y E; cbv beta; rewrite (C x y E); unfold where_; destruct (ltbn cutoff (freq y)); [rewrite (Es _ _ (Ef _ _ E)); reflexivity|reflexivity]) q p Hq Hp) as X. cbv beta in X. unfold mode_a2, mode_a2_inv, condition. rewrite X. reflexivity.
Qed.
(** The class working on a mesh of q-points gives the same matrices if phonopy's transformation multiplies the
    real-space matrix of the modes by the roots of the masses. *)
Theorem C113_mesh : forall d2f fr w v, 
  (forall i j a b, 0 <= a < 3 -> 0 <= b < 3 -> (d2f (mesh_a2 K sig ltbn cutoff fr) i j a b == sqm i * sqm j * in_modes (a2 w) v (3 * i + a) (3 * j + b))%K) ->
  (forall i j a b, 0 <= a < 3 -> 0 <= b < 3 -> (d2f (mesh_a2_inv K sig ltbn cutoff fr) i j a b == sqm i * sqm j * in_modes (a2i w) v (3 * i + a) (3 * j + b))%K) ->
  meq n (mesh_psi K sqm sig ltbn cutoff d2f fr) (psi w v) /\ meq n (mesh_upsilon K sig ltbn cutoff d2f fr) (upsilon w v).
Proof.
  intros d2f fr w v H1 H2. split; intros p q Hp Hq.
  - unfold mesh_psi, flat_fc, psi, scale_t. rewrite H1 by (apply Z.mod_pos_bound; lia). rewrite <- !Z.div_mod by lia. unfold isq. rewrite (modes_sym (a2 w) v q p). field. auto.
  - unfold mesh_upsilon, flat_fc, upsilon, scale_t. rewrite H2 by (apply Z.mod_pos_bound; lia). rewrite <- !Z.div_mod by lia. unfold sq. rewrite (modes_sym (a2i w) v q p). ring.
Qed.
End Corr.

Global Instance meq_equiv : forall n, Equivalence (meq n).
Proof. intros n. split; [intros A p q _ _; reflexivity | intros A B H p q Hp Hq; symmetry; now apply H | intros A B C H G p q Hp Hq; transitivity (B p q); [now apply H|now apply G]]. Qed.
Global Instance mm_proper : forall n, Proper (meq n ==> meq n ==> meq n) (mm n).
Proof. intros n A A' H B B' G. now apply mm_ext. Qed.
Global Instance mt_proper : forall n, Proper (meq n ==> meq n) mt.
Proof. intros n A A' H p q Hp Hq. now apply H. Qed.
Lemma mm_a : forall n A B C, meq n (mm n (mm n A B) C) (mm n A (mm n B C)).
Proof. intros n A B C p q _ _. apply mm_assoc. Qed.
Lemma mt_mm : forall n A B, meq n (mt (mm n A B)) (mm n (mt B) (mt A)).
Proof. intros n A B p q _ _. apply Sm_ext. intros k _. unfold mt. ring. Qed.
Lemma penrose_unique : forall n C Y Z, penrose n C Y -> penrose n C Z -> meq n Y Z.
Proof.
  intros n C Y Z [P1 [P2 [P3 P4]]] [Q1 [Q2 [Q3 Q4]]].
  assert (E1 : meq n (mm n C Y) (mm n C Z)).
  { rewrite <- P3. rewrite <- Q1 at 1. rewrite mm_a. rewrite mt_mm, P3, Q3. rewrite <- mm_a. rewrite P1. reflexivity. }
  assert (E2 : meq n (mm n Y C) (mm n Z C)).
  { rewrite <- P4. rewrite <- Q1 at 1. rewrite (mm_a n C Z C), <- mm_a. rewrite mt_mm, P4, Q4, mm_a. rewrite <- (mm_a n C Y C), P1. reflexivity. }
  rewrite <- P2, <- Q2. rewrite E2, mm_a, E1, <- mm_a. reflexivity.
Qed.
Lemma penrose_sym : forall n C Y, meq n (mt C) C -> penrose n C Y -> meq n (mt Y) Y.
Proof.
  intros n C Y S P. apply (penrose_unique n C); [|exact P]. destruct P as [P1 [P2 [P3 P4]]].
  assert (T : forall A, meq n (mt (mt A)) A) by (intros A p q _ _; reflexivity).
  assert (L1 : meq n (mm n C (mt Y)) (mm n Y C)) by (rewrite <- P4, mt_mm, S; reflexivity).
  assert (L2 : meq n (mm n (mt Y) C) (mm n C Y)) by (rewrite <- P3, mt_mm, S; reflexivity).
  split; [|split; [|split]].
  - transitivity (mt (mm n (mm n C Y) C)); [rewrite mt_mm, mt_mm, S; apply mm_a|]. rewrite P1. exact S.
  - transitivity (mt (mm n (mm n Y C) Y)); [rewrite mt_mm, mt_mm, S; apply mm_a|]. rewrite P2. reflexivity.
  - rewrite L1. exact P4.
  - rewrite L2. exact P3.
Qed.

(** ** Force constants *)
Section Fc.
Variables (n ns : Z) (pinv : (Z -> Z -> K) -> Z -> Z -> K).
Hypothesis ns_pos : 0 < ns.
Notation cov := (cov K ns).
Notation cnt := (count K ns).
Notation uinv := (u_inv K n ns pinv).
Lemma cnt0 : ~ (cnt == 0)%K.
Proof. apply of_nat_neq0. lia. Qed.
Lemma cov_sym : forall u, meq n (mt (cov u)) (cov u).
Proof. intros u p q _ _. unfold mt, SschaModel.cov. rewrite (Sm_ext K ns (fun l => u l q * u l p)%K (fun l => u l p * u l q)%K) by (intros; ring). reflexivity. Qed.
(** moments *)
Lemma cov_sum : forall u p q, (Sm ns (fun l => u l p * u l q) == cnt * cov u p q)%K.
Proof. intros u p q. unfold SschaModel.cov. field. apply cnt0. Qed.
(** displacements lie in the range of their covariance *)
Lemma u_range : forall u l p, penrose n (cov u) (pinv (cov u)) -> 0 <= l < ns -> 0 <= p < n -> (Sm n (fun q => uinv u l q * cov u q p) == u l p)%K.
Proof.
  intros u l p [P _] Hl Hp. set (C := cov u) in *. set (Y := pinv C) in *.
  set (E := fun q => (mm n Y C q p - delta q p)%K).
  assert (CE : forall q, 0 <= q < n -> (Sm n (fun m => C q m * E m) == 0)%K).
  { intros q Hq. unfold E. rewrite (Sm_ext K n _ (fun m => C q m * mm n Y C m p - C q m * delta m p)%K) by (intros; ring). rewrite Sm_sub.
    change (mm n C (mm n Y C) q p - mm n C delta q p == 0)%K. rewrite (mm_delta_r n C q p Hp), <- mm_assoc, (P q p Hq Hp). ring. }
  set (r := fun l => Sm n (fun q => u l q * E q)%K).
  assert (R : (Sm ns (fun l => r l * r l) == 0)%K).
  { unfold r. rewrite (Sm_ext K ns _ (fun l => Sm n (fun q => Sm n (fun m => E q * (E m * (u l q * u l m)))))%K) by (intros i _; rewrite Sm_mul2; apply Sm_ext; intros q _; apply Sm_ext; intros m _; ring).
    rewrite Sm_swap. apply Sm_0. intros q Hq. rewrite Sm_swap. rewrite (Sm_ext K n _ (fun m => E q * cnt * (C q m * E m))%K).
    - rewrite Sm_mul_l, (CE q Hq). ring.
    - intros m _. rewrite !Sm_mul_l, cov_sum. fold C. ring. }
  pose proof (Sm_squares K ns r R l Hl) as Rl. unfold r, E in Rl.
  rewrite (Sm_ext K n _ (fun q => u l q * mm n Y C q p - u l q * delta q p)%K) in Rl by (intros; ring). rewrite Sm_sub in Rl.
  assert (D : (Sm n (fun q => u l q * delta q p) == u l p)%K) by (unfold delta; apply (Sm_delta n p (fun q => u l q) Hp)).
  assert (Sw : (Sm n (fun q => u l q * mm n Y C q p) == Sm n (fun q => uinv u l q * C q p))%K).
  { unfold mm, u_inv. rewrite (Sm_ext K n _ (fun q => Sm n (fun m => u l q * Y q m * C m p))%K) by (intros q _; rewrite <- Sm_mul_l; apply Sm_ext; intros; ring).
    rewrite Sm_swap. apply Sm_ext. intros m _. now rewrite Sm_mul_r. }
  rewrite <- Sw. rewrite D in Rl. transitivity (Sm n (fun q => u l q * mm n Y C q p) - u l p + u l p)%K; [ring|]. rewrite Rl. ring.
Qed.
(** sums over snapshots with uinv *)
Lemma uinv_sum : forall u (g : Z -> K) p, (Sm ns (fun l => uinv u l p * g l) == Sm n (fun q => pinv (cov u) q p * Sm ns (fun l => u l q * g l)))%K.
Proof.
  intros u g p. unfold u_inv. rewrite (Sm_ext K ns _ (fun l => Sm n (fun q => pinv (cov u) q p * (u l q * g l)))%K) by (intros l _; rewrite <- Sm_mul_r; apply Sm_ext; intros; ring).
  rewrite Sm_swap. apply Sm_ext. intros q _. now rewrite Sm_mul_l.
Qed.

(** *** second order *)
Notation F d f := (fun p q => second_order K n ns pinv d f (p / 3) (q / 3) (p mod 3) (q mod 3)).
Lemma F_flat : forall d f p q, second_order K n ns pinv d f (p / 3) (q / 3) (p mod 3) (q mod 3) = fc2_flat K n ns pinv (flat_u K d) (flat_u K f) p q.
Proof. intros. unfold second_order. now rewrite <- !Z.div_mod by lia. Qed.
Lemma normal_eqs : forall u f, penrose n (cov u) (pinv (cov u)) -> forall p q, 0 <= p < n -> 0 <= q < n ->
  (Sm ns (fun l => u l p * (f l q + Sm n (fun m => u l m * fc2_flat K n ns pinv u f m q))) == 0)%K.
Proof.
  intros u f P p q Hp Hq. set (G := fc2_flat K n ns pinv u f).
  rewrite (Sm_ext K ns _ (fun l => u l p * f l q + Sm n (fun m => G m q * (u l p * u l m)))%K) by (intros l _; transitivity (u l p * f l q + u l p * Sm n (fun m => u l m * G m q))%K; [ring|]; rewrite <- Sm_mul_l; rewrite (Sm_ext K n (fun i => u l p * (u l i * G i q))%K (fun m => G m q * (u l p * u l m))%K) by (intros; ring); reflexivity).
  rewrite Sm_add, Sm_swap. rewrite (Sm_ext K n _ (fun m => - (cov u p m * Sm ns (fun l => uinv u l m * f l q)))%K).
  2:{ intros m _. rewrite Sm_mul_l, cov_sum. unfold G, fc2_flat. field. apply cnt0. }
  rewrite (Sm_ext K n _ (fun m => (- (1)) * Sm ns (fun l => uinv u l m * cov u m p * f l q))%K).
  2:{ intros m Hm. transitivity (- (1) * (cov u p m * Sm ns (fun l => uinv u l m * f l q)))%K; [ring|]. rewrite <- Sm_mul_l, (Sm_ext K ns _ (fun l => uinv u l m * cov u m p * f l q)%K); [reflexivity|].
      intros l _. pose proof (cov_sym u p m Hp Hm) as S. unfold mt in S. rewrite S. ring. }
  rewrite Sm_mul_l, Sm_swap. rewrite (Sm_ext K ns (fun j => Sm n (fun i => uinv u j i * cov u i p * f j q)%K) (fun l => u l p * f l q)%K); [ring|].
  intros l Hl. rewrite Sm_mul_r, (u_range u l p P Hl Hp). reflexivity.
Qed.
Theorem C113_least_squares : forall d f X, penrose n (cov (flat_u K d)) (pinv (cov (flat_u K d))) -> let u := flat_u K d in let g := flat_u K f in
  (Sm ns (fun l => Sm n (fun q => (g l q + Sm n (fun p => u l p * X p q)) * (g l q + Sm n (fun p => u l p * X p q)))) ==
   Sm ns (fun l => Sm n (fun q => (g l q + Sm n (fun p => u l p * F d f p q)) * (g l q + Sm n (fun p => u l p * F d f p q)))) +
   Sm ns (fun l => Sm n (fun q => Sm n (fun p => u l p * (X p q - F d f p q)) * Sm n (fun p => u l p * (X p q - F d f p q)))))%K.
Proof.
  intros d f X P u g. set (G := fc2_flat K n ns pinv u g).
  assert (FG : forall p q, F d f p q = G p q) by (intros; apply F_flat). 
  set (e := fun l q => (g l q + Sm n (fun m => u l m * G m q))%K). set (h := fun l q => Sm n (fun p => u l p * (X p q - G p q))%K).
  assert (Z : (Sm n (fun q => Sm ns (fun l => e l q * h l q)) == 0)%K).
  { apply Sm_0. intros q Hq. unfold h. rewrite (Sm_ext K ns _ (fun l => Sm n (fun p => (X p q - G p q) * (u l p * e l q)))%K) by (intros l _; rewrite <- Sm_mul_l; apply Sm_ext; intros; ring).
    rewrite Sm_swap. apply Sm_0. intros p Hp. rewrite Sm_mul_l. unfold e, G. rewrite (normal_eqs u g P p q Hp Hq). ring. }
  rewrite (Sm_ext K ns _ (fun l => Sm n (fun q => e l q * e l q) + (Sm n (fun q => h l q * h l q) + Sm n (fun q => (1 + 1) * (e l q * h l q))))%K).
  - rewrite !Sm_add. rewrite (Sm_ext K ns (fun i => Sm n (fun q => (1 + 1) * (e i q * h i q)))%K (fun l => (1 + 1) * Sm n (fun q => e l q * h l q))%K) by (intros l _; apply Sm_mul_l).
    rewrite Sm_mul_l, (Sm_swap K ns n (fun l q => e l q * h l q)%K), Z.
    rewrite (Sm_ext K ns (fun l => Sm n (fun q => (g l q + Sm n (fun p => u l p * F d f p q)) * (g l q + Sm n (fun p => u l p * F d f p q)))%K) (fun l => Sm n (fun q => e l q * e l q))%K).
    + rewrite (Sm_ext K ns (fun l => Sm n (fun q => Sm n (fun p => u l p * (X p q - F d f p q)) * Sm n (fun p => u l p * (X p q - F d f p q)))%K) (fun l => Sm n (fun q => h l q * h l q))%K); [ring|].
      intros l _. apply Sm_ext. intros q _. unfold h. rewrite (Sm_ext K n (fun p => u l p * (X p q - F d f p q))%K (fun p => u l p * (X p q - G p q))%K); [reflexivity|]. intros p _. now rewrite FG.
    + intros l _. apply Sm_ext. intros q _. unfold e. rewrite (Sm_ext K n (fun p => u l p * F d f p q)%K (fun p => u l p * G p q)%K); [reflexivity|]. intros p _. now rewrite FG.
  - intros l _. rewrite <- !Sm_add. apply Sm_ext. intros q _.
    assert (Q : (Sm n (fun p => u l p * X p q) == Sm n (fun m => u l m * G m q) + h l q)%K).
    { unfold h. rewrite <- Sm_add. apply Sm_ext. intros; ring. }
    rewrite Q. unfold e. ring.
Qed.
(** Forces of a harmonic crystal give back its force constants as far as the displacements reach, and entirely if
    their covariance has an inverse. *)
Theorem C113_harmonic : forall d f Phi, penrose n (cov (flat_u K d)) (pinv (cov (flat_u K d))) ->
  (forall l q, 0 <= l < ns -> 0 <= q < n -> (flat_u K f l q == - Sm n (fun p => flat_u K d l p * Phi p q))%K) ->
  (forall l q, 0 <= l < ns -> 0 <= q < n -> (Sm n (fun p => flat_u K d l p * F d f p q) == Sm n (fun p => flat_u K d l p * Phi p q))%K) /\
  ((exists R, meq n (mm n R (cov (flat_u K d))) delta) -> meq n (F d f) Phi).
Proof.
  intros d f Phi P H. set (u := flat_u K d) in *. set (g := flat_u K f) in *. set (G := fc2_flat K n ns pinv u g).
  assert (FG : forall p q, F d f p q = G p q) by (intros; apply F_flat).
  assert (A : forall l q, 0 <= l < ns -> 0 <= q < n -> (Sm n (fun p => u l p * F d f p q) == Sm n (fun p => u l p * Phi p q))%K).
  { intros l q Hl Hq.
    pose proof (Sm_squares K ns (fun l => g l q + Sm n (fun m => u l m * G m q))%K) as S. cbv beta in S.
    assert (Z : (g l q + Sm n (fun m => u l m * G m q) == 0)%K).
    { apply S; [|exact Hl]. rewrite (Sm_ext K ns _ (fun l => Sm n (fun p => (G p q - Phi p q) * (u l p * (g l q + Sm n (fun m => u l m * G m q)))))%K).
      - rewrite Sm_swap. apply Sm_0. intros p Hp. rewrite Sm_mul_l. unfold G. rewrite (normal_eqs u g P p q Hp Hq). ring.
      - intros i Hi. set (e := (g i q + Sm n (fun m => u i m * G m q))%K). rewrite (Sm_ext K n _ (fun p => (u i p * G p q - u i p * Phi p q) * e)%K) by (intros; ring).
        rewrite Sm_mul_r, Sm_sub. unfold e at 1. rewrite (H i q Hi Hq). ring. }
    rewrite (Sm_ext K n _ (fun p => u l p * G p q)%K) by (intros p _; now rewrite FG).
    rewrite (H l q Hl Hq) in Z. transitivity (- Sm n (fun p => u l p * Phi p q) + Sm n (fun m => u l m * G m q) + Sm n (fun p => u l p * Phi p q))%K; [ring|]. rewrite Z. ring. }
  split; [exact A|]. intros [R HR] p q Hp Hq. rewrite FG.
  assert (CG : forall p, 0 <= p < n -> (Sm n (fun m => cov u p m * (G m q - Phi m q)) == 0)%K).
  { intros k Hk. unfold SschaModel.cov. rewrite (Sm_ext K n _ (fun m => Sm ns (fun l => u l k * (u l m * G m q - u l m * Phi m q)) / cnt)%K).
    - rewrite Sm_div, Sm_swap. rewrite (Sm_0 K ns); [field; apply cnt0|]. intros l Hl. rewrite Sm_mul_l, Sm_sub, <- (A l q Hl Hq), (Sm_ext K n (fun p => u l p * F d f p q)%K (fun p => u l p * G p q)%K) by (intros m _; now rewrite FG). ring.
    - intros m _. rewrite (Sm_ext K ns (fun l => u l k * (u l m * G m q - u l m * Phi m q))%K (fun l => u l k * u l m * (G m q - Phi m q))%K) by (intros; ring). rewrite Sm_mul_r. field. apply cnt0. }
  assert (Z : (G p q - Phi p q == 0)%K).
  { rewrite <- (Sm_delta2 n p (fun m => G m q - Phi m q)%K Hp). rewrite (Sm_ext K n _ (fun m => Sm n (fun k => R p k * (cov u k m * (G m q - Phi m q))))%K).
    - rewrite Sm_swap. apply Sm_0. intros k Hk. rewrite Sm_mul_l, (CG k Hk). ring.
    - intros m Hm. specialize (HR p m Hp Hm). unfold delta in HR. rewrite <- HR. unfold mm. rewrite <- Sm_mul_l. apply Sm_ext. intros k _. ring. }
  transitivity (G p q - Phi p q + Phi p q)%K; [ring|]. rewrite Z. ring.
Qed.
(** *** third order *)
Notation F3 fc d f T := (fun p q r => third_order K n ns pinv fc d f T (p / 3) (q / 3) (r / 3) (p mod 3) (q mod 3) (r mod 3)).
Definition mean (g : Z -> K) : K := (Sm ns g / cnt)%K.
(** Third-order force constants of an anharmonic crystal, f = f0 - Phi' u - Psi u u / 2, from snapshots whose mean
    vanishes, whose third moments vanish (or whose harmonic part is the one given) and whose fourth moments are those of a Gaussian: Psi restricted to the range of the
    displacements, and Psi itself if their covariance has an inverse. *)
Theorem C113_cubic : forall fc d f T f0 Phi Psi, let u := flat_u K d in
  penrose n (cov u) (pinv (cov u)) ->
  (forall l r, 0 <= l < ns -> 0 <= r < n -> (flat_u K f l r == f0 r - Sm n (fun q => u l q * Phi q r) - Sm n (fun e => Sm n (fun h => u l e * u l h * Psi e h r)) / (1 + 1))%K) ->
  (forall p, 0 <= p < n -> (mean (fun l => u l p) == 0)%K) ->
  (meq n Phi (flat_fc K fc) \/ (forall p q r, 0 <= p < n -> 0 <= q < n -> 0 <= r < n -> (mean (fun l => u l p * u l q * u l r) == 0)%K)) ->
  (forall p q e h, 0 <= p < n -> 0 <= q < n -> 0 <= e < n -> 0 <= h < n ->
     (mean (fun l => u l p * u l q * (u l e * u l h)) == mean (fun l => u l p * u l q) * mean (fun l => u l e * u l h) + mean (fun l => u l p * u l e) * mean (fun l => u l q * u l h) + mean (fun l => u l p * u l h) * mean (fun l => u l q * u l e))%K) ->
  (forall e h r, 0 <= e < n -> 0 <= h < n -> 0 <= r < n -> (Psi e h r == Psi h e r)%K) ->
  let Pr := mm n (pinv (cov u)) (cov u) in
  (forall p q r, 0 <= p < n -> 0 <= q < n -> 0 <= r < n -> (F3 fc d f T p q r == Sm n (fun e => Sm n (fun h => Pr p e * Pr q h * Psi e h r)))%K) /\
  ((exists R, meq n (mm n R (cov u)) delta) -> forall p q r, 0 <= p < n -> 0 <= q < n -> 0 <= r < n -> (F3 fc d f T p q r == Psi p q r)%K).
Proof.
  intros fc d f T f0 Phi Psi u P Hf Hm H3 H4 HS Pr.
  set (C := cov u) in *. set (Y := pinv C) in *. set (g := flat_u K f) in *. set (fcs := flat_fc K fc) in *.
  assert (C_mean : forall p q, (mean (fun l => u l p * u l q) == C p q)%K) by reflexivity.
  assert (YS : meq n (mt Y) Y) by (apply (penrose_sym n C Y (cov_sym u) P)).
  assert (MX : forall a b, (forall l, 0 <= l < ns -> (a l == b l)%K) -> (mean a == mean b)%K) by (intros a b H; unfold mean; now rewrite (Sm_ext K ns a b H)).
  assert (MS : forall a : Z -> Z -> K, (mean (fun l => Sm n (fun p => a l p)) == Sm n (fun p => mean (fun l => a l p)))%K) by (intros a; unfold mean; rewrite Sm_swap; now rewrite Sm_div).
  assert (ML : forall c (a : Z -> K), (mean (fun l => c * a l) == c * mean a)%K) by (intros c a; unfold mean; rewrite Sm_mul_l; field; apply cnt0).
  assert (MC : forall c, (mean (fun _ => c) == c)%K) by (intros c; unfold mean; rewrite Sm_const; unfold count; field; apply cnt0).
  assert (MA : forall a b, (mean (fun l => a l + b l) == mean a + mean b)%K) by (intros a b; unfold mean; rewrite Sm_add; field; apply cnt0).
  set (two := (1 + 1)%K). assert (T0 : ~ (two == 0)%K) by apply two_neq0.
  (* the mean force *)
  assert (Mf : forall r, 0 <= r < n -> (mean (fun l => g l r) == f0 r + - (1) * (Sm n (fun e => Sm n (fun h => C e h * Psi e h r)) / two))%K).
  { intros r Hr. rewrite (MX _ (fun l => f0 r + (- (1) * Sm n (fun q => Phi q r * u l q) + - (1) / two * Sm n (fun e => Sm n (fun h => Psi e h r * (u l e * u l h)))))%K).
    - rewrite !MA, MC, !ML, !MS. rewrite (Sm_0 K n (fun p => mean (fun l => Phi p r * u l p)%K)) by (intros q Hq; rewrite ML, (Hm q Hq); ring).
      rewrite (Sm_ext K n (fun p => mean (fun l => Sm n (fun h => Psi p h r * (u l p * u l h))))%K (fun e => Sm n (fun h => C e h * Psi e h r))%K) by (intros e _; rewrite MS; apply Sm_ext; intros h _; rewrite ML, C_mean; ring).
      field. exact T0.
    - intros l Hl. rewrite (Hf l r Hl Hr). rewrite (Sm_ext K n (fun q => u l q * Phi q r)%K (fun q => Phi q r * u l q)%K) by (intros; ring).
      rewrite (Sm_ext K n (fun e => Sm n (fun h => u l e * u l h * Psi e h r))%K (fun e => Sm n (fun h => Psi e h r * (u l e * u l h)))%K) by (intros e _; apply Sm_ext; intros; ring). unfold two. field. exact T0. }
  set (fm := fmat K n ns fcs u g).
  assert (Fm : forall l r, 0 <= l < ns -> 0 <= r < n -> (fm l r == Sm n (fun q => (fcs q r - Phi q r) * u l q) + - (1) / two * Sm n (fun e => Sm n (fun h => Psi e h r * (u l e * u l h - C e h))))%K).
  { intros l r Hl Hr. unfold fm, fmat. pose proof (Mf r Hr) as M. unfold mean in M. rewrite M, (Hf l r Hl Hr).
    rewrite (Sm_ext K n (fun q => (fcs q r - Phi q r) * u l q)%K (fun q => u l q * fcs q r - u l q * Phi q r)%K) by (intros; ring). rewrite Sm_sub.
    rewrite (Sm_ext K n (fun e => Sm n (fun h => Psi e h r * (u l e * u l h - C e h)))%K (fun e => Sm n (fun h => u l e * u l h * Psi e h r) - Sm n (fun h => C e h * Psi e h r))%K) by (intros e _; rewrite <- Sm_sub; apply Sm_ext; intros; ring).
    rewrite Sm_sub. fold two. field. exact T0. }
  (* moments of fm with two displacements *)
  assert (Mm : forall a b r, 0 <= a < n -> 0 <= b < n -> 0 <= r < n -> (mean (fun l => u l a * u l b * fm l r) == - Sm n (fun e => Sm n (fun h => C a e * C b h * Psi e h r)))%K).
  { intros a b r Ha Hb Hr.
    rewrite (MX _ (fun l => Sm n (fun q => (fcs q r - Phi q r) * (u l a * u l b * u l q)) + - (1) / two * Sm n (fun e => Sm n (fun h => Psi e h r * (u l a * u l b * (u l e * u l h) + - (1) * (C e h * (u l a * u l b))))))%K).
    2:{ intros l Hl. rewrite (Fm l r Hl Hr). rewrite (Sm_ext K n (fun q => (fcs q r - Phi q r) * (u l a * u l b * u l q))%K (fun q => (u l a * u l b) * ((fcs q r - Phi q r) * u l q))%K) by (intros; ring).
        rewrite (Sm_ext K n (fun e => Sm n (fun h => Psi e h r * (u l a * u l b * (u l e * u l h) + - (1) * (C e h * (u l a * u l b)))))%K (fun e => (u l a * u l b) * Sm n (fun h => Psi e h r * (u l e * u l h - C e h)))%K) by (intros e _; rewrite <- Sm_mul_l; apply Sm_ext; intros; ring).
        rewrite !Sm_mul_l. ring. }
    rewrite MA, MS, ML, MS. rewrite (Sm_0 K n (fun p => mean (fun l => (fcs p r - Phi p r) * (u l a * u l b * u l p)))%K).
    2:{ intros q Hq. rewrite ML. destruct H3 as [H3|H3]; [rewrite (H3 q r Hq Hr); fold fcs; ring|rewrite (H3 a b q Ha Hb Hq); ring]. }
    rewrite (Sm_ext K n _ (fun e => Sm n (fun h => C a e * C b h * Psi e h r) + Sm n (fun h => C a h * C b e * Psi e h r))%K).
    2:{ intros e He. rewrite MS, <- Sm_add. apply Sm_ext. intros h Hh. rewrite ML, MA, !ML, (H4 a b e h Ha Hb He Hh), !C_mean. ring. }
    rewrite Sm_add. rewrite (Sm_swap K n n (fun e h => C a h * C b e * Psi e h r)%K).
    rewrite (Sm_ext K n (fun j => Sm n (fun i => C a j * C b i * Psi i j r))%K (fun e => Sm n (fun h => C a e * C b h * Psi e h r))%K) by (intros e He; apply Sm_ext; intros h Hh; rewrite (HS h e r Hh He Hr); reflexivity).
    unfold two. field. exact T0. }
  assert (A : forall p q r, 0 <= p < n -> 0 <= q < n -> 0 <= r < n -> (F3 fc d f T p q r == Sm n (fun e => Sm n (fun h => Pr p e * Pr q h * Psi e h r)))%K).
  { intros p q r Hp Hq Hr. unfold third_order, third_run. cbn [snd]. rewrite <- !Z.div_mod by lia. fold u g fcs. fold fm.
    transitivity (- mean (fun l => uinv u l p * uinv u l q * fm l r))%K; [unfold fc3_flat, mean; field; apply cnt0|].
    rewrite (MX _ (fun l => Sm n (fun a => Sm n (fun b => Y a p * Y b q * (u l a * u l b * fm l r))))%K).
    2:{ intros l _. unfold u_inv. fold C. fold Y. rewrite Sm_mul2, <- Sm_mul_r. apply Sm_ext. intros a _. rewrite <- Sm_mul_r. apply Sm_ext. intros; ring. }
    rewrite MS. rewrite (Sm_ext K n _ (fun a => - (1) * (Sm n (fun e => (Y p a * C a e) * Sm n (fun b => Sm n (fun h => (Y q b * C b h) * Psi e h r)))))%K).
    - rewrite Sm_mul_l. transitivity (Sm n (fun a => Sm n (fun e => Y p a * C a e * Sm n (fun b => Sm n (fun h => Y q b * C b h * Psi e h r)))))%K; [ring|]. rewrite Sm_swap. apply Sm_ext. intros e _. rewrite Sm_mul_r. fold (mm n Y C p e). fold Pr.
      rewrite Sm_swap. rewrite <- Sm_mul_l. apply Sm_ext. intros h _. rewrite Sm_mul_r. fold (mm n Y C q h). fold Pr. ring.
    - intros a Ha. rewrite MS. rewrite (Sm_ext K n _ (fun b => - (1) * Sm n (fun e => (Y p a * C a e) * Sm n (fun h => (Y q b * C b h) * Psi e h r)))%K).
      + rewrite Sm_mul_l, Sm_swap. rewrite (Sm_ext K n (fun j => Sm n (fun i => Y p a * C a j * Sm n (fun h => Y q i * C i h * Psi j h r)))%K (fun e => (Y p a * C a e) * Sm n (fun b => Sm n (fun h => (Y q b * C b h) * Psi e h r)))%K) by (intros e _; apply Sm_mul_l). reflexivity.
      + intros b Hb. rewrite ML, (Mm a b r Ha Hb Hr). pose proof (YS p a Hp Ha) as Y1. pose proof (YS q b Hq Hb) as Y2. unfold mt in Y1, Y2. rewrite Y1, Y2.
        transitivity (- (1) * (Y p a * Y q b * Sm n (fun e => Sm n (fun h => C a e * C b h * Psi e h r))))%K; [ring|]. rewrite <- Sm_mul_l. rewrite (Sm_ext K n (fun i => Y p a * Y q b * Sm n (fun h => C a i * C b h * Psi i h r))%K (fun e => (Y p a * C a e) * Sm n (fun h => (Y q b * C b h) * Psi e h r))%K); [reflexivity|].
        intros e _. rewrite <- !Sm_mul_l. apply Sm_ext. intros; ring. }
  split; [exact A|]. intros [R HR] p q r Hp Hq Hr. rewrite (A p q r Hp Hq Hr).
  assert (PD : meq n Pr delta).
  { assert (DL : meq n (mm n R (mm n C (mm n Y C))) (mm n R C)) by (rewrite <- (mm_a n C Y C), (proj1 P); reflexivity).
    rewrite <- mm_a in DL. rewrite HR in DL. intros x y Hx Hy. unfold Pr. rewrite <- (DL x y Hx Hy). symmetry. now apply mm_delta_l. }
  rewrite (Sm_ext K n _ (fun e => Psi e q r * (if p =? e then 1 else 0))%K).
  - apply (Sm_delta2 n p (fun e => Psi e q r) Hp).
  - intros e He. rewrite (Sm_ext K n _ (fun h => Pr p e * Psi e h r * (if q =? h then 1 else 0))%K) by (intros h Hh; rewrite (PD q h Hq Hh); unfold delta; ring).
    rewrite (Sm_delta2 n q (fun h => Pr p e * Psi e h r)%K Hq), (PD p e Hp He). unfold delta. ring.
Qed.
(** Forces without anharmonic part give no third-order force constants if the displacements are around the
    equilibrium positions in the mean. *)
Theorem C113_no_cubic : forall fc d f T f0, let u := flat_u K d in
  (forall l r, 0 <= l < ns -> 0 <= r < n -> (flat_u K f l r == f0 r - Sm n (fun q => u l q * flat_fc K fc q r))%K) ->
  (forall p, 0 <= p < n -> (mean (fun l => u l p) == 0)%K) ->
  forall p q r, 0 <= p < n -> 0 <= q < n -> 0 <= r < n -> (F3 fc d f T p q r == 0)%K.
Proof.
  intros fc d f T f0 u Hf Hm p q r Hp Hq Hr. unfold third_order, third_run. cbn [snd]. rewrite <- !Z.div_mod by lia. fold u.
  unfold fc3_flat. rewrite (Sm_0 K ns); [field; apply cnt0|]. intros l Hl. unfold fmat. set (fcs := flat_fc K fc) in *.
  assert (M : (Sm ns (fun m => flat_u K f m r) == cnt * f0 r)%K).
  { rewrite (Sm_ext K ns _ (fun m => f0 r - Sm n (fun q => fcs q r * u m q))%K) by (intros m Hmm; rewrite (Hf m r Hmm Hr); rewrite (Sm_ext K n (fun q => u m q * fcs q r)%K (fun q => fcs q r * u m q)%K) by (intros; ring); reflexivity).
    rewrite Sm_sub, Sm_const, Sm_swap. rewrite (Sm_0 K n); [unfold count; ring|]. intros k Hk. rewrite Sm_mul_l. specialize (Hm k Hk). unfold mean in Hm.
    transitivity (fcs k r * (cnt * (Sm ns (fun l => u l k) / cnt)))%K; [field; apply cnt0|]. rewrite Hm. ring. }
  rewrite M, (Hf l r Hl Hr). field. apply cnt0.
Qed.
End Fc.
End P.

Print Assumptions C113_inverse.
Print Assumptions C113_exponent.
Print Assumptions C113_eigenvectors.
Print Assumptions C113_mesh.
Print Assumptions C113_least_squares.
Print Assumptions C113_harmonic.
Print Assumptions C113_cubic.
Print Assumptions C113_no_cubic.

(** ** Examples *)
Lemma meq_check : forall n (A B : Z -> Z -> Qnum), forallb (fun p => forallb (fun q => Qeq_bool (A p q) (B p q)) (zrange n)) (zrange n) = true -> meq Qnum n A B.
Proof. intros n A B H p q Hp Hq. apply Qeq_bool_iff. exact (all_range n _ (all_range n _ H p Hp) q Hq). Qed.
Definition exv (p l : Z) : Qnum := nth (Z.to_nat (3 * p + l)) [3 # 5; 4 # 5; 0; -4 # 5; 3 # 5; 0; 0; 0; 1]%Q 0%Q.
Definition exw (l : Z) : Qnum := nth (Z.to_nat l) [1; 4; 0]%Q 0%Q.
Definition exsig (x : Qnum) : Qnum := (2 / x)%Q.
Example C113_ex_modes : orthonormal Qnum 3 exv /\
  (forall l, 0 <= l < 3 -> condition Qnum (fun x => x) Qltb (1 # 100)%Q exw l = true -> ~ (exsig (exw l) == 0)%Q) /\
  (psi Qnum 3 (fun _ => 2%Q : Qnum) (fun x => x) exsig Qltb (1 # 100)%Q exw exv 0%Z 1%Z == -9 # 50)%Q.
Proof.
  split; [split; apply meq_check; vm_compute; reflexivity|]. split; [|vm_compute; reflexivity].
  intros l Hl. apply in_zrange in Hl. assert (H : In l [0; 1; 2]) by exact Hl. clear Hl. destruct H as [<-|[<-|[<-|[]]]]; vm_compute; intros; discriminate.
Qed.
(** six snapshots of one atom displaced along x: fourth moment three times the square of the second *)
Definition exd (l i a : Z) : Qnum := if a =? 0 then (if l =? 0 then 2%Q else if l =? 1 then (-2)%Q else 0%Q) else 0%Q.
Definition expinv (C : Z -> Z -> Qnum) (p q : Z) : Qnum := if (p =? 0) && (q =? 0) then (1 / C 0%Z 0%Z)%Q else 0%Q.
Definition exfc (i j a b : Z) : Qnum := if a =? b then 3%Q else 0%Q.
Definition exPsi (p q r : Z) : Qnum := if p =? q then 5%Q else 1%Q.
Definition exf (l i a : Z) : Qnum := (1 - 3 * exd l i a - exd l i 0%Z * exd l i 0%Z * exPsi 0%Z 0%Z a / 2)%Q.
Example C113_ex_cubic : let u := flat_u Qnum exd in penrose Qnum 3 (cov Qnum 6 u) (expinv (cov Qnum 6 u)) /\
  (forall l r, 0 <= l < 6 -> 0 <= r < 3 -> (flat_u Qnum exf l r == 1 - Sm Qnum 3 (fun q => u l q * flat_fc Qnum exfc q r)%Q - Sm Qnum 3 (fun e => Sm Qnum 3 (fun h => u l e * u l h * exPsi e h r)%Q) / (1 + 1))%Q) /\
  (forall p, 0 <= p < 3 -> (mean Qnum 6 (fun l => u l p) == 0)%Q) /\
  (forall p q e h, 0 <= p < 3 -> 0 <= q < 3 -> 0 <= e < 3 -> 0 <= h < 3 ->
     (mean Qnum 6 (fun l => u l p * u l q * (u l e * u l h))%Q == mean Qnum 6 (fun l => u l p * u l q)%Q * mean Qnum 6 (fun l => u l e * u l h)%Q + mean Qnum 6 (fun l => u l p * u l e)%Q * mean Qnum 6 (fun l => u l q * u l h)%Q + mean Qnum 6 (fun l => u l p * u l h)%Q * mean Qnum 6 (fun l => u l q * u l e)%Q)%Q) /\
  (third_order Qnum 3 6 expinv exfc exd exf 300%Q 0%Z 0%Z 0%Z 0%Z 0%Z 2%Z == 5)%Q.
Proof.
  cbv zeta. split; [|split; [|split; [|split]]].
  - split; [|split; [|split]]; apply meq_check; vm_compute; reflexivity.
  - intros l r Hl Hr. apply Qeq_bool_iff.
    exact (all_range 3 _ (all_range 6 (fun l => forallb (fun r => Qeq_bool (flat_u Qnum exf l r) (1 - Sm Qnum 3 (fun q => flat_u Qnum exd l q * flat_fc Qnum exfc q r)%Q - Sm Qnum 3 (fun e => Sm Qnum 3 (fun h => flat_u Qnum exd l e * flat_u Qnum exd l h * exPsi e h r)%Q) / (1 + 1))%Q) (zrange 3)) ltac:(vm_compute; reflexivity) l Hl) r Hr).
  - intros p Hp. apply Qeq_bool_iff. exact (all_range 3 (fun p => Qeq_bool (mean Qnum 6 (fun l => flat_u Qnum exd l p)) 0%Q) ltac:(vm_compute; reflexivity) p Hp).
  - intros p q e h Hp Hq He Hh. apply Qeq_bool_iff. set (u := flat_u Qnum exd).
    exact (all_range 3 _ (all_range 3 _ (all_range 3 _ (all_range 3 (fun p => forallb (fun q => forallb (fun e => forallb (fun h => Qeq_bool (mean Qnum 6 (fun l => u l p * u l q * (u l e * u l h))%Q)
      (mean Qnum 6 (fun l => u l p * u l q)%Q * mean Qnum 6 (fun l => u l e * u l h)%Q + mean Qnum 6 (fun l => u l p * u l e)%Q * mean Qnum 6 (fun l => u l q * u l h)%Q + mean Qnum 6 (fun l => u l p * u l h)%Q * mean Qnum 6 (fun l => u l q * u l e)%Q)%Q) (zrange 3)) (zrange 3)) (zrange 3)) ltac:(vm_compute; reflexivity) p Hp) q Hq) e He) h Hh).
  - vm_compute. reflexivity.
Qed.
(** ** What does not hold *)
(** prefactor * exp(vals) is not normalized over the displacements: prefactor^2 = 1 / det(2 pi psi) fails by the
    product of the masses (here one atom of mass 4 with three modes of sigma^2 = 1). *)
Definition det3 (A : Z -> Z -> Q) : Q :=
  (A 0%Z 0%Z * (A 1%Z 1%Z * A 2%Z 2%Z - A 1%Z 2%Z * A 2%Z 1%Z) - A 0%Z 1%Z * (A 1%Z 0%Z * A 2%Z 2%Z - A 1%Z 2%Z * A 2%Z 0%Z) + A 0%Z 2%Z * (A 1%Z 0%Z * A 2%Z 1%Z - A 1%Z 1%Z * A 2%Z 0%Z))%Q.
Theorem C113_prefactor_refuted : exists (sqm w : Z -> Qnum) (v : Z -> Z -> Qnum) (sig : Qnum -> Qnum),
  orthonormal Qnum 3 v /\ (forall l, 0 <= l < 3 -> condition Qnum (fun x => x) Qltb (1 # 100)%Q w l = true) /\
  forall (root : Q -> Q) (twopi : Q), ~ (twopi == 0)%Q -> (forall x y, (x == y)%Q -> (root x == root y)%Q) ->
    (root (1 / (twopi * twopi * twopi)) * root (1 / (twopi * twopi * twopi)) == 1 / (twopi * twopi * twopi))%Q ->
    let pre := prefactor Qnum 3 (fun x => x) sig Qltb (1 # 100)%Q root twopi w in
    ~ (pre * pre * det3 (fun p q => twopi * psi Qnum 3 sqm (fun x => x) sig Qltb (1 # 100)%Q w v p q) == 1)%Q.
Proof.
  exists (fun _ => 2%Q), (fun _ => 1%Q), (fun p q => if p =? q then 1%Q else 0%Q), (fun _ => 1%Q).
  split; [split; apply meq_check; vm_compute; reflexivity|]. split; [intros; reflexivity|].
  intros root t T0 Rx R pre.
  assert (P : (pre == root (1 / (t * t * t)))%Q).
  { unfold pre, prefactor. apply Rx. change (filter (condition Qnum (fun x : Qnum => x) Qltb (1 # 100)%Q (fun _ : Z => 1%Q)) (zrange 3)) with [0; 1; 2]. cbn [map fold_right]. unfold mode_a2, where_. change (condition Qnum (fun x : Qnum => x) Qltb (1 # 100)%Q (fun _ : Z => 1%Q) 0) with true. change (condition Qnum (fun x : Qnum => x) Qltb (1 # 100)%Q (fun _ : Z => 1%Q) 1) with true. change (condition Qnum (fun x : Qnum => x) Qltb (1 # 100)%Q (fun _ : Z => 1%Q) 2) with true.
    cbn. field. exact T0. }
  assert (D : forall p q, In p [0; 1; 2] -> In q [0; 1; 2] -> (psi Qnum 3 (fun _ => 2%Q) (fun x => x) (fun _ => 1%Q) Qltb (1 # 100)%Q (fun _ => 1%Q) (fun p q => if p =? q then 1%Q else 0%Q) p q == if p =? q then 1 # 4 else 0)%Q).
  { intros p q Ip Iq. cbn [In] in Ip, Iq. destruct Ip as [<-|[<-|[<-|[]]]], Iq as [<-|[<-|[<-|[]]]]; vm_compute; reflexivity. }
  unfold det3. rewrite !D by (cbn; tauto). cbn [Z.eqb Pos.eqb]. rewrite P, R. intros E.
  assert (E2 : (1 # 64 == 1)%Q) by (rewrite <- E; field; exact T0). discriminate E2.
Qed.
(** Harmonic forces with displacements whose mean is not zero give third-order force constants that are not zero. *)
Theorem C113_drift_refuted : exists d f fc, penrose Qnum 3 (cov Qnum 2 (flat_u Qnum d)) (expinv (cov Qnum 2 (flat_u Qnum d))) /\
  (forall l r, 0 <= l < 2 -> 0 <= r < 3 -> (flat_u Qnum f l r == 0 - Sm Qnum 3 (fun q => flat_u Qnum d l q * flat_fc Qnum fc q r)%Q)%Q) /\
  forall T, ~ (third_order Qnum 3 2 expinv fc d f T 0%Z 0%Z 0%Z 0%Z 0%Z 0%Z == 0)%Q.
Proof.
  exists (fun l i a => if (l =? 0) && (a =? 0) then 1%Q else 0%Q), (fun l i a => if (l =? 0) && (a =? 0) then (-1)%Q else 0%Q), (fun i j a b => if a =? b then 1%Q else 0%Q).
  split; [split; [|split; [|split]]; apply meq_check; vm_compute; reflexivity|]. split; [|intros T; vm_compute; discriminate].
  intros l r Hl Hr. apply Qeq_bool_iff.
  exact (all_range 3 _ (all_range 2 (fun l => forallb (fun r => Qeq_bool (flat_u Qnum (fun l i a => if (l =? 0) && (a =? 0) then (-1)%Q else 0%Q) l r)
    (0 - Sm Qnum 3 (fun q => flat_u Qnum (fun l i a => if (l =? 0) && (a =? 0) then 1%Q else 0%Q) l q * flat_fc Qnum (fun i j a b => if a =? b then 1%Q else 0%Q) q r)%Q)%Q) (zrange 3)) ltac:(vm_compute; reflexivity) l Hl) r Hr).
Qed.
(** numpy's error state is the old one afterwards only if nothing went wrong. *)
Theorem C113_error_state : forall E X (all st : E) (x : X), sigma_squared_call all false x st = (Some x, st).
Proof. reflexivity. Qed.
Theorem C113_error_state_refuted : ~ forall (all st : bool) flags (x : Q), snd (sigma_squared_call all flags x st) = st.
Proof. intros H. discriminate (H true false true 0%Q). Qed.
Print Assumptions C113_prefactor_refuted.
Print Assumptions C113_drift_refuted.
Print Assumptions C113_error_state.
Print Assumptions C113_error_state_refuted.
