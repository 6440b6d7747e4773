(** * C111: direct solution of the linearized Boltzmann equation *)
From Coq Require Import ZArith QArith List Bool Lia Lqa Setoid Morphisms Ring_theory Field_theory Ring Field.
From Verif Require Import Base BaseProofs Par Par2 DirModel DirSpec DirProofs DirSpectral DirGroup DirMain DirPinv.
Import ListNotations.
Open Scope Z_scope.

Section Any.
Variable K : numbers.
Declare Scope K_scope.
Delimit Scope K_scope with K.
Bind Scope K_scope with num.
Notation "0" := (n0 K) : K_scope.
Notation "1" := (n1 K) : K_scope.
Infix "+" := (nadd K) : K_scope.
Infix "*" := (nmul K) : K_scope.
Infix "/" := (ndiv K) : K_scope.
Infix "==" := (neq K) (at level 70, no associativity) : K_scope.
Add Field Kfield7 : (n_field K) (setoid (n_equiv K) (n_ext K)).
Local Notation Sm := (Sm K).
Variables (absn : K -> K) (ltbn : K -> K -> bool) (method : Z) (cutoff : K).
Local Notation kp := (kept K absn ltbn method cutoff).
Local Notation ep := (eigvals_pinv K absn ltbn method cutoff).
Hypothesis Hk : sound_test K kp.

Lemma layout : forall s n A w mem, diagonalized_by K s n A w mem -> diagonalizes K n A w (eigvecs K s n mem) /\ 1 <= s <= 6.
Proof.
  intros s n A w mem [[C D]|[C D]]; (split; [|lia]); unfold eigvecs; cbn [existsb].
  - destruct C as [->|[->|[->| ->]]]; exact D.
  - destruct C as [->| ->]; exact D.
Qed.
Lemma get_Y_red : forall s n A w mem X Y, 0 <= n -> diagonalized_by K s n A w mem ->
  get_Y K absn ltbn true s method cutoff n w mem X Y ->
  exists v, diagonalizes K n A w v /\ forall p a, 0 <= p < n -> (Y p a == solve_red K n v (ep w) X p a)%K.
Proof.
  intros s n A w mem X Y Hn D G. destruct (layout _ _ _ _ _ D) as [L R]. exists (eigvecs K s n mem). split; [exact L|].
  intros p a Hp. unfold get_Y in G. destruct (Z.eqb_spec s 6) as [->|N6].
  - destruct G as [data' [B ->]]. rewrite (mul_red_val K absn ltbn method cutoff n w mem Hn Hk data' X p a B Hp). reflexivity.
  - replace (existsb (Z.eqb s) [0; 1; 2; 3; 4; 5]) with true in G by (symmetry; apply existsb_exists; exists s; rewrite Z.eqb_refl; cbn [In]; split; [lia|auto]).
    subst Y. reflexivity.
Qed.
Lemma get_Y_ir : forall s n A w mem X Y, 0 <= n -> diagonalized_by K s n A w mem ->
  get_Y K absn ltbn false s method cutoff n w mem X Y ->
  exists v, diagonalizes K n A w v /\ forall p a, 0 <= p * 3 + a < n -> (Y p a == solve_ir K n v (ep w) X p a)%K.
Proof.
  intros s n A w mem X Y Hn D G. destruct (layout _ _ _ _ _ D) as [L R]. exists (eigvecs K s n mem). split; [exact L|].
  intros p a Hp. unfold get_Y in G. destruct (Z.eqb_spec s 6) as [->|N6].
  - destruct G as [data' [B ->]]. rewrite (mul_ir_val K absn ltbn method cutoff n w mem Hn Hk data' X p a B Hp). reflexivity.
  - replace (existsb (Z.eqb s) [0; 1; 2; 3; 4; 5]) with true in G by (symmetry; apply existsb_exists; exists s; rewrite Z.eqb_refl; cbn [In]; split; [lia|auto]).
    subst Y. reflexivity.
Qed.
Lemma red_truncated : forall n A w v X Y a, diagonalizes K n A w v ->
  (forall p a, 0 <= p < n -> Y p a == solve_red K n v (ep w) X p a)%K -> truncated K kp n A (fun p => X p a) (fun p => Y p a).
Proof.
  intros n A w v X Y a D H. apply (diag_truncated K kp (proj2 Hk) n A w v); [exact D|]. intros p Hp. rewrite (H p a Hp). unfold solve_red, eigvals_pinv.
  apply Sm_ext. intros l Hl. apply K_mul; [reflexivity|]. ring.
Qed.
Lemma split3 : forall p, p / 3 * 3 + p mod 3 = p. Proof. intros p. pose proof (Z.div_mod p 3 ltac:(lia)). lia. Qed.
Lemma ir_truncated : forall n A w v X Y, diagonalizes K n A w v ->
  (forall p a, 0 <= p * 3 + a < n -> Y p a == solve_ir K n v (ep w) X p a)%K ->
  truncated K kp n A (fun p => X (p / 3) (p mod 3)) (fun p => Y (p / 3) (p mod 3)).
Proof.
  intros n A w v X Y D H. apply (diag_truncated K kp (proj2 Hk) n A w v); [exact D|]. intros p Hp. rewrite (H (p / 3) (p mod 3)) by (rewrite split3; auto).
  unfold solve_ir. rewrite split3. reflexivity.
Qed.

(** Y does not depend on the solver, on which of the possible sets of eigenvectors
    it finds and on the order in which the threads of the built-in inverse run. *)
Theorem C111_solvers_full : forall s s' n A w w' mem mem' X Y Y', 0 <= n ->
  diagonalized_by K s n A w mem -> diagonalized_by K s' n A w' mem' ->
  get_Y K absn ltbn true s method cutoff n w mem X Y -> get_Y K absn ltbn true s' method cutoff n w' mem' X Y' ->
  forall p a, 0 <= p < n -> (Y p a == Y' p a)%K.
Proof.
  intros s s' n A w w' mem mem' X Y Y' Hn D D' G G' p a Hp.
  destruct (get_Y_red _ _ _ _ _ _ _ Hn D G) as [v [V H]]. destruct (get_Y_red _ _ _ _ _ _ _ Hn D' G') as [v' [V' H']].
  apply (truncated_unique K kp (proj1 Hk) (proj2 Hk) n A (diag_symm K _ _ _ _ V) (fun p => X p a) (fun p => Y p a) (fun p => Y' p a)); [| |exact Hp];
    [apply (red_truncated n A w v)|apply (red_truncated n A w' v')]; auto.
Qed.
Theorem C111_solvers_reduced : forall s s' n A w w' mem mem' X Y Y', 0 <= n ->
  diagonalized_by K s n A w mem -> diagonalized_by K s' n A w' mem' ->
  get_Y K absn ltbn false s method cutoff n w mem X Y -> get_Y K absn ltbn false s' method cutoff n w' mem' X Y' ->
  forall p a, 0 <= a < 3 -> 0 <= p * 3 + a < n -> (Y p a == Y' p a)%K.
Proof.
  intros s s' n A w w' mem mem' X Y Y' Hn D D' G G' p a Ha Hp.
  destruct (get_Y_ir _ _ _ _ _ _ _ Hn D G) as [v [V H]]. destruct (get_Y_ir _ _ _ _ _ _ _ Hn D' G') as [v' [V' H']].
  assert (E1 : (p * 3 + a) / 3 = p) by (rewrite Z.div_add_l, Z.div_small by lia; lia).
  assert (E2 : (p * 3 + a) mod 3 = a) by (rewrite Z.add_comm, Z.mod_add, Z.mod_small by lia; lia).
  pose proof (truncated_unique K kp (proj1 Hk) (proj2 Hk) n A (diag_symm K _ _ _ _ V) (fun p => X (p / 3) (p mod 3)) (fun p => Y (p / 3) (p mod 3)) (fun p => Y' (p / 3) (p mod 3))
    (ir_truncated n A w v X Y V H) (ir_truncated n A w' v' X Y' V' H') (p * 3 + a) Hp) as E. cbn beta in E. rewrite E1, E2 in E. exact E.
Qed.
(** If every eigenvalue is kept, Y solves the equation. *)
Theorem C111_solves : forall s n A w mem X Y, 0 <= n -> diagonalized_by K s n A w mem ->
  get_Y K absn ltbn true s method cutoff n w mem X Y -> (forall l, 0 <= l < n -> kp (w l) = true) ->
  forall p a, 0 <= p < n -> (Sm n (fun m => A p m * Y m a) == X p a)%K.
Proof.
  intros s n A w mem X Y Hn D G Kw p a Hp. destruct (get_Y_red _ _ _ _ _ _ _ Hn D G) as [v [V H]]. pose proof V as [V1 [V2 V3]].
  transitivity (Sm n (fun m => Sm n (fun l => A p m * v m l * (Sm n (fun k => v k l * X k a) * ep w l))))%K.
  { apply Sm_ext. intros m Hm. rewrite (H m a Hm). unfold solve_red. rewrite <- Sm_mul_l. apply Sm_ext. intros; ring. }
  rewrite Sm_swap.
  transitivity (Sm n (fun l => v p l * Sm n (fun k => v k l * X k a)))%K.
  { apply Sm_ext. intros l Hl. rewrite Sm_mul_r.
    assert (E := diag_eig K n A w v l (n1 K) p V Hl Hp). unfold mapp in E.
    assert (E' : (Sm n (fun m => A p m * v m l) == w l * v p l)%K).
    { transitivity (Sm n (fun m => A p m * (v m l * 1)))%K; [apply Sm_ext; intros; ring|]. rewrite E. ring. }
    rewrite E'. unfold eigvals_pinv. rewrite (Kw l Hl). field. apply (proj2 Hk). now apply Kw. }
  transitivity (Sm n (fun k => Sm n (fun l => v p l * v k l) * X k a))%K.
  { transitivity (Sm n (fun l => Sm n (fun k => v p l * v k l * X k a)))%K.
    - apply Sm_ext. intros l Hl. rewrite <- Sm_mul_l. apply Sm_ext. intros; ring.
    - rewrite Sm_swap. apply Sm_ext. intros k Hk'. now rewrite Sm_mul_r. }
  rewrite (Sm_one K n p); [|exact Hp|].
  - rewrite (V3 p p Hp Hp), Z.eqb_refl. ring.
  - intros k Hk' Ne. rewrite (V3 p k Hp Hk'). destruct (Z.eqb_spec p k); [congruence|ring].
Qed.

(** The built-in inverse *)
Definition spect (n : Z) (v : Z -> Z -> K) (x : Z -> K) (p p' : Z) : K := Sm n (fun l => v p l * x l * v p' l)%K.
Lemma spect_ext : forall n v x y p p', (forall l, 0 <= l < n -> x l == y l)%K -> (spect n v x p p' == spect n v y p p')%K.
Proof. intros n v x y p p' H. apply Sm_ext. intros l Hl. now rewrite (H l Hl). Qed.
Lemma spect_mul : forall n v x y p p', (forall l l', 0 <= l < n -> 0 <= l' < n -> Sm n (fun p => v p l * v p l') == if (l =? l')%Z then 1 else 0)%K ->
  (matmul K n (spect n v x) (spect n v y) p p' == spect n v (fun l => x l * y l) p p')%K.
Proof.
  intros n v x y p p' O. unfold matmul, spect.
  transitivity (Sm n (fun m => Sm n (fun l => Sm n (fun l' => v p l * x l * (v m l * v m l') * y l' * v p' l'))))%K.
  { apply Sm_ext. intros m Hm. rewrite <- Sm_mul_r. apply Sm_ext. intros l Hl. rewrite <- Sm_mul_l. apply Sm_ext. intros; ring. }
  rewrite Sm_swap. apply Sm_ext. intros l Hl. rewrite Sm_swap.
  rewrite (Sm_one K n l); [|exact Hl|].
  - transitivity (v p l * x l * y l * v p' l * Sm n (fun m => v m l * v m l))%K; [rewrite <- Sm_mul_l; apply Sm_ext; intros; ring|].
    rewrite (O l l Hl Hl), Z.eqb_refl. ring.
  - intros l' Hl' Ne. transitivity (v p l * x l * y l' * v p' l' * Sm n (fun m => v m l * v m l'))%K; [rewrite <- Sm_mul_l; apply Sm_ext; intros; ring|].
    rewrite (O l l' Hl Hl'). destruct (Z.eqb_spec l l'); [congruence|ring].
Qed.
Lemma matmul_ext : forall n A B A' B', same_matrix K n A A' -> same_matrix K n B B' -> same_matrix K n (matmul K n A B) (matmul K n A' B').
Proof. intros n A B A' B' H H' p p' Hp Hp'. apply Sm_ext. intros m Hm. rewrite (H p m), (H' m p'); auto. reflexivity. Qed.
Theorem C111_builtin_inverse : forall n A w mem data', 0 <= n ->
  diagonalizes K n A w (fun p l => mem (p * n + l)) -> builtin_pinv K absn ltbn method cutoff w n mem data' ->
  let P := fun p p' => data' (p * n + p') in
  (forall p p', 0 <= p < n -> 0 <= p' < n -> (P p p' == P p' p)%K) /\
  same_matrix K n (matmul K n P A) (matmul K n A P) /\
  same_matrix K n (matmul K n P (matmul K n A P)) P /\
  ((forall l, 0 <= l < n -> kp (w l) = false -> (w l == 0)%K) -> same_matrix K n (matmul K n A (matmul K n P A)) A) /\
  (forall a, ~ (0 <= a < n * n) -> data' a = mem a).
Proof.
  intros n A w mem data' Hn D B P. destruct (builtin_pinv_val K absn ltbn method cutoff n w mem Hn Hk data' B) as [V Out].
  set (v := fun p l => mem (p * n + l)) in *. pose proof D as [D1 [D2 D3]].
  assert (EP : same_matrix K n P (spect n v (ep w))).
  { intros p p' Hp Hp'. unfold P. rewrite (V p p' Hp Hp'). apply Sm_ext. intros l Hl. unfold v. ring. }
  assert (EA : same_matrix K n A (spect n v w)) by exact D1.
  assert (T : forall X Y Z, same_matrix K n X Y -> same_matrix K n Y Z -> same_matrix K n X Z) by (intros X Y Z H H' p p' Hp Hp'; rewrite (H p p' Hp Hp'); auto).
  assert (S : forall X Y, same_matrix K n X Y -> same_matrix K n Y X) by (intros X Y H p p' Hp Hp'; symmetry; auto).
  assert (M : forall x y, same_matrix K n (matmul K n (spect n v x) (spect n v y)) (spect n v (fun l => x l * y l)%K)) by (intros x y p p' Hp Hp'; now apply spect_mul).
  assert (Ex : forall x y, (forall l, 0 <= l < n -> x l == y l)%K -> same_matrix K n (spect n v x) (spect n v y)) by (intros x y H p p' Hp Hp'; now apply spect_ext).
  assert (MA : same_matrix K n (matmul K n A P) (spect n v (fun l => w l * ep w l)%K)) by (eapply T; [apply matmul_ext; eassumption|apply M]).
  assert (MP : same_matrix K n (matmul K n P A) (spect n v (fun l => ep w l * w l)%K)) by (eapply T; [apply matmul_ext; eassumption|apply M]).
  repeat split.
  - intros p p' Hp Hp'. rewrite (EP p p' Hp Hp'), (EP p' p Hp' Hp). apply Sm_ext. intros; ring.
  - eapply T; [exact MP|]. eapply T; [|apply S; exact MA]. apply Ex. intros; ring.
  - eapply T; [apply matmul_ext; [exact EP|exact MA]|]. eapply T; [apply M|]. eapply T; [|apply S; exact EP]. apply Ex. intros l Hl.
    unfold eigvals_pinv. destruct (kp (w l)) eqn:E; [|ring]. field. now apply (proj2 Hk).
  - intros Hz. eapply T; [apply matmul_ext; [exact EA|exact MP]|]. eapply T; [apply M|]. eapply T; [|apply S; exact EA]. apply Ex. intros l Hl.
    unfold eigvals_pinv. destruct (kp (w l)) eqn:E; [|rewrite (Hz l Hl E); ring]. field. now apply (proj2 Hk).
  - exact Out.
Qed.

(** Full and reduced *)
Variables (g n nir nb : Z) (r : Z -> Z -> Z) (irs : Z -> Z) (cart : Z -> Z -> Z -> K) (mul : Z -> Z -> Z) (inv : Z -> Z).
Hypothesis HG : point_group K g n r cart mul inv.
Hypothesis HI : one_of_each g n nir r irs.
Hypothesis Hn : 0 <= n /\ 0 <= nir /\ 0 <= nb.
Variables (mo : Z -> Z -> Z -> Z -> K) (dg : Z -> Z -> K) (gv : Z -> Z -> Z -> K) (fs : Z -> Z -> K)
  (mi : Z -> Z -> Z -> Z -> Z -> Z -> K) (di : Z -> Z -> K) (gvi : Z -> Z -> Z -> K) (fsi : Z -> Z -> K).
Hypothesis HT : two_forms K g n nir nb r irs cart mo dg gv fs mi di gvi fsi.
Variable root : K -> K.
Local Notation rot := (fun i l => r l (irs i)).
Hypothesis root_g : (root (of_nat K (Z.to_nat g)) * root (of_nat K (Z.to_nat g)) == of_nat K (Z.to_nat g))%K.
Hypothesis root_arms : forall i, 0 <= i < nir ->
  (root (of_nat K (num_arms g rot i)) * root (of_nat K (num_arms g rot i)) == of_nat K (num_arms g rot i))%K.
Variables (Xf Yf Xi Yi : Z -> Z -> K).
Hypothesis Full : full_run K n nb absn ltbn method cutoff mo dg gv fs Xf Yf.
Hypothesis Red : reduced_run K g nir nb r irs cart root absn ltbn method cutoff mi di gvi fsi Xi Yi.

Lemma Sz1 : 0 <= n * nb. Proof. nia. Qed.
Lemma Sz2 : 0 <= nir * nb * 3. Proof. nia. Qed.
Lemma mode_kappa_ext : forall factor X Y Y' i j a b, 0 <= a < 3 -> 0 <= b < 3 ->
  (forall c, 0 <= c < 3 -> Y (i * nb + j)%Z c == Y' (i * nb + j)%Z c)%K ->
  (mode_kappa K g nb cart factor X Y i j a b == mode_kappa K g nb cart factor X Y' i j a b)%K.
Proof.
  intros factor X Y Y' i j a b Ha Hb H. unfold mode_kappa. destruct ((i =? 0) && (j <? 3))%bool; [reflexivity|]. cbv zeta.
  assert (R : forall l a, (rotv K cart l (Y (i * nb + j)%Z) a == rotv K cart l (Y' (i * nb + j)%Z) a)%K).
  { intros l c. apply Sm_ext. intros d Hd. now rewrite (H d Hd). }
  apply K_mul; [|reflexivity]. apply K_add; apply Sm_ext; intros l Hl; now rewrite R.
Qed.
Theorem C111_f_vectors : forall i j a, 0 <= i < nir -> 0 <= j < nb -> 0 <= a < 3 ->
  (f_vector K nb (dir_weight K g rot root) Yi (i * nb + j)%Z a == f_vector K nb (fun _ => n1 K) Yf (irs i * nb + j)%Z a)%K.
Proof.
  intros i j a Hi Hj Ha. destruct Full as [s [w [mem [D [EX G]]]]]. destruct Red as [s' [w' [mem' [D' [EX' G']]]]].
  destruct (get_Y_red _ _ _ _ _ _ _ Sz1 D G) as [v [V H]]. destruct (get_Y_ir _ _ _ _ _ _ _ Sz2 D' G') as [v' [V' H']]. subst Xf Xi.
  pose proof (proj1 HI i Hi) as Gi. unfold f_vector. rewrite H' by nia. rewrite H by nia.
  apply (f_vectors_equal K g n nir nb r irs cart mul inv HG HI (proj2 (proj2 Hn)) mo dg gv fs mi di gvi fsi HT root root_g root_arms
    kp (proj1 Hk) (proj2 Hk) w' w v' v V' V i j a Hi Hj Ha).
Qed.
Theorem C111_modes : forall factor i j a b, 0 <= i < nir -> 0 <= j < nb -> 0 <= a < 3 -> 0 <= b < 3 ->
  (mode_kappa K g nb cart factor Xi Yi i j a b ==
   Sm n (fun q => if in_star g r (irs i) q then mode_kappa_red K g nb cart factor Xf Yf q j a b else 0))%K.
Proof.
  intros factor i j a b Hi Hj Ha Hb. destruct Full as [s [w [mem [D [EX G]]]]]. destruct Red as [s' [w' [mem' [D' [EX' G']]]]].
  destruct (get_Y_red _ _ _ _ _ _ _ Sz1 D G) as [v [V H]]. destruct (get_Y_ir _ _ _ _ _ _ _ Sz2 D' G') as [v' [V' H']]. subst Xf Xi.
  etransitivity; [|etransitivity; [apply (mode_kappas_equal K g n nir nb r irs cart mul inv HG HI (proj2 (proj2 Hn)) mo dg gv fs mi di gvi fsi HT root root_g root_arms
    kp (proj1 Hk) (proj2 Hk) w' w v' v V' V factor i j a b Hi Hj Ha Hb)|]].
  - apply mode_kappa_ext; auto. intros c Hc. rewrite H' by nia. reflexivity.
  - apply Sm_ext. intros q Hq. destruct (in_star g r (irs i) q); [|reflexivity]. unfold mode_kappa_red. apply K_div; [|reflexivity].
    apply mode_kappa_ext; auto. intros c Hc. rewrite H by nia. reflexivity.
Qed.
Theorem C111_kappa : forall factor N a b, 0 <= a < 3 -> 0 <= b < 3 ->
  (kappa_ir K g nir nb cart factor N Xi Yi a b == kappa_red K g n nb cart factor N Xf Yf a b)%K.
Proof.
  intros factor N a b Ha Hb. destruct Full as [s [w [mem [D [EX G]]]]]. destruct Red as [s' [w' [mem' [D' [EX' G']]]]].
  destruct (get_Y_red _ _ _ _ _ _ _ Sz1 D G) as [v [V H]]. destruct (get_Y_ir _ _ _ _ _ _ _ Sz2 D' G') as [v' [V' H']]. subst Xf Xi.
  etransitivity; [|etransitivity; [apply (kappas_equal K g n nir nb r irs cart mul inv HG HI (proj2 (proj2 Hn)) mo dg gv fs mi di gvi fsi HT root root_g root_arms
    kp (proj1 Hk) (proj2 Hk) w' w v' v V' V factor N a b Ha Hb)|]].
  - apply K_div; [|reflexivity]. apply Sm_ext. intros i Hi. apply Sm_ext. intros j Hj. apply mode_kappa_ext; auto. intros c Hc. rewrite H' by nia. reflexivity.
  - apply K_div; [|reflexivity]. apply Sm_ext. intros q Hq. apply Sm_ext. intros j Hj. apply K_div; [|reflexivity].
    apply mode_kappa_ext; auto. intros c Hc. rewrite H by nia. reflexivity.
Qed.
Lemma ks_cons_eq : forall (x : Z) L (f : Z -> K), ks K (x :: L) f = (f x + ks K L f)%K. Proof. reflexivity. Qed.
Theorem C111_positive : forall P factor N u, nonneg K P -> (forall x, kp x = true -> P x) -> P (factor / N)%K ->
  (forall j, 0 <= j < nb -> j < 3 -> fs 0%Z j == 0)%K ->
  P (quadratic K u (kappa_red K g n nb cart factor N Xf Yf)) /\ P (quadratic K u (kappa_ir K g nir nb cart factor N Xi Yi)).
Proof.
  intros P factor N u [Pe Pa Pm Ps] Pk Pf Ac.
  assert (P0 : P (n0 K)) by (apply (Pe (n0 K * n0 K)%K); [ring|apply Ps]).
  assert (P1 : P (n1 K)) by (apply (Pe (n1 K * n1 K)%K); [ring|apply Ps]).
  assert (Q : P (quadratic K u (kappa_red K g n nb cart factor N Xf Yf))).
  { destruct Full as [s [w [mem [D [EX G]]]]]. destruct Red as [s' [w' [mem' [D' [EX' G']]]]].
    destruct (get_Y_red _ _ _ _ _ _ _ Sz1 D G) as [v [V H]]. destruct (get_Y_ir _ _ _ _ _ _ _ Sz2 D' G') as [v' [V' H']].
    pose proof (kappa_quadratic K g n nir nb r irs cart mul inv HG HI (proj2 (proj2 Hn)) mo dg gv fs mi di gvi fsi HT root root_g root_arms
      kp (proj1 Hk) (proj2 Hk) w' w v' v V' V factor Ac N u) as E.
    apply (Pe (quadratic K u (kappa_red K g n nb cart factor N Xf (solve_red K (n * nb) v (ep w) Xf)))).
    - apply Sm_ext. intros a Ha. apply Sm_ext. intros b Hb. apply K_mul; [|reflexivity]. apply K_mul; [reflexivity|].
      apply K_div; [|reflexivity]. apply Sm_ext. intros q Hq. apply Sm_ext. intros j Hj. apply K_div; [|reflexivity].
      apply mode_kappa_ext; auto. intros c Hc. symmetry. rewrite H by nia. reflexivity.
    - subst Xf. eapply Pe; [symmetry; exact E|]. apply Pm.
      + assert (PS : forall (L : list Z) (f : Z -> K), (forall l, P (f l)) -> P (ks K L f)).
        { induction L as [|x L IH]; intros f Hf; [exact P0|]. rewrite ks_cons_eq. apply Pa; [apply Hf|apply IH; exact Hf]. }
        apply PS. intros l. cbv zeta. apply Pm; [apply Ps|]. destruct (kp (w l)) eqn:El; [|exact P0].
        assert (Nz := proj2 Hk _ El). apply (Pe (w l * (ninv K (w l) * ninv K (w l)))%K).
        * field. exact Nz.
        * apply Pm; [auto|apply Ps].
      + apply Pm; [|exact Pf]. apply Pa; auto. }
  split; [exact Q|]. refine (Pe _ _ _ Q). apply Sm_ext. intros a Ha. apply Sm_ext. intros b Hb. apply K_mul; [|reflexivity]. apply K_mul; [reflexivity|].
  symmetry. now apply C111_kappa.
Qed.
End Any.

(** ** The rational numbers *)
Lemma Q_squares : forall l : list Q, (fold_right (fun x s => x * x + s) 0 l == 0)%Q -> forall x, In x l -> (x == 0)%Q.
Proof.
  assert (P : forall l : list Q, (0 <= fold_right (fun x s => x * x + s) 0 l)%Q).
  { induction l as [|x l IH]; cbn [fold_right]; [lra|nra]. }
  induction l as [|y l IH]; intros H x I; [destruct I|]. cbn [fold_right] in H. pose proof (P l) as Pl.
  assert (y * y == 0)%Q by nra. assert (fold_right (fun x s => x * x + s) 0 l == 0)%Q by nra.
  destruct I as [<-|I]; [|now apply IH]. destruct (Qmult_integral y y H0); auto.
Qed.
Definition Qnum : numbers := Numbers Q 0%Q 1%Q Qplus Qmult Qminus Qopp Qdiv Qinv Qeq Q_Setoid
  (mk_reqe Qplus_comp Qmult_comp Qopp_comp) Qinv_comp Qsft Q_squares.
Definition Qltb (x y : Q) : bool := match (x ?= y)%Q with Lt => true | _ => false end.
Lemma Qltb_lt : forall x y, Qltb x y = true <-> (x < y)%Q.
Proof. intros x y. unfold Qltb. rewrite Qlt_alt. destruct (x ?= y)%Q; split; congruence. Qed.
Definition Qab (x : Q) : Q := if Qltb x 0 then Qopp x else x.
Lemma Q_sound : forall method cutoff, (0 <= cutoff)%Q -> sound_test Qnum (kept Qnum Qab Qltb method cutoff).
Proof.
  intros method cutoff Hc. assert (L : forall x y z t : Q, (x == y)%Q -> (z == t)%Q -> Qltb x z = Qltb y t).
  { intros x y z t E F. apply eq_true_iff_eq. rewrite !Qltb_lt, E, F. reflexivity. }
  assert (A : forall x y : Q, (x == y)%Q -> (Qab x == Qab y)%Q).
  { intros x y E. unfold Qab. rewrite (L x y 0%Q 0%Q E (Qeq_refl 0)). destruct (Qltb y 0); [now rewrite E|exact E]. }
  split.
  - intros x y E. unfold kept. apply L; [apply Qeq_refl|]. destruct (method =? 0); [now apply A|exact E].
  - intros x H E. unfold kept in H. apply Qltb_lt in H. cbn [neq Qnum n0] in E. destruct (method =? 0); [rewrite (A x 0%Q E) in H; change (Qab 0) with 0%Q in H|rewrite E in H]; lra.
Qed.
Lemma Q_nonneg : nonneg Qnum (fun x => (0 <= x)%Q).
Proof.
  split; cbn.
  - intros x y E H. now rewrite <- E.
  - intros x y H H'. lra.
  - intros x y H H'. nra.
  - intros x. nra.
Qed.

(** The count in the log: right with pinv_method = 0 unless an eigenvalue has the
    magnitude of the cutoff. *)
Theorem C111_null_space : forall cutoff w size,
  (forall l, 0 <= l < size -> ~ (Qab (w l) == cutoff)%Q) ->
  null_space Qnum Qab Qltb cutoff w size =
  Z.of_nat (length (filter (fun l => negb (kept Qnum Qab Qltb 0 cutoff (w l))) (zrange size))).
Proof.
  intros cutoff w size H. unfold null_space. f_equal. f_equal. apply filter_ext_in. intros l Hl. apply in_zrange in Hl. specialize (H l Hl).
  unfold kept. change (0 =? 0) with true. cbv iota. apply eq_true_iff_eq. rewrite negb_true_iff, <- not_true_iff_false, !Qltb_lt. cbn [num Qnum] in *. split; intros; [lra|].
  destruct (Qlt_le_dec (Qab (w l)) cutoff) as [L|L]; [exact L|]. exfalso. destruct (Qle_lt_or_eq _ _ L) as [L'|L']; [auto|]. apply H. now rewrite L'.
Qed.
(** ... but with pinv_method = 1 negative eigenvalues are ignored and not counted. *)
Theorem C111_null_space_refuted : exists cutoff w size, (0 < cutoff)%Q /\ (forall l, 0 <= l < size -> ~ (Qab (w l) == cutoff)%Q) /\
  null_space Qnum Qab Qltb cutoff w size <>
  Z.of_nat (length (filter (fun l => negb (kept Qnum Qab Qltb 1 cutoff (w l))) (zrange size))).
Proof.
  exists (1 # 100)%Q, (fun l => if l =? 0 then (-1)%Q else 1%Q), 2. split; [reflexivity|]. split; [|vm_compute; discriminate].
  intros l Hl. assert (l = 0 \/ l = 1) as [-> | ->] by lia; intros E; vm_compute in E; discriminate.
Qed.

(** ** Example: operations diag(+-1, +-1, 1), the Gamma point and a star of four *)
Lemma all_range : forall n (f : Z -> bool), forallb f (zrange n) = true -> forall x, 0 <= x < n -> f x = true.
Proof. intros n f H x Hx. rewrite forallb_forall in H. apply H. now apply in_zrange. Qed.
Section Ex.
Let r (l q : Z) : Z := if q =? 0 then 0 else 1 + Z.lxor l (q - 1).
Let irs (i : Z) : Z := i.
Let flip (l a : Z) : Q := if ((a =? 0) && Z.testbit l 0 || (a =? 1) && Z.testbit l 1)%bool then (-1)%Q else 1%Q.
Let cart (l a b : Z) : Q := if a =? b then flip l a else 0%Q.
Let mo (q j q' j' : Z) : Q := if ((q =? 0) || (q' =? 0) || (q =? q'))%bool then 0%Q else 2%Q.
Let dg (q j : Z) : Q := if q =? 0 then 1%Q else 5%Q.
Let gv (q j a : Z) : Q := if q =? 0 then 0%Q else (flip (q - 1) a * inject_Z (a + 1))%Q.
Let fs (q j : Z) : Q := if q =? 0 then 0%Q else 1%Q.
Let mi (i j a i' j' b : Z) : Q := Sm Qnum 4 (fun l => mo (irs i) j (r l (irs i')) j' * cart l a b)%Q.
Let root (x : Q) : Q := if Qeq_bool x 4 then 2%Q else 1%Q.
Let cutoff : Q := 1 # 100.
Let wf (l : Z) : Q := if l =? 0 then 1%Q else if l =? 1 then 11%Q else 3%Q.
(* eigenvectors of the full matrix, one after the other *)
Let memf (k : Z) : Q := let l := k / 5 in let p := k mod 5 in
  if ((l =? 0) || (p =? 0))%bool then (if ((l =? 0) && (p =? 0))%bool then 1%Q else 0%Q)
  else let s := Z.land (l - 1) (p - 1) in if xorb (Z.testbit s 0) (Z.testbit s 1) then (-1 # 2)%Q else (1 # 2)%Q.
Let wi (l : Z) : Q := nth (Z.to_nat l) [0; 0; 1; 3; 3; 11]%Q 0%Q.
Let memi (k : Z) : Q := if k / 6 =? k mod 6 then 1%Q else 0%Q.
Let Xf := get_X Qnum 1 gv fs (fun _ => 1%Q).
Let Yf := solve_red Qnum 5 (eigvecs Qnum 1 5 memf) (eigvals_pinv Qnum Qab Qltb 0 cutoff wf) Xf.
Let Xi := get_X Qnum 1 gv fs (dir_weight Qnum 4 (fun i l => r l (irs i)) root).
Let inverse : Z -> Q :=
  run_seq Z.eq_dec (pinv_iterations Qnum memi wi (kept_list Qnum Qab Qltb 0 cutoff wi 6) 6) memi.
Let Yi := mul_ir Qnum 6 (fun p m => inverse (p * 6 + m)) Xi.

Lemma ex_group : point_group Qnum 4 5 r cart Z.lxor (fun l => l).
Proof.
  assert (C3 : forall (P : Z -> Z -> Z -> bool) n m k, forallb (fun x => forallb (fun y => forallb (P x y) (zrange k)) (zrange m)) (zrange n) = true ->
    forall x y z, 0 <= x < n -> 0 <= y < m -> 0 <= z < k -> P x y z = true).
  { intros P n m k H x y z Hx Hy Hz. pose proof (all_range _ _ H x Hx) as H1. pose proof (all_range _ _ H1 y Hy) as H2. exact (all_range _ _ H2 z Hz). }
  assert (R : forall l q, 0 <= l < 4 -> 0 <= q < 5 -> 0 <= r l q < 5).
  { intros l q Hl Hq. assert (H := C3 (fun l q _ => (0 <=? r l q) && (r l q <? 5))%bool 4 5 1 eq_refl l q 0 Hl Hq ltac:(lia)). cbn beta in H. lia. }
  assert (M : forall l m, 0 <= l < 4 -> 0 <= m < 4 -> 0 <= Z.lxor l m < 4).
  { intros l m Hl Hm. assert (H := C3 (fun l q _ => (0 <=? Z.lxor l q) && (Z.lxor l q <? 4))%bool 4 4 1 eq_refl l m 0 Hl Hm ltac:(lia)). cbn beta in H. lia. }
  split; auto; try lia.
  - intros l m m' _ _ _ E. apply (f_equal (Z.lxor l)) in E. now rewrite <- !Z.lxor_assoc, Z.lxor_nilpotent, !Z.lxor_0_l in E.
  - intros l m q Hl Hm Hq. assert (H := C3 (fun l m q => r (Z.lxor l m) q =? r l (r m q)) 4 4 5 eq_refl l m q Hl Hm Hq). cbn beta in H. lia.
  - intros l q Hl Hq. assert (H := C3 (fun l q _ => r l (r l q) =? q) 4 5 1 eq_refl l q 0 Hl Hq ltac:(lia)). cbn beta in H. lia.
  - intros l m a b Hl Hm Ha Hb. apply Qeq_bool_iff.
    assert (H := C3 (fun l m k => Qeq_bool (cart (Z.lxor l m) (k / 3) (k mod 3)) (Sm Qnum 3 (fun c => cart l (k / 3)%Z c * cart m c (k mod 3))%Q)) 4 4 9 ltac:(vm_compute; reflexivity) l m (a * 3 + b) Hl Hm ltac:(lia)).
    cbn beta in H. rewrite Z.div_add_l, Z.div_small, Z.add_0_r in H by lia. rewrite Z.add_comm, Z.mod_add, Z.mod_small in H by lia. exact H.
  - intros l a b Hl Ha Hb. unfold cart. destruct (Z.eqb_spec a b) as [->|N]; [rewrite Z.eqb_refl; apply Qeq_refl|]. destruct (Z.eqb_spec b a); [congruence|apply Qeq_refl].
  - intros l a b Hl Ha Hb. apply Qeq_bool_iff.
    exact (C3 (fun l a b => Qeq_bool (Sm Qnum 3 (fun c => cart l c a * cart l c b)%Q) (if a =? b then 1%Q else 0%Q)) 4 3 3 ltac:(vm_compute; reflexivity) l a b Hl Ha Hb).
Qed.
Lemma ex_orbits : one_of_each 4 5 2 r irs.
Proof.
  split; [unfold irs; lia|]. split.
  - intros q Hq. destruct (Z.eq_dec q 0) as [->|N]; [exists 0, 0; repeat split; lia|]. exists 1, (q - 1). repeat split; try lia. unfold r, irs.
    rewrite Z.lxor_0_r. cbn [Z.eqb]. lia.
  - intros i i' l l' Hi Hi' Hl Hl' E.
    pose proof (all_range 4 _ (all_range 4 _ (all_range 2 _ (all_range 2 (fun i => forallb (fun i' => forallb (fun l => forallb (fun l' =>
      (negb (r l (irs i) =? r l' (irs i')) || (i =? i'))%bool) (zrange 4)) (zrange 4)) (zrange 2)) eq_refl i Hi) i' Hi') l Hl) l' Hl') as H. cbn beta in H.
    rewrite E, Z.eqb_refl in H. cbn [negb orb] in H. now apply Z.eqb_eq.
Qed.
Lemma ex_forms : two_forms Qnum 4 5 2 1 r irs cart mo dg gv fs mi dg gv fs.
Proof.
  split; cbn [neq Qnum].
  - repeat split; lia.
  - intros l q j q' j' Hl Hq Hj Hq' Hj'. unfold mo.
    pose proof (r_inj Qnum 4 5 r cart _ _ ex_group l q q' Hl Hq Hq') as J.
    assert (Z0 : forall x, 0 <= x < 5 -> (r l x =? 0) = (x =? 0)).
    { intros x Hx. unfold r. destruct (Z.eqb_spec x 0) as [->|N]; [reflexivity|]. apply Z.eqb_neq. pose proof (Z.lxor_nonneg l (x - 1)). lia. }
    rewrite !Z0 by auto. destruct (Z.eqb_spec q q') as [->|N]; [rewrite Z.eqb_refl; apply Qeq_refl|]. destruct (Z.eqb_spec (r l q) (r l q')); [exfalso; auto|apply Qeq_refl].
  - intros l q j Hl Hq Hj. unfold dg, r. destruct (Z.eqb_spec q 0) as [->|N]; [apply Qeq_refl|]. pose proof (Z.lxor_nonneg l (q - 1)). destruct (Z.eqb_spec (1 + Z.lxor l (q - 1)) 0); [lia|apply Qeq_refl].
  - intros l q j a Hl Hq Hj Ha. apply Qeq_bool_iff.
    exact (all_range 3 _ (all_range 5 _ (all_range 4 (fun l => forallb (fun q => forallb (fun a => Qeq_bool (gv (r l q) j a) (Sm Qnum 3 (fun b => cart l a b * gv q j b)%Q)) (zrange 3)) (zrange 5)) ltac:(vm_compute; reflexivity) l Hl) q Hq) a Ha).
  - intros l q j Hl Hq Hj. unfold fs, r. destruct (Z.eqb_spec q 0) as [->|N]; [apply Qeq_refl|]. pose proof (Z.lxor_nonneg l (q - 1)). destruct (Z.eqb_spec (1 + Z.lxor l (q - 1)) 0); [lia|apply Qeq_refl].
  - intros. apply Qeq_refl.
  - intros. apply Qeq_refl.
  - intros. apply Qeq_refl.
  - intros. apply Qeq_refl.
Qed.
Lemma diag_check : forall n A w v,
  forallb (fun p => forallb (fun q => Qeq_bool (A p q) (Sm Qnum n (fun l => v p l * w l * v q l)%Q) &&
     Qeq_bool (Sm Qnum n (fun l => v l p * v l q)%Q) (if p =? q then 1%Q else 0%Q) &&
     Qeq_bool (Sm Qnum n (fun l => v p l * v q l)%Q) (if p =? q then 1%Q else 0%Q))%bool (zrange n)) (zrange n) = true ->
  diagonalizes Qnum n A w v.
Proof.
  intros n A w v H.
  assert (G : forall p q, 0 <= p < n -> 0 <= q < n -> (A p q == Sm Qnum n (fun l => v p l * w l * v q l))%Q /\
     (Sm Qnum n (fun l => v l p * v l q) == if p =? q then 1 else 0)%Q /\ (Sm Qnum n (fun l => v p l * v q l) == if p =? q then 1 else 0)%Q).
  { intros p q Hp Hq. pose proof (all_range _ _ (all_range _ _ H p Hp) q Hq) as E. cbn beta in E. rewrite !andb_true_iff, !Qeq_bool_iff in E. tauto. }
  split; [|split]; intros p q Hp Hq; apply (G p q Hp Hq).
Qed.
Lemma ex_full : full_run Qnum 5 1 Qab Qltb 0 cutoff mo dg gv fs Xf Yf.
Proof.
  exists 1, wf, memf. split; [left; split; [auto|]; apply diag_check; vm_compute; reflexivity|]. split; reflexivity.
Qed.
Lemma ex_reduced : reduced_run Qnum 4 2 1 r irs cart root Qab Qltb 0 cutoff mi dg gv fs Xi Yi.
Proof.
  exists 6, wi, memi. split; [right; split; [auto|]; apply diag_check; vm_compute; reflexivity|]. split; [reflexivity|].
  exists inverse. split; [|reflexivity]. exists inverse. split; [apply seq_finishes|reflexivity].
Qed.
Lemma ex_root_g : (root (of_nat Qnum (Z.to_nat 4)) * root (of_nat Qnum (Z.to_nat 4)) == of_nat Qnum (Z.to_nat 4))%Q.
Proof. vm_compute. reflexivity. Qed.
Lemma ex_root_arms : forall i, 0 <= i < 2 ->
  (root (of_nat Qnum (num_arms 4 (fun i l => r l (irs i)) i)) * root (of_nat Qnum (num_arms 4 (fun i l => r l (irs i)) i)) == of_nat Qnum (num_arms 4 (fun i l => r l (irs i)) i))%Q.
Proof. intros i Hi. assert (i = 0 \/ i = 1) as [-> | ->] by lia; vm_compute; reflexivity. Qed.
Example C111_kappa_example : forall a b, 0 <= a < 3 -> 0 <= b < 3 ->
  (kappa_ir Qnum 4 2 1 cart 1%Q 4%Q Xi Yi a b == kappa_red Qnum 4 5 1 cart 1%Q 4%Q Xf Yf a b)%Q.
Proof.
  exact (C111_kappa Qnum Qab Qltb 0 cutoff (Q_sound 0 cutoff ltac:(vm_compute; discriminate)) 4 5 2 1 r irs cart _ _ ex_group ex_orbits ltac:(lia) mo dg gv fs mi dg gv fs ex_forms
    root ex_root_g ex_root_arms Xf Yf Xi Yi ex_full ex_reduced 1%Q 4%Q).
Qed.
Example C111_modes_example : forall a b, 0 <= a < 3 -> 0 <= b < 3 ->
  (mode_kappa Qnum 4 1 cart 1%Q Xi Yi 1 0 a b == Sm Qnum 5 (fun q => if in_star 4 r 1 q then mode_kappa_red Qnum 4 1 cart 1%Q Xf Yf q 0 a b else 0%Q))%Q.
Proof.
  intros a b. exact (C111_modes Qnum Qab Qltb 0 cutoff (Q_sound 0 cutoff ltac:(vm_compute; discriminate)) 4 5 2 1 r irs cart _ _ ex_group ex_orbits ltac:(lia) mo dg gv fs mi dg gv fs ex_forms
    root ex_root_g ex_root_arms Xf Yf Xi Yi ex_full ex_reduced 1%Q 1 0 a b ltac:(lia) ltac:(lia)).
Qed.
Example C111_f_vectors_example : (f_vector Qnum 1 (dir_weight Qnum 4 (fun i l => r l (irs i)) root) Yi 1 2 == 3 # 22)%Q /\
  (f_vector Qnum 1 (fun _ => 1%Q) Yf 1 2 == 3 # 22)%Q.
Proof.
  assert (F : (f_vector Qnum 1 (fun _ => 1%Q) Yf 1 2 == 3 # 22)%Q) by (vm_compute; reflexivity). split; [|exact F].
  rewrite <- F.
  exact (C111_f_vectors Qnum Qab Qltb 0 cutoff (Q_sound 0 cutoff ltac:(vm_compute; discriminate)) 4 5 2 1 r irs cart _ _ ex_group ex_orbits ltac:(lia) mo dg gv fs mi dg gv fs ex_forms
    root ex_root_g ex_root_arms Xf Yf Xi Yi ex_full ex_reduced 1 0 2 ltac:(lia) ltac:(lia) ltac:(lia)).
Qed.
Example C111_positive_example : forall u, (0 <= quadratic Qnum u (kappa_red Qnum 4 5 1 cart 1%Q 4%Q Xf Yf))%Q.
Proof.
  intros u.
  assert (S : sound_test Qnum (kept Qnum Qab Qltb 1 cutoff)) by (apply Q_sound; vm_compute; discriminate).
  assert (F : full_run Qnum 5 1 Qab Qltb 1 cutoff mo dg gv fs Xf Yf).
  { exists 1, wf, memf. split; [left; split; [auto|]; apply diag_check; vm_compute; reflexivity|]. split; [reflexivity|].
    unfold get_Y. cbn [Z.eqb existsb orb Pos.eqb]. unfold Yf. reflexivity. }
  assert (R : reduced_run Qnum 4 2 1 r irs cart root Qab Qltb 1 cutoff mi dg gv fs Xi (solve_ir Qnum 6 (eigvecs Qnum 3 6 memi) (eigvals_pinv Qnum Qab Qltb 1 cutoff wi) Xi)).
  { exists 3, wi, memi. split; [right; split; [auto|]; apply diag_check; vm_compute; reflexivity|]. split; reflexivity. }
  refine (proj1 (C111_positive Qnum Qab Qltb 1 cutoff S 4 5 2 1 r irs cart _ _ ex_group ex_orbits ltac:(lia) mo dg gv fs mi dg gv fs ex_forms
    root ex_root_g ex_root_arms Xf Yf Xi _ F R (fun x => (0 <= x)%Q) 1%Q 4%Q u Q_nonneg _ _ _)).
  - intros x H. unfold kept in H. apply Qltb_lt in H. cbn in H. unfold cutoff in H. lra.
  - vm_compute. discriminate.
  - intros j Hj Hj'. vm_compute. reflexivity.
Qed.
Example C111_kappa_value : (kappa_red Qnum 4 5 1 cart 1%Q 4%Q Xf Yf 2 2 == 18 # 11)%Q /\ (kappa_red Qnum 4 5 1 cart 1%Q 4%Q Xf Yf 1 1 == 8 # 3)%Q.
Proof. split; vm_compute; reflexivity. Qed.
End Ex.

(** ** With pinv_method = 0 (default) a negative eigenvalue beyond the cutoff makes
    a negative conductivity: one operation, the Gamma point and another point,
    collision matrix diag(1, -1). *)
Section Neg.
Let cart1 (l a b : Z) : Q := if a =? b then 1%Q else 0%Q.
Let dgn (q j : Z) : Q := if q =? 0 then 1%Q else (-1)%Q.
Let gvn (q j a : Z) : Q := if q =? 0 then 0%Q else 1%Q.
Let fsn (q j : Z) : Q := if q =? 0 then 0%Q else 1%Q.
Let men (k : Z) : Q := if k / 2 =? k mod 2 then 1%Q else 0%Q.
Let Xn := get_X Qnum 1 gvn fsn (fun _ => 1%Q).
Let wn (l : Z) : Q := if l =? 0 then 1%Q else (-1)%Q.
Theorem C111_positive_refuted : exists (g n nir nb : Z) r irs cart mul inv mo dg gv fs mi di gvi fsi cutoff Xf Yf factor N u,
  point_group Qnum g n r cart mul inv /\ one_of_each g n nir r irs /\
  two_forms Qnum g n nir nb r irs cart mo dg gv fs mi di gvi fsi /\ (0 < cutoff)%Q /\ (0 < factor)%Q /\ (0 < N)%Q /\
  (forall j, 0 <= j < nb -> j < 3 -> (fs 0%Z j == 0)%Q) /\
  full_run Qnum n nb Qab Qltb 0 cutoff mo dg gv fs Xf Yf /\
  (quadratic Qnum u (kappa_red Qnum g n nb cart factor N Xf Yf) < 0)%Q.
Proof.
  exists 1, 2, 2, 1, (fun _ q => q), (fun i => i), cart1, (fun _ _ => 0), (fun _ => 0), (fun _ _ _ _ => 0%Q), dgn, gvn, fsn, (fun _ _ _ _ _ _ => 0%Q), dgn, gvn, fsn, (1 # 100)%Q,
    Xn, (solve_red Qnum 2 (eigvecs Qnum 3 2 men) (eigvals_pinv Qnum Qab Qltb 0 (1 # 100)%Q wn) Xn), 1%Q, 2%Q, (fun a => if a =? 0 then 1%Q else 0%Q).
  assert (R3 : forall a, 0 <= a < 3 -> a = 0 \/ a = 1 \/ a = 2) by (intros; lia).
  split; [|split; [|split; [|split; [reflexivity|split; [reflexivity|split; [reflexivity|split; [|split]]]]]]].
  - split; try (intros; lia).
    + intros l m a b Hl Hm Ha Hb. destruct (R3 a Ha) as [->|[->| ->]]; destruct (R3 b Hb) as [->|[->| ->]]; vm_compute; reflexivity.
    + intros l a b Hl Ha Hb. destruct (R3 a Ha) as [->|[->| ->]]; destruct (R3 b Hb) as [->|[->| ->]]; vm_compute; reflexivity.
    + intros l a b Hl Ha Hb. destruct (R3 a Ha) as [->|[->| ->]]; destruct (R3 b Hb) as [->|[->| ->]]; vm_compute; reflexivity.
  - split; [auto|]. split; [intros q Hq; exists q, 0; repeat split; lia|auto].
  - split; cbn [neq Qnum]; intros; try apply Qeq_refl; try (repeat split; lia).
    + assert (q = 0 \/ q = 1) as [-> | ->] by lia; destruct (R3 a H2) as [->|[->| ->]]; vm_compute; reflexivity.
  - intros j _ _. vm_compute. reflexivity.
  - exists 3, wn, men. split; [right; split; [auto|]; apply diag_check; vm_compute; reflexivity|]. split; reflexivity.
  - vm_compute. reflexivity.
Qed.
(** ** Two sets of eigenvectors of twice the unit matrix *)
Let A2 (p q : Z) : Q := if p =? q then 2%Q else 0%Q.
Let m1 (k : Z) : Q := nth (Z.to_nat k) [3 # 5; 4 # 5; -4 # 5; 3 # 5]%Q 0%Q.
Let X2 (p a : Z) : Q := inject_Z (p + a + 1).
Let inv2 : Z -> Q := run_seq Z.eq_dec (pinv_iterations Qnum m1 (fun _ => 2%Q) (kept_list Qnum Qab Qltb 0 1%Q (fun _ => 2%Q) 2) 2) m1.
Lemma d1 : diagonalized_by Qnum 1 2 A2 (fun _ => 2%Q) men.
Proof. left. split; [auto|]. apply diag_check. vm_compute. reflexivity. Qed.
Lemma d6 : diagonalized_by Qnum 6 2 A2 (fun _ => 2%Q) m1.
Proof. right. split; [auto|]. apply diag_check. vm_compute. reflexivity. Qed.
Lemma y1 : get_Y Qnum Qab Qltb true 1 0 1%Q 2 (fun _ => 2%Q) men X2 (solve_red Qnum 2 (eigvecs Qnum 1 2 men) (eigvals_pinv Qnum Qab Qltb 0 1%Q (fun _ => 2%Q)) X2).
Proof. reflexivity. Qed.
Lemma y6 : get_Y Qnum Qab Qltb true 6 0 1%Q 2 (fun _ => 2%Q) m1 X2 (mul_red Qnum 2 (fun p m => inv2 (p * 2 + m)) X2).
Proof. exists inv2. split; [|reflexivity]. exists inv2. split; [apply seq_finishes|reflexivity]. Qed.
Example C111_solvers_example : forall p a, 0 <= p < 2 ->
  (solve_red Qnum 2 (eigvecs Qnum 1 2 men) (eigvals_pinv Qnum Qab Qltb 0 1%Q (fun _ => 2%Q)) X2 p a == mul_red Qnum 2 (fun p m => inv2 (p * 2 + m)) X2 p a)%Q.
Proof. exact (C111_solvers_full Qnum Qab Qltb 0 1%Q (Q_sound 0 1%Q ltac:(vm_compute; discriminate)) 1 6 2 A2 _ _ men m1 X2 _ _ ltac:(lia) d1 d6 y1 y6). Qed.
Example C111_solvers_value : (mul_red Qnum 2 (fun p m => inv2 (p * 2 + m)) X2 1 2 == 2)%Q.
Proof. vm_compute. reflexivity. Qed.
Example C111_solves_example : forall p a, 0 <= p < 2 ->
  (Sm Qnum 2 (fun m => A2 p m * mul_red Qnum 2 (fun p m => inv2 (p * 2 + m)) X2 m a) == X2 p a)%Q.
Proof. exact (C111_solves Qnum Qab Qltb 0 1%Q (Q_sound 0 1%Q ltac:(vm_compute; discriminate)) 6 2 A2 _ m1 X2 _ ltac:(lia) d6 y6 (fun _ _ => eq_refl)). Qed.
Example C111_builtin_inverse_example : same_matrix Qnum 2 (matmul Qnum 2 A2 (matmul Qnum 2 (fun p p' => inv2 (p * 2 + p')) A2)) A2.
Proof.
  destruct d6 as [[C _]|[_ D]]; [lia|].
  refine (proj1 (proj2 (proj2 (proj2 (C111_builtin_inverse Qnum Qab Qltb 0 1%Q (Q_sound 0 1%Q ltac:(vm_compute; discriminate)) 2 A2 _ m1 inv2 ltac:(lia) D _)))) _).
  - exists inv2. split; [apply seq_finishes|reflexivity].
  - intros l Hl H. vm_compute in H. discriminate.
Qed.
End Neg.

Print Assumptions C111_solvers_full.
Print Assumptions C111_solvers_reduced.
Print Assumptions C111_solves.
Print Assumptions C111_builtin_inverse.
Print Assumptions C111_f_vectors.
Print Assumptions C111_modes.
Print Assumptions C111_kappa.
Print Assumptions C111_positive.
Print Assumptions C111_positive_refuted.
Print Assumptions C111_null_space.
Print Assumptions C111_null_space_refuted.
