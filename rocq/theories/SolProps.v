(** * C128: solvers of the direct solution and the files of its results *)
From Coq Require Import ZArith QArith List Bool Lia Lqa Setoid Morphisms Ring_theory Field_theory Ring Field.
From Verif Require Import Base BaseProofs Par Par2 DirModel DirSpec DirProofs DirSpectral DirGroup DirMain DirPinv DirProps SolModel.
Import ListNotations.
Open Scope Z_scope.

(** ** What the request is given to *)
(** A build that came out of CMakeLists.txt. *)
Definition proper (b : build) : Prop := ext b = true /\ default_solver b = compiled_default (lapacke b).
(** The routine that is asked for, in the words of the documentation: 1 and 2
    need LAPACKE, 4 and 5 SciPy, 6 LAPACKE (its eigenvectors are from NumPy);
    anything else than 1 to 7 is the default, which is 1 if there is LAPACKE
    and 4 otherwise. *)
Definition asked (b : build) (p : Z) : Z :=
  if (1 <=? p) && (p <=? 7) then p else if lapacke b then 1 else 4.
Definition available (b : build) (s : Z) : bool :=
  if (s =? 1) || (s =? 2) || (s =? 6) then lapacke b
  else if (s =? 4) || (s =? 5) then scipy b else true.

Lemma is_in_spec : forall x l, is_in x l = true <-> In x l.
Proof.
  intros x l. unfold is_in. rewrite existsb_exists. split.
  - intros [y [H E]]. apply Z.eqb_eq in E. now subst.
  - intros H. exists x. now rewrite Z.eqb_refl.
Qed.
Lemma is_in_f : forall x l, ~ In x l -> is_in x l = false.
Proof. intros x l H. apply not_true_iff_false. now rewrite is_in_spec. Qed.
Ltac tf := repeat match goal with
  | |- context [is_in ?x ?l] => first [rewrite (proj2 (is_in_spec x l)) by (cbn [In]; lia) | rewrite (is_in_f x l) by (cbn [In]; lia)] end.

Lemma select_proper : forall b p, proper b ->
  select_solver b p = if negb (lapacke b) && ((p =? 1) || (p =? 2) || (p =? 6)) then Err RuntimeErr
                      else Ok (if p =? 6 then 3
                               else if (p =? 0) && negb (lapacke b) && negb (scipy b) then 1 else asked b p).
Proof.
  intros [e l d s] p [E D]. cbn in E, D. subst. unfold select_solver, asked, compiled_default. cbn [ext lapacke default_solver scipy negb].
  assert (C : p = 0 \/ p = 1 \/ p = 2 \/ p = 3 \/ p = 4 \/ p = 5 \/ p = 6 \/ p = 7 \/ (p < 0 \/ 7 < p)) by lia.
  destruct C as [-> |[-> |[-> |[-> |[-> |[-> |[-> |[-> |C]]]]]]]]; try (destruct l, s; reflexivity).
  rewrite (is_in_f p [1; 2; 6]) by (cbn [In]; lia). rewrite !andb_false_r.
  replace (p =? 6) with false by lia. replace (p =? 0) with false by lia. replace (p =? 1) with false by lia. replace (p =? 2) with false by lia.
  rewrite (is_in_f p [1; 2; 3; 4; 5; 6; 7]) by (cbn [In]; lia). cbn [orb andb]. rewrite andb_false_r.
  replace ((1 <=? p) && (p <=? 7)) with false by lia. reflexivity.
Qed.

Section Any.
Variable K : numbers.
Declare Scope K_scope.
Delimit Scope K_scope with K.
Bind Scope K_scope with num.
Notation "0" := (n0 K) : K_scope.
Notation "1" := (n1 K) : K_scope.
Infix "+" := (nadd K) : K_scope.
Infix "*" := (nmul K) : K_scope.
Infix "/" := (ndiv K) : K_scope.
Infix "==" := (neq K) (at level 70, no associativity) : K_scope.
Add Field Kfield128 : (n_field K) (setoid (n_equiv K) (n_ext K)).
Variables (eig : Z -> Z -> (Z -> Z -> K) -> (Z -> K) * (Z -> Z -> K))
  (npinv : Z -> (Z -> Z -> K) -> Z -> Z -> K) (nsig ntemp n : Z)
  (absn : K -> K) (ltbn : K -> K -> bool) (method : Z) (cutoff : K)
  (reducible : bool) (nb : Z) (weight : Z -> K) (X : Z -> Z -> Z -> K) (above : Z -> bool).
Local Notation kp := (kept K absn ltbn method cutoff).
Local Notation ep := (eigvals_pinv K absn ltbn method cutoff).
Hypothesis Hk : sound_test K kp.
Hypothesis Hn : 0 <= n.
Local Notation shift := (adrs_shift ntemp n).
Local Notation select := select_solver.
Local Notation diag := (diagonalize K eig npinv ntemp n).
Local Notation solve := (solve_at K ntemp n absn ltbn method cutoff reducible X).
Local Notation step1 := (step K eig npinv ntemp n absn ltbn method cutoff reducible nb weight X).
Local Notation loop1 := (loop K eig npinv ntemp n absn ltbn method cutoff reducible nb weight X).
Local Notation run1 := (run_all K eig npinv nsig ntemp n absn ltbn method cutoff reducible nb weight X above).
Local Notation prs := (pairs nsig ntemp above).

(** The matrix of a smearing width and temperature in an array. *)
Definition block (m : Z -> K) (j k p q : Z) : K := m (((j * ntemp + k) * n + p) * n + q).
(** Contract of the eigensolvers for a matrix: any of the routines diagonalizes it
    whatever way it is handed over (by rows or by columns). *)
Definition solved (A : Z -> Z -> K) : Prop :=
  (forall p q, 0 <= p < n -> 0 <= q < n -> (A p q == A q p)%K) /\
  forall r A', 1 <= r <= 5 -> same_matrix K n A A' -> diagonalizes K n A' (fst (eig r n A')) (snd (eig r n A')).
(** Contract of numpy.linalg.pinv: the conditions of Penrose. *)
Definition penrose (A P : Z -> Z -> K) : Prop :=
  let AP := matmul K n A P in let PA := matmul K n P A in
  same_matrix K n (matmul K n A PA) A /\ same_matrix K n (matmul K n P AP) P /\
  same_matrix K n AP (fun p q => AP q p) /\ same_matrix K n PA (fun p q => PA q p).
Definition inverted (A : Z -> Z -> K) : Prop :=
  forall A', same_matrix K n A A' -> penrose A' (npinv n A').

Lemma shift_eq : forall j k, shift j k = (j * ntemp + k) * n * n.
Proof. intros. unfold adrs_shift. ring. Qed.
Lemma block_shift : forall m j k p q, block m j k p q = m (shift j k + p * n + q).
Proof. intros. unfold block. f_equal. rewrite shift_eq. ring. Qed.
Definition inb (j k a : Z) : Prop := shift j k <= a < shift j k + n * n.
Lemma inb_at : forall j k p q, 0 <= p < n -> 0 <= q < n -> inb j k (shift j k + p * n + q).
Proof. intros. unfold inb. nia. Qed.
Lemma inb_disjoint : forall j k j' k' a, 0 <= k < ntemp -> 0 <= k' < ntemp -> inb j k a -> inb j' k' a -> j = j' /\ k = k'.
Proof.
  intros j k j' k' a Hk1 Hk2 H H'. unfold inb in *. rewrite shift_eq in *.
  assert (Z0 : n <> 0) by nia. set (i := j * ntemp + k) in *. set (i' := j' * ntemp + k') in *.
  assert (i = i') by nia. unfold i, i' in *. assert (j = j') by nia. subst. split; [reflexivity|lia].
Qed.
Lemma put_in : forall (m : Z -> K) s e p q, 0 <= p < n -> 0 <= q < n -> put K n m s e (s + (p * n + q)) = e (p * n + q).
Proof. intros. unfold put. replace ((s <=? s + (p * n + q)) && (s + (p * n + q) <? s + n * n)) with true by nia. f_equal. lia. Qed.
Lemma put_out : forall (m : Z -> K) s e a, ~ (s <= a < s + n * n) -> put K n m s e a = m a.
Proof. intros. unfold put. replace ((s <=? a) && (a <? s + n * n)) with false by lia. reflexivity. Qed.
Lemma dm : forall p q, 0 <= q < n -> (p * n + q) / n = p /\ (p * n + q) mod n = q.
Proof.
  intros p q H. split.
  - rewrite Z.div_add_l, Z.div_small by lia. lia.
  - rewrite Z.add_comm, Z.mod_add, Z.mod_small by lia. reflexivity.
Qed.
Lemma diag_same : forall A A' w v v', same_matrix K n A A' -> (forall p l, 0 <= p < n -> 0 <= l < n -> v' p l = v p l) ->
  diagonalizes K n A' w v -> diagonalizes K n A w v'.
Proof.
  intros A A' w v v' S E [D1 [D2 D3]]. split; [|split].
  - intros p q Hp Hq. rewrite (S p q Hp Hq), (D1 p q Hp Hq). apply Sm_ext. intros l Hl. rewrite !E by auto. reflexivity.
  - intros l l' Hl Hl'. rewrite <- (D2 l l' Hl Hl'). apply Sm_ext. intros p Hp. rewrite !E by auto. reflexivity.
  - intros p q Hp Hq. rewrite <- (D3 p q Hp Hq). apply Sm_ext. intros l Hl. rewrite !E by auto. reflexivity.
Qed.

(** The solver that is used for Y. *)
Definition eff (p s0 : Z) : Z := if p =? 6 then 6 else s0.

(** *** One matrix *)
Definition vecs (s0 : Z) (m : Z -> K) (j k p l : Z) : K :=
  if is_in s0 [1; 2; 4; 5] then block m j k l p else block m j k p l.
Lemma diag_spec : forall b p s0 j k m ow m' A, select b p = Ok s0 -> diag b p j k m = Ok (ow, m') ->
  solved A -> same_matrix K n A (block m j k) ->
  s0 <> 6 /\ (forall a, ~ inb j k a -> m' a = m a) /\
  (s0 <> 7 -> exists w, ow = Some w /\ diagonalized_by K s0 n A w (fun a => m' (shift j k + a)) /\ diagonalized_by K (eff p s0) n A w (fun a => m' (shift j k + a))) /\
  (s0 = 7 -> ow = None /\ exists A', same_matrix K n A A' /\ forall x y, 0 <= x < n -> 0 <= y < n -> block m' j k x y = npinv n A' x y).
Proof.
  intros b p s0 j k m ow m' A S D [Sy So] SM. unfold diagonalize in D. rewrite S in D. cbv zeta in D.
  assert (SR : same_matrix K n A (fun p q => m (shift j k + p * n + q))).
  { intros x y Hx Hy. rewrite (SM x y Hx Hy), block_shift. reflexivity. }
  assert (SC : same_matrix K n A (fun p q => m (shift j k + q * n + p))).
  { intros x y Hx Hy. rewrite (Sy x y Hx Hy). apply SR; auto. }
  assert (P6 : p = 6 -> s0 = 3).
  { intros ->. unfold select_solver in S. destruct (ext b); [|discriminate]. cbn in S. destruct (lapacke b); cbn in S; congruence. }
  assert (E6 : s0 <> 3 -> eff p s0 = s0). { intros N. unfold eff. destruct (Z.eqb_spec p 6); [now destruct N; apply P6|reflexivity]. }
  assert (CM : forall r, 1 <= r <= 5 -> (let '(w, v) := eig r n (fun p q => m (shift j k + q * n + p)) in
       Ok (Some w, put K n m (shift j k) (fun a => v (a mod n) (a / n)))) = Ok (ow, m') ->
       (forall a, ~ inb j k a -> m' a = m a) /\ exists w, ow = Some w /\ diagonalizes K n A w (fun p l => m' (shift j k + (l * n + p)))).
  { intros r Hr D'. specialize (So r _ Hr SC). destruct (eig r n (fun p q => m (shift j k + q * n + p))) as [w v] eqn:Ee.
    assert (Eo : ow = Some w) by congruence. assert (Em : m' = put K n m (shift j k) (fun a => v (a mod n) (a / n))) by congruence. subst m'. split.
    - intros a Ha. now apply put_out.
    - exists w. split; [exact Eo|]. refine (diag_same _ _ _ _ _ SC _ So). intros x l Hx Hl. cbn [snd]. rewrite put_in by auto.
      destruct (dm l x Hx) as [-> ->]. reflexivity. }
  destruct (is_in s0 [1; 2]) eqn:I12.
  { apply is_in_spec in I12. cbn [In] in I12. destruct (lapacke b); [|discriminate D].
    destruct (CM (if (s0 + 1) mod 2 =? 0 then 1 else 2) ltac:(destruct ((s0 + 1) mod 2 =? 0); lia) D) as [O [w [Ew Dg]]].
    split; [lia|]. split; [exact O|]. split; [|lia]. intros _. exists w. split; [exact Ew|]. rewrite E6 by lia. split; left; (split; [lia|exact Dg]). }
  destruct (Z.eqb_spec s0 3) as [-> |N3].
  { specialize (So 3 _ ltac:(lia) SR). destruct (eig 3 n (fun p q => m (shift j k + p * n + q))) as [w v].
    assert (Eo : ow = Some w) by congruence. assert (Em : m' = put K n m (shift j k) (fun a => v (a / n) (a mod n))) by congruence. subst m'.
    assert (Dg : diagonalizes K n A w (fun p l => put K n m (shift j k) (fun a => v (a / n) (a mod n)) (shift j k + (p * n + l)))).
    { refine (diag_same _ _ _ _ _ SR _ So). intros x l Hx Hl. cbn [snd]. rewrite put_in by auto. destruct (dm x l Hl) as [-> ->]. reflexivity. }
    split; [lia|]. split; [intros a Ha; now apply put_out|]. split; [|lia]. intros _. exists w. split; [exact Eo|].
    split; right; (split; [|exact Dg]); [auto|unfold eff; destruct (p =? 6); auto]. }
  destruct (is_in s0 [4; 5]) eqn:I45.
  { apply is_in_spec in I45. cbn [In] in I45. destruct (scipy b); [|discriminate D].
    destruct (CM s0 ltac:(lia) D) as [O [w [Ew Dg]]].
    split; [lia|]. split; [exact O|]. split; [|lia]. intros _. exists w. split; [exact Ew|]. rewrite E6 by lia. split; left; (split; [lia|exact Dg]). }
  destruct (Z.eqb_spec s0 7) as [-> |N7]; [|discriminate D].
  assert (Eo : ow = None) by congruence.
  assert (Em : m' = put K n m (shift j k) (fun a => npinv n (fun p q => m (shift j k + p * n + q)) (a / n) (a mod n))) by congruence. subst m'.
  split; [lia|]. split; [intros a Ha; now apply put_out|]. split; [lia|]. intros _. split; [exact Eo|]. exists (fun p q => m (shift j k + p * n + q)). split; [exact SR|].
  intros x y Hx Hy. rewrite block_shift, <- Z.add_assoc, put_in by auto. destruct (dm x y Hy) as [-> ->]. reflexivity.
Qed.

(** What holds of a matrix A of the input after its solution: eigenvalues w, array m, Y. *)
Definition solution (A : Z -> Z -> K) (w : Z -> K) (Xk Y : Z -> Z -> K) : Prop :=
  exists v, diagonalizes K n A w v /\
    if reducible then forall p a, 0 <= p < n -> (Y p a == solve_red K n v (ep w) Xk p a)%K
    else forall p a, 0 <= p * 3 + a < n -> (Y p a == solve_ir K n v (ep w) Xk p a)%K.
Definition post (p s0 j k : Z) (A : Z -> Z -> K) (w w0 m : Z -> K) (Y : Z -> Z -> K) : Prop :=
  (s0 <> 7 -> solution A w (X k) Y) /\
  (s0 <> 7 -> p <> 6 -> diagonalizes K n A w (vecs s0 m j k)) /\
  (p = 6 -> exists v, diagonalizes K n A w v /\ forall x y, 0 <= x < n -> 0 <= y < n -> (block m j k x y == Sm K n (fun l => v x l * v y l * ep w l))%K) /\
  (s0 = 7 -> w = w0 /\ exists A', same_matrix K n A A' /\
     (forall x y, 0 <= x < n -> 0 <= y < n -> block m j k x y = npinv n A' x y) /\
     if reducible then forall x a, 0 <= x < n -> (Y x a == Sm K n (fun q => npinv n A' x q * X k q a))%K
     else forall x a, 0 <= x * 3 + a < n -> (Y x a == Sm K n (fun q => npinv n A' (x * 3 + a)%Z q * X k (q / 3)%Z (q mod 3)))%K).
Lemma sel_6 : forall b s0, select b 6 = Ok s0 -> s0 = 3.
Proof. intros b s0 S. unfold select_solver in S. destruct (ext b); [|discriminate]. cbn in S. destruct (lapacke b); cbn in S; congruence. Qed.
Lemma step_spec : forall b p s0 j k s s' A, select b p = Ok s0 -> step1 b p (j, k) s (Ok s') ->
  solved A -> same_matrix K n A (block (mem K s) j k) ->
  (forall a, ~ inb j k a -> mem K s' a = mem K s a) /\
  (forall j' k', ~ (j' = j /\ k' = k) -> coleigs K s' j' k' = coleigs K s j' k' /\ sols K s' j' k' = sols K s j' k') /\
  f_vecs K s' = f_vector K nb weight (sols K s' j k) /\
  post p s0 j k A (coleigs K s' j k) (coleigs K s j k) (mem K s') (sols K s' j k).
Proof.
  intros b p s0 j k s s' A S T So SM. unfold step in T. destruct (diag b p j k (mem K s)) as [[ow m]|] eqn:D; [|discriminate T].
  destruct (diag_spec _ _ _ _ _ _ _ _ A S D So SM) as [N6' [Out [D1 D7]]].
  destruct T as [Y [m' [V E]]]. cbv zeta in V. set (ce := match ow with Some w => set2 (coleigs K s) j k w | None => coleigs K s end) in *.
  assert (Es : s' = {| mem := m'; coleigs := ce; f_vecs := f_vector K nb weight Y; sols := set2 (sols K s) j k Y |}) by congruence. clear E. subst s'.
  cbn [mem coleigs f_vecs sols].
  assert (Sjk : forall T (f : Z -> Z -> T) x, set2 f j k x j k = x) by (intros; unfold set2; rewrite !Z.eqb_refl; reflexivity).
  assert (So' : forall T (f : Z -> Z -> T) x j' k', ~ (j' = j /\ k' = k) -> set2 f j k x j' k' = f j' k').
  { intros T f x j' k' H. unfold set2. replace ((j' =? j) && (k' =? k)) with false by lia. reflexivity. }
  rewrite Sjk. unfold solve_at in V. rewrite S in V. cbv zeta in V. change (if p =? 6 then 6 else s0) with (eff p s0) in V.
  assert (Eff : (p = 6 /\ s0 = 3 /\ eff p s0 = 6) \/ (p <> 6 /\ eff p s0 = s0)).
  { unfold eff. destruct (Z.eqb_spec p 6) as [-> |]; [left|right; auto]. split; [reflexivity|]. split; [now apply (sel_6 b)|reflexivity]. }
  assert (Rest : forall j' k', ~ (j' = j /\ k' = k) -> ce j' k' = coleigs K s j' k' /\ set2 (sols K s) j k Y j' k' = sols K s j' k').
  { intros j' k' H. split; [|now apply So']. unfold ce. destruct ow; [now apply So'|reflexivity]. }
  destruct (Z.eqb_spec (eff p s0) 7) as [E7|N7].
  - assert (s0 = 7) by lia. subst s0. destruct (D7 eq_refl) as [-> [A' [SA HA]]]. destruct V as [EY Em]. subst m'.
    split; [exact Out|]. split; [exact Rest|]. split; [reflexivity|]. unfold post. split; [lia|]. split; [lia|]. split; [intros ->; destruct Eff; lia|].
    intros _. split; [reflexivity|]. exists A'. split; [exact SA|]. split; [exact HA|].
    assert (HA' : forall x y, 0 <= x < n -> 0 <= y < n -> m (shift j k + (x * n + y)) = npinv n A' x y).
    { intros x y Hx Hy. rewrite <- HA by auto. rewrite block_shift. f_equal. lia. }
    destruct reducible; intros x a Hx; subst Y; unfold mul_red, mul_ir; apply Sm_ext; intros q Hq; rewrite HA' by auto; reflexivity.
  - assert (N0 : s0 <> 7) by lia. destruct (D1 N0) as [w [-> [Dg De]]].
    assert (Ec : ce j k = w) by (unfold ce; apply Sjk). rewrite Ec in *.
    assert (GY : get_Y K absn ltbn reducible (eff p s0) method cutoff n w (fun a => m (shift j k + a)) (X k) Y).
    { destruct (Z.eqb_spec (eff p s0) 6) as [E6|N6]; [|apply V]. destruct V as [d [B [EY _]]]. unfold get_Y. rewrite E6. cbn. exists d. split; [exact B|exact EY]. }
    assert (SOL : solution A w (X k) Y).
    { unfold solution. destruct reducible.
      - apply (get_Y_red K absn ltbn method cutoff Hk _ _ _ _ _ _ _ Hn De GY).
      - apply (get_Y_ir K absn ltbn method cutoff Hk _ _ _ _ _ _ _ Hn De GY). }
    destruct (Z.eqb_spec (eff p s0) 6) as [E6|N6].
    + assert (p = 6) by lia. subst p. destruct V as [d [B [_ Em]]]. subst m'.
      assert (Dv : diagonalizes K n A w (fun p l => m (shift j k + (p * n + l)))).
      { destruct De as [[C _]|[_ De]]; [lia|exact De]. }
      destruct (builtin_pinv_val K absn ltbn method cutoff n w (fun a => m (shift j k + a)) Hn Hk d B) as [Val Od].
      split. { intros a Ha. rewrite Od by (unfold inb in Ha; lia). replace (shift j k + (a - shift j k)) with a by lia. now apply Out. }
      split; [exact Rest|]. split; [reflexivity|]. unfold post. split; [intros _; exact SOL|]. split; [lia|]. split; [|lia].
      intros _. exists (fun p l => m (shift j k + (p * n + l))). split; [exact Dv|]. intros x y Hx Hy.
      rewrite block_shift. replace (shift j k + x * n + y - shift j k) with (x * n + y) by lia. rewrite (Val x y Hx Hy). apply Sm_ext. intros l Hl. ring.
    + destruct V as [_ Em]. subst m'. assert (Np : p <> 6) by lia.
      split; [exact Out|]. split; [exact Rest|]. split; [reflexivity|]. unfold post. split; [intros _; exact SOL|]. split; [|split; [lia|lia]].
      intros _ _. destruct Dg as [[C Dg]|[C Dg]].
      * refine (diag_same A A w _ _ _ _ Dg); [intros x y Hx Hy; reflexivity|]. intros x l Hx Hl. unfold vecs. rewrite (proj2 (is_in_spec s0 _)) by (cbn [In]; lia).
        rewrite block_shift. f_equal. lia.
      * refine (diag_same A A w _ _ _ _ Dg); [intros x y Hx Hy; reflexivity|]. intros x l Hx Hl. unfold vecs. rewrite (is_in_f s0) by (cbn [In]; lia).
        rewrite block_shift. f_equal. lia.
Qed.

(** *** All matrices *)
Lemma block_ext : forall m m' j k x y, (forall a, inb j k a -> m' a = m a) -> 0 <= x < n -> 0 <= y < n -> block m' j k x y = block m j k x y.
Proof. intros m m' j k x y H Hx Hy. rewrite !block_shift. apply H. now apply inb_at. Qed.
Lemma post_ext : forall p s0 j k A w w0 m m' Y, (forall a, inb j k a -> m' a = m a) -> post p s0 j k A w w0 m Y -> post p s0 j k A w w0 m' Y.
Proof.
  intros p s0 j k A w w0 m m' Y H [P1 [P2 [P3 P4]]]. split; [exact P1|]. split; [|split].
  - intros N7 N6. refine (diag_same A A w _ _ _ _ (P2 N7 N6)); [intros x y Hx Hy; reflexivity|]. intros x l Hx Hl. unfold vecs. destruct (is_in s0 [1; 2; 4; 5]); now apply block_ext.
  - intros E6. destruct (P3 E6) as [v [D V]]. exists v. split; [exact D|]. intros x y Hx Hy. rewrite (block_ext m) by auto. now apply V.
  - intros E7. destruct (P4 E7) as [W [A' [SA [V R]]]]. split; [exact W|]. exists A'. split; [exact SA|]. split; [|exact R]. intros x y Hx Hy. rewrite (block_ext m) by auto. now apply V.
Qed.
Lemma loop_spec : forall b p s0 m0, select b p = Ok s0 -> forall l s t, NoDup l -> (forall j k, In (j, k) l -> 0 <= k < ntemp) ->
  (forall j k, In (j, k) l -> solved (block m0 j k) /\ forall a, inb j k a -> mem K s a = m0 a) ->
  loop1 b p l s (Ok t) ->
  (forall a, (forall j k, In (j, k) l -> ~ inb j k a) -> mem K t a = mem K s a) /\
  (forall j k, ~ In (j, k) l -> coleigs K t j k = coleigs K s j k /\ sols K t j k = sols K s j k) /\
  (forall j k, In (j, k) l -> post p s0 j k (block m0 j k) (coleigs K t j k) (coleigs K s j k) (mem K t) (sols K t j k)) /\
  (forall l' j k, l = l' ++ [(j, k)] -> f_vecs K t = f_vector K nb weight (sols K t j k)).
Proof.
  intros b p s0 m0 S. induction l as [|[j k] l IH]; intros s t ND R I L.
  - cbn in L. assert (t = s) by congruence. subst. split; [auto|]. split; [auto|]. split; [intros j k []|].
    intros l' j k E. symmetry in E. apply app_eq_nil in E. destruct E as [_ E]. discriminate E.
  - cbn [loop] in L. destruct L as [[s1|e] [T L]]; [|discriminate L].
    inversion ND as [|? ? NI ND']. subst.
    destruct (I j k (or_introl eq_refl)) as [So Ag].
    assert (SM : same_matrix K n (block m0 j k) (block (mem K s) j k)).
    { intros x y Hx Hy. rewrite (block_ext m0 (mem K s)) by auto. reflexivity. }
    destruct (step_spec _ _ _ _ _ _ _ _ S T So SM) as [O1 [O2 [O3 O4]]].
    assert (Dj : forall j' k' a, In (j', k') l -> inb j' k' a -> ~ inb j k a).
    { intros j' k' a I' B' B. destruct (inb_disjoint j k j' k' a) as [-> ->]; auto; [apply (R j k); now left|apply (R j' k'); now right]. }
    destruct (IH s1 t ND' (fun j' k' H => R j' k' (or_intror H))) as [H1 [H2 [H3 H4]]].
    + intros j' k' I'. destruct (I j' k' (or_intror I')) as [So' Ag']. split; [exact So'|]. intros a Ha. rewrite O1 by (eapply Dj; eauto). now apply Ag'.
    + exact L.
    + split; [|split; [|split]].
      * intros a Ha. rewrite H1 by (intros j' k' I'; apply Ha; now right). apply O1. apply Ha. now left.
      * intros j' k' N. destruct (H2 j' k') as [E1 E2]; [intros C; apply N; now right|]. destruct (O2 j' k') as [E3 E4]; [intros [-> ->]; apply N; now left|]. split; congruence.
      * intros j' k' [E|I'].
        -- assert (j' = j) by congruence. assert (k' = k) by congruence. subst j' k'. destruct (H2 j k NI) as [-> ->].
           apply (post_ext p s0 j k _ _ _ (mem K s1)); [|exact O4]. intros a Ha. apply H1. intros j' k' I' B. now apply (Dj j' k' a I' B).
        -- destruct (O2 j' k') as [<- _]; [intros [-> ->]; auto|]. now apply H3.
      * intros l' j' k' E. destruct l as [|x l].
        -- cbn in L. assert (t = s1) by congruence. subst t. destruct l' as [|y [|? ?]]; try discriminate E. injection E as -> ->. exact O3.
        -- destruct l' as [|y l']; [discriminate E|]. injection E as _ E. apply (H4 l'). exact E.
Qed.

Lemma in_pairs : forall j k, In (j, k) prs <-> 0 <= j < nsig /\ 0 <= k < ntemp /\ above k = true.
Proof.
  intros j k. unfold pairs. rewrite in_flat_map. split.
  - intros [j' [Hj H]]. apply in_map_iff in H. destruct H as [k' [E H]]. apply filter_In in H. destruct H as [H1 H2].
    apply in_zrange in Hj, H1. assert (j' = j) by congruence. assert (k' = k) by congruence. subst. auto.
  - intros [Hj [Hk' Ha]]. exists j. split; [now apply in_zrange|]. apply in_map. apply filter_In. split; [now apply in_zrange|exact Ha].
Qed.
Lemma nodup_pairs : NoDup prs.
Proof.
  unfold pairs. apply NoDup_flat_map; [apply NoDup_zrange| |].
  - intros x _. apply FinFun.Injective_map_NoDup; [intros a b E; congruence|]. apply NoDup_filter. apply NoDup_zrange.
  - intros x y b _ _ Hx Hy. apply in_map_iff in Hx, Hy. destruct Hx as [u [<- _]], Hy as [v [E _]]. congruence.
Qed.
Lemma run_select : forall b p s t j k, run1 b p s (Ok t) -> In (j, k) prs -> exists s0, select b p = Ok s0.
Proof.
  intros b p s t j k R I. unfold run_all in R. destruct prs as [|[j' k'] l]; [destruct I|]. cbn [loop] in R. destruct R as [o [T L]].
  unfold step, diagonalize in T. destruct (select b p) as [s0|e]; [now exists s0|]. subst o. discriminate L.
Qed.
Definition solvable (m : Z -> K) : Prop := forall j k, 0 <= j < nsig -> 0 <= k < ntemp -> above k = true -> solved (block m j k).
Lemma run_spec : forall b p s0 s t, select b p = Ok s0 -> solvable (mem K s) -> run1 b p s (Ok t) ->
  (forall a, (forall j k, In (j, k) prs -> ~ inb j k a) -> mem K t a = mem K s a) /\
  (forall j k, ~ In (j, k) prs -> coleigs K t j k = coleigs K s j k /\ sols K t j k = sols K s j k) /\
  (forall j k, In (j, k) prs -> post p s0 j k (block (mem K s) j k) (coleigs K t j k) (coleigs K s j k) (mem K t) (sols K t j k)) /\
  (forall l' j k, prs = l' ++ [(j, k)] -> f_vecs K t = f_vector K nb weight (sols K t j k)).
Proof.
  intros b p s0 s t S So R. apply (loop_spec b p s0 (mem K s) S prs s t nodup_pairs); [| |exact R].
  - intros j k I. apply in_pairs in I. tauto.
  - intros j k I. apply in_pairs in I. split; [now apply So|auto].
Qed.
Lemma sel_7 : forall b p s0, proper b -> p <> 7 -> select b p = Ok s0 -> s0 <> 7.
Proof.
  intros b p s0 B N S. rewrite (select_proper b p B) in S. destruct (negb (lapacke b) && ((p =? 1) || (p =? 2) || (p =? 6))); [discriminate|].
  injection S as <-. destruct (p =? 6); [lia|]. destruct ((p =? 0) && negb (lapacke b) && negb (scipy b)); [lia|].
  unfold asked. destruct ((1 <=? p) && (p <=? 7)); [exact N|]. destruct (lapacke b); lia.
Qed.

(** *** The choice *)
Theorem C128_choice : forall b p, proper b -> lapacke b = true \/ scipy b = true ->
  (lapacke b = false -> p = 1 \/ p = 2 \/ p = 6 -> select b p = Err RuntimeErr) /\
  (~ (lapacke b = false /\ (p = 1 \/ p = 2 \/ p = 6)) -> select b p = Ok (if p =? 6 then 3 else asked b p)).
Proof.
  intros b p B LS. rewrite (select_proper b p B). split.
  - intros -> C. replace ((p =? 1) || (p =? 2) || (p =? 6)) with true by lia. reflexivity.
  - intros C. replace (negb (lapacke b) && ((p =? 1) || (p =? 2) || (p =? 6))) with false by (destruct (lapacke b); cbn [negb andb]; [reflexivity|]; symmetry; apply not_true_iff_false; intros H; apply C; split; [reflexivity|lia]).
    replace ((p =? 0) && negb (lapacke b) && negb (scipy b)) with false; [reflexivity|]. destruct LS as [-> | ->]; cbn [negb]; rewrite ?andb_false_r; reflexivity.
Qed.
Definition failing (b : build) (p : Z) : option error :=
  if available b (asked b p) then None else if (p =? 1) || (p =? 2) || (p =? 6) then Some RuntimeErr else Some ImportErr.
Lemma diag_ok : forall b p j k m, proper b -> lapacke b = true \/ scipy b = true ->
  match failing b p with
  | None => exists s0 ow m', select b p = Ok s0 /\ 1 <= s0 <= 7 /\ s0 <> 6 /\ diag b p j k m = Ok (ow, m')
  | Some e => diag b p j k m = Err e end.
Proof.
  intros b p j k m B LS. destruct (C128_choice b p B LS) as [C1 C2]. unfold failing.
  assert (P : p = 1 \/ p = 2 \/ p = 3 \/ p = 4 \/ p = 5 \/ p = 6 \/ p = 7 \/ (p < 1 \/ 7 < p)) by lia.
  unfold diagonalize.
  assert (CO : forall r (A : Z -> Z -> K) (F : (Z -> Z -> K) -> Z -> K), exists ow m', (let '(w, v) := eig r n A in Ok (Some w, F v)) = Ok (ow, m')) by (intros r A F; destruct (eig r n A) as [w v]; eauto).
  destruct P as [-> |[-> |[-> |[-> |[-> |[-> |[-> |P]]]]]]].
  - unfold asked, available; cbn. destruct (lapacke b) eqn:L.
    + rewrite C2 by (intros [? _]; discriminate). cbn. exists 1. edestruct CO as [ow [m' E]]. exists ow, m'. split; [reflexivity|]. split; [lia|]. split; [lia|exact E].
    + now rewrite C1 by auto.
  - unfold asked, available; cbn. destruct (lapacke b) eqn:L.
    + rewrite C2 by (intros [? _]; discriminate). cbn. exists 2. edestruct CO as [ow [m' E]]. exists ow, m'. split; [reflexivity|]. split; [lia|]. split; [lia|exact E].
    + now rewrite C1 by auto.
  - rewrite C2 by lia. unfold asked, available; cbn. exists 3. edestruct CO as [ow [m' E]]. exists ow, m'. split; [reflexivity|]. split; [lia|]. split; [lia|exact E].
  - rewrite C2 by lia. unfold asked, available; cbn. destruct (scipy b); [|reflexivity]. exists 4. edestruct CO as [ow [m' E]]. exists ow, m'. split; [reflexivity|]. split; [lia|]. split; [lia|exact E].
  - rewrite C2 by lia. unfold asked, available; cbn. destruct (scipy b); [|reflexivity]. exists 5. edestruct CO as [ow [m' E]]. exists ow, m'. split; [reflexivity|]. split; [lia|]. split; [lia|exact E].
  - unfold asked, available; cbn. destruct (lapacke b) eqn:L.
    + rewrite C2 by (intros [? _]; discriminate). cbn. exists 3. edestruct CO as [ow [m' E]]. exists ow, m'. split; [reflexivity|]. split; [lia|]. split; [lia|exact E].
    + now rewrite C1 by auto.
  - rewrite C2 by lia. unfold asked, available; cbn. exists 7. do 2 eexists. split; [reflexivity|]. split; [lia|]. split; [lia|reflexivity].
  - rewrite C2 by lia. unfold asked, available. replace ((1 <=? p) && (p <=? 7)) with false by lia. replace (p =? 6) with false by lia.
    destruct (lapacke b) eqn:L.
    + cbn. exists 1. edestruct CO as [ow [m' E]]. exists ow, m'. split; [reflexivity|]. split; [lia|]. split; [lia|exact E].
    + destruct LS as [LS|LS]; [discriminate|]. rewrite LS. cbn. exists 4. edestruct CO as [ow [m' E]]. exists ow, m'. split; [reflexivity|]. split; [lia|]. split; [lia|exact E].
Qed.
Lemma solve_total : forall b p s0 j k w m, select b p = Ok s0 -> 1 <= s0 <= 7 -> s0 <> 6 -> exists Y m', solve b p j k w m Y m'.
Proof.
  intros b p s0 j k w m S R N. unfold solve_at. rewrite S. destruct (Z.eqb_spec p 6) as [-> |Np].
  - cbn. set (view := fun a => m (shift j k + a)). set (ls := kept_list K absn ltbn method cutoff w n).
    set (m1 := run_seq Z.eq_dec (pinv_iterations K view w ls n) view).
    set (d := if n mod 2 =? 1 then run Z.eq_dec (pinv_row K view w ls n ((n - 1) / 2)) m1 else m1).
    do 2 eexists. exists d. split; [|split; reflexivity]. exists m1. split; [apply seq_finishes|reflexivity].
  - cbv zeta. destruct (Z.eqb_spec s0 7) as [-> |N7]; [do 2 eexists; split; reflexivity|]. replace (s0 =? 6) with false by lia.
    unfold get_Y. replace (s0 =? 6) with false by lia.
    replace (existsb (Z.eqb s0) [0; 1; 2; 3; 4; 5]) with true by (symmetry; apply (is_in_spec s0 [0; 1; 2; 3; 4; 5]); cbn [In]; lia).
    do 2 eexists. split; reflexivity.
Qed.
(** A run comes to its end if the routine that is asked for is there, and says
    what is missing if it is not. *)
Theorem C128_runs : forall b p s, proper b -> lapacke b = true \/ scipy b = true -> prs <> [] ->
  (exists out, run1 b p s out) /\
  forall out, run1 b p s out -> match failing b p with None => exists t, out = Ok t | Some e => out = Err e end.
Proof.
  intros b p s B LS N. unfold run_all.
  assert (F : forall e, failing b p = Some e -> forall l s, l <> [] -> (exists out, loop1 b p l s out) /\ forall out, loop1 b p l s out -> out = Err e).
  { intros e E [|[j k] l] s1 Nl; [congruence|]. pose proof (diag_ok b p j k (mem K s1) B LS) as D. rewrite E in D. cbn [loop]. unfold step. rewrite D. split.
    - exists (Err e), (Err e). split; reflexivity.
    - intros out [o [-> H]]. exact H. }
  assert (G : failing b p = None -> forall l s, (exists out, loop1 b p l s out) /\ forall out, loop1 b p l s out -> exists t, out = Ok t).
  { intros E. induction l as [|[j k] l IH]; intros s1.
    - cbn. split; [now exists (Ok s1)|]. intros out ->. now exists s1.
    - pose proof (diag_ok b p j k (mem K s1) B LS) as D. rewrite E in D. destruct D as [s0 [ow [m' [S [R [N6 D]]]]]]. cbn [loop]. unfold step. rewrite D. split.
      + edestruct (solve_total b p s0 j k) as [Y [m2 V]]; [exact S|exact R|exact N6|]. edestruct IH as [[out L] _]. exists out. eexists. split; [exists Y, m2; split; [exact V|reflexivity]|exact L].
      + intros out [o [[Y [m2 [V ->]]] L]]. exact (proj2 (IH _) out L). }
  destruct (failing b p) as [e|] eqn:E; [now apply F|now apply G].
Qed.

(** *** The solution *)
Lemma solution_unique : forall A w w' Xk Y Y', solution A w Xk Y -> solution A w' Xk Y' ->
  if reducible then forall x a, 0 <= x < n -> (Y x a == Y' x a)%K
  else forall x a, 0 <= a < 3 -> 0 <= x * 3 + a < n -> (Y x a == Y' x a)%K.
Proof.
  intros A w w' Xk Y Y' [v [V H]] [v' [V' H']]. destruct reducible.
  - intros x a Hx.
    apply (truncated_unique K kp (proj1 Hk) (proj2 Hk) n A (diag_symm K _ _ _ _ V) (fun p => Xk p a) (fun p => Y p a) (fun p => Y' p a)); [| |exact Hx];
      [apply (red_truncated K absn ltbn method cutoff Hk n A w v)|apply (red_truncated K absn ltbn method cutoff Hk n A w' v')]; auto.
  - intros x a Ha Hx.
    assert (E1 : (x * 3 + a) / 3 = x) by (rewrite Z.div_add_l, Z.div_small by lia; lia).
    assert (E2 : (x * 3 + a) mod 3 = a) by (rewrite Z.add_comm, Z.mod_add, Z.mod_small by lia; lia).
    pose proof (truncated_unique K kp (proj1 Hk) (proj2 Hk) n A (diag_symm K _ _ _ _ V) (fun p => Xk (p / 3) (p mod 3)) (fun p => Y (p / 3) (p mod 3)) (fun p => Y' (p / 3) (p mod 3))
      (ir_truncated K absn ltbn method cutoff Hk n A w v Xk Y V H) (ir_truncated K absn ltbn method cutoff Hk n A w' v' Xk Y' V' H') (x * 3 + a) Hx) as E. cbn beta in E. rewrite E1, E2 in E. exact E.
Qed.
(** Which solver is asked for does not matter, nor what phono3py was built with. *)
Theorem C128_same_solution : forall b b' p p' s s' t t' j k, proper b -> proper b' -> p <> 7 -> p' <> 7 ->
  mem K s' = mem K s -> solvable (mem K s) -> run1 b p s (Ok t) -> run1 b' p' s' (Ok t') ->
  0 <= j < nsig -> 0 <= k < ntemp -> above k = true ->
  if reducible then forall x a, 0 <= x < n -> (sols K t j k x a == sols K t' j k x a)%K
  else forall x a, 0 <= a < 3 -> 0 <= x * 3 + a < n -> (sols K t j k x a == sols K t' j k x a)%K.
Proof.
  intros b b' p p' s s' t t' j k B B' N N' E So R R' Hj Hk' Ha. assert (I : In (j, k) prs) by (apply in_pairs; auto).
  destruct (run_select _ _ _ _ _ _ R I) as [s0 S]. destruct (run_select _ _ _ _ _ _ R' I) as [s0' S'].
  destruct (run_spec _ _ _ _ _ S So R) as [_ [_ [P _]]]. rewrite <- E in So. destruct (run_spec _ _ _ _ _ S' So R') as [_ [_ [P' _]]]. rewrite E in P'.
  destruct (P j k I) as [Q _]. destruct (P' j k I) as [Q' _].
  exact (solution_unique _ _ _ _ _ _ (Q (sel_7 _ _ _ B N S)) (Q' (sel_7 _ _ _ B' N' S'))).
Qed.

(** The inverse of NumPy, if it is the pseudoinverse and the eigenvalues that are cut
    off are zero. *)
Local Notation "A ~ B" := (same_matrix K n A B) (at level 70).
Local Notation "A @ B" := (matmul K n A B) (at level 40, left associativity).
Local Notation tr A := (fun p q => A q p).
Global Instance sm_equiv : Equivalence (same_matrix K n).
Proof.
  split.
  - intros A p q Hp Hq. reflexivity.
  - intros A B H p q Hp Hq. symmetry. now apply H.
  - intros A B C H H' p q Hp Hq. rewrite (H p q Hp Hq). now apply H'.
Qed.
Lemma mm : forall A A' B B', A ~ A' -> B ~ B' -> A @ B ~ A' @ B'.
Proof. intros. now apply matmul_ext. Qed.
Lemma mm_assoc : forall A B C, (A @ B) @ C ~ A @ (B @ C).
Proof.
  intros A B C p q Hp Hq. unfold matmul.
  transitivity (Sm K n (fun m => Sm K n (fun l => A p l * B l m * C m q)))%K.
  - apply Sm_ext. intros m Hm. rewrite <- Sm_mul_r. apply Sm_ext. intros; ring.
  - rewrite Sm_swap. apply Sm_ext. intros l Hl. rewrite <- Sm_mul_l. apply Sm_ext. intros; ring.
Qed.
Lemma mm_tr : forall A B, tr (A @ B) ~ tr B @ tr A.
Proof. intros A B p q Hp Hq. unfold matmul. apply Sm_ext. intros; ring. Qed.
Lemma sm_tr : forall A B, A ~ B -> tr A ~ tr B.
Proof. intros A B H p q Hp Hq. now apply H. Qed.
Lemma penrose_unique : forall A P Q, penrose A P -> penrose A Q -> P ~ Q.
Proof.
  intros A P Q [P1 [P2 [P3 P4]]] [Q1 [Q2 [Q3 Q4]]]. cbv zeta in *.
  assert (E1 : A @ P ~ A @ Q).
  { assert (H : A @ P ~ (A @ Q) @ (A @ P)).
    { etransitivity; [apply mm; [symmetry; exact Q1|reflexivity]|]. etransitivity; [apply mm; [symmetry; apply mm_assoc|reflexivity]|]. apply mm_assoc. }
    etransitivity; [exact P3|]. etransitivity; [apply sm_tr; exact H|]. etransitivity; [apply mm_tr|].
    etransitivity; [apply mm; [symmetry; exact P3|symmetry; exact Q3]|].
    etransitivity; [symmetry; apply mm_assoc|]. apply mm; [|reflexivity]. etransitivity; [apply mm_assoc|exact P1]. }
  assert (E2 : P @ A ~ Q @ A).
  { assert (H : P @ A ~ (P @ A) @ (Q @ A)).
    { etransitivity; [apply mm; [reflexivity|symmetry; exact Q1]|]. symmetry. apply mm_assoc. }
    etransitivity; [exact P4|]. etransitivity; [apply sm_tr; exact H|]. etransitivity; [apply mm_tr|].
    etransitivity; [apply mm; [symmetry; exact Q4|symmetry; exact P4]|].
    etransitivity; [apply mm_assoc|]. apply mm; [reflexivity|exact P1]. }
  etransitivity; [symmetry; exact P2|]. etransitivity; [apply mm; [reflexivity|exact E1]|].
  etransitivity; [symmetry; apply mm_assoc|]. etransitivity; [apply mm; [exact E2|reflexivity]|].
  etransitivity; [apply mm_assoc|exact Q2].
Qed.
Lemma penrose_ext : forall A A' P, A ~ A' -> penrose A' P -> penrose A P.
Proof.
  intros A A' P H [P1 [P2 [P3 P4]]]. unfold penrose. cbv zeta in *.
  assert (H1 : A @ P ~ A' @ P) by (apply mm; [exact H|reflexivity]). assert (H2 : P @ A ~ P @ A') by (apply mm; [reflexivity|exact H]).
  split; [|split; [|split]].
  - etransitivity; [apply mm; [exact H|exact H2]|]. etransitivity; [exact P1|symmetry; exact H].
  - etransitivity; [apply mm; [reflexivity|exact H1]|exact P2].
  - etransitivity; [exact H1|]. etransitivity; [exact P3|]. apply (sm_tr _ _ (symmetry H1)).
  - etransitivity; [exact H2|]. etransitivity; [exact P4|]. apply (sm_tr _ _ (symmetry H2)).
Qed.
Lemma spectral_penrose : forall A w v, diagonalizes K n A w v -> (forall l, 0 <= l < n -> kp (w l) = false -> (w l == 0)%K) ->
  penrose A (spect K n v (ep w)).
Proof.
  intros A w v [D1 [D2 D3]] Z0. set (P := spect K n v (ep w)).
  assert (EA : A ~ spect K n v w) by exact D1.
  assert (M : forall x y, spect K n v x @ spect K n v y ~ spect K n v (fun l => x l * y l)%K) by (intros x y p p' Hp Hp'; now apply spect_mul).
  assert (Ex : forall x y, (forall l, 0 <= l < n -> x l == y l)%K -> spect K n v x ~ spect K n v y) by (intros x y H p p' Hp Hp'; now apply spect_ext).
  assert (Ts : forall x, spect K n v x ~ tr (spect K n v x)) by (intros x p q Hp Hq; unfold spect; apply Sm_ext; intros; ring).
  apply (penrose_ext A (spect K n v w) P EA). unfold penrose, P. cbv zeta. split; [|split; [|split]].
  - etransitivity; [apply mm; [reflexivity|apply M]|]. etransitivity; [apply M|]. apply Ex. intros l Hl.
    unfold eigvals_pinv. destruct (kp (w l)) eqn:E; [field; now apply (proj2 Hk)|rewrite (Z0 l Hl E); ring].
  - etransitivity; [apply mm; [reflexivity|apply M]|]. etransitivity; [apply M|]. apply Ex. intros l Hl.
    unfold eigvals_pinv. destruct (kp (w l)) eqn:E; [field; now apply (proj2 Hk)|ring].
  - etransitivity; [apply M|]. etransitivity; [apply Ts|]. apply (sm_tr _ _ (symmetry (M w (ep w)))).
  - etransitivity; [apply M|]. etransitivity; [apply Ts|]. apply (sm_tr _ _ (symmetry (M (ep w) w))).
Qed.
Theorem C128_numpy_inverse : forall b b' p' s s' t t' j k, proper b -> proper b' -> p' <> 7 ->
  mem K s' = mem K s -> solvable (mem K s) -> inverted (block (mem K s) j k) ->
  run1 b 7 s (Ok t) -> run1 b' p' s' (Ok t') -> 0 <= j < nsig -> 0 <= k < ntemp -> above k = true ->
  (forall l, 0 <= l < n -> kp (coleigs K t' j k l) = false -> (coleigs K t' j k l == 0)%K) ->
  if reducible then forall x a, 0 <= x < n -> (sols K t j k x a == sols K t' j k x a)%K
  else forall x a, 0 <= a < 3 -> 0 <= x * 3 + a < n -> (sols K t j k x a == sols K t' j k x a)%K.
Proof.
  intros b b' p' s s' t t' j k B B' N' E So Iv R R' Hj Hk' Ha Z0. assert (I : In (j, k) prs) by (apply in_pairs; auto).
  destruct (run_select _ _ _ _ _ _ R I) as [s0 S]. destruct (run_select _ _ _ _ _ _ R' I) as [s0' S'].
  destruct (run_spec _ _ _ _ _ S So R) as [_ [_ [P _]]]. rewrite <- E in So. destruct (run_spec _ _ _ _ _ S' So R') as [_ [_ [P' _]]]. rewrite E in P'.
  assert (s0 = 7). { rewrite (select_proper b 7 B) in S. unfold asked in S. cbn in S. rewrite andb_false_r in S. congruence. } subst s0.
  destruct (P j k I) as [_ [_ [_ Q]]]. destruct (Q eq_refl) as [_ [A' [SA [_ QY]]]]. destruct (P' j k I) as [Q' _]. specialize (Q' (sel_7 _ _ _ B' N' S')).
  destruct Q' as [v [V H]].
  assert (U : npinv n A' ~ spect K n v (ep (coleigs K t' j k))).
  { apply (penrose_unique (block (mem K s) j k)); [|now apply spectral_penrose]. apply (penrose_ext _ A'); [exact SA|]. now apply Iv. }
  destruct reducible.
  - intros x a Hx. rewrite (QY x a Hx), (H x a Hx). unfold solve_red.
    transitivity (Sm K n (fun q => Sm K n (fun l => v x l * (v q l * X k q a * ep (coleigs K t' j k) l))))%K.
    + apply Sm_ext. intros q Hq. rewrite (U x q Hx Hq). unfold spect. rewrite <- Sm_mul_r. apply Sm_ext. intros; ring.
    + rewrite Sm_swap. apply Sm_ext. intros l Hl. rewrite Sm_mul_l. apply K_mul; [reflexivity|]. apply Sm_mul_r.
  - intros x a _ Hx. rewrite (QY x a Hx), (H x a Hx). unfold solve_ir.
    transitivity (Sm K n (fun q => Sm K n (fun l => v (x * 3 + a)%Z l * (ep (coleigs K t' j k) l * (v q l * X k (q / 3)%Z (q mod 3))))))%K.
    + apply Sm_ext. intros q Hq. rewrite (U (x * 3 + a) q Hx Hq). unfold spect. rewrite <- Sm_mul_r. apply Sm_ext. intros; ring.
    + rewrite Sm_swap. apply Sm_ext. intros l Hl. rewrite Sm_mul_l. apply K_mul; [reflexivity|]. apply Sm_mul_l.
Qed.

(** *** The files *)
(** The eigenvectors of the matrix of a smearing width and temperature in the file:
    rows, or columns if the file says that the solver was 3. *)
Definition file_vector (u : unitary_file K) (j k l p : Z) : K :=
  if u_solver K u =? 3 then block (u_matrix K u) j k p l else block (u_matrix K u) j k l p.
Definition eigenvectors_of (A : Z -> Z -> K) (w : Z -> K) (v : Z -> Z -> K) : Prop :=
  (forall l p, 0 <= l < n -> 0 <= p < n -> (Sm K n (fun q => A p q * v l q) == w l * v l p)%K) /\
  (forall l l', 0 <= l < n -> 0 <= l' < n -> (Sm K n (fun p => v l p * v l' p) == if l =? l' then 1 else 0)%K).
Lemma sel_range : forall b p s0, proper b -> select b p = Ok s0 -> s0 = 1 \/ s0 = 2 \/ s0 = 3 \/ s0 = 4 \/ s0 = 5 \/ (s0 = 7 /\ p = 7).
Proof.
  intros b p s0 B S. rewrite (select_proper b p B) in S. destruct (negb (lapacke b) && ((p =? 1) || (p =? 2) || (p =? 6))); [discriminate|].
  injection S as <-. destruct (Z.eqb_spec p 6); [lia|]. destruct ((p =? 0) && negb (lapacke b) && negb (scipy b)); [lia|].
  unfold asked. destruct ((1 <=? p) && (p <=? 7)) eqn:E; [lia|]. destruct (lapacke b); lia.
Qed.
Theorem C128_files : forall b p s t i j k, proper b -> p <> 6 -> p <> 7 -> solvable (mem K s) -> run1 b p s (Ok t) ->
  0 <= j < nsig -> 0 <= k < ntemp -> above k = true ->
  exists u, write_unitary K b p t i = Ok (Some u) /\
    eigenvectors_of (block (mem K s) j k) (write_coleigs K t j k) (file_vector u j k).
Proof.
  intros b p s t i j k B N6 N7 So R Hj Hk' Ha. assert (I : In (j, k) prs) by (apply in_pairs; auto).
  destruct (run_select _ _ _ _ _ _ R I) as [s0 S]. destruct (run_spec _ _ _ _ _ S So R) as [_ [_ [P _]]].
  destruct (P j k I) as [_ [Q _]]. assert (N0 := sel_7 _ _ _ B N7 S). specialize (Q N0 N6). pose proof (sel_range _ _ _ B S) as C.
  unfold write_unitary. rewrite S. rewrite (proj2 (is_in_spec s0 [1; 2; 3; 4; 5])) by (cbn [In]; lia). eexists. split; [reflexivity|].
  assert (EV : forall l p, vecs s0 (mem K t) j k p l = file_vector {| u_matrix := mem K t; u_solver := s0 |} j k l p).
  { intros l q. unfold vecs, file_vector. cbn [u_matrix u_solver]. destruct (Z.eqb_spec s0 3) as [-> |N3]; [reflexivity|].
    rewrite (proj2 (is_in_spec s0 [1; 2; 4; 5])) by (cbn [In]; lia). reflexivity. }
  split.
  - intros l q Hl Hq. assert (E := diag_eig K n _ _ _ l (n1 K) q Q Hl Hq). unfold mapp in E.
    transitivity (Sm K n (fun m => block (mem K s) j k q m * (vecs s0 (mem K t) j k m l * 1)))%K.
    + apply Sm_ext. intros m Hm. rewrite EV. ring.
    + rewrite E. rewrite EV. unfold write_coleigs. ring.
  - intros l l' Hl Hl'. destruct Q as [_ [Q2 _]]. rewrite <- (Q2 l l' Hl Hl'). apply Sm_ext. intros m Hm. rewrite !EV. reflexivity.
Qed.
(** With 6 what is in the file is the pseudoinverse. *)
Theorem C128_file_6 : forall b s t i j k, solvable (mem K s) -> run1 b 6 s (Ok t) ->
  0 <= j < nsig -> 0 <= k < ntemp -> above k = true ->
  exists u, write_unitary K b 6 t i = Ok (Some u) /\ u_solver K u = 3 /\
    ((forall l, 0 <= l < n -> kp (coleigs K t j k l) = false -> (coleigs K t j k l == 0)%K) ->
     penrose (block (mem K s) j k) (block (u_matrix K u) j k)).
Proof.
  intros b s t i j k So R Hj Hk' Ha. assert (I : In (j, k) prs) by (apply in_pairs; auto).
  destruct (run_select _ _ _ _ _ _ R I) as [s0 S]. destruct (run_spec _ _ _ _ _ S So R) as [_ [_ [P _]]]. pose proof (sel_6 _ _ S). subst s0.
  destruct (P j k I) as [_ [_ [Q _]]]. destruct (Q eq_refl) as [v [V E]]. unfold write_unitary. rewrite S. cbn. eexists. split; [reflexivity|]. cbn [u_solver u_matrix]. split; [reflexivity|].
  intros Z0. pose proof (spectral_penrose _ _ _ V Z0) as SP.
  assert (EB : block (mem K t) j k ~ spect K n v (ep (coleigs K t j k))).
  { intros x y Hx Hy. rewrite (E x y Hx Hy). unfold spect. apply Sm_ext. intros; ring. }
  destruct SP as [P1 [P2 [P3 P4]]]. cbv zeta in *. set (A := block (mem K s) j k) in *. set (Bl := block (mem K t) j k) in *.
  assert (H1 : A @ Bl ~ A @ spect K n v (ep (coleigs K t j k))) by (apply mm; [reflexivity|exact EB]).
  assert (H2 : Bl @ A ~ spect K n v (ep (coleigs K t j k)) @ A) by (apply mm; [exact EB|reflexivity]).
  split; [|split; [|split]]; cbv zeta.
  - etransitivity; [apply mm; [reflexivity|exact H2]|exact P1].
  - etransitivity; [apply mm; [exact EB|exact H1]|]. etransitivity; [exact P2|symmetry; exact EB].
  - etransitivity; [exact H1|]. etransitivity; [exact P3|]. apply (sm_tr _ _ (symmetry H1)).
  - etransitivity; [exact H2|]. etransitivity; [exact P4|]. apply (sm_tr _ _ (symmetry H2)).
Qed.
(** At temperatures that are not above zero the matrix and the eigenvalues stay what they were. *)
Theorem C128_other_temperatures : forall b p s t j k, solvable (mem K s) -> run1 b p s (Ok t) ->
  0 <= j < nsig -> 0 <= k < ntemp -> above k = false ->
  (forall x y, 0 <= x < n -> 0 <= y < n -> block (mem K t) j k x y = block (mem K s) j k x y) /\
  coleigs K t j k = coleigs K s j k /\ sols K t j k = sols K s j k.
Proof.
  intros b p s t j k So R Hj Hk' Ha. assert (NI : ~ In (j, k) prs) by (rewrite in_pairs; intros [_ [_ H]]; congruence).
  destruct prs as [|[j0 k0] l] eqn:EP.
  - unfold run_all in R. rewrite EP in R. cbn in R. assert (t = s) by congruence. subst t. auto.
  - assert (I0 : In (j0, k0) prs) by (rewrite EP; now left).
    destruct (run_select _ _ _ _ _ _ R I0) as [s0 S]. destruct (run_spec _ _ _ _ _ S So R) as [O [C _]]. rewrite EP in C. split; [|now apply C].
    intros x y Hx Hy. apply block_ext; auto. intros a B. apply O. intros j' k' I' B'. destruct (inb_disjoint j k j' k' a) as [-> ->]; auto.
    + apply in_pairs in I'. tauto.
    + rewrite EP in I'. auto.
Qed.
(** With 7 no eigenvalues are kept. *)
Theorem C128_eigenvalues_7 : forall b s t j k, proper b -> solvable (mem K s) -> run1 b 7 s (Ok t) ->
  0 <= j < nsig -> 0 <= k < ntemp -> write_coleigs K t j k = coleigs K s j k.
Proof.
  intros b s t j k B So R Hj Hk'. unfold write_coleigs. destruct (above k) eqn:Ha.
  - assert (I : In (j, k) prs) by (apply in_pairs; auto).
    destruct (run_select _ _ _ _ _ _ R I) as [s0 S]. destruct (run_spec _ _ _ _ _ S So R) as [_ [_ [P _]]].
    assert (s0 = 7). { rewrite (select_proper b 7 B) in S. unfold asked in S. cbn in S. rewrite andb_false_r in S. congruence. } subst s0.
    destruct (P j k I) as [_ [_ [_ Q]]]. now destruct (Q eq_refl).
  - now destruct (C128_other_temperatures _ _ _ _ _ _ So R Hj Hk' Ha) as [_ [H _]].
Qed.
(** The f-vectors in the file of any smearing width are those of the last smearing
    width and temperature; the unitary files are all the same. *)
Theorem C128_last : forall b p s t i l j k, solvable (mem K s) -> run1 b p s (Ok t) -> prs = l ++ [(j, k)] ->
  write_f_vector K t i = f_vector K nb weight (sols K t j k).
Proof.
  intros b p s t i l j k So R E. assert (I : In (j, k) prs) by (rewrite E; apply in_or_app; right; now left).
  destruct (run_select _ _ _ _ _ _ R I) as [s0 S]. destruct (run_spec _ _ _ _ _ S So R) as [_ [_ [_ F]]]. exact (F l j k E).
Qed.
End Any.

(** ** Builds *)
(** Not compiled: the intended message is printed and then the choice fails. *)
Theorem C128_not_compiled_refuted : forall b p, ext b = false -> select_solver b p = Err UnboundLocalErr.
Proof. intros b p E. unfold select_solver. now rewrite E. Qed.
(** Neither LAPACKE nor SciPy: the default is 1, which is not there. *)
Theorem C128_default_refuted : forall K eig npinv nsig ntemp n absn ltbn method cutoff reducible nb weight X above s out,
  pairs nsig ntemp above <> [] ->
  run_all K eig npinv nsig ntemp n absn ltbn method cutoff reducible nb weight X above (Build true false (compiled_default false) false) 0 s out ->
  out = Err AttributeErr.
Proof.
  intros until out. intros N R. unfold run_all in R. destruct (pairs nsig ntemp above) as [|[j k] l]; [congruence|]. cbn in R. destruct R as [o [-> R]]. exact R.
Qed.

(** ** One mode *)
Section One.
Let eig1 (r n : Z) (A : Z -> Z -> Q) : (Z -> Q) * (Z -> Z -> Q) := (fun _ => A 0 0, fun _ _ => 1%Q).
Let np1 (n : Z) (A : Z -> Z -> Q) (p q : Z) : Q := (/ A 0%Z 0%Z)%Q.
Let b1 : build := Build true true 1 true.
Let X1 (k p a : Z) : Q := 1%Q.
Let s1 : state Qnum := State Qnum (fun a => if a =? 0 then 2%Q else 4%Q) (fun _ _ _ => 0%Q) (fun _ _ => 0%Q) (fun _ _ _ _ => 0%Q).
Let run1 (ntemp : Z) (above : Z -> bool) := run_all Qnum eig1 np1 1 ntemp 1 Qab Qltb 0 (1 # 100)%Q true 1 (fun _ => 1%Q) X1 above.
Lemma one_solvable : forall ntemp above, solvable Qnum eig1 1 ntemp 1 above (mem Qnum s1).
Proof.
  intros ntemp above j k Hj Hk Ha. split.
  - intros p q Hp Hq. replace p with 0 by lia. replace q with 0 by lia. reflexivity.
  - intros r A' Hr S. assert (E : forall x, 0 <= x < 1 -> x = 0) by (intros; lia). unfold diagonalizes, eig1. cbn [fst snd]. split; [|split].
    + intros p q Hp Hq. rewrite (E p Hp), (E q Hq). cbn. cbn [num Qnum] in *. change ((A' 0%Z 0%Z == 1 * A' 0%Z 0%Z * 1 + 0)%Q). ring.
    + intros p q Hp Hq. rewrite (E p Hp), (E q Hq). cbn. reflexivity.
    + intros p q Hp Hq. rewrite (E p Hp), (E q Hq). cbn. reflexivity.
Qed.
(** With 6 the file that should have eigenvectors in its columns does not. *)
Let view1 (a : Z) : Q := put Qnum 1 (mem Qnum s1) 0 (fun _ => 1%Q) (0 + a).
Let w1 (_ : Z) : Q := 2%Q.
Let ls1 := kept_list Qnum Qab Qltb 0 (1 # 100)%Q w1 1.
Let seq1 := run_seq Z.eq_dec (pinv_iterations Qnum view1 w1 ls1 1) view1.
Let data1 : Z -> Q := run Z.eq_dec (pinv_row Qnum view1 w1 ls1 1 0) seq1.
Let Y1 : Z -> Z -> Q := mul_red Qnum 1 (fun p q => data1 (p * 1 + q)) (X1 0).
Let t6 : state Qnum := State Qnum (fun a => data1 (a - 0)) (set2 (coleigs Qnum s1) 0 0 w1) (f_vector Qnum 1 (fun _ => 1%Q) Y1) (set2 (sols Qnum s1) 0 0 Y1).
Lemma run_6 : run1 1 (fun _ => true) b1 6 s1 (Ok t6).
Proof.
  unfold run1, run_all. change (pairs 1 1 (fun _ => true)) with [(0, 0)]. exists (Ok t6). split; [|reflexivity].
  unfold step. change (diagonalize Qnum eig1 np1 1 1 b1 6 0 0 (mem Qnum s1)) with (Ok (Some w1, put Qnum 1 (mem Qnum s1) 0 (fun _ : Z => 1%Q))).
  cbv iota. exists Y1, (fun a => data1 (a - 0)). split; [|reflexivity].
  unfold solve_at. change (select_solver b1 6) with (Ok 3). cbv iota zeta. change (6 =? 6) with true. cbv iota. change (6 =? 7) with false. change (6 =? 6) with true. cbv iota.
  exists data1. split; [|split; reflexivity]. exists seq1. split; [apply seq_finishes|reflexivity].
Qed.
Theorem C128_unitary_refuted : exists b nsig ntemp n eig npinv X above s t u,
  proper b /\ solvable Qnum eig nsig ntemp n above (mem Qnum s) /\ above 0 = true /\ 0 < nsig /\ 0 < ntemp /\
  run_all Qnum eig npinv nsig ntemp n Qab Qltb 0 (1 # 100)%Q true 1 (fun _ => 1%Q) X above b 6 s (Ok t) /\
  write_unitary Qnum b 6 t 0 = Ok (Some u) /\
  ~ eigenvectors_of Qnum n (block Qnum ntemp n (mem Qnum s) 0 0) (write_coleigs Qnum t 0 0) (file_vector Qnum ntemp n u 0 0).
Proof.
  exists b1, 1, 1, 1, eig1, np1, X1, (fun _ => true), s1, t6, (Unitary Qnum (mem Qnum t6) 3).
  split; [split; reflexivity|]. split; [apply one_solvable|]. split; [reflexivity|]. split; [lia|]. split; [lia|]. split; [exact run_6|]. split; [reflexivity|].
  intros [_ E2]. specialize (E2 0 0 ltac:(lia) ltac:(lia)). vm_compute in E2. discriminate E2.
Qed.
(** At zero temperature neither the file of eigenvectors nor that of eigenvalues has them;
    the f-vectors in the files are those of the last temperature. *)
Let m34 := put Qnum 1 (mem Qnum s1) 1 (fun _ => 1%Q).
Let Y4 : Z -> Z -> Q := solve_red Qnum 1 (eigvecs Qnum 4 1 (fun a => m34 (1 + a))) (eigvals_pinv Qnum Qab Qltb 0 (1 # 100)%Q (fun _ => 4%Q)) (X1 1).
Let t0 : state Qnum := State Qnum m34 (set2 (coleigs Qnum s1) 0 1 (fun _ => 4%Q)) (f_vector Qnum 1 (fun _ => 1%Q) Y4) (set2 (sols Qnum s1) 0 1 Y4).
Lemma run_4 : run1 2 (fun k => 0 <? k) b1 4 s1 (Ok t0).
Proof.
  unfold run1, run_all. change (pairs 1 2 (fun k => 0 <? k)) with [(0, 1)]. exists (Ok t0). split; [|reflexivity].
  unfold step. change (diagonalize Qnum eig1 np1 2 1 b1 4 0 1 (mem Qnum s1)) with (Ok (Some (fun _ : Z => 4%Q), m34)).
  cbv iota. exists Y4, m34. split; [|reflexivity].
  unfold solve_at. change (select_solver b1 4) with (Ok 4). cbv iota zeta. change (4 =? 6) with false. cbv iota. change (4 =? 7) with false. change (4 =? 6) with false. cbv iota.
  split; reflexivity.
Qed.
Theorem C128_zero_temperature_refuted : exists b nsig ntemp n eig npinv X above s t u,
  proper b /\ solvable Qnum eig nsig ntemp n (fun _ => true) (mem Qnum s) /\ 0 < nsig /\ 0 < ntemp /\
  run_all Qnum eig npinv nsig ntemp n Qab Qltb 0 (1 # 100)%Q true 1 (fun _ => 1%Q) X above b 4 s (Ok t) /\
  write_unitary Qnum b 4 t 0 = Ok (Some u) /\
  ~ eigenvectors_of Qnum n (block Qnum ntemp n (mem Qnum s) 0 0) (write_coleigs Qnum t 0 0) (file_vector Qnum ntemp n u 0 0).
Proof.
  exists b1, 1, 2, 1, eig1, np1, X1, (fun k => 0 <? k), s1, t0, (Unitary Qnum (mem Qnum t0) 4).
  split; [split; reflexivity|]. split; [apply one_solvable|]. split; [lia|]. split; [lia|]. split; [exact run_4|]. split; [reflexivity|].
  intros [_ E2]. specialize (E2 0 0 ltac:(lia) ltac:(lia)). vm_compute in E2. discriminate E2.
Qed.
Let ma := put Qnum 1 (mem Qnum s1) 0 (fun _ => 1%Q).
Let mb := put Qnum 1 ma 1 (fun _ => 1%Q).
Let Ya : Z -> Z -> Q := solve_red Qnum 1 (eigvecs Qnum 4 1 (fun a => ma (0 + a))) (eigvals_pinv Qnum Qab Qltb 0 (1 # 100)%Q (fun _ => 2%Q)) (X1 0).
Let Yb : Z -> Z -> Q := solve_red Qnum 1 (eigvecs Qnum 4 1 (fun a => mb (1 + a))) (eigvals_pinv Qnum Qab Qltb 0 (1 # 100)%Q (fun _ => 4%Q)) (X1 1).
Let ta : state Qnum := State Qnum ma (set2 (coleigs Qnum s1) 0 0 (fun _ => 2%Q)) (f_vector Qnum 1 (fun _ => 1%Q) Ya) (set2 (sols Qnum s1) 0 0 Ya).
Let tb : state Qnum := State Qnum mb (set2 (coleigs Qnum ta) 0 1 (fun _ => 4%Q)) (f_vector Qnum 1 (fun _ => 1%Q) Yb) (set2 (sols Qnum ta) 0 1 Yb).
Lemma run_44 : run1 2 (fun _ => true) b1 4 s1 (Ok tb).
Proof.
  unfold run1, run_all. change (pairs 1 2 (fun _ => true)) with [(0, 0); (0, 1)]. exists (Ok ta). split; [|exists (Ok tb); split; [|reflexivity]].
  - unfold step. change (diagonalize Qnum eig1 np1 2 1 b1 4 0 0 (mem Qnum s1)) with (Ok (Some (fun _ : Z => 2%Q), ma)).
    cbv iota. exists Ya, ma. split; [|reflexivity]. split; reflexivity.
  - unfold step. change (diagonalize Qnum eig1 np1 2 1 b1 4 0 1 (mem Qnum ta)) with (Ok (Some (fun _ : Z => 4%Q), mb)).
    cbv iota. exists Yb, mb. split; [|reflexivity]. split; reflexivity.
Qed.
Theorem C128_f_vector_refuted : exists b eig npinv X s t,
  proper b /\ solvable Qnum eig 1 2 1 (fun _ => true) (mem Qnum s) /\
  run_all Qnum eig npinv 1 2 1 Qab Qltb 0 (1 # 100)%Q true 1 (fun _ => 1%Q) X (fun _ => true) b 4 s (Ok t) /\
  ~ (write_f_vector Qnum t 0 0%Z 0%Z == f_vector Qnum 1 (fun _ => 1%Q) (sols Qnum t 0 0) 0%Z 0%Z)%Q.
Proof.
  exists b1, eig1, np1, X1, s1, tb. split; [split; reflexivity|]. split; [apply one_solvable|]. split; [exact run_44|]. vm_compute. discriminate.
Qed.
Example C128_file_ex : exists u, write_unitary Qnum b1 4 tb 0 = Ok (Some u) /\
  eigenvectors_of Qnum 1 (block Qnum 2 1 (mem Qnum s1) 0 1) (write_coleigs Qnum tb 0 1) (file_vector Qnum 2 1 u 0 1) /\
  (write_coleigs Qnum tb 0%Z 1%Z 0%Z == 4)%Q /\ (sols Qnum tb 0%Z 1%Z 0%Z 0%Z == 1 # 4)%Q.
Proof.
  destruct (C128_files Qnum eig1 np1 1 2 1 Qab Qltb 0 (1 # 100)%Q true 1 (fun _ => 1%Q) X1 (fun _ => true) (Q_sound 0 (1 # 100)%Q ltac:(vm_compute; discriminate)) ltac:(lia)
    b1 4 s1 tb 0 0 1 (conj eq_refl eq_refl) ltac:(lia) ltac:(lia) (one_solvable 2 (fun _ => true)) run_44 ltac:(lia) ltac:(lia) eq_refl) as [u [W E]].
  exists u. split; [exact W|]. split; [exact E|]. split; vm_compute; reflexivity.
Qed.
Example C128_last_ex : write_f_vector Qnum tb 0 = f_vector Qnum 1 (fun _ => 1%Q) (sols Qnum tb 0 1).
Proof.
  exact (C128_last Qnum eig1 np1 1 2 1 Qab Qltb 0 (1 # 100)%Q true 1 (fun _ => 1%Q) X1 (fun _ => true) (Q_sound 0 (1 # 100)%Q ltac:(vm_compute; discriminate)) ltac:(lia)
    b1 4 s1 tb 0 [(0, 0)] 0 1 (one_solvable 2 (fun _ => true)) run_44 eq_refl).
Qed.
Example C128_other_ex : mem Qnum t0 0 = 2%Q /\ coleigs Qnum t0 0 0 = coleigs Qnum s1 0 0.
Proof.
  destruct (C128_other_temperatures Qnum eig1 np1 1 2 1 Qab Qltb 0 (1 # 100)%Q true 1 (fun _ => 1%Q) X1 (fun k => 0 <? k) (Q_sound 0 (1 # 100)%Q ltac:(vm_compute; discriminate)) ltac:(lia)
    b1 4 s1 t0 0 0 (one_solvable 2 _) run_4 ltac:(lia) ltac:(lia) eq_refl) as [_ [H _]]. split; [reflexivity|exact H].
Qed.
End One.

(** ** Two modes, two temperatures: matrices 2 and 4 times the unit matrix, rotated eigenvectors *)
Section Two.
Let v2 (p l : Z) : Q := if p =? l then (3 # 5)%Q else if l =? 0 then (-4 # 5)%Q else (4 # 5)%Q.
Let eig2 (r n : Z) (A : Z -> Z -> Q) : (Z -> Q) * (Z -> Z -> Q) := (fun l => A l l, if r =? 4 then v2 else fun p l => if p =? l then 1%Q else 0%Q).
Let np2 (n : Z) (A : Z -> Z -> Q) (p q : Z) : Q := if p =? q then (/ A p p)%Q else 0%Q.
Let X2 (k p a : Z) : Q := inject_Z (p + a + 1).
Let s2 : state Qnum := State Qnum (fun a => nth (Z.to_nat a) [2; 0; 0; 2; 4; 0; 0; 4]%Q 0%Q) (fun _ _ _ => 0%Q) (fun _ _ => 0%Q) (fun _ _ _ _ => 0%Q).
Lemma two_cases : forall x, 0 <= x < 2 -> x = 0 \/ x = 1. Proof. intros; lia. Qed.
Lemma unit_solved : forall c A, same_matrix Qnum 2 A (fun p q => if p =? q then c else 0%Q) -> solved Qnum eig2 2 A.
Proof.
  intros c A U.
  assert (U0 := U 0 0 ltac:(lia) ltac:(lia)). assert (U1 := U 1 1 ltac:(lia) ltac:(lia)). assert (U2 := U 0 1 ltac:(lia) ltac:(lia)). assert (U3 := U 1 0 ltac:(lia) ltac:(lia)).
  cbn in U0, U1, U2, U3. split.
  - intros p q Hp Hq. rewrite (U p q Hp Hq), (U q p Hq Hp), (Z.eqb_sym q p). reflexivity.
  - intros r A' Hr S.
    assert (S0 := S 0 0 ltac:(lia) ltac:(lia)). assert (S1 := S 1 1 ltac:(lia) ltac:(lia)). assert (S2 := S 0 1 ltac:(lia) ltac:(lia)). assert (S3 := S 1 0 ltac:(lia) ltac:(lia)).
    cbn in S0, S1, S2, S3. rewrite U0 in S0. rewrite U1 in S1. rewrite U2 in S2. rewrite U3 in S3. unfold diagonalizes, eig2. cbn [fst snd]. split; [|split].
    + intros p q Hp Hq. destruct (two_cases p Hp) as [-> | ->], (two_cases q Hq) as [-> | ->]; destruct (r =? 4); unfold v2, DirModel.Sm, ks; change (zrange 2) with [0; 1]; cbn; cbn [num Qnum] in *; lra.
    + intros p q Hp Hq. destruct (two_cases p Hp) as [-> | ->], (two_cases q Hq) as [-> | ->]; destruct (r =? 4); reflexivity.
    + intros p q Hp Hq. destruct (two_cases p Hp) as [-> | ->], (two_cases q Hq) as [-> | ->]; destruct (r =? 4); reflexivity.
Qed.
Let yes (k : Z) : bool := true.
Lemma two_solvable : solvable Qnum eig2 1 2 2 yes (mem Qnum s2).
Proof.
  intros j k Hj Hk _. replace j with 0 by lia. destruct (two_cases k Hk) as [-> | ->]; [apply (unit_solved 2%Q)|apply (unit_solved 4%Q)];
    intros p q Hp Hq; destruct (two_cases p Hp) as [-> | ->], (two_cases q Hq) as [-> | ->]; reflexivity.
Qed.
Lemma two_inverted : inverted Qnum np2 2 (block Qnum 2 2 (mem Qnum s2) 0 1).
Proof.
  intros A' S. assert (S0 := S 0 0 ltac:(lia) ltac:(lia)). assert (S1 := S 1 1 ltac:(lia) ltac:(lia)). assert (S2 := S 0 1 ltac:(lia) ltac:(lia)). assert (S3 := S 1 0 ltac:(lia) ltac:(lia)).
  cbn in S0, S1, S2, S3. cbn [num Qnum] in *.
  split; [|split; [|split]]; cbv zeta; intros p q Hp Hq; destruct (two_cases p Hp) as [-> | ->], (two_cases q Hq) as [-> | ->]; unfold matmul, np2, DirModel.Sm, ks; change (zrange 2) with [0; 1]; cbn; cbn [num Qnum] in *;
    rewrite <- ?S0, <- ?S1, <- ?S2, <- ?S3; reflexivity.
Qed.
Let bl : build := Build true true 1 true.
Let bs : build := Build true false 4 true.
Let run2 := run_all Qnum eig2 np2 1 2 2 Qab Qltb 0 (1 # 100)%Q true 1 (fun _ => 1%Q) X2 yes.
Example C128_solvers_ex :
  (exists t4, run2 bs 4 s2 (Ok t4)) /\ (exists t6, run2 bl 6 s2 (Ok t6)) /\ (exists t0, run2 bl 0 s2 (Ok t0)) /\ run2 bs 6 s2 (Err RuntimeErr) /\
  forall t4 t6, run2 bs 4 s2 (Ok t4) -> run2 bl 6 s2 (Ok t6) -> forall x a, 0 <= x < 2 -> (sols Qnum t4 0%Z 1%Z x a == sols Qnum t6 0%Z 1%Z x a)%Q.
Proof.
  assert (R : forall b p, proper b -> lapacke b = true \/ scipy b = true -> failing b p = None -> exists t, run2 b p s2 (Ok t)).
  { intros b p B L F. destruct (C128_runs Qnum eig2 np2 1 2 2 Qab Qltb 0 (1 # 100)%Q true 1 (fun _ => 1%Q) X2 yes b p s2 B L ltac:(vm_compute; discriminate)) as [[out O] G].
    pose proof (G out O) as H. rewrite F in H. destruct H as [t ->]. now exists t. }
  split; [apply R; [split; reflexivity|now right|reflexivity]|]. split; [apply R; [split; reflexivity|now left|reflexivity]|]. split; [apply R; [split; reflexivity|now left|reflexivity]|]. split.
  - destruct (C128_runs Qnum eig2 np2 1 2 2 Qab Qltb 0 (1 # 100)%Q true 1 (fun _ => 1%Q) X2 yes bs 6 s2 (conj eq_refl eq_refl) (or_intror eq_refl) ltac:(vm_compute; discriminate)) as [[out O] G].
    pose proof (G out O) as H. change (failing bs 6) with (Some RuntimeErr) in H. cbv iota in H. subst out. exact O.
  - intros t4 t6 R4 R6. exact (C128_same_solution Qnum eig2 np2 1 2 2 Qab Qltb 0 (1 # 100)%Q true 1 (fun _ => 1%Q) X2 yes (Q_sound 0 (1 # 100)%Q ltac:(vm_compute; discriminate)) ltac:(lia)
      bs bl 4 6 s2 s2 t4 t6 0 1 (conj eq_refl eq_refl) (conj eq_refl eq_refl) ltac:(lia) ltac:(lia) eq_refl two_solvable R4 R6 ltac:(lia) ltac:(lia) eq_refl).
Qed.
Example C128_numpy_ex : (exists t7, run2 bs 7 s2 (Ok t7)) /\ forall t7 t4, run2 bs 7 s2 (Ok t7) -> run2 bs 4 s2 (Ok t4) ->
  (forall l, 0 <= l < 2 -> kept Qnum Qab Qltb 0 (1 # 100)%Q (coleigs Qnum t4 0 1 l) = false -> (coleigs Qnum t4 0%Z 1%Z l == 0)%Q) ->
  forall x a, 0 <= x < 2 -> (sols Qnum t7 0%Z 1%Z x a == sols Qnum t4 0%Z 1%Z x a)%Q.
Proof.
  split.
  - destruct (C128_runs Qnum eig2 np2 1 2 2 Qab Qltb 0 (1 # 100)%Q true 1 (fun _ => 1%Q) X2 yes bs 7 s2 (conj eq_refl eq_refl) (or_intror eq_refl) ltac:(vm_compute; discriminate)) as [[out O] G].
    destruct (G out O) as [t ->]. now exists t.
  - intros t7 t4 R7 R4 Z0. exact (C128_numpy_inverse Qnum eig2 np2 1 2 2 Qab Qltb 0 (1 # 100)%Q true 1 (fun _ => 1%Q) X2 yes (Q_sound 0 (1 # 100)%Q ltac:(vm_compute; discriminate)) ltac:(lia)
      bs bs 4 s2 s2 t7 t4 0 1 (conj eq_refl eq_refl) (conj eq_refl eq_refl) ltac:(lia) eq_refl two_solvable two_inverted R7 R4 ltac:(lia) ltac:(lia) eq_refl Z0).
Qed.
End Two.

Print Assumptions C128_choice.
Print Assumptions C128_runs.
Print Assumptions C128_same_solution.
Print Assumptions C128_numpy_inverse.
Print Assumptions C128_files.
Print Assumptions C128_file_6.
Print Assumptions C128_other_temperatures.
Print Assumptions C128_eigenvalues_7.
Print Assumptions C128_last.
Print Assumptions C128_not_compiled_refuted.
Print Assumptions C128_default_refuted.
Print Assumptions C128_unitary_refuted.
Print Assumptions C128_zero_temperature_refuted.
Print Assumptions C128_f_vector_refuted.
