(** The built-in pseudo-inverse under any schedule. *)
From Coq Require Import ZArith List Bool Lia Setoid Morphisms Ring_theory Field_theory Ring Field Permutation.
From Verif Require Import Base BaseProofs Par Par2 DirModel DirSpec DirProofs.
Import ListNotations.
Open Scope Z_scope.

Section Pinv.
Variable K : numbers.
Declare Scope K_scope.
Delimit Scope K_scope with K.
Bind Scope K_scope with num.
Notation "0" := (n0 K) : K_scope.
Notation "1" := (n1 K) : K_scope.
Infix "+" := (nadd K) : K_scope.
Infix "*" := (nmul K) : K_scope.
Infix "/" := (ndiv K) : K_scope.
Infix "==" := (neq K) (at level 70, no associativity) : K_scope.
Add Field Kfield5 : (n_field K) (setoid (n_equiv K) (n_ext K)).
Local Notation ks := (ks K).
Local Notation Sm := (Sm K).

Variables (tmp w : Z -> K) (ls : list Z) (n : Z).
Hypothesis Hn : 0 <= n.
Let el := pinv_elem K tmp w ls n.
Definition row_writes (i : Z) : list (Z * K) :=
  flat_map (fun j => [(i * n + j, el i j); (j * n + i, el i j)]) (map (fun k => i + k) (zrange (n - i))).
Lemma row_run : forall i m, run Z.eq_dec (pinv_row K tmp w ls n i) m = store Z.eq_dec m (row_writes i).
Proof.
  intros i m. unfold pinv_row, row_writes. rewrite run_pfor. fold el. revert m. generalize (map (fun k => i + k) (zrange (n - i))). induction l as [|j l IH]; intros m; [reflexivity|].
  cbn [fold_left flat_map]. rewrite IH. rewrite store_app. reflexivity.
Qed.
Lemma row_js : forall i j, In j (map (fun k => i + k) (zrange (n - i))) <-> i <= j < n.
Proof.
  intros i j. rewrite in_map_iff. split.
  - intros [k [<- H]]. apply in_zrange in H. lia.
  - intros H. exists (j - i). rewrite in_zrange. lia.
Qed.
Lemma row_val : forall i m x y, 0 <= i < n -> 0 <= x < n -> 0 <= y < n ->
  run Z.eq_dec (pinv_row K tmp w ls n i) m (x * n + y) = if Z.min x y =? i then el i (Z.max x y) else m (x * n + y).
Proof.
  intros i m x y Hi Hx Hy. rewrite row_run. destruct (Z.eqb_spec (Z.min x y) i) as [E|E].
  - apply (store_all Z.eq_dec eq).
    + apply in_map_iff. destruct (Z.le_ge_cases x y) as [L|L].
      * exists (i * n + y, el i y). split; [cbn [fst]; f_equal; f_equal; lia|]. apply in_flat_map. exists y. split; [apply row_js; lia|now left].
      * exists (x * n + i, el i x). split; [cbn [fst]; f_equal; lia|]. apply in_flat_map. exists x. split; [apply row_js; lia|right; now left].
    + intros v I. apply in_flat_map in I. destruct I as [j [Ij I]]. apply row_js in Ij. destruct I as [I|[I|[]]]; injection I as Ia Iv; rewrite <- Iv; f_equal.
      * destruct (flat_inj n i j x y ltac:(lia) Hy Ia). lia.
      * destruct (flat_inj n j i x y ltac:(lia) Hy Ia). lia.
  - apply store_other. intros I. apply in_map_iff in I. destruct I as [[a v] [Ea I]]. cbn [fst] in Ea. subst a. apply in_flat_map in I. destruct I as [j [Ij I]].
    apply row_js in Ij. destruct I as [I|[I|[]]]; injection I as Ia Iv.
    + destruct (flat_inj n i j x y ltac:(lia) Hy Ia). lia.
    + destruct (flat_inj n j i x y ltac:(lia) Hy Ia). lia.
Qed.
Lemma row_out : forall i m a, 0 <= i < n -> ~ (0 <= a < n * n) -> run Z.eq_dec (pinv_row K tmp w ls n i) m a = m a.
Proof.
  intros i m a Hi Ha. rewrite row_run. apply store_other. intros I. apply in_map_iff in I. destruct I as [[b v] [Ea I]]. cbn [fst] in Ea. subst b.
  apply in_flat_map in I. destruct I as [j [Ij I]]. apply row_js in Ij. apply Ha. destruct I as [I|[I|[]]]; injection I as Ia Iv; rewrite <- Ia; nia.
Qed.
Definition own (k a : Z) : Prop := exists x y, 0 <= x < n /\ 0 <= y < n /\ a = x * n + y /\ (Z.min x y = k \/ Z.min x y = n - k - 1).
Lemma row_fp : forall k i, 0 <= k < n / 2 -> (i = k \/ i = n - k - 1) -> fp (own k) (own k) (pinv_row K tmp w ls n i).
Proof.
  intros k i Hk Hi. assert (n / 2 * 2 <= n) by (rewrite Z.mul_comm; apply Z.mul_div_le; lia).
  unfold pinv_row. apply fp_pfor. intros j Hj. apply row_js in Hj. constructor; [|constructor; [|constructor]].
  - exists i, j. repeat split; lia.
  - exists j, i. repeat split; lia.
Qed.
Lemma split_sq : forall a, 0 <= a < n * n -> exists x y, 0 <= x < n /\ 0 <= y < n /\ a = x * n + y.
Proof.
  intros a Ha. assert (0 < n) by (destruct (Z.eq_dec n 0) as [E|E]; [rewrite E in Ha; lia|lia]).
  exists (a / n), (a mod n). pose proof (Z.mod_pos_bound a n). pose proof (Z.div_mod a n).
  split; [split; [apply Z.div_pos; lia|apply Z.div_lt_upper_bound; lia]|split; lia].
Qed.
Lemma half : 0 <= n mod 2 < 2 /\ n = 2 * (n / 2) + n mod 2.
Proof. pose proof (Z.mod_pos_bound n 2 ltac:(lia)). pose proof (Z.div_mod n 2 ltac:(lia)). lia. Qed.
Theorem pinv_writes : forall m m1 data',
  finishes Z.eq_dec (pinv_iterations K tmp w ls n) m m1 ->
  data' = (if n mod 2 =? 1 then run Z.eq_dec (pinv_row K tmp w ls n ((n - 1) / 2)) m1 else m1) ->
  (forall x y, 0 <= x < n -> 0 <= y < n -> data' (x * n + y) = el (Z.min x y) (Z.max x y)) /\
  (forall a, ~ (0 <= a < n * n) -> data' a = m a).
Proof.
  intros m m1 data' Fin E. destruct half as [H1 H2].
  assert (Mid : n mod 2 = 1 -> (n - 1) / 2 = n / 2) by (intros H; replace (n - 1) with (n / 2 * 2) by lia; apply Z.div_mul; lia).
  unfold pinv_iterations in Fin.
  assert (R := fun A B => par_key Z.eq_dec own (zrange (n / 2)) _ m m1 (NoDup_zrange _) A B Fin).
  destruct R as [R1 R2].
  - intros k Hk. apply in_zrange in Hk. apply fp_pseq; apply row_fp; auto.
  - intros k k' a Hk Hk' [x [y [Hx [Hy [Ea Em]]]]] [x' [y' [Hx' [Hy' [Ea' Em']]]]]. rewrite in_zrange in *.
    rewrite Ea in Ea'. destruct (flat_inj n x y x' y' Hy Hy' Ea') as [-> ->]. lia.
  - split.
    + intros x y Hx Hy.
      assert (C : (exists k, 0 <= k < n / 2 /\ (Z.min x y = k \/ Z.min x y = n - k - 1)) \/ (n mod 2 = 1 /\ Z.min x y = (n - 1) / 2)).
      { destruct (Z_lt_dec (Z.min x y) (n / 2)) as [L|L]; [left; exists (Z.min x y); lia|].
        destruct (Z_lt_dec (n - Z.min x y - 1) (n / 2)) as [L'|L']; [left; exists (n - Z.min x y - 1); lia|]. right.
        assert (n mod 2 = 1) by lia. split; [auto|]. rewrite Mid by auto. lia. }
      destruct C as [[k [Hk Ek]]|[Ho Ek]].
      * assert (V : m1 (x * n + y) = el (Z.min x y) (Z.max x y)).
        { rewrite (R1 k); [|now apply in_zrange|exists x, y; auto]. rewrite run_pseq, !row_val by lia.
          destruct (Z.eqb_spec (Z.min x y) (n - k - 1)) as [->|N1]; [reflexivity|]. destruct (Z.eqb_spec (Z.min x y) k) as [->|N2]; [reflexivity|lia]. }
        subst data'. destruct (Z.eqb_spec (n mod 2) 1) as [Ho|Ho]; [|exact V]. rewrite row_val by (rewrite ?Mid by auto; lia).
        destruct (Z.eqb_spec (Z.min x y) ((n - 1) / 2)) as [<-|_]; [reflexivity|exact V].
      * subst data'. rewrite Ho. cbn [Z.eqb Pos.eqb]. rewrite row_val by (rewrite ?Mid by auto; lia). rewrite Ek, Z.eqb_refl. reflexivity.
    + intros a Ha.
      assert (V : m1 a = m a).
      { apply R2. intros k Hk [x [y [Hx [Hy [Ea _]]]]]. apply Ha. rewrite Ea. nia. }
      subst data'. destruct (Z.eqb_spec (n mod 2) 1) as [Ho|Ho]; [|exact V]. rewrite row_out; [exact V| |exact Ha]. rewrite Mid by auto. lia.
Qed.
Lemma el_val : forall i j, (el i j == ks ls (fun l => tmp (i * n + l)%Z * tmp (j * n + l)%Z / w l))%K.
Proof. intros i j. unfold el, pinv_elem. rewrite (fold_ks K ls (fun l => tmp (i * n + l)%Z * tmp (j * n + l)%Z / w l)%K). ring. Qed.
End Pinv.

Section Pinv2.
Variable K : numbers.
Declare Scope K_scope.
Delimit Scope K_scope with K.
Bind Scope K_scope with num.
Notation "0" := (n0 K) : K_scope.
Notation "1" := (n1 K) : K_scope.
Infix "+" := (nadd K) : K_scope.
Infix "*" := (nmul K) : K_scope.
Infix "/" := (ndiv K) : K_scope.
Infix "==" := (neq K) (at level 70, no associativity) : K_scope.
Add Field Kfield6 : (n_field K) (setoid (n_equiv K) (n_ext K)).
Local Notation ks := (ks K).
Local Notation Sm := (Sm K).
Variables (absn : K -> K) (ltbn : K -> K -> bool) (method : Z) (cutoff : K) (n : Z) (w mem : Z -> K).
Hypothesis Hn : 0 <= n.
Hypothesis Hk : sound_test K (kept K absn ltbn method cutoff).
Let e := eigvals_pinv K absn ltbn method cutoff w.

(** what the C function leaves in the array, and what it does not touch *)
Theorem builtin_pinv_val : forall data', builtin_pinv K absn ltbn method cutoff w n mem data' ->
  (forall x y, 0 <= x < n -> 0 <= y < n -> data' (x * n + y)%Z == Sm n (fun l => mem (x * n + l)%Z * mem (y * n + l)%Z * e l))%K /\
  (forall a, ~ (0 <= a < n * n) -> data' a = mem a).
Proof.
  intros data' [m1 [Fin E]]. destruct (pinv_writes K mem w _ n Hn mem m1 data' Fin E) as [H1 H2]. split; [|exact H2].
  intros x y Hx Hy. rewrite H1, el_val by auto. unfold kept_list. rewrite ks_filter. apply ks_ext. intros l Hl. unfold e, eigvals_pinv.
  destruct (kept K absn ltbn method cutoff (w l)) eqn:Kl; [|ring]. assert (Nz := proj2 Hk _ Kl).
  destruct (Z.le_ge_cases x y) as [L|L].
  - rewrite Z.min_l, Z.max_r by auto. field. exact Nz.
  - rewrite Z.min_r, Z.max_l by auto. field. exact Nz.
Qed.
Lemma mul_red_val : forall data' X p a, builtin_pinv K absn ltbn method cutoff w n mem data' -> 0 <= p < n ->
  (mul_red K n (fun p m => data' (p * n + m)%Z) X p a == solve_red K n (fun p l => mem (p * n + l)%Z) e X p a)%K.
Proof.
  intros data' X p a B Hp. destruct (builtin_pinv_val data' B) as [V _]. unfold mul_red, solve_red.
  transitivity (Sm n (fun m => Sm n (fun l => mem (p * n + l)%Z * (mem (m * n + l)%Z * X m a * e l))))%K.
  - apply Sm_ext. intros m Hm. rewrite (V p m Hp Hm), <- Sm_mul_r. apply Sm_ext. intros; ring.
  - rewrite Sm_swap. apply Sm_ext. intros l Hl. rewrite Sm_mul_l. apply K_mul; [reflexivity|]. apply Sm_mul_r.
Qed.
Lemma mul_ir_val : forall data' X p a, builtin_pinv K absn ltbn method cutoff w n mem data' -> 0 <= p * 3 + a < n ->
  (mul_ir K n (fun p m => data' (p * n + m)%Z) X p a == solve_ir K n (fun p l => mem (p * n + l)%Z) e X p a)%K.
Proof.
  intros data' X p a B Hp. destruct (builtin_pinv_val data' B) as [V _]. unfold mul_ir, solve_ir.
  transitivity (Sm n (fun m => Sm n (fun l => mem ((p * 3 + a) * n + l)%Z * (e l * (mem (m * n + l)%Z * X (m / 3)%Z (m mod 3))))))%K.
  - apply Sm_ext. intros m Hm. rewrite (V (p * 3 + a) m Hp Hm), <- Sm_mul_r. apply Sm_ext. intros; ring.
  - rewrite Sm_swap. apply Sm_ext. intros l Hl. rewrite Sm_mul_l. apply K_mul; [reflexivity|]. apply Sm_mul_l.
Qed.
End Pinv2.
