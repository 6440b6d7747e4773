(** Properties C29, C30, C60: distribution by symmetry, cutoff, the solution of the first rows. *)
From Coq Require Import ZArith QArith List Bool Lia Permutation Lqa.
From Verif Require Import Base BaseProofs Par Par2 Fc3Model Fc3Spec Fc3Proofs Fc3Compact Fc3Transpose Fc3Trans Fc3Dist.
Import ListNotations.
Open Scope Z_scope.

(** ** spec *)
(** rotation of a third-rank tensor *)
Definition rot3 (r : Z -> Z -> Q) (t : Z * Z * Z -> Q) (q : Z * Z * Z) : Q :=
  let '(l, m, n) := q in qsum (map (fun q' => let '(i, j, k) := q' in (r l i * r m j * r n k * t q')%Q) comps).
Definition orthogonal (r : Z -> Z -> Q) : Prop := forall i j, 0 <= i < 3 -> 0 <= j < 3 ->
  Qeq (r 0 i * r 0 j + r 1 i * r 1 j + r 2 i * r 2 j) (if i =? j then 1 else 0).
(** F0 is a force-constant tensor of a crystal with these operations: moving all three atoms by an
    operation rotates the tensor. *)
Record invariant (o : Ops) (n : Z) (F0 : Z -> Z -> Z -> Z * Z * Z -> Q) : Prop := {
  iv_perm : forall g i, 0 <= g < op_n o -> 0 <= i < n -> 0 <= op_perm o g i < n;
  iv_orth : forall g, 0 <= g < op_n o -> orthogonal (op_cart o g);
  iv_rot : forall g i j k q, 0 <= g < op_n o -> 0 <= i < n -> 0 <= j < n -> 0 <= k < n -> In q comps ->
    Qeq (F0 (op_perm o g i) (op_perm o g j) (op_perm o g k) q) (rot3 (op_cart o g) (F0 i j k) q) }.
(** row [p] of the stored array holds the force constants of atom [a] *)
Definition row_is (n : Z) (F0 : Z -> Z -> Z -> Z * Z * Z -> Q) (m : Z -> Q) (p a : Z) : Prop :=
  forall b c q, 0 <= b < n -> 0 <= c < n -> In q comps -> Qeq (raw n m p b c q) (F0 a b c q).

(** ** tensors *)
Definition sum3 (f : Z -> Q) : Q := Qplus (Qplus (f 0) (f 1)) (f 2).
Lemma sum3_ext : forall f g : Z -> Q, (forall i, 0 <= i < 3 -> Qeq (f i) (g i)) -> Qeq (sum3 f) (sum3 g).
Proof. intros f g H. unfold sum3. rewrite (H 0), (H 1), (H 2) by lia. reflexivity. Qed.
Lemma rot3_nested : forall r t l m n,
  Qeq (rot3 r t (l, m, n)) (sum3 (fun i => r l i * sum3 (fun j => r m j * sum3 (fun k => r n k * t (i, j, k))))%Q).
Proof. intros. unfold rot3, sum3. change comps with (ltac:(let x := eval vm_compute in comps in exact x)). cbn [map]. rewrite !qs_cons, qs_nil. ring. Qed.
Lemma contract : forall r, orthogonal r -> forall i (g : Z -> Q), 0 <= i < 3 -> Qeq (sum3 (fun a => r a i * sum3 (fun l => r a l * g l))%Q) (g i).
Proof.
  intros r O i g Hi.
  assert (E : Qeq (sum3 (fun a => r a i * sum3 (fun l => r a l * g l))%Q) (sum3 (fun l => (r 0%Z i * r 0%Z l + r 1%Z i * r 1%Z l + r 2%Z i * r 2%Z l) * g l)%Q)) by (unfold sum3; ring).
  rewrite E. clear E. unfold sum3. rewrite (O i 0), (O i 1), (O i 2) by lia.
  assert (i = 0 \/ i = 1 \/ i = 2) as [-> | [-> | ->]] by lia; cbn [Z.eqb Pos.eqb]; ring.
Qed.
Lemma sum3_swap : forall (c : Z -> Q) (f : Z -> Z -> Q), Qeq (sum3 (fun a => c a * sum3 (fun l => f a l))%Q) (sum3 (fun l => sum3 (fun a => c a * f a l))%Q).
Proof. intros. unfold sum3. ring. Qed.
Lemma unrotate : forall r T q, orthogonal r -> In q comps -> Qeq (rot3 (fun a b => r b a) (rot3 r T) q) (T q).
Proof.
  intros r T [[x y] z] O Hq. apply in_comps in Hq. destruct Hq as [Hx [Hy Hz]]. rewrite rot3_nested.
  rewrite (sum3_ext _ (fun i => r i x * sum3 (fun l => r i l * T (l, y, z)))%Q).
  - apply (contract r O x (fun l => T (l, y, z))). auto.
  - intros i Hi. apply Qmult_comp; [reflexivity|].
    rewrite (sum3_ext _ (fun j => r j y * sum3 (fun m => r j m * sum3 (fun l => r i l * T (l, m, z))))%Q).
    + apply (contract r O y (fun m => sum3 (fun l => r i l * T (l, m, z))%Q)). auto.
    + intros j Hj. apply Qmult_comp; [reflexivity|].
      rewrite (sum3_ext _ (fun k => r k z * sum3 (fun n => r k n * sum3 (fun m => r j m * sum3 (fun l => r i l * T (l, m, n)))))%Q).
      * apply (contract r O z (fun n => sum3 (fun m => r j m * sum3 (fun l => r i l * T (l, m, n)))%Q)). auto.
      * intros k Hk. apply Qmult_comp; [reflexivity|]. rewrite rot3_nested. unfold sum3. ring.
Qed.

(** ** the C loops *)
Lemma fold_write : forall X (key : X -> Z) (val : (Z -> Q) -> X -> Q) (P : Z -> Prop) l m,
  (forall x, In x l -> ~ P (key x)) -> (forall x m m', In x l -> (forall a, P a -> m a = m' a) -> val m x = val m' x) ->
  NoDup l -> (forall x y, In x l -> In y l -> key x = key y -> x = y) ->
  (forall x, In x l -> fold_left (fun m x => upd m (key x) (val m x)) l m (key x) = val m x) /\
  (forall a, ~ In a (map key l) -> fold_left (fun m x => upd m (key x) (val m x)) l m a = m a).
Proof.
  intros X key val P. induction l as [|x l IH]; intros m D V N K; cbn [fold_left map]; [split; [intros ? []|auto]|].
  inversion_clear N as [|? ? N1 N2].
  destruct (IH (upd m (key x) (val m x))) as [I1 I2]; auto; [intros; apply D; right; auto|intros y m1 m2 Hy E; apply V; [right; auto|exact E]|intros; apply K; auto; right; auto|].
  assert (NK : ~ In (key x) (map key l)).
  { intros H. apply in_map_iff in H. destruct H as [y [E Hy]]. apply K in E; [subst; contradiction|right; auto|left; auto]. }
  split.
  - intros y [<-|Hy].
    + rewrite I2 by auto. apply upd_same.
    + rewrite I1 by auto. apply V; [right; auto|]. intros a Ha. apply upd_other. intros ->. apply (D x); [left; auto|exact Ha].
  - intros a Ha. cbn in Ha. rewrite I2 by tauto. apply upd_other. intros ->. tauto.
Qed.
Lemma fold_concat : forall X Y (g : X -> list Y) (f : (Z -> Q) -> Y -> (Z -> Q)) l m,
  fold_left (fun m x => fold_left f (g x) m) l m = fold_left f (flat_map g l) m.
Proof. intros. symmetry. apply fold_flat_map. Qed.

Definition drow_space (n : Z) : list (Z * Z * Z) := flat_map (fun i => flat_map (fun j => map (fun l => (i, j, l)) (zrange 27)) (zrange n)) (zrange n).
Lemma in_drow : forall n i j l, In (i, j, l) (drow_space n) <-> 0 <= i < n /\ 0 <= j < n /\ 0 <= l < 27.
Proof.
  intros. unfold drow_space. rewrite in_flat_map. split.
  - intros [a [Ha H]]. apply in_flat_map in H. destruct H as [b [Hb H]]. apply in_map_iff in H. destruct H as [c [E Hc]].
    apply in_zrange in Ha, Hb, Hc. injection E as -> -> ->. auto.
  - intros [Hp [Hj Hk]]. exists i. split; [now apply in_zrange|]. apply in_flat_map. exists j. split; [now apply in_zrange|].
    apply in_map_iff. exists l. split; [reflexivity|now apply in_zrange].
Qed.
Lemma nodup_drow : forall n, NoDup (drow_space n).
Proof.
  intros. apply NoDup_flat_map; [apply NoDup_zrange| |].
  - intros p _. apply NoDup_flat_map; [apply NoDup_zrange| |].
    + intros j _. apply FinFun.Injective_map_NoDup; [|apply NoDup_zrange]. intros k k' E. congruence.
    + intros j j' b _ _ H H'. apply in_map_iff in H, H'. destruct H as [k [<- _]], H' as [k' [E _]]. congruence.
  - intros i i' b _ _ H H'. apply in_flat_map in H, H'. destruct H as [j [_ H]], H' as [j' [_ H']].
    apply in_map_iff in H, H'. destruct H as [k [<- _]], H' as [k' [E _]]. congruence.
Qed.
Definition in_row (n p a : Z) : Prop := exists b c l, 0 <= b < n /\ 0 <= c < n /\ 0 <= l < 27 /\ a = (n * n * p + n * b + c) * 27 + l.
Lemma row_disjoint : forall n p p' a, in_row n p a -> in_row n p' a -> p = p'.
Proof.
  intros n p p' a [b [c [l [Hb [Hc [Hl ->]]]]]] [b' [c' [l' [Hb' [Hc' [Hl' E]]]]]].
  apply flat_inj in E; auto. destruct E as [E _].
  replace (n * n * p + n * b + c) with ((p * n + b) * n + c) in E by ring. replace (n * n * p' + n * b' + c') with ((p' * n + b') * n + c') in E by ring.
  apply flat_inj in E; auto. destruct E as [E _]. apply flat_inj in E; auto. apply E.
Qed.
Lemma drow_key_inj : forall n p x y, In x (drow_space n) -> In y (drow_space n) ->
  (n * n * p + n * fst (fst x) + snd (fst x)) * 27 + snd x = (n * n * p + n * fst (fst y) + snd (fst y)) * 27 + snd y -> x = y.
Proof.
  intros n p [[i j] l] [[i' j'] l'] H H' E. apply in_drow in H, H'. cbn [fst snd] in E. destruct H as [Hi [Hj Hl]], H' as [Hi' [Hj' Hl']].
  apply flat_inj in E; auto. destruct E as [E ->].
  replace (n * n * p + n * i + j) with ((p * n + i) * n + j) in E by ring. replace (n * n * p + n * i' + j') with ((p * n + i') * n + j') in E by ring.
  apply flat_inj in E; auto. destruct E as [E ->]. apply flat_inj in E; auto. destruct E as [_ ->]. reflexivity.
Qed.
Lemma off_range : forall q, In q comps -> 0 <= off q < 27.
Proof. intros [[i j] k] H. apply in_comps in H. unfold off. lia. Qed.
Lemma off_digits : forall i j k, In (i, j, k) comps -> Z.quot (off (i, j, k)) 9 = i /\ Z.quot (Z.rem (off (i, j, k)) 9) 3 = j /\ Z.rem (off (i, j, k)) 3 = k.
Proof.
  intros i j k H. apply in_comps in H. destruct H as [Hi [Hj Hk]].
  assert (i = 0 \/ i = 1 \/ i = 2) as [-> | [-> | ->]] by lia; assert (j = 0 \/ j = 1 \/ j = 2) as [-> | [-> | ->]] by lia;
  assert (k = 0 \/ k = 1 \/ k = 2) as [-> | [-> | ->]] by lia; repeat split; reflexivity.
Qed.
Lemma elem_rot3 : forall f (r : Z -> Z -> Q) q, In q comps ->
  tensor3_elem f (fun p => r (Z.rem p 3) (Z.quot p 3)) (off q) = rot3 (fun a b => r b a) (fun q' => f (off q')) q.
Proof.
  intros f r [[l m] n] H. unfold tensor3_elem, rot3. destruct (off_digits l m n H) as [-> [-> ->]]. apply in_comps in H. f_equal.
  apply map_ext_in. intros [[i j] k] H'. apply in_comps in H'.
  assert (K : forall a b, 0 <= a < 3 -> 0 <= b < 3 -> Z.rem (a * 3 + b) 3 = b /\ Z.quot (a * 3 + b) 3 = a).
  { intros a b Ha Hb. assert (a = 0 \/ a = 1 \/ a = 2) as [-> | [-> | ->]] by lia; assert (b = 0 \/ b = 1 \/ b = 2) as [-> | [-> | ->]] by lia; split; reflexivity. }
  destruct (K l i) as [-> ->]; [tauto|tauto|]. destruct (K m j) as [-> ->]; [tauto|tauto|]. destruct (K n k) as [-> ->]; [tauto|tauto|]. reflexivity.
Qed.
Lemma distribute_row_spec : forall tg src mp n r m, tg <> src -> (forall i, 0 <= i < n -> 0 <= mp i < n) ->
  (forall b c q, 0 <= b < n -> 0 <= c < n -> In q comps ->
     raw n (distribute_row tg src mp n (fun p => r (Z.rem p 3) (Z.quot p 3)) m) tg b c q = rot3 (fun a b => r b a) (raw n m src (mp b) (mp c)) q) /\
  (forall p b c q, p <> tg -> 0 <= b < n -> 0 <= c < n -> In q comps ->
     raw n (distribute_row tg src mp n (fun p => r (Z.rem p 3) (Z.quot p 3)) m) p b c q = raw n m p b c q).
Proof.
  intros tg src mp n r m NE MP. set (rr := fun p => r (Z.rem p 3) (Z.quot p 3)).
  set (key := fun x : Z * Z * Z => (n * n * tg + n * fst (fst x) + snd (fst x)) * 27 + snd x).
  set (val := fun (m : Z -> Q) (x : Z * Z * Z) => tensor3_elem (fun p => m ((n * n * src + n * mp (fst (fst x)) + mp (snd (fst x))) * 27 + p)) rr (snd x)).
  assert (EQ : distribute_row tg src mp n rr m = fold_left (fun m x => upd m (key x) (val m x)) (drow_space n) m).
  { unfold distribute_row, drow_space, tensor3_rotation. rewrite fold_flat_map. apply fold_ext. intros m1 i _. rewrite fold_flat_map. apply fold_ext. intros m2 j _.
    rewrite fold_map. reflexivity. }
  destruct (fold_write _ key val (in_row n src) (drow_space n) m) as [F1 F2].
  - intros [[i j] l] H K. apply in_drow in H. apply NE. apply (row_disjoint n tg src (key (i, j, l))); [|exact K].
    exists i, j, l. repeat split; try tauto.
  - intros [[i j] l] m1 m2 H E. apply in_drow in H. unfold val. cbn [fst snd]. unfold tensor3_elem. f_equal. apply map_ext_in. intros [[a b] c] Hc.
    f_equal. apply E. exists (mp i), (mp j), (a * 9 + b * 3 + c). pose proof (off_range (a, b, c) Hc) as R. unfold off in R.
    repeat split; try apply MP; try tauto; try lia.
  - apply nodup_drow.
  - intros x y Hx Hy E. apply (drow_key_inj n tg); auto.
  - split.
    + intros b c q Hb Hc Hq. unfold raw at 1. fold rr. rewrite EQ. pose proof (F1 (b, c, off q)) as H. unfold key at 2 in H. cbn [fst snd] in H.
      replace (tg * n * n + b * n + c) with (n * n * tg + n * b + c) by ring.
      rewrite H by (apply in_drow; pose proof (off_range q Hq); auto). unfold val. cbn [fst snd]. unfold rr. rewrite elem_rot3 by auto.
      destruct q as [[x y] z]. unfold rot3. f_equal. apply map_ext. intros [[i j] k]. unfold raw. f_equal. f_equal. ring.
    + intros p b c q Hp Hb Hc Hq. unfold raw. fold rr. rewrite EQ. apply F2. intros K. apply in_map_iff in K. destruct K as [[[i j] l] [E Hx]]. apply in_drow in Hx.
      apply Hp. apply (row_disjoint n p tg ((p * n * n + b * n + c) * 27 + off q)).
      * exists b, c, (off q). pose proof (off_range q Hq). repeat split; try tauto; try lia.
      * exists i, j, l. unfold key in E. cbn [fst snd] in E. repeat split; try tauto. symmetry. exact E.
Qed.

(** ** the search *)
Lemma find_first_some : forall A (f : A -> bool) l x, find_first f l = Some x -> In x l /\ f x = true.
Proof. intros A f. induction l as [|y l IH]; cbn; intros x H; [discriminate|]. destruct (f y) eqn:E; [injection H as ->; auto|]. destruct (IH x H). auto. Qed.
Lemma choose_in : forall o l g, choose_op o l = Some g -> In g l.
Proof.
  intros o l g H. unfold choose_op in H. destruct (find_first (op_pure o) l) eqn:E.
  - injection H as ->. now apply find_first_some in E.
  - destruct l; cbn in H; [discriminate|]. injection H as ->. left; auto.
Qed.
Lemma choose_none : forall o l, choose_op o l = None -> l = [].
Proof. intros o l H. unfold choose_op in H. destruct (find_first (op_pure o) l); [discriminate|]. destruct l; [auto|discriminate]. Qed.
Lemma in_rot_indices : forall o tg dn g, In g (rot_indices o tg dn) <-> 0 <= g < op_n o /\ op_perm o g tg = dn.
Proof. intros. unfold rot_indices. rewrite filter_In, in_zrange, Z.eqb_eq. tauto. Qed.
Lemma find_source_some : forall o tg l dn g, find_source o tg l = Some (dn, g) -> In dn l /\ 0 <= g < op_n o /\ op_perm o g tg = dn.
Proof.
  intros o tg. induction l as [|d l IH]; intros dn g H; cbn in H; [discriminate|].
  destruct (choose_op o (rot_indices o tg d)) eqn:E.
  - injection H as -> ->. apply choose_in, in_rot_indices in E. split; [left; auto|exact E].
  - destruct (IH _ _ H). split; [right; auto|auto].
Qed.
Lemma find_source_none : forall o tg l, find_source o tg l = None <-> (forall g, 0 <= g < op_n o -> ~ In (op_perm o g tg) l).
Proof.
  intros o tg. induction l as [|d l IH]; cbn; [split; [intros _ g _ []|auto]|].
  destruct (choose_op o (rot_indices o tg d)) as [g|] eqn:E.
  - apply choose_in, in_rot_indices in E. split; [discriminate|]. intros H. exfalso. apply (H g); [tauto|]. left. symmetry. tauto.
  - apply choose_none in E. rewrite IH. split.
    + intros H g Hg [K|K]; [|apply (H g); auto]. assert (In g (rot_indices o tg d)) by (apply in_rot_indices; split; auto). rewrite E in *. auto.
    + intros H g Hg K. apply (H g Hg). auto.
Qed.

(** ** distribute_fc3 *)
Lemma distribute_rows : forall o n F0 s2c firsts targets m m', invariant o n F0 ->
  distribute_fc3 o s2c n firsts targets m = Some m' ->
  (forall a, In a firsts \/ In a targets -> 0 <= a < n) ->
  (forall a b, In a firsts \/ In a targets -> In b firsts \/ In b targets -> s2c a = s2c b -> a = b) ->
  (forall a, In a targets -> ~ In a firsts) ->
  (forall a, In a firsts -> row_is n F0 m (s2c a) a) ->
  (forall a, In a firsts \/ In a targets -> row_is n F0 m' (s2c a) a).
Proof.
  intros o n F0 s2c firsts. induction targets as [|tg l IH]; intros m m' IV E R I D C; cbn in E.
  - injection E as <-. intros a [Ha|[]]. auto.
  - destruct (find_source o tg firsts) as [[dn g]|] eqn:FS; [|discriminate]. apply find_source_some in FS. destruct FS as [Hd [Hg Hm]].
    set (m1 := distribute_row (s2c tg) (s2c dn) (op_perm o g) n (fun p => op_cart o g (Z.rem p 3) (Z.quot p 3)) m) in *.
    assert (NE : s2c tg <> s2c dn). { intros K. apply I in K; [|right; left; auto|left; auto]. apply (D tg); [left; auto|]. now rewrite K. }
    assert (RT : 0 <= tg < n) by (apply R; right; left; auto).
    destruct (distribute_row_spec (s2c tg) (s2c dn) (op_perm o g) n (op_cart o g) m NE) as [S1 S2]; [intros i Hi; apply (iv_perm _ _ _ IV); auto|]. fold m1 in S1, S2.
    assert (T1 : row_is n F0 m1 (s2c tg) tg).
    { intros b c q Hb Hc Hq. rewrite S1 by auto.
      assert (X : forall q, In q comps -> Qeq (raw n m (s2c dn) (op_perm o g b) (op_perm o g c) q) (rot3 (op_cart o g) (F0 tg b c) q)).
      { intros q' Hq'. pose proof (C dn Hd) as CD. unfold row_is in CD. rewrite CD by (try apply (iv_perm _ _ _ IV); auto). rewrite <- Hm. apply (iv_rot _ _ _ IV); auto. }
      rewrite <- (unrotate (op_cart o g) (F0 tg b c) q (iv_orth _ _ _ IV g Hg) Hq).
      destruct q as [[x y] z]. unfold rot3 at 1 2. apply qs_ext. intros [[i j] k] Hq'. rewrite X by auto. reflexivity. }
    assert (C1 : forall a, In a firsts -> row_is n F0 m1 (s2c a) a).
    { intros a Ha b c q Hb Hc Hq. rewrite S2; [apply C; auto| |auto|auto|auto]. intros K. apply I in K; [|left; auto|right; left; auto]. subst a. apply (D tg); [left; auto|auto]. }
    (* later targets never overwrite row tg wrongly: either tg occurs again, or its row is kept *)
    assert (G : forall l m1 m', (forall a, In a firsts \/ In a l -> 0 <= a < n) ->
       (forall a b, In a (tg :: firsts) \/ In a l -> In b (tg :: firsts) \/ In b l -> s2c a = s2c b -> a = b) ->
       distribute_fc3 o s2c n firsts l m1 = Some m' -> ~ In tg l -> row_is n F0 m1 (s2c tg) tg -> row_is n F0 m' (s2c tg) tg).
    { clear - RT IV. induction l as [|u l IHl]; intros m1 m' R I E N H; cbn in E; [injection E as <-; auto|].
      destruct (find_source o u firsts) as [[d g]|] eqn:FS; [|discriminate]. apply find_source_some in FS. destruct FS as [Hd [Hg Hm]].
      eapply IHl; [| |exact E| |].
      - intros a [Ha|Ha]; apply R; [left; auto|right; right; auto].
      - intros a b [Ha|Ha] [Hb|Hb]; apply I; auto; right; right; auto.
      - intros K. apply N. right; auto.
      - destruct (Z.eq_dec (s2c u) (s2c d)) as [Ed|Nd].
        + (* u and d in the same row: then u = d *) intros b c q Hb Hc Hq.
          assert (u = d) by (apply I; auto; [right; left; auto|left; right; auto]). subst u.
          unfold raw. assert (XX : distribute_row (s2c d) (s2c d) (op_perm o g) n (fun p => op_cart o g (Z.rem p 3) (Z.quot p 3)) m1 ((s2c tg * n * n + b * n + c) * 27 + off q) = m1 ((s2c tg * n * n + b * n + c) * 27 + off q)).
          { unfold distribute_row.
            assert (Y : forall P l (f : Z -> (Z -> Q) -> Z -> Q) m, (forall i m, In i l -> f i m P = m P) -> fold_left (fun m i => f i m) l m P = m P).
            { intros P. induction l0 as [|i l0 IH0]; intros f m H0; cbn; [auto|]. rewrite IH0 by (intros; apply H0; right; auto). apply H0; left; auto. }
            apply (Y _ (zrange n) (fun i m => fold_left _ (zrange n) m)). intros i m2 Hi. apply (Y _ (zrange n) (fun j m => tensor3_rotation _ _ _ m)). intros j m3 Hj.
            unfold tensor3_rotation. apply (Y _ (zrange 27) (fun l m => upd m _ _)). intros x m4 Hx. apply upd_other. intros K.
            apply in_zrange in Hi, Hj, Hx.
            assert (s2c tg = s2c d). { apply (row_disjoint n _ _ ((s2c tg * n * n + b * n + c) * 27 + off q)).
              - exists b, c, (off q). pose proof (off_range q Hq). repeat split; try tauto; try lia.
              - exists i, j, x. repeat split; try tauto; try lia. }
            apply N. left. apply I; auto; [left; right; auto|left; left; auto]. }
          rewrite XX. apply (H b c q); auto.
        + destruct (distribute_row_spec (s2c u) (s2c d) (op_perm o g) n (op_cart o g) m1 Nd) as [S1 S2]; [intros i Hi; apply (iv_perm _ _ _ IV); auto|].
          intros b c q Hb Hc Hq. rewrite S2; [apply H; auto| |auto|auto|auto]. intros K. apply N. left. symmetry. apply I; auto; [left; left; auto|right; left; auto]. }
    assert (R1 : forall a, In a firsts \/ In a l -> 0 <= a < n) by (intros a [Ha|Ha]; apply R; [left; auto|right; right; auto]).
    assert (I1 : forall a b, In a firsts \/ In a l -> In b firsts \/ In b l -> s2c a = s2c b -> a = b) by (intros a b [Ha|Ha] [Hb|Hb]; apply I; auto; right; right; auto).
    pose proof (IH m1 m' IV E R1 I1 ltac:(intros a Ha; apply D; right; auto) C1) as IH'.
    intros a [Ha|[<-|Ha]]; [apply IH'; auto| |apply IH'; auto].
    destruct (in_dec Z.eq_dec tg l) as [Y|N]; [apply IH'; auto|]. eapply G; [exact R1| |exact E|exact N|exact T1].
    intros a b [[<-|Ha]|Ha] [[<-|Hb]|Hb]; apply I; auto; try (right; left; reflexivity); right; right; auto.
Qed.
Lemma distribute_succeeds : forall o s2c n firsts targets m,
  (forall a, In a targets -> exists g, 0 <= g < op_n o /\ In (op_perm o g a) firsts) <-> exists m', distribute_fc3 o s2c n firsts targets m = Some m'.
Proof.
  intros o s2c n firsts. induction targets as [|tg l IH]; intros m; cbn.
  - split; [eauto|intros _ a []].
  - destruct (find_source o tg firsts) as [[dn g]|] eqn:FS.
    + rewrite <- IH. split; [intros H a Ha; apply H; auto|]. intros H a [<-|Ha]; [|auto]. apply find_source_some in FS. exists g. destruct FS as [? [? ->]]. auto.
    + split; [|intros [m' K]; discriminate]. intros H. destruct (H tg ltac:(auto)) as [g [Hg K]]. exfalso. rewrite find_source_none in FS. apply (FS g Hg K).
Qed.
Lemma memb_in : forall l a, memb l a = true <-> In a l.
Proof. intros l a. unfold memb. rewrite existsb_exists. split; [intros [x [H E]]; apply Z.eqb_eq in E; now subst|intros H; exists a; split; [auto|apply Z.eqb_refl]]. Qed.
Lemma in_unique : forall n l a, In a (unique n l) <-> In a l /\ 0 <= a < n.
Proof. intros. unfold unique. rewrite filter_In, memb_in, in_zrange. tauto. Qed.

(** C29: if the rows of the displaced atoms hold the force constants F0 of a crystal invariant under
    the operations, then after a successful expansion every row of the array does: row s2c(p) for
    every primitive atom p in the compact layout, every supercell atom in the full layout. *)
Theorem C29_distribution_reconstructs : forall o n F0 s2c p2s numbers compact m m', invariant o n F0 ->
  (forall p, In p p2s -> 0 <= p < n) ->
  (forall p p', In p p2s -> In p' p2s -> s2c p = s2c p' -> p = p') ->
  expand_fc3 o s2c n p2s numbers compact m = Some m' ->
  (forall a, In a numbers -> 0 <= a < n -> row_is n F0 m (if compact then s2c a else a) a) ->
  if compact then forall p, In p p2s -> row_is n F0 m' (s2c p) p
  else forall a, 0 <= a < n -> row_is n F0 m' a a.
Proof.
  intros o n F0 s2c p2s numbers compact m m' IV R I E C. unfold expand_fc3 in E. set (firsts := unique n numbers) in *.
  destruct (forallb (memb p2s) firsts) eqn:A; [|discriminate]. rewrite forallb_forall in A.
  assert (A' : forall a, In a firsts -> In a p2s) by (intros a Ha; apply memb_in; auto).
  assert (T : forall l a, In a (filter (fun i => negb (memb firsts i)) l) <-> In a l /\ ~ In a firsts).
  { intros l a. rewrite filter_In, negb_true_iff, <- not_true_iff_false, memb_in. tauto. }
  assert (CF : forall a, In a firsts -> row_is n F0 m (if compact then s2c a else a) a) by (intros a Ha; apply in_unique in Ha; apply C; tauto).
  set (targets := filter (fun i => negb (memb firsts i)) p2s) in *.
  assert (RR : forall a, In a firsts \/ In a targets -> 0 <= a < n).
  { intros a [Ha|Ha]; [apply in_unique in Ha; tauto|]. apply T in Ha. apply R. tauto. }
  assert (DD : forall a, In a targets -> ~ In a firsts) by (intros a Ha; apply T in Ha; tauto).
  assert (ALL : forall p, In p p2s -> In p firsts \/ In p targets).
  { intros p Hp. destruct (in_dec Z.eq_dec p firsts); [auto|right; apply T; auto]. }
  destruct compact.
  - intros p Hp. apply (distribute_rows o n F0 s2c firsts targets m m' IV E RR); auto.
    intros a b Ha Hb. apply I; [destruct Ha as [Ha|Ha]|destruct Hb as [Hb|Hb]]; try (now apply A'); now apply T.
  - destruct (distribute_fc3 o (fun i => i) n firsts targets m) as [m1|] eqn:E1; [|discriminate].
    set (firsts' := unique n (firsts ++ p2s)) in *.
    assert (C1 : forall a, In a firsts' -> row_is n F0 m1 a a).
    { intros a Ha. apply in_unique in Ha. destruct Ha as [Ha _]. apply in_app_iff in Ha.
      apply (distribute_rows o n F0 (fun i => i) firsts targets m m1 IV E1 RR); auto. destruct Ha as [Ha|Ha]; auto. }
    intros a Ha. eapply (distribute_rows o n F0 (fun i => i) firsts' _ m1 m' IV E); auto.
    + intros b [Hb|Hb]; [apply in_unique in Hb; tauto|]. apply filter_In in Hb. now apply in_zrange.
    + intros b Hb K. apply filter_In in Hb. destruct Hb as [_ Hb]. apply negb_true_iff in Hb. apply memb_in in K. congruence.
    + destruct (memb firsts' a) eqn:M; [left; now apply memb_in|right]. apply filter_In. split; [now apply in_zrange|]. now rewrite M.
Qed.
Print Assumptions C29_distribution_reconstructs.
(** It fails exactly when a displaced atom is outside the primitive cell or some atom to be filled
    cannot be mapped; when every atom can be mapped onto a displaced one it succeeds. *)
Theorem C29_distribution_succeeds : forall o s2c n p2s numbers compact m,
  (forall a, In a numbers -> 0 <= a < n -> In a p2s) -> (forall p, In p p2s -> 0 <= p < n) ->
  (forall a, 0 <= a < n -> exists g, 0 <= g < op_n o /\ In (op_perm o g a) numbers /\ 0 <= op_perm o g a < n) ->
  exists m', expand_fc3 o s2c n p2s numbers compact m = Some m'.
Proof.
  intros o s2c n p2s numbers compact m A R G. unfold expand_fc3. set (firsts := unique n numbers).
  assert (AF : forallb (memb p2s) firsts = true) by (apply forallb_forall; intros a Ha; apply in_unique in Ha; apply memb_in, A; tauto). rewrite AF.
  assert (GF : forall a, 0 <= a < n -> exists g, 0 <= g < op_n o /\ In (op_perm o g a) firsts).
  { intros a Ha. destruct (G a Ha) as [g [Hg [H1 H2]]]. exists g. split; [auto|]. now apply in_unique. }
  destruct compact.
  - apply distribute_succeeds. intros a Ha. apply filter_In in Ha. apply GF, R. tauto.
  - destruct (proj1 (distribute_succeeds o (fun i => i) n firsts (filter (fun i => negb (memb firsts i)) p2s) m)) as [m1 E].
    + intros a Ha. apply filter_In in Ha. apply GF, R. tauto.
    + rewrite E. apply distribute_succeeds. intros a Ha. apply filter_In in Ha. destruct Ha as [Ha _]. apply in_zrange in Ha. destruct (GF a Ha) as [g [Hg H]].
      exists g. split; [auto|]. apply in_unique. split; [apply in_app_iff; auto|]. apply in_unique in H. tauto.
Qed.
Print Assumptions C29_distribution_succeeds.
(** Two atoms exchanged by an inversion: the second row is the negative of the first. *)
Definition inv_ops : Ops := {| op_n := 2; op_perm := fun g i => if g =? 0 then i else 1 - i; op_pure := fun g => g =? 0;
  op_cart := fun g a b => if a =? b then (if g =? 0 then 1%Q else (-1)%Q) else 0%Q |}.
Definition sgn_fc (a b c : Z) (q : Z * Z * Z) : Q := if a =? 0 then 1%Q else (-1)%Q.
Lemma comps_list : comps = ltac:(let x := eval vm_compute in comps in exact x). Proof. reflexivity. Qed.
Example C29_ex :
  invariant inv_ops 2 sgn_fc /\
  exists m', expand_fc3 inv_ops (fun i => i) 2 [0; 1] [0] false (fun a => if a <? 108 then 1%Q else 5%Q) = Some m' /\
    row_is 2 sgn_fc (fun a => if a <? 108 then 1%Q else 5%Q) 0 0 /\ Qeq (raw 2 m' 1 0 1 (0, 1, 2)) (-1).
Proof.
  split.
  - constructor.
    + intros g i Hg Hi. cbn [op_perm op_n inv_ops] in *. destruct (g =? 0); lia.
    + intros g Hg i j Hi Hj. cbn in *.
      assert (i = 0 \/ i = 1 \/ i = 2) as [-> | [-> | ->]] by lia; assert (j = 0 \/ j = 1 \/ j = 2) as [-> | [-> | ->]] by lia; destruct (g =? 0); reflexivity.
    + intros g i j k q Hg Hi Hj Hk Hq. cbn in Hg. assert (g = 0 \/ g = 1) as [-> | ->] by lia; assert (i = 0 \/ i = 1) as [-> | ->] by lia;
      rewrite comps_list in Hq; cbn [In] in Hq; repeat destruct Hq as [Hq|Hq]; subst; try contradiction; vm_compute; reflexivity.
  - eexists. split; [reflexivity|]. split; [|vm_compute; reflexivity].
    intros b c q Hb Hc Hq. assert (b = 0 \/ b = 1) as [-> | ->] by lia; assert (c = 0 \/ c = 1) as [-> | ->] by lia;
      rewrite comps_list in Hq; cbn [In] in Hq; repeat destruct Hq as [Hq|Hq]; subst; try contradiction; vm_compute; reflexivity.
Qed.

(** ** C30: cutoff *)
Lemma zero_block_spec : forall B C q m, In q comps -> zero_block B m (C * 27 + off q) = if C =? B then 0%Q else m (C * 27 + off q).
Proof.
  intros B C q m Hq. unfold zero_block. destruct (Z.eqb_spec C B) as [->|N].
  - apply (fold_upd_in _ (fun q => B * 27 + off q) (fun _ => 0%Q) comps m q NoDup_comps); auto. intros x y Hx Hy E. apply off_inj in E; auto. apply E.
  - apply (fold_upd_other _ (fun q => B * 27 + off q) (fun _ => 0%Q)). intros K. apply in_map_iff in K. destruct K as [q' [E Hq']]. apply off_inj in E; auto. destruct E; congruence.
Qed.
Lemma fold_zero : forall X (h : X -> bool) (blk : X -> Z) l m C q, In q comps ->
  fold_left (fun m x => if h x then zero_block (blk x) m else m) l m (C * 27 + off q) =
  if existsb (fun x => h x && (C =? blk x)) l then 0%Q else m (C * 27 + off q).
Proof.
  intros X h blk. induction l as [|x l IH]; intros m C q Hq; cbn [fold_left existsb]; [reflexivity|]. rewrite IH by auto.
  destruct (existsb _ l); [now rewrite orb_true_r|]. rewrite orb_false_r. destruct (h x); cbn [andb]; [now apply zero_block_spec|reflexivity].
Qed.
Lemma cutoff_loop_fold : forall dist cut n rows m, cutoff_loop dist cut n rows m =
  fold_left (fun m x => if cutoff_hit dist cut (snd (fst x)) (fst (snd x)) (snd (snd x)) then zero_block (fst (fst x) * n * n + fst (snd x) * n + snd (snd x)) m else m)
    (flat_map (fun ii => map (fun jk => (ii, jk)) (pairs n n)) rows) m.
Proof. intros. unfold cutoff_loop. rewrite fold_flat_map. apply fold_ext. intros m1 ii _. rewrite fold_map. reflexivity. Qed.
Definition too_far (dist : Z -> Z -> Q) (cut : Q) (i j k : Z) : Prop := Qlt cut (dist i j) \/ Qlt cut (dist j k) \/ Qlt cut (dist k i).
Lemma cutoff_hit_iff : forall dist cut i j k, cutoff_hit dist cut i j k = true <-> too_far dist cut i j k.
Proof.
  intros. unfold cutoff_hit, too_far. cbn [existsb fst snd].
  assert (E : forall a b, negb (Qle_bool a b) = true <-> Qlt b a).
  { intros a b. rewrite negb_true_iff, <- not_true_iff_false, Qle_bool_iff. split; [apply Qnot_le_lt|apply Qlt_not_le]. }
  rewrite !orb_true_iff, !E. intuition discriminate.
Qed.
Lemma nth_enumerate : forall l p i, In (p, i) (enumerate l) <-> 0 <= p /\ nth_error l (Z.to_nat p) = Some i.
Proof.
  assert (G : forall (l : list Z) s p i, In (p, i) (combine (map Z.of_nat (seq s (length l))) l) <-> Z.of_nat s <= p /\ nth_error l (Z.to_nat p - s) = Some i).
  { induction l as [|x l IH]; intros s p i; cbn [length seq map combine In].
    - split; [intros []|]. intros [_ H]. destruct (Z.to_nat p - s)%nat; discriminate.
    - rewrite IH. split.
      + intros [E|[H1 H2]]; [injection E as <- <-; split; [lia|]; now rewrite Nat2Z.id, Nat.sub_diag|]. split; [lia|].
        replace (Z.to_nat p - s)%nat with (Datatypes.S (Z.to_nat p - Datatypes.S s)) by lia. exact H2.
      + intros [H1 H2]. destruct (Z.eq_dec p (Z.of_nat s)) as [->|N].
        * left. rewrite Nat2Z.id, Nat.sub_diag in H2. cbn in H2. congruence.
        * right. split; [lia|]. replace (Z.to_nat p - s)%nat with (Datatypes.S (Z.to_nat p - Datatypes.S s)) in H2 by lia. exact H2. }
  intros l p i. unfold enumerate, zrange. rewrite Nat2Z.id, G. now rewrite Nat.sub_0_r.
Qed.
Lemma cutoff_loop_spec : forall dist cut n l m p i b c q, 0 <= p -> nth_error l (Z.to_nat p) = Some i -> 0 <= b < n -> 0 <= c < n -> In q comps ->
  (too_far dist cut i b c -> raw n (cutoff_loop dist cut n (enumerate l) m) p b c q = 0%Q) /\
  (~ too_far dist cut i b c -> raw n (cutoff_loop dist cut n (enumerate l) m) p b c q = raw n m p b c q).
Proof.
  intros dist cut n l m p i b c q Hp Hi Hb Hc Hq. unfold raw. rewrite cutoff_loop_fold, fold_zero by auto.
  set (e := existsb _ _). assert (E : e = true <-> too_far dist cut i b c).
  { unfold e. rewrite existsb_exists, <- cutoff_hit_iff. split.
    - intros [[[p' i'] [b' c']] [H1 H2]]. cbn [fst snd] in H2. apply andb_true_iff in H2. destruct H2 as [H2 H3]. apply Z.eqb_eq in H3.
      apply in_flat_map in H1. destruct H1 as [ii [Hii H1]]. apply in_map_iff in H1. destruct H1 as [jk [E1 H1]]. injection E1 as -> ->. apply in_pairs in H1.
      replace (p * n * n + b * n + c) with ((p * n + b) * n + c) in H3 by ring. replace (p' * n * n + b' * n + c') with ((p' * n + b') * n + c') in H3 by ring.
      apply flat_inj in H3; try tauto. destruct H3 as [H3 ->]. apply flat_inj in H3; try tauto. destruct H3 as [-> ->].
      apply nth_enumerate in Hii. destruct Hii as [_ Hii]. rewrite Hi in Hii. injection Hii as ->. exact H2.
    - intros H. exists ((p, i), (b, c)). cbn [fst snd]. rewrite H, Z.eqb_refl. split; [|reflexivity].
      apply in_flat_map. exists (p, i). split; [now apply nth_enumerate|]. apply in_map_iff. exists (b, c). split; [reflexivity|]. now apply in_pairs. }
  split; intros H.
  - apply E in H. now rewrite H.
  - destruct e; [exfalso; apply H, E; reflexivity|reflexivity].
Qed.
(** Element [row, b, c] is zeroed exactly when a pair of the triplet (atom of the row, b, c) is
    farther apart than the cutoff, and untouched otherwise; the call fails exactly when the number of
    rows is neither the number of atoms nor the length of the given map. *)
Theorem C30_cutoff : forall dist cut n shape0 p2s m, 0 <= n ->
  (cutoff_fc3_by_zero dist cut n shape0 p2s m = None <-> shape0 <> n /\ match p2s with None => True | Some l => Z.of_nat (length l) <> shape0 end) /\
  (forall m', cutoff_fc3_by_zero dist cut n shape0 p2s m = Some m' ->
   forall p b c q, 0 <= p < shape0 -> 0 <= b < n -> 0 <= c < n -> In q comps ->
   exists i, (shape0 = n -> i = p) /\ (shape0 <> n -> exists l, p2s = Some l /\ nth_error l (Z.to_nat p) = Some i) /\
     (too_far dist cut i b c -> raw n m' p b c q = 0%Q) /\ (~ too_far dist cut i b c -> raw n m' p b c q = raw n m p b c q)).
Proof.
  intros dist cut n shape0 p2s m Hn. unfold cutoff_fc3_by_zero. split.
  - destruct (Z.eqb_spec shape0 n); [split; [discriminate|tauto]|]. destruct p2s as [l|]; [|tauto].
    destruct (Z.eqb_spec (Z.of_nat (length l)) shape0); cbn; [split; [discriminate|tauto]|tauto].
  - intros m' E p b c q Hp Hb Hc Hq. destruct (Z.eqb_spec shape0 n) as [->|N].
    + injection E as <-. exists p. split; [auto|]. split; [congruence|]. apply cutoff_loop_spec; auto; [lia|].
      unfold zrange. rewrite nth_error_map, nth_error_nth' with (d := 0%nat) by (rewrite seq_length; lia). rewrite seq_nth by lia. cbn. f_equal. lia.
    + destruct p2s as [l|]; [|discriminate]. destruct (Z.eqb_spec (Z.of_nat (length l)) shape0) as [L|L]; cbn in E; [|discriminate]. injection E as <-.
      destruct (nth_error l (Z.to_nat p)) as [i|] eqn:Ei.
      * exists i. split; [congruence|]. split; [intros _; exists l; auto|]. apply cutoff_loop_spec; auto. lia.
      * apply nth_error_None in Ei. lia.
Qed.
Print Assumptions C30_cutoff.
(** With symmetric distances the cutoff respects index-permutation symmetry of a full array. *)
Theorem C30_cutoff_keeps_symmetry : forall dist cut n p2s m m', (forall i j, Qeq (dist i j) (dist j i)) ->
  cutoff_fc3_by_zero dist cut n n p2s m = Some m' -> symmetric3 n (full n m) -> symmetric3 n (full n m').
Proof.
  intros dist cut n p2s m m' D E S x y z Hx Hy Hz. pose proof (proj1 Hx) as Ha. pose proof (proj1 Hy) as Hb. pose proof (proj1 Hz) as Hc.
  destruct (C30_cutoff dist cut n n p2s m ltac:(lia)) as [_ K]. specialize (K m' E).
  assert (V : forall x y z, slot_ok n x -> slot_ok n y -> slot_ok n z ->
     (too_far dist cut (fst x) (fst y) (fst z) -> full n m' x y z = 0%Q) /\ (~ too_far dist cut (fst x) (fst y) (fst z) -> full n m' x y z = full n m x y z)).
  { intros u v w [Hu Hu1] [Hv Hv1] [Hw Hw1]. rewrite !raw_full. destruct (K (fst u) (fst v) (fst w) (snd u, snd v, snd w)) as [i [I1 [_ I2]]]; auto; [apply in_comps; auto|].
    rewrite (I1 eq_refl) in I2. exact I2. }
  assert (P : forall a b c a' b' c', (too_far dist cut a b c -> too_far dist cut a' b' c') -> (too_far dist cut a' b' c' -> too_far dist cut a b c) ->
    {too_far dist cut a b c} + {~ too_far dist cut a b c}).
  { intros a b c _ _ _ _ _. destruct (cutoff_hit dist cut a b c) eqn:H; [left; now apply cutoff_hit_iff|right]. intros K0. apply cutoff_hit_iff in K0. congruence. }
  assert (T1 : forall a b c, too_far dist cut a b c <-> too_far dist cut b a c) by (intros; unfold too_far; rewrite (D a b), (D b c), (D c a); tauto).
  assert (T2 : forall a b c, too_far dist cut a b c <-> too_far dist cut a c b) by (intros; unfold too_far; rewrite (D a b), (D b c), (D c a); tauto).
  destruct (S x y z Hx Hy Hz) as [S1 S2].
  destruct (P (fst x) (fst y) (fst z) (fst x) (fst y) (fst z)) as [F|F]; auto.
  - rewrite !(proj1 (V _ _ _ Hx Hy Hz) F). split.
    + rewrite (proj1 (V y x z Hy Hx Hz)) by (now apply T1). reflexivity.
    + rewrite (proj1 (V x z y Hx Hz Hy)) by (now apply T2). reflexivity.
  - rewrite !(proj2 (V _ _ _ Hx Hy Hz) F). split.
    + rewrite (proj2 (V y x z Hy Hx Hz)); [exact S1|]. intros K0. apply F. now apply T1.
    + rewrite (proj2 (V x z y Hx Hz Hy)); [exact S2|]. intros K0. apply F. now apply T2.
Qed.
Print Assumptions C30_cutoff_keeps_symmetry.
(** but a translationally invariant array is in general not invariant after the cutoff *)
Theorem C30_cutoff_sum_rule_refuted :
  exists dist cut m m', (forall i j, Qeq (dist i j) (dist j i)) /\ zero_sums 2 (full 2 m) /\
    cutoff_fc3_by_zero dist cut 2 2 None m = Some m' /\ ~ zero_sums 2 (full 2 m').
Proof.
  exists (fun i j => if i =? j then 0%Q else 1%Q), (1 # 2)%Q,
    (fun a => if (a / 27) =? 0 then 1%Q else if (a / 27) =? 1 then (-1)%Q else if (a / 27) =? 2 then (-1)%Q else if (a / 27) =? 3 then 1%Q
              else if (a / 27) =? 4 then (-1)%Q else if (a / 27) =? 5 then 1%Q else if (a / 27) =? 6 then 1%Q else (-1)%Q).
  eexists. split; [intros i j; rewrite Z.eqb_sym; reflexivity|]. split; [|split; [reflexivity|]].
  - intros i [ya yi] [za zi] Hi [Hy Hy1] [Hz Hz1]. cbn [fst snd] in *.
    assert (ya = 0 \/ ya = 1) as [-> | ->] by lia; assert (za = 0 \/ za = 1) as [-> | ->] by lia;
    assert (i = 0 \/ i = 1 \/ i = 2) as [-> | [-> | ->]] by lia; assert (yi = 0 \/ yi = 1 \/ yi = 2) as [-> | [-> | ->]] by lia;
    assert (zi = 0 \/ zi = 1 \/ zi = 2) as [-> | [-> | ->]] by lia; vm_compute; auto.
  - intros H. destruct (H 0 (0, 0) (0, 0) ltac:(lia) ltac:(split; cbn; lia) ltac:(split; cbn; lia)) as [K _]. vm_compute in K. discriminate.
Qed.
Print Assumptions C30_cutoff_sum_rule_refuted.
Example C30_ex :
  let dist := fun i j => if i =? j then 0%Q else 1%Q in
  exists m', cutoff_fc3_by_zero dist (1 # 2) 2 1 (Some [1]) (fun _ => 3%Q) = Some m' /\
    raw 2 m' 0 1 1 (0, 0, 0) = 3%Q /\ raw 2 m' 0 0 0 (0, 0, 0) = 0%Q.
Proof. eexists. split; [reflexivity|]. vm_compute. auto. Qed.

(** ** C60: the row of a displaced atom solved from the changes of fc2 *)
(** delta fc2 exactly linear in the displacement, tensor invariant under the site symmetries, inv_U a
    left inverse of the stacked rotated displacements: the solution is the tensor. *)
Theorem C60_first_row_exact : forall n nsym ndisp (F0 : Z -> Z -> Z * Z * Z -> Q) u inv_U delta cart rmap,
  0 < nsym -> 0 <= ndisp ->
  (forall j a, 0 <= j < nsym -> 0 <= a < n -> 0 <= rmap j a < n) ->
  (forall j, 0 <= j < nsym -> orthogonal (cart j)) ->
  (forall j a b q, 0 <= j < nsym -> 0 <= a < n -> 0 <= b < n -> In q comps -> Qeq (F0 a b q) (rot3 (cart j) (F0 (rmap j a) (rmap j b)) q)) ->
  (forall i a b l m, 0 <= i < ndisp -> 0 <= a < n -> 0 <= b < n -> 0 <= l < 3 -> 0 <= m < 3 ->
     Qeq (delta i a b l m) (sum3 (fun k => u i k * F0 a b (k, l, m))%Q)) ->
  (forall k k', 0 <= k < 3 -> 0 <= k' < 3 ->
     Qeq (qsum (map (fun nn => inv_U k nn * sum3 (fun x => cart (Z.rem nn nsym) k' x * u (Z.quot nn nsym) x))%Q (zrange (nsym * ndisp)))) (if k =? k' then 1 else 0)) ->
  forall a b k l m, 0 <= a < n -> 0 <= b < n -> 0 <= k < 3 -> 0 <= l < 3 -> 0 <= m < 3 ->
  Qeq (rotate_delta_fc2 inv_U delta cart rmap nsym ndisp a b k l m) (F0 a b (k, l, m)).
Proof.
  intros n nsym ndisp F0 u inv_U delta cart rmap Hs Hd RM OR IV LIN INV a b k l m Ha Hb Hk Hl Hm. unfold rotate_delta_fc2.
  set (U := fun nn k' => sum3 (fun x => cart (Z.rem nn nsym) k' x * u (Z.quot nn nsym) x)%Q).
  assert (R : forall nn, In nn (zrange (nsym * ndisp)) -> Qeq (rot_delta_fc2 delta cart rmap nsym a b nn l m) (sum3 (fun k' => U nn k' * F0 a b (k', l, m))%Q)).
  { intros nn Hn. apply in_zrange in Hn. unfold rot_delta_fc2.
    assert (Hj : 0 <= Z.rem nn nsym < nsym) by (apply Z.rem_bound_pos; lia).
    assert (Hi : 0 <= Z.quot nn nsym < ndisp) by (split; [apply Z.quot_pos; lia|apply Z.quot_lt_upper_bound; lia]).
    unfold U. set (j := Z.rem nn nsym) in *. set (i := Z.quot nn nsym) in *. set (c := cart j). set (T := F0 (rmap j a) (rmap j b)).
    assert (E1 : Qeq (tensor2_rot c (delta i (rmap j a) (rmap j b)) l m) (sum3 (fun y => c l y * sum3 (fun z => c m z * sum3 (fun x => u i x * T (x, y, z))))%Q)).
    { unfold tensor2_rot. rewrite (qs_ext _ _ (fun kl => (c l (fst kl) * c m (snd kl) * sum3 (fun x => u i x * T (x, fst kl, snd kl)))%Q)).
      - change (pairs 3 3) with (ltac:(let x := eval vm_compute in (pairs 3 3) in exact x)). cbn [map fst snd]. rewrite !qs_cons, qs_nil. unfold sum3. ring.
      - intros [y z] Hyz. apply in_pairs in Hyz. cbn [fst snd]. rewrite LIN; try tauto; try (apply RM; auto). reflexivity. }
    rewrite E1.
    assert (E2 : Qeq (sum3 (fun k' => sum3 (fun x => c k' x * u i x) * F0 a b (k', l, m))%Q)
                     (sum3 (fun x => u i x * sum3 (fun k' => c k' x * sum3 (fun x' => c k' x' * sum3 (fun y => c l y * sum3 (fun z => c m z * T (x', y, z))))))%Q)).
    { rewrite (sum3_ext (fun k' => sum3 (fun x => c k' x * u i x) * F0 a b (k', l, m))%Q
                 (fun k' => sum3 (fun x => c k' x * u i x) * sum3 (fun x' => c k' x' * sum3 (fun y => c l y * sum3 (fun z => c m z * T (x', y, z)))))%Q).
      - set (W := fun k' => sum3 (fun x' => c k' x' * sum3 (fun y => c l y * sum3 (fun z => c m z * T (x', y, z))))%Q).
        change (Qeq (sum3 (fun k' => sum3 (fun x => c k' x * u i x) * W k')%Q) (sum3 (fun x => u i x * sum3 (fun k' => c k' x * W k'))%Q)). unfold sum3. ring.
      - intros k' Hk'. apply Qmult_comp; [reflexivity|]. rewrite (IV j a b (k', l, m)) by (auto; apply in_comps; auto). fold T c. apply rot3_nested. }
    rewrite E2. clear E2.
    symmetry. etransitivity; [apply (sum3_ext _ (fun x => u i x * sum3 (fun y => c l y * sum3 (fun z => c m z * T (x, y, z))))%Q)|unfold sum3; ring].
    intros x Hx. apply Qmult_comp; [reflexivity|]. apply (contract c (OR j Hj) x (fun x' => sum3 (fun y => c l y * sum3 (fun z => c m z * T (x', y, z)))%Q)). auto. }
  rewrite (qs_ext _ _ (fun nn => F0 a b (0%Z, l, m) * (inv_U k nn * U nn 0%Z) + (F0 a b (1%Z, l, m) * (inv_U k nn * U nn 1%Z) + F0 a b (2%Z, l, m) * (inv_U k nn * U nn 2%Z)))%Q).
  2:{ intros nn Hn. rewrite R by auto. unfold sum3. ring. }
  rewrite (qs_add _ (fun nn => F0 a b (0%Z, l, m) * (inv_U k nn * U nn 0%Z))%Q), (qs_add _ (fun nn => F0 a b (1%Z, l, m) * (inv_U k nn * U nn 1%Z))%Q), !qs_scale.
  unfold U. rewrite !INV by lia.
  assert (k = 0 \/ k = 1 \/ k = 2) as [-> | [-> | ->]] by lia; cbn [Z.eqb Pos.eqb]; ring.
Qed.
Print Assumptions C60_first_row_exact.
(** one site symmetry (identity), three displacements along the axes of length 2 *)
Example C60_ex :
  let id3 := fun a b : Z => if a =? b then 1%Q else 0%Q in
  let F0 := fun (a b : Z) (q : Z * Z * Z) => inject_Z (a + 2 * b + off q) in
  let u := fun i k : Z => if i =? k then 2%Q else 0%Q in
  orthogonal id3 /\
  Qeq (rotate_delta_fc2 (fun k n => if k =? n then (1 # 2)%Q else 0%Q) (fun i a b l m => sum3 (fun k => u i k * F0 a b (k, l, m))%Q)
         (fun _ => id3) (fun _ a => a) 1 3 1 1 2 1 0) 24.
Proof.
  split; [|vm_compute; reflexivity]. intros i j Hi Hj.
  assert (i = 0 \/ i = 1 \/ i = 2) as [-> | [-> | ->]] by lia; assert (j = 0 \/ j = 1 \/ j = 2) as [-> | [-> | ->]] by lia; reflexivity.
Qed.
