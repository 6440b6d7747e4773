(** fc3 in reciprocal space: closed form of the loops, for every schedule. *)
From Coq Require Import ZArith QArith List Bool Lia Lqa Setoid Permutation.
From Verif Require Import Base BaseProofs QMat Par Par2 IseSpec IseProofs Cplx DynModel DynProofs DynProps R2nProps R2rModel.
Import ListNotations.
Open Scope Z_scope.

Lemma fold_ceq : forall X (F : cplx -> X -> cplx) (f : X -> cplx) l, (forall s x, In x l -> F s x =c= cadd s (f x)) -> forall a, fold_left F l a =c= cadd a (csum (map f l)).
Proof.
  intros X F f. induction l as [|x l IH]; intros H a; cbn [fold_left map]; rewrite ?csum_nil, ?csum_cons; [ring|].
  rewrite IH by (intros; apply H; now right). rewrite (H a x) by now left. ring.
Qed.
(** updates of distinct places *)
Lemma fold_point : forall X (ad : X -> Z) (g : X -> cplx -> cplx) l m, (forall x y, In x l -> In y l -> ad x = ad y -> x = y) -> NoDup l ->
  (forall x, In x l -> fold_left (fun m x => wr Z.eq_dec m (ad x) (g x (m (ad x)))) l m (ad x) = g x (m (ad x))) /\
  (forall a, (forall x, In x l -> a <> ad x) -> fold_left (fun m x => wr Z.eq_dec m (ad x) (g x (m (ad x)))) l m a = m a).
Proof.
  intros X ad g. induction l as [|y l IH]; intros m Inj N; [split; [intros x []|reflexivity]|].
  inversion_clear N as [|? ? N1 N2]. cbn [fold_left]. destruct (IH (wr Z.eq_dec m (ad y) (g y (m (ad y))))) as [A B]; [intros; apply Inj; auto; now right|exact N2|]. split.
  - intros x [<-|Hx].
    + rewrite B. { unfold wr. destruct (Z.eq_dec _ _); [reflexivity|congruence]. } intros z Hz E. apply N1. rewrite (Inj y z); auto; [now left|now right].
    + rewrite A by exact Hx. unfold wr. destruct (Z.eq_dec (ad x) (ad y)) as [E|]; [|reflexivity]. exfalso. apply N1. rewrite <- (Inj x y); auto; [now right|now left].
  - intros a Ha. rewrite B by (intros; apply Ha; now right). unfold wr. destruct (Z.eq_dec _ _) as [->|]; [|reflexivity]. exfalso. apply (Ha y); [now left|reflexivity].
Qed.
Lemma zrange3 : zrange 3 = [0; 1; 2]. Proof. reflexivity. Qed.

(** ** Specification *)
(** The first vector of the table for supercell atom s seen from primitive atom p, and the number of equivalent shortest ones *)
Definition tab_mult (np : Z) (multi : Z -> Z * Z) (p s : Z) : Z := fst (multi (s * np + p)).
Definition tab_vec (np : Z) (svecs : Z -> Z -> Q) (multi : Z -> Z * Z) (p s a : Z) : Z -> Q := svecs (snd (multi (s * np + p)) + a).
(** exp(2 pi i q.r) averaged over the shortest vectors r from p to s *)
Definition avg_phase (cis : Q -> cplx) (np : Z) svecs multi (q : Z -> Q) (p s : Z) : cplx :=
  cscale (/ inject_Z (tab_mult np multi p s)) (CSum (tab_mult np multi p s) (fun a => cis (vdot q (tab_vec np svecs multi p s a)))).
(** exp(2 pi i (q0 + q1 + q2).r) for the vector r from primitive atom 0 to primitive atom i *)
Definition origin_phase (cis : Q -> cplx) (np : Z) svecs multi p2s (q : Z -> Z -> Q) (i : Z) : cplx :=
  cis (vdot (fun c => (q 0%Z c + q 1%Z c + q 2%Z c)%Q) (tab_vec np svecs multi 0 (p2s i) 0)).
(** element of fc3: primitive atom i, supercell atoms s and t *)
Definition fc3_at (ns : Z) (p2s : Z -> Z) (is_compact : bool) (fc3 : Z -> Q) (i s t l m n : Z) : Q :=
  fc3 ((((if is_compact then i else p2s i) * ns + s) * ns + t) * 27 + (l * 9 + m * 3 + n)).
(** lattice sum seen from atom i: atoms s like j, atoms t like k, weighted by w *)
Definition lattice3 (cis : Q -> cplx) (np ns : Z) svecs multi p2s s2p (Phi : Z -> Z -> Z -> Q) (w : Z -> Z -> Z -> Q) (qa qb : Z -> Q) (i j k : Z) : cplx :=
  CSum ns (fun s => if s2p s =? p2s j then CSum ns (fun t => if s2p t =? p2s k then
    cscale (w i s t * Phi i s t) (cmul (avg_phase cis np svecs multi qa i s) (avg_phase cis np svecs multi qb i t)) else c0) else c0).

Section P.
Variable cis : Q -> cplx.
Variable np ns : Z.
Variable fc3 : Z -> Q.
Variable svecs : Z -> Z -> Q.
Variable multi : Z -> Z * Z.
Variable p2s s2p : Z -> Z.
Variable is_compact : bool.
Variable shortest : Z -> bool.
Hypothesis Hcis : forall x y, (x == y)%Q -> cis x =c= cis y.
Hypothesis Hnp : 0 <= np.
Local Notation mean := (avg_phase cis np svecs multi).
Local Notation pre := (origin_phase cis np svecs multi p2s).
Local Notation Phi := (fc3_at ns p2s is_compact fc3).
Local Notation lat := (lattice3 cis np ns svecs multi p2s s2p).

Lemma phase_factor_spec : forall q p s, phase_factor cis svecs q (multi (s * np + p)) =c= mean q p s.
Proof.
  intros q p s. unfold phase_factor, avg_phase, tab_mult, tab_vec. destruct (multi (s * np + p)) as [mu a0]. cbn [fst snd].
  set (F := fold_left _ _ _). assert (E : F =c= CSum mu (fun a => cis (vdot q (svecs (a0 + a))))).
  { unfold F, CSum. rewrite fold_ceq with (f := fun a => cis (vdot q (svecs (a0 + a)))); [ring|]. intros s0 x _. change (C _ _) with (cadd s0 (cis (sum3 (fun j => (q j * svecs (a0 + x)%Z j)%Q)))).
    apply cadd_proper; [reflexivity|]. apply Hcis. rewrite sum3_eq. reflexivity. }
  rewrite <- E. clearbody F. split; cbn; unfold Qdiv; ring.
Qed.
Lemma pre_spec : forall q i, pre_phase cis np svecs multi p2s q i =c= pre q i.
Proof. intros. unfold pre_phase, origin_phase, tab_vec. apply Hcis. rewrite sum3_eq. unfold vdot. rewrite !Z.add_0_r. ring. Qed.
(** weights of the shortcut *)
Definition leg_weight (leg i s t : Z) : Q :=
  let sh := shortest (i * ns * ns + s * ns + t) in if (1 <? leg) && sh then 0%Q else if (leg =? 1) && sh then 3%Q else 1%Q.
Lemma elements_spec : forall leg q a b i j k l, elements ns fc3 p2s s2p is_compact shortest leg (ph cis np svecs multi q a i) (ph cis np svecs multi q b i) i j k l
  =c= lat (fun i s t => fc3 ((((if is_compact then i else p2s i) * ns + s) * ns + t) * 27 + l)) (leg_weight leg) (q a) (q b) i j k.
Proof.
  intros leg q a b i j k l. unfold elements, lattice3. cbv zeta. unfold CSum at 1. rewrite fold_ceq with (f := fun s => if s2p s =? p2s j then CSum ns (fun t => if s2p t =? p2s k then
    cscale (leg_weight leg i s t * fc3 ((((if is_compact then i else p2s i) * ns + s) * ns + t) * 27 + l)%Z) (cmul (mean (q a) i s) (mean (q b) i t)) else c0) else c0); [ring|].
  intros acc s _. destruct (s2p s =? p2s j); cbn [negb]; [|ring]. unfold CSum. rewrite fold_ceq with (f := fun t => if s2p t =? p2s k then
    cscale (leg_weight leg i s t * fc3 ((((if is_compact then i else p2s i) * ns + s) * ns + t) * 27 + l)%Z) (cmul (mean (q a) i s) (mean (q b) i t)) else c0); [reflexivity|].
  intros acc' t _. destruct (s2p t =? p2s k); cbn [negb]; [|ring]. unfold leg_weight. cbv zeta.
  replace ((if is_compact then i else p2s i) * 27 * ns * ns + s * 27 * ns + t * 27) with ((((if is_compact then i else p2s i) * ns + s) * ns + t) * 27) by ring.
  set (x := fc3 _). set (sh := shortest _). unfold ph.
  assert (E : cmul (phase_factor cis svecs (q a) (multi (s * np + i))) (phase_factor cis svecs (q b) (multi (t * np + i))) =c= cmul (mean (q a) i s) (mean (q b) i t)) by (rewrite !phase_factor_spec; reflexivity).
  rewrite <- E. set (p := cmul (phase_factor _ _ _ _) _). clearbody p x sh. destruct sh; rewrite ?andb_true_r, ?andb_false_r; [destruct (1 <? leg); [|destruct (leg =? 1)]|]; split; cbn; ring.
Qed.

(** ** addresses *)
Lemma rec_adr_flat : forall i l j m k n, rec_adr np i l j m k n = ((i * 3 + l) * (np * 3) + (j * 3 + m)) * (np * 3) + (k * 3 + n).
Proof. intros. unfold rec_adr. ring. Qed.
Lemma rec_adr_inj : forall i l j m k n i' l' j' m' k' n', 0 <= j < np -> 0 <= k < np -> 0 <= l < 3 -> 0 <= m < 3 -> 0 <= n < 3 ->
  0 <= j' < np -> 0 <= k' < np -> 0 <= l' < 3 -> 0 <= m' < 3 -> 0 <= n' < 3 ->
  rec_adr np i l j m k n = rec_adr np i' l' j' m' k' n' -> i = i' /\ l = l' /\ j = j' /\ m = m' /\ k = k' /\ n = n'.
Proof.
  intros. rewrite !rec_adr_flat in *. apply flat_inj in H9; [|nia|nia]. destruct H9 as [E1 E2]. apply flat_inj in E1; [|nia|nia]. destruct E1 as [E1 E3].
  apply flat_inj in E1; [|lia|lia]. apply flat_inj in E2; [|lia|lia]. apply flat_inj in E3; [|lia|lia]. lia.
Qed.
Lemma rec_adr_range : forall i l j m k n, 0 <= i < np -> 0 <= j < np -> 0 <= k < np -> 0 <= l < 3 -> 0 <= m < 3 -> 0 <= n < 3 -> 0 <= rec_adr np i l j m k n < np * 3 * (np * 3) * (np * 3).
Proof. intros. rewrite rec_adr_flat. apply flat_range; [apply flat_range; nia|nia]. Qed.
Lemma atoms_of_flat : forall i j k, 0 <= i < np -> 0 <= j < np -> 0 <= k < np -> atoms_of np ((i * np + j) * np + k) = (i, j, k).
Proof.
  intros i j k Hi Hj Hk. unfold atoms_of. cbv zeta. assert (E : Z.quot ((i * np + j) * np + k) (np * np) = i).
  { replace ((i * np + j) * np + k) with (i * (np * np) + (j * np + k)) by ring. apply quot_flat; nia. }
  rewrite E. rewrite rem_flat by nia. replace ((i * np + j) * np + k - i * np * np) with (j * np + k) by ring. rewrite quot_flat by lia. reflexivity.
Qed.
Lemma ijk_split : forall x, 0 <= x < np * np * np -> exists i j k, 0 <= i < np /\ 0 <= j < np /\ 0 <= k < np /\ x = (i * np + j) * np + k.
Proof.
  intros x H. assert (0 < np) by nia. destruct (flat_split np (np * np) x H ltac:(lia)) as [y [k [Hy [Hk ->]]]]. destruct (flat_split np np y Hy ltac:(lia)) as [i [j [Hi [Hj ->]]]]. exists i, j, k. auto.
Qed.

(** ** the loops over components *)
Definition idx27 : list (Z * Z * Z) := flat_map (fun l => flat_map (fun m => map (fun n => (l, m, n)) (zrange 3)) (zrange 3)) (zrange 3).
Lemma idx27_in : forall l m n, In (l, m, n) idx27 <-> 0 <= l < 3 /\ 0 <= m < 3 /\ 0 <= n < 3.
Proof.
  intros l m n. unfold idx27. rewrite in_flat_map. split.
  - intros [x [Hx H]]. apply in_flat_map in H. destruct H as [y [Hy H]]. apply in_map_iff in H. destruct H as [z [E Hz]]. apply in_zrange in Hx, Hy, Hz.
    injection E as <- <- <-. repeat split; lia.
  - intros [H1 [H2 H3]]. exists l. split; [now apply in_zrange|]. apply in_flat_map. exists m. split; [now apply in_zrange|]. apply in_map_iff. exists n. split; [reflexivity|now apply in_zrange].
Qed.
Lemma idx27_nodup : NoDup idx27.
Proof. unfold idx27. rewrite zrange3. cbn. repeat (constructor; [cbn; intuition congruence|]). constructor. Qed.
Lemma run_loop27 : forall f m, run Z.eq_dec (loop27 f) m = fold_left (fun m x => let '(a, b, c) := x in run Z.eq_dec (f a b c) m) idx27 m.
Proof. intros f m. unfold loop27, idx27, pfor. rewrite zrange3. cbn [fold_right flat_map map app fold_left]. rewrite !run_pseq. reflexivity. Qed.
Lemma fp_loop27 : forall (W R : Z -> Prop) f, (forall l m n, 0 <= l < 3 -> 0 <= m < 3 -> 0 <= n < 3 -> fp W R (f l m n)) -> fp W R (loop27 f).
Proof. intros W R f H. unfold loop27. apply fp_pfor. intros l Hl. apply fp_pfor. intros m Hm. apply fp_pfor. intros n Hn. apply in_zrange in Hl, Hm, Hn. auto. Qed.
Definition adr3 (i j k : Z) (x : Z * Z * Z) : Z := let '(l, m, n) := x in rec_adr np i l j m k n.
Lemma adr3_inj : forall i j k, 0 <= j < np -> 0 <= k < np -> forall x y, In x idx27 -> In y idx27 -> adr3 i j k x = adr3 i j k y -> x = y.
Proof.
  intros i j k Hj Hk [[l m] n] [[l' m'] n'] Hx Hy E. apply idx27_in in Hx, Hy. cbn [adr3] in E. apply rec_adr_inj in E; try tauto. destruct E as [_ [-> [_ [-> [_ ->]]]]]. reflexivity.
Qed.
(** each statement replaces the element by a function of its old value *)
Lemma run_point27 : forall (f : Z -> Z -> Z -> @prog Z cplx) (g : Z -> Z -> Z -> cplx -> cplx) i j k mem, 0 <= j < np -> 0 <= k < np ->
  (forall l m n mem, run Z.eq_dec (f l m n) mem = wr Z.eq_dec mem (rec_adr np i l j m k n) (g l m n (mem (rec_adr np i l j m k n)))) ->
  forall l m n, 0 <= l < 3 -> 0 <= m < 3 -> 0 <= n < 3 -> run Z.eq_dec (loop27 f) mem (rec_adr np i l j m k n) = g l m n (mem (rec_adr np i l j m k n)).
Proof.
  intros f g i j k mem Hj Hk Hf l m n Hl Hm Hn. rewrite run_loop27.
  destruct (fold_point _ (adr3 i j k) (fun x => let '(l, m, n) := x in g l m n) idx27 mem (adr3_inj i j k Hj Hk) idx27_nodup) as [A _].
  assert (I : In (l, m, n) idx27) by (apply idx27_in; auto). specialize (A (l, m, n) I). cbn [adr3] in A. rewrite <- A.
  apply (f_equal (fun h => h (rec_adr np i l j m k n))). clear - Hf. generalize idx27. intros L. revert mem. induction L as [|[[a b] c] L IH]; intros mem; cbn [fold_left adr3]; [reflexivity|]. rewrite Hf. apply IH.
Qed.
Definition block (x a : Z) : Prop := let '(i, j, k) := atoms_of np x in exists l m n, 0 <= l < 3 /\ 0 <= m < 3 /\ 0 <= n < 3 /\ a = rec_adr np i l j m k n.
Lemma block_unique : forall x y a, In x (zrange (np * np * np)) -> In y (zrange (np * np * np)) -> block x a -> block y a -> x = y.
Proof.
  intros x y a Hx Hy Bx By. apply in_zrange in Hx, Hy. destruct (ijk_split x Hx) as [i [j [k [Hi [Hj [Hk ->]]]]]]. destruct (ijk_split y Hy) as [i' [j' [k' [Hi' [Hj' [Hk' ->]]]]]].
  unfold block in *. rewrite atoms_of_flat in Bx, By by assumption. destruct Bx as [l [m [n [Hl [Hm [Hn ->]]]]]]. destruct By as [l' [m' [n' [Hl' [Hm' [Hn' E]]]]]].
  apply rec_adr_inj in E; try assumption. destruct E as [-> [_ [-> [_ [-> _]]]]]. reflexivity.
Qed.
Lemma zeroed_at : forall mem a, 0 <= a < np * 3 * (np * 3) * (np * 3) -> zeroed np mem a = c0.
Proof.
  intros mem a Ha. unfold zeroed. destruct (fold_indep (fun (x a : Z) => x = a) (fun x (m : Z -> cplx) => upd m x c0) (zrange (np * 3 * (np * 3) * (np * 3))) mem) as [A _].
  - intros x _. split; [intros m b Hb; apply upd_other; congruence|intros m m' _ b <-; rewrite !upd_same; reflexivity].
  - apply NoDup_zrange.
  - intros x y b _ _ -> ->. reflexivity.
  - rewrite (A a a); [apply upd_same|now apply in_zrange|reflexivity].
Qed.
Lemma third_at : forall mem a, 0 <= a < np * 3 * (np * 3) * (np * 3) -> third np mem a =c= cscale (1 # 3) (mem a).
Proof.
  intros mem a Ha. unfold third. destruct (fold_indep (fun (x a : Z) => x = a) (fun x (m : Z -> cplx) => upd m x (C (re (m x) / 3) (im (m x) / 3))) (zrange (np * 3 * (np * 3) * (np * 3))) mem) as [A _].
  - intros x _. split; [intros m b Hb; apply upd_other; congruence|intros m m' E b <-; rewrite !upd_same, (E x); reflexivity].
  - apply NoDup_zrange.
  - intros x y b _ _ -> ->. reflexivity.
  - rewrite (A a a); [rewrite upd_same|now apply in_zrange|reflexivity]. split; cbn; field.
Qed.

Theorem legacy_value : forall q mem mem', real_to_reciprocal cis np ns fc3 svecs multi p2s s2p is_compact shortest false q mem mem' ->
  forall i j k l m n, 0 <= i < np -> 0 <= j < np -> 0 <= k < np -> 0 <= l < 3 -> 0 <= m < 3 -> 0 <= n < 3 ->
  mem' (rec_adr np i l j m k n) =c= cmul (lat (fun i s t => Phi i s t l m n) (fun _ _ _ => 1%Q) (q 1) (q 2) i j k) (pre q i).
Proof.
  intros q mem mem' Fin i j k l m n Hi Hj Hk Hl Hm Hn. cbn [real_to_reciprocal] in Fin.
  assert (X : In ((i * np + j) * np + k) (zrange (np * np * np))) by (apply in_zrange; nia).
  destruct (par_key Z.eq_dec block (zrange (np * np * np)) (legacy_iteration cis np ns fc3 svecs multi p2s s2p is_compact shortest q) (zeroed np mem) mem' (NoDup_zrange _)) as [A _]; [|exact block_unique|exact Fin|].
  { intros x Hx. unfold legacy_iteration, block. destruct (atoms_of np x) as [[a b] c]. apply fp_loop27. intros l' m' n' Hl' Hm' Hn'. apply F_wr; [exists l', m', n'; auto|constructor]. }
  rewrite (A _ (rec_adr np i l j m k n) X).
  2: { unfold block. rewrite atoms_of_flat by assumption. exists l, m, n. auto. }
  unfold legacy_iteration. rewrite atoms_of_flat by assumption.
  rewrite (run_point27 _ (fun l m n _ => cmul (elements ns fc3 p2s s2p is_compact shortest 0 (ph cis np svecs multi q 1 i) (ph cis np svecs multi q 2 i) i j k (l * 9 + m * 3 + n)) (pre_phase cis np svecs multi p2s q i))) by (auto; reflexivity).
  rewrite elements_spec, pre_spec. apply cmul_proper; [|reflexivity]. unfold lattice3. apply CSum_ext. intros s _. destruct (s2p s =? p2s j); [|reflexivity]. apply CSum_ext. intros t _. destruct (s2p t =? p2s k); [|reflexivity].
  unfold fc3_at, leg_weight. cbn [Z.ltb Z.eqb Z.compare andb]. reflexivity.
Qed.
Theorem average_value : forall q mem mem', real_to_reciprocal cis np ns fc3 svecs multi p2s s2p is_compact shortest true q mem mem' ->
  forall i j k l m n, 0 <= i < np -> 0 <= j < np -> 0 <= k < np -> 0 <= l < 3 -> 0 <= m < 3 -> 0 <= n < 3 ->
  mem' (rec_adr np i l j m k n) =c= cscale (1 # 3) (cadd (cadd
    (cmul (lat (fun i s t => Phi i s t l m n) (leg_weight 1) (q 1) (q 2) i j k) (pre q i))
    (cmul (lat (fun i s t => Phi i s t m l n) (leg_weight 2) (q 0) (q 2) j i k) (pre q j)))
    (cmul (lat (fun i s t => Phi i s t n m l) (leg_weight 3) (q 1) (q 0) k j i) (pre q k))).
Proof.
  intros q mem mem' Fin i j k l m n Hi Hj Hk Hl Hm Hn. cbn [real_to_reciprocal] in Fin. destruct Fin as [m1 [Fin ->]].
  assert (Rg := rec_adr_range i l j m k n Hi Hj Hk Hl Hm Hn). rewrite third_at by exact Rg. apply cscale_proper; [reflexivity|].
  assert (X : In ((i * np + j) * np + k) (zrange (np * np * np))) by (apply in_zrange; nia).
  destruct (par_key Z.eq_dec block (zrange (np * np * np)) (average_iteration cis np ns fc3 svecs multi p2s s2p is_compact shortest q) (zeroed np mem) m1 (NoDup_zrange _)) as [A _]; [|exact block_unique|exact Fin|].
  { intros x Hx. unfold average_iteration, block. destruct (atoms_of np x) as [[a b] c]. apply fp_pseq; [|apply fp_pseq]; apply fp_loop27; intros l' m' n' Hl' Hm' Hn'; (apply F_rd; [exists l', m', n'; auto|]; intros v; apply F_wr; [exists l', m', n'; auto|constructor]). }
  rewrite (A _ (rec_adr np i l j m k n) X).
  2: { unfold block. rewrite atoms_of_flat by assumption. exists l, m, n. auto. }
  unfold average_iteration. rewrite atoms_of_flat by assumption. rewrite !run_pseq.
  rewrite (run_point27 _ (fun l m n v => cadd v (cmul (elements ns fc3 p2s s2p is_compact shortest 3 (ph cis np svecs multi q 1 k) (ph cis np svecs multi q 0 k) k j i (n * 9 + m * 3 + l)) (pre_phase cis np svecs multi p2s q k)))) by (auto; reflexivity).
  rewrite (run_point27 _ (fun l m n v => cadd v (cmul (elements ns fc3 p2s s2p is_compact shortest 2 (ph cis np svecs multi q 0 j) (ph cis np svecs multi q 2 j) j i k (m * 9 + l * 3 + n)) (pre_phase cis np svecs multi p2s q j)))) by (auto; reflexivity).
  rewrite (run_point27 _ (fun l m n v => cadd v (cmul (elements ns fc3 p2s s2p is_compact shortest 1 (ph cis np svecs multi q 1 i) (ph cis np svecs multi q 2 i) i j k (l * 9 + m * 3 + n)) (pre_phase cis np svecs multi p2s q i)))) by (auto; reflexivity).
  rewrite zeroed_at by exact Rg. rewrite !elements_spec, !pre_spec. unfold fc3_at. ring.
Qed.
End P.
(** ** Sums over pairs of atoms *)
Lemma csum_perm' : forall l l' : list cplx, Permutation l l' -> csum l =c= csum l'.
Proof. intros l l' P. induction P; cbn [csum fold_right]; rewrite ?csum_cons; [reflexivity|now rewrite IHP|ring|etransitivity; eauto]. Qed.
Lemma csum_bij : forall X Y (l : list X) (l' : list Y) (b : X -> Y) (b' : Y -> X) f, NoDup l -> NoDup l' -> (forall x, In x l -> In (b x) l' /\ b' (b x) = x) -> (forall y, In y l' -> In (b' y) l /\ b (b' y) = y) ->
  csum (map f l') =c= csum (map (fun x => f (b x)) l).
Proof.
  intros X Y l l' b b' f N N' H H'. rewrite <- map_map with (f := b) (g := f). apply csum_perm', Permutation_map, NoDup_Permutation; [exact N'| |].
  - clear N' H'. induction N as [|x l Nx N IH]; cbn [map]; constructor; [|apply IH; intros y Hy; apply H; now right].
    intros Hx. apply in_map_iff in Hx as [y [E Hy]]. apply Nx. rewrite <- (proj2 (H x (or_introl eq_refl))), <- E, (proj2 (H y (or_intror Hy))). exact Hy.
  - intros y. rewrite in_map_iff. split; [intros Hy; exists (b' y); split; apply H'; exact Hy|intros [x [<- Hx]]; now apply H].
Qed.
Definition atom_pairs (ns : Z) (p2s s2p : Z -> Z) (j k : Z) : list (Z * Z) :=
  flat_map (fun s => if s2p s =? p2s j then flat_map (fun t => if s2p t =? p2s k then [(s, t)] else []) (zrange ns) else []) (zrange ns).
Lemma atom_pairs_in : forall ns p2s s2p j k s t, In (s, t) (atom_pairs ns p2s s2p j k) <-> 0 <= s < ns /\ 0 <= t < ns /\ s2p s = p2s j /\ s2p t = p2s k.
Proof.
  intros ns p2s s2p j k s t. unfold atom_pairs. split.
  - intros H. apply in_flat_map in H as [x [Hx H]]. destruct (Z.eqb_spec (s2p x) (p2s j)); [|destruct H]. apply in_flat_map in H as [y [Hy H]]. destruct (Z.eqb_spec (s2p y) (p2s k)); [|destruct H].
    destruct H as [H|[]]. injection H as -> ->. apply in_zrange in Hx, Hy. auto.
  - intros [Hs [Ht [E1 E2]]]. apply in_flat_map. exists s. split; [now apply in_zrange|]. rewrite (proj2 (Z.eqb_eq _ _) E1). apply in_flat_map. exists t. split; [now apply in_zrange|]. rewrite (proj2 (Z.eqb_eq _ _) E2). now left.
Qed.
Lemma atom_pairs_nodup : forall ns p2s s2p j k, NoDup (atom_pairs ns p2s s2p j k).
Proof.
  intros. unfold atom_pairs. apply NoDup_flat_map; [apply NoDup_zrange| |].
  - intros s _. destruct (_ =? _); [|constructor]. apply NoDup_flat_map; [apply NoDup_zrange| |].
    + intros t _. destruct (_ =? _); repeat constructor; intros [].
    + intros t t' [a b] _ _ H H'. destruct (s2p t =? _); [|destruct H]. destruct (s2p t' =? _); [|destruct H']. destruct H as [H|[]], H' as [H'|[]]. congruence.
  - intros s s' [a b] _ _ H H'. destruct (s2p s =? _); [|destruct H]. destruct (s2p s' =? _); [|destruct H']. apply in_flat_map in H as [t [_ H]], H' as [t' [_ H']]. destruct (s2p t =? _); [|destruct H]. destruct (s2p t' =? _); [|destruct H']. destruct H as [H|[]], H' as [H'|[]]. congruence.
Qed.
Lemma pairs_sum : forall ns p2s s2p j k (f : Z -> Z -> cplx), CSum ns (fun s => if s2p s =? p2s j then CSum ns (fun t => if s2p t =? p2s k then f s t else c0) else c0) =c= csum (map (fun x => f (fst x) (snd x)) (atom_pairs ns p2s s2p j k)).
Proof.
  intros. unfold atom_pairs, CSum. rewrite csum_flat_map. apply csum_ext. intros s _. destruct (_ =? _); [|reflexivity]. rewrite csum_flat_map. apply csum_ext. intros t _. destruct (_ =? _); cbn [map]; rewrite ?csum_cons, ?csum_nil; cbn [fst snd]; ring.
Qed.
