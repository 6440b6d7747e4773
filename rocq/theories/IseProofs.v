From Coq Require Import ZArith QArith List Bool Lia Lqa.
From Verif Require Import Base BaseProofs Mat3 QMat Par Par2 Fc3Model Fc3Transpose Fc3Trans IseModel IseSpec.
Import ListNotations.
Open Scope Z_scope.

Lemma Sum_ext : forall n f g, (forall i, 0 <= i < n -> Qeq (f i) (g i)) -> Qeq (Sum n f) (Sum n g).
Proof. intros n f g H. unfold Sum. apply qs_ext. intros x Hx. apply H. now apply in_zrange. Qed.
Lemma Sum_zero : forall n f, (forall i, 0 <= i < n -> Qeq (f i) 0) -> Qeq (Sum n f) 0.
Proof. intros n f H. unfold Sum. apply qs_zero. intros x Hx. apply H. now apply in_zrange. Qed.
Lemma Sum_add : forall n f g, Qeq (Sum n (fun i => f i + g i)%Q) (Sum n f + Sum n g).
Proof. intros. apply qs_add. Qed.
Lemma Sum_scale : forall n c f, Qeq (Sum n (fun i => c * f i)%Q) (c * Sum n f).
Proof. intros. apply qs_scale. Qed.
Lemma fold_qsum : forall X (f : X -> Q) l a, Qeq (fold_left (fun s x => (s + f x)%Q) l a) (a + qsum (map f l)).
Proof.
  intros X f. induction l as [|x l IH]; intros a; cbn [fold_left map]; rewrite ?qs_nil, ?qs_cons; [lra|]. rewrite IH. lra.
Qed.
Lemma Sum_delta : forall n b (f : Z -> Q), 0 <= b < n -> Qeq (Sum n (fun i => if i =? b then f i else 0)%Q) (f b).
Proof.
  intros n b f Hb. unfold Sum. assert (Hin : In b (zrange n)) by now apply in_zrange.
  revert Hin. generalize (NoDup_zrange n). clear. induction (zrange n) as [|x l IH]; intros N H; [contradiction|].
  cbn [map]. rewrite qs_cons. inversion_clear N as [|? ? N1 N2]. destruct H as [->|H].
  - rewrite Z.eqb_refl. rewrite (qs_zero _ (fun i => if i =? b then f i else 0)%Q).
    + lra.
    + intros y Hy. destruct (Z.eqb_spec y b); [subst; contradiction|reflexivity].
  - rewrite IH by auto. destruct (Z.eqb_spec x b); [subst; contradiction|lra].
Qed.
Lemma qs_flat_map : forall X (f : X -> list Q) l, Qeq (qsum (flat_map f l)) (qsum (map (fun x => qsum (f x)) l)).
Proof. intros X f. induction l as [|x l IH]; cbn [flat_map map]; [reflexivity|]. rewrite qs_app, qs_cons, IH. reflexivity. Qed.
Lemma map_flat_map' : forall X Y W (f : Y -> W) (g : X -> list Y) l, map f (flat_map g l) = flat_map (fun x => map f (g x)) l.
Proof. intros X Y W f g. induction l as [|x l IH]; cbn; [reflexivity|]. now rewrite map_app, IH. Qed.
(** repeated [a[ad x] += v x] *)
Lemma accum_wr : forall X (ad : X -> Z) (v : X -> Q) l (m : Z -> Q) a,
  Qeq (fold_left (fun m x => wr Z.eq_dec m (ad x) (m (ad x) + v x)%Q) l m a) (m a + qsum (map (fun x => if ad x =? a then v x else 0%Q) l)).
Proof.
  intros X ad v. induction l as [|x l IH]; intros m a; cbn [fold_left map]; rewrite ?qs_nil, ?qs_cons; [lra|].
  rewrite IH. unfold wr at 1. destruct (Z.eq_dec a (ad x)), (Z.eqb_spec (ad x) a); try congruence; subst; lra.
Qed.
Lemma accum_upd : forall X (ad : X -> Z) (v : X -> Q) l (m : Z -> Q) a,
  Qeq (fold_left (fun m x => upd m (ad x) (m (ad x) + v x)%Q) l m a) (m a + qsum (map (fun x => if ad x =? a then v x else 0%Q) l)).
Proof.
  intros X ad v. induction l as [|x l IH]; intros m a; cbn [fold_left map]; rewrite ?qs_nil, ?qs_cons; [lra|].
  rewrite IH. unfold upd at 1. destruct (Z.eqb_spec a (ad x)), (Z.eqb_spec (ad x) a); try congruence; subst; lra.
Qed.
Lemma zero_upd : forall n (m : Z -> Q) a, 0 <= a < n -> fold_left (fun m i => upd m i 0%Q) (zrange n) m a = 0%Q.
Proof.
  intros n m a Ha. assert (H : In a (zrange n)) by now apply in_zrange. revert m H.
  assert (G : forall l (m : Z -> Q), m a = 0%Q -> fold_left (fun m i => upd m i 0%Q) l m a = 0%Q).
  { induction l as [|x l IH]; intros m H; cbn; [exact H|]. apply IH. unfold upd. destruct (a =? x); auto. }
  induction (zrange n) as [|x l IH]; intros m H; [contradiction|]. cbn. destruct H as [->|H]; [|now apply IH].
  apply G. apply upd_same.
Qed.

(** ** the list of unmarked entries *)
Lemma fold_st : forall S (st : list gpos -> Z -> S) (h : Z -> list gpos) (step : S -> Z -> S) n, 0 <= n ->
  (forall acc x, 0 <= x < n -> step (st acc x) x = st (acc ++ h x) (x + 1)) ->
  forall acc, fold_left step (zrange n) (st acc 0) = st (acc ++ flat_map h (zrange n)) n.
Proof.
  intros S st h step n Hn H acc.
  assert (G : forall k, 0 <= k -> k <= n -> fold_left step (zrange k) (st acc 0) = st (acc ++ flat_map h (zrange k)) k).
  { intros k Hk. pattern k. apply natlike_ind; [|intros x Hx IH|exact Hk].
    - intros _. cbn. now rewrite app_nil_r.
    - intros Hx'. unfold Z.succ in *. rewrite zrange_succ by lia. rewrite fold_left_app, IH by lia. cbn [fold_left].
      rewrite H by lia. rewrite flat_map_app. cbn [flat_map]. rewrite app_nil_r, app_assoc. reflexivity. }
  apply G; lia.
Qed.
Definition entries (nb0 nb : Z) (z : Z -> Z -> Z -> bool) : list gpos :=
  flat_map (fun j => flat_map (fun k => flat_map (fun l =>
    if negb (z j k l) then [(j, k, l, (j * nb + k) * nb + l)] else []) (zrange nb)) (zrange nb)) (zrange nb0).
Lemma g_pos_entries : forall nb0 nb gz, 0 <= nb0 -> 0 <= nb -> set_g_pos nb0 nb gz = entries nb0 nb (fun j k l => gz ((j * nb + k) * nb + l)).
Proof.
  intros nb0 nb gz H0 H1. unfold set_g_pos, entries.
  set (fj := fun j : Z => flat_map _ _).
  match goal with |- context [fold_left ?f (zrange nb0) _] => set (step := f) end.
  assert (E : fold_left step (zrange nb0) (@nil gpos, 0) = (flat_map fj (zrange nb0), nb0 * nb * nb)).
  2:{ rewrite E. reflexivity. }
  pose proof (fold_st _ (fun acc j => (acc, j * nb * nb)) fj step nb0 H0) as P.
  rewrite <- (app_nil_l (flat_map fj (zrange nb0))). cbn beta in P. change 0 with (0 * nb * nb) at 1. apply P. clear P.
  intros acc j Hj. unfold step. unfold fj.
  set (fk := fun k : Z => flat_map _ _).
  pose proof (fold_st _ (fun acc k => (acc, (j * nb + k) * nb)) fk) as P.
  cbn beta in P. replace ((j + 1) * nb * nb) with ((j * nb + nb) * nb) by ring.
  replace (j * nb * nb) with ((j * nb + 0) * nb) by ring. apply P; [lia|]. clear P.
  intros acc' k Hk. unfold fk.
  pose proof (fold_st _ (fun acc l => (acc, (j * nb + k) * nb + l)) (fun l => if negb (gz ((j * nb + k) * nb + l)) then [(j, k, l, (j * nb + k) * nb + l)] else [])) as P.
  cbn beta in P. replace ((j * nb + (k + 1)) * nb) with ((j * nb + k) * nb + nb) by ring.
  replace ((j * nb + k) * nb) with ((j * nb + k) * nb + 0) at 1 by ring. apply P; [lia|]. clear P.
  intros acc'' l Hl. rewrite Z.add_assoc. destruct (negb (gz ((j * nb + k) * nb + l))); [reflexivity|now rewrite app_nil_r].
Qed.
Lemma g_pos_freq_entries : forall nb0 nb gz, 0 <= nb0 -> 0 <= nb -> set_g_pos_freq nb0 nb gz = entries nb0 nb (fun j k l => gz (k * nb + l)).
Proof.
  intros nb0 nb gz H0 H1. unfold set_g_pos_freq, entries.
  set (fj := fun j : Z => flat_map _ _).
  match goal with |- context [fold_left ?f (zrange nb0) _] => set (step := f) end.
  assert (E : fold_left step (zrange nb0) (@nil gpos, 0) = (flat_map fj (zrange nb0), nb0 * nb * nb)).
  2:{ rewrite E. reflexivity. }
  pose proof (fold_st _ (fun acc j => (acc, j * nb * nb)) fj step nb0 H0) as P.
  rewrite <- (app_nil_l (flat_map fj (zrange nb0))). cbn beta in P. change 0 with (0 * nb * nb) at 1. apply P. clear P.
  intros acc j Hj. unfold step.
  refine (eq_trans (f_equal (fun r : list gpos * Z * Z => let '(a, _, c) := r in (a, c)) (_ : _ = (acc ++ fj j, nb * nb, (j * nb + nb) * nb))) _).
  2:{ f_equal. ring. }
  unfold fj. set (fk := fun k : Z => flat_map _ _).
  pose proof (fold_st _ (fun acc k => (acc, k * nb, (j * nb + k) * nb)) fk) as P.
  cbn beta in P. replace (j * nb * nb) with ((j * nb + 0) * nb) by ring. change 0 with (0 * nb) at 1. apply P; [lia|]. clear P.
  intros acc' k Hk. unfold fk.
  pose proof (fold_st _ (fun acc l => (acc, k * nb + l, (j * nb + k) * nb + l)) (fun l => if negb (gz (k * nb + l)) then [(j, k, l, (j * nb + k) * nb + l)] else [])) as P.
  cbn beta in P. replace ((j * nb + (k + 1)) * nb) with ((j * nb + k) * nb + nb) by ring.
  replace ((k + 1) * nb) with (k * nb + nb) by ring.
  replace ((j * nb + k) * nb) with ((j * nb + k) * nb + 0) at 1 by ring.
  replace (k * nb) with (k * nb + 0) at 1 by ring. apply P; [lia|]. clear P.
  intros acc'' l Hl. rewrite !Z.add_assoc. destruct (negb (gz (k * nb + l))); [reflexivity|now rewrite app_nil_r].
Qed.
Lemma entries_bound : forall nb0 nb z j k l p, 0 <= nb0 -> 0 <= nb -> In (j, k, l, p) (entries nb0 nb z) ->
  0 <= j < nb0 /\ 0 <= k < nb /\ 0 <= l < nb /\ p = (j * nb + k) * nb + l.
Proof.
  intros nb0 nb z j k l p H0 H1 H. unfold entries in H. apply in_flat_map in H. destruct H as [j' [Hj H]].
  apply in_flat_map in H. destruct H as [k' [Hk H]]. apply in_flat_map in H. destruct H as [l' [Hl H]].
  apply in_zrange in Hj, Hk, Hl. destruct (negb (z j' k' l')); [|contradiction]. destruct H as [H|[]].
  assert (j = j' /\ k = k' /\ l = l' /\ p = (j' * nb + k') * nb + l') by (repeat split; congruence). lia.
Qed.
(** sums over the unmarked entries of one band0 *)
Lemma entries_sum : forall nb0 nb z (F : gpos -> Q) b, 0 <= b < nb0 ->
  (forall k l, 0 <= k < nb -> 0 <= l < nb -> z b k l = true -> Qeq (F (b, k, l, (b * nb + k) * nb + l)) 0) ->
  Qeq (qsum (map (fun e => if fst (fst (fst e)) =? b then F e else 0%Q) (entries nb0 nb z)))
      (Sum nb (fun k => Sum nb (fun l => F (b, k, l, (b * nb + k) * nb + l)))).
Proof.
  intros nb0 nb z F b Hb H. unfold entries. rewrite map_flat_map', qs_flat_map.
  etransitivity; [|apply (Sum_delta nb0 b (fun j => Sum nb (fun k => Sum nb (fun l => F (j, k, l, (j * nb + k) * nb + l))))); exact Hb].
  apply Sum_ext. intros j Hj. rewrite map_flat_map', qs_flat_map.
  destruct (Z.eqb_spec j b) as [->|Nj].
  - apply Sum_ext. intros k Hk. rewrite map_flat_map', qs_flat_map. apply Sum_ext. intros l Hl.
    destruct (z b k l) eqn:E; cbn [negb map].
    + rewrite qs_nil. symmetry. apply H; auto.
    + rewrite qs_cons, qs_nil. cbn [fst snd]. rewrite Z.eqb_refl. lra.
  - apply Sum_zero. intros k Hk. rewrite map_flat_map', qs_flat_map. apply Sum_zero. intros l Hl.
    destruct (negb (z j k l)); cbn [map]; rewrite ?qs_cons, ?qs_nil; [|reflexivity]. cbn [fst snd].
    destruct (Z.eqb_spec j b); [contradiction|]. lra.
Qed.

(** ** values *)
Lemma map_nth_zrange : forall X (d : X) (l : list X), map (fun i => nth (Z.to_nat i) l d) (zrange (Z.of_nat (length l))) = l.
Proof.
  intros X d l. unfold zrange. rewrite Nat2Z.id, map_map.
  erewrite map_ext; [|intros a; rewrite Nat2Z.id; reflexivity].
  induction l as [|x l IH]; [reflexivity|]. cbn [length seq map]. f_equal. rewrite <- seq_shift, map_map. exact IH.
Qed.
Section V.
Variable bose : Q -> Q -> Q.
Lemma occ_sign : forall cutoff nb T t freq w j, occ_ok bose cutoff ->
  qltb (occupation bose nb T t freq cutoff w j) 0 = negb (qltb cutoff (freq (tp_at t w * nb + j))).
Proof.
  intros cutoff nb T t freq w j H. unfold occupation. destruct (qltb cutoff (freq (tp_at t w * nb + j))) eqn:E; cbn [negb].
  - apply qltb_ge. apply H. now apply qltb_lt.
  - reflexivity.
Qed.
Lemma ise_value_spec : forall cutoff nb T t freq k l g1 g23 phi w, occ_ok bose cutoff ->
  Qeq (ise_value T (occupation bose nb T t freq cutoff 1 k) (occupation bose nb T t freq cutoff 2 l) g1 g23 phi w)
      (w * contribution bose T cutoff (freq (tp_at t 1 * nb + k)%Z) (freq (tp_at t 2 * nb + l)%Z) g1 g23 phi).
Proof.
  intros cutoff nb T t freq k l g1 g23 phi w H. unfold ise_value, contribution. rewrite !occ_sign by exact H. unfold occupation.
  destruct (qltb cutoff (freq (tp_at t 1 * nb + k))), (qltb cutoff (freq (tp_at t 2 * nb + l))); cbn [negb orb andb]; try ring.
  destruct (qltb 0 T); ring.
Qed.
Lemma contribution_zero : forall T c f1 f2 g1 g23 phi, Qeq g1 0 -> Qeq g23 0 -> Qeq (contribution bose T c f1 f2 g1 g23 phi) 0.
Proof.
  intros T c f1 f2 g1 g23 phi H1 H2. unfold contribution. destruct (_ && _); [|reflexivity]. destruct (qltb 0 T); rewrite ?H1, ?H2; ring.
Qed.

(** the loop over g_pos, any schedule *)
Definition entry_val (nb : Z) (phi freq : Z -> Q) (t : tp3) (w : Q) (g1 g23 : Z -> Q) (temps : Z -> Q) (cutoff : Q) (at_freq : bool) (j : Z) (e : gpos) : Q :=
  let '(_, k, l, p) := e in let p3 := if at_freq then Z.rem p (nb * nb) else p in
  ise_value (temps j) (occupation bose nb (temps j) t freq cutoff 1 k) (occupation bose nb (temps j) t freq cutoff 2 l)
    (g1 p3) (g23 p3) (phi p) w.
Lemma inner_result : forall nb0 nb phi freq t w g1 g23 gp temps nt cutoff af m m', 0 <= nt ->
  finishes Z.eq_dec (map (ise_at_g_pos_prog bose nb0 nb phi freq t w g1 g23 gp temps nt cutoff af) (zrange (Z.of_nat (length gp)))) m m' ->
  forall i j, 0 <= i < Z.of_nat (length gp) -> 0 <= j < nt ->
    m' (i * nt + j) = entry_val nb phi freq t w g1 g23 temps cutoff af j (nth (Z.to_nat i) gp (0, 0, 0, 0)).
Proof.
  intros nb0 nb phi freq t w g1 g23 gp temps nt cutoff af m m' Hnt F i j Hi Hj.
  set (ws := fun i => map (fun j => (i * nt + j, entry_val nb phi freq t w g1 g23 temps cutoff af j (nth (Z.to_nat i) gp (0, 0, 0, 0)))) (zrange nt)).
  assert (E : map (ise_at_g_pos_prog bose nb0 nb phi freq t w g1 g23 gp temps nt cutoff af) (zrange (Z.of_nat (length gp)))
    = map wprog (map ws (zrange (Z.of_nat (length gp))))).
  { rewrite map_map. apply map_ext. intros x. unfold ise_at_g_pos_prog, ws, entry_val.
    destruct (nth (Z.to_nat x) gp (0, 0, 0, 0)) as [[[? ?] ?] ?]. reflexivity. }
  rewrite E in F. rewrite <- flat_map_concat_map in F || idtac.
  assert (N : NoDup (map fst (concat (map ws (zrange (Z.of_nat (length gp))))))).
  { rewrite <- flat_map_concat_map, map_flat_map'. apply NoDup_flat_map; [apply NoDup_zrange| |].
    - intros x Hx. unfold ws. rewrite map_map. cbn [fst]. apply FinFun.Injective_map_NoDup; [intros a b; lia|apply NoDup_zrange].
    - intros x y b Hx Hy H1 H2. unfold ws in H1, H2. rewrite map_map in H1, H2. apply in_map_iff in H1, H2.
      destruct H1 as [a [E1 H1]], H2 as [c [E2 H2]]. cbn [fst] in *. apply in_zrange in H1, H2.
      assert (x * nt + a = y * nt + c) by lia. eapply flat_inj in H; [tauto|lia|lia]. }
  rewrite (par_writes Z.eq_dec _ m m' N F). apply store_in; [exact N|].
  apply in_concat. exists (ws i). split; [apply in_map, in_zrange; exact Hi|]. unfold ws. apply in_map_iff. exists j. split; [reflexivity|now apply in_zrange].
Qed.
End V.

(** ** accumulation over one triplet *)
Lemma run_triplet : forall base nb0 nt (gp : list gpos) at_g (m : Z -> Q) j b, 0 <= nb0 -> 0 <= nt -> 0 <= j < nt -> 0 <= b < nb0 ->
  (forall i, 0 <= i < Z.of_nat (length gp) -> 0 <= fst (fst (fst (nth (Z.to_nat i) gp (0, 0, 0, 0)))) < nb0) ->
  Qeq (run Z.eq_dec (ise_at_triplet_prog base nb0 nt gp at_g) m (base + (j * nb0 + b)))
      (Sum (Z.of_nat (length gp)) (fun i => if fst (fst (fst (nth (Z.to_nat i) gp (0, 0, 0, 0)))) =? b then at_g (i * nt + j)%Z else 0%Q)).
Proof.
  intros base nb0 nt gp at_g m j b H0 H1 Hj Hb B. unfold ise_at_triplet_prog. rewrite run_pseq, run_wprog, run_pfor.
  set (m1 := store _ _ _).
  assert (Z1 : m1 (base + (j * nb0 + b)) = 0%Q).
  { unfold m1. apply store_in.
    - rewrite map_map. cbn [fst]. apply FinFun.Injective_map_NoDup; [intros x y; lia|apply NoDup_zrange].
    - apply in_map_iff. exists (j * nb0 + b). split; [reflexivity|]. apply in_zrange. apply flat_range; auto. }
  set (b0 := fun i => fst (fst (fst (nth (Z.to_nat i) gp (0, 0, 0, 0))))).
  set (prs := flat_map (fun i => map (fun j => (i, j)) (zrange nt)) (zrange (Z.of_nat (length gp)))).
  assert (E : forall m, fold_left (fun m x => run Z.eq_dec (let '(b1, _, _, _) := nth (Z.to_nat x) gp (0, 0, 0, 0) in
       pfor (zrange nt) (fun j0 => Rd (base + (j0 * nb0 + b1)) (fun v => Wr (base + (j0 * nb0 + b1)) (v + at_g (x * nt + j0)%Z)%Q Ret))) m)
       (zrange (Z.of_nat (length gp))) m
     = fold_left (fun m x => wr Z.eq_dec m (base + (snd x * nb0 + b0 (fst x))) (m (base + (snd x * nb0 + b0 (fst x)))%Z + at_g (fst x * nt + snd x)%Z)%Q) prs m).
  { intros m0. unfold prs. rewrite fold_flat_map. apply fold_ext. intros m2 x _.
    rewrite fold_map. unfold b0. cbn [fst snd]. destruct (nth (Z.to_nat x) gp (0, 0, 0, 0)) as [[[? ?] ?] ?].
    rewrite run_pfor. apply fold_ext. intros m3 y _. reflexivity. }
  rewrite E, accum_wr, Z1. unfold prs. rewrite map_flat_map', qs_flat_map, Qplus_0_l.
  apply Sum_ext. intros i Hi. rewrite map_map. cbn [fst snd]. specialize (B i Hi). fold (b0 i) in B |- *.
  etransitivity; [|apply (Sum_delta nt j (fun y => if b0 i =? b then at_g (i * nt + y)%Z else 0%Q) Hj)].
  apply Sum_ext. intros y Hy.
  destruct (Z.eqb_spec (base + (y * nb0 + b0 i)) (base + (j * nb0 + b))) as [Ea|Na].
  - assert (Ea' : y * nb0 + b0 i = j * nb0 + b) by lia. eapply flat_inj in Ea'; [|lia|lia]. destruct Ea' as [-> ->].
    now rewrite !Z.eqb_refl.
  - destruct (Z.eqb_spec y j) as [->|]; [|reflexivity]. destruct (Z.eqb_spec (b0 i) b); [subst; lia|reflexivity].
Qed.
Lemma fp_triplet : forall i nb0 nt (gp : list gpos) at_g, 0 <= nb0 -> 0 <= nt ->
  (forall i, 0 <= i < Z.of_nat (length gp) -> 0 <= fst (fst (fst (nth (Z.to_nat i) gp (0, 0, 0, 0)))) < nb0) ->
  let S := fun a => i * (nt * nb0) <= a < (i + 1) * (nt * nb0) in fp S S (ise_at_triplet_prog (i * (nt * nb0)) nb0 nt gp at_g).
Proof.
  intros i nb0 nt gp at_g H0 H1 B S. unfold ise_at_triplet_prog. apply fp_pseq.
  - apply fp_wprog. intros a Ha. rewrite map_map in Ha. cbn [fst] in Ha. apply in_map_iff in Ha. destruct Ha as [x [<- Hx]].
    apply in_zrange in Hx. unfold S. nia.
  - apply fp_pfor. intros x Hx. apply in_zrange in Hx. specialize (B x Hx). destruct (nth (Z.to_nat x) gp (0, 0, 0, 0)) as [[[b0 ?] ?] ?].
    cbn [fst] in B. apply fp_pfor. intros y Hy. apply in_zrange in Hy.
    assert (S (i * (nt * nb0) + (y * nb0 + b0))) by (unfold S; pose proof (flat_range nb0 nt y b0 Hy B); lia).
    constructor; [assumption|]. intros v. constructor; [assumption|constructor].
Qed.
Lemma b0_bound : forall nb0 nb z, 0 <= nb0 -> 0 <= nb -> forall i, 0 <= i < Z.of_nat (length (entries nb0 nb z)) ->
  0 <= fst (fst (fst (nth (Z.to_nat i) (entries nb0 nb z) (0, 0, 0, 0)))) < nb0.
Proof.
  intros nb0 nb z H0 H1 i Hi. assert (H : In (nth (Z.to_nat i) (entries nb0 nb z) (0, 0, 0, 0)) (entries nb0 nb z)) by (apply nth_In; lia).
  destruct (nth _ _ _) as [[[j k] l] p]. apply entries_bound in H; auto. cbn [fst]. tauto.
Qed.

(** ** one triplet, both loops, any schedule: w * the sum over all pairs of modes *)
Section T.
Variable bose : Q -> Q -> Q.
Lemma triplet_sum : forall nb0 nb z phi freq t w g1 g23 temps nt cutoff (af : bool) m m' base m2 j b,
  0 <= nb0 -> 0 <= nb -> 0 <= nt -> 0 <= j < nt -> 0 <= b < nb0 -> occ_ok bose cutoff ->
  (forall k l, 0 <= k < nb -> 0 <= l < nb -> z b k l = true ->
     let p3 := (if af then k * nb + l else (b * nb + k) * nb + l)%Z in Qeq (g1 p3) 0 /\ Qeq (g23 p3) 0) ->
  finishes Z.eq_dec (map (ise_at_g_pos_prog bose nb0 nb phi freq t w g1 g23 (entries nb0 nb z) temps nt cutoff af)
     (zrange (Z.of_nat (length (entries nb0 nb z))))) m m' ->
  Qeq (run Z.eq_dec (ise_at_triplet_prog base nb0 nt (entries nb0 nb z) m') m2 (base + (j * nb0 + b)))
      (w * Sum nb (fun k => Sum nb (fun l =>
         let p3 := (if af then k * nb + l else (b * nb + k) * nb + l)%Z in
         contribution bose (temps j) cutoff (freq (tp_at t 1 * nb + k)%Z) (freq (tp_at t 2 * nb + l)%Z) (g1 p3) (g23 p3) (phi ((b * nb + k) * nb + l)%Z)))).
Proof.
  intros nb0 nb z phi freq t w g1 g23 temps nt cutoff af m m' base m2 j b H0 H1 H2 Hj Hb Hocc Hz F.
  rewrite run_triplet; auto using b0_bound. set (gp := entries nb0 nb z) in *.
  set (EV := entry_val bose nb phi freq t w g1 g23 temps cutoff af j).
  assert (P3 : forall k l, 0 <= k < nb -> 0 <= l < nb -> (if af then Z.rem ((b * nb + k) * nb + l) (nb * nb) else (b * nb + k) * nb + l)
                = (if af then k * nb + l else (b * nb + k) * nb + l)).
  { intros k l Hk Hl. destruct af; [|reflexivity]. rewrite Z.rem_mod_nonneg by nia.
    replace ((b * nb + k) * nb + l) with (k * nb + l + b * (nb * nb)) by ring. rewrite Z.mod_add by nia.
    apply Z.mod_small. nia. }
  transitivity (qsum (map (fun e => if fst (fst (fst e)) =? b then EV e else 0%Q) gp)).
  { set (Fe := fun e : gpos => if fst (fst (fst e)) =? b then EV e else 0%Q).
    transitivity (qsum (map Fe (map (fun i => nth (Z.to_nat i) gp (0, 0, 0, 0)) (zrange (Z.of_nat (length gp)))))).
    2:{ rewrite map_nth_zrange. reflexivity. }
    rewrite map_map. apply Sum_ext. intros i Hi. unfold Fe.
    destruct (_ =? b); [|reflexivity]. rewrite (inner_result bose _ _ _ _ _ _ _ _ _ _ _ _ _ _ _ H2 F i j Hi Hj). reflexivity. }
  unfold gp. rewrite entries_sum; [|exact Hb|].
  - rewrite <- Sum_scale. apply Sum_ext. intros k Hk. rewrite <- Sum_scale. apply Sum_ext. intros l Hl. unfold EV, entry_val.
    rewrite P3 by auto. apply ise_value_spec. exact Hocc.
  - intros k l Hk Hl E. unfold EV, entry_val. rewrite P3 by auto. rewrite ise_value_spec by exact Hocc.
    destruct (Hz k l Hk Hl E) as [G1 G2]. rewrite contribution_zero; auto. ring.
Qed.

(** ** all triplets *)
Lemma block_inj : forall n x y c, x * n <= c < (x + 1) * n -> y * n <= c < (y + 1) * n -> x = y.
Proof. intros. nia. Qed.
Lemma outer_result : forall nb0 nb ntrip nt (z : Z -> Z -> Z -> Z -> bool) at_g m m' i a, 0 <= nb0 -> 0 <= nb -> 0 <= nt -> 0 <= i < ntrip ->
  0 <= a < nt * nb0 ->
  finishes Z.eq_dec (map (fun i => ise_at_triplet_prog (i * (nt * nb0)) nb0 nt (entries nb0 nb (z i)) (at_g i)) (zrange ntrip)) m m' ->
  m' (i * (nt * nb0) + a) = run Z.eq_dec (ise_at_triplet_prog (i * (nt * nb0)) nb0 nt (entries nb0 nb (z i)) (at_g i)) m (i * (nt * nb0) + a).
Proof.
  intros nb0 nb ntrip nt z at_g m m' i a H0 H1 H2 Hi Ha F.
  assert (P : forall x, In x (zrange ntrip) -> fp (fun a => x * (nt * nb0) <= a < (x + 1) * (nt * nb0)) (fun a => x * (nt * nb0) <= a < (x + 1) * (nt * nb0))
     (ise_at_triplet_prog (x * (nt * nb0)) nb0 nt (entries nb0 nb (z x)) (at_g x))).
  { intros x _. apply fp_triplet; auto. intros y Hy. now apply b0_bound. }
  apply (proj1 (par_key Z.eq_dec (fun i a => i * (nt * nb0) <= a < (i + 1) * (nt * nb0)) (zrange ntrip) _ m m' (NoDup_zrange _)
    P ltac:(intros x y c Hx Hy; apply block_inj) F)); [now apply in_zrange|]. nia.
Qed.
End T.
