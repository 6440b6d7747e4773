(** Scattering by mass disorder (C89-C91) *)
From Coq Require Import ZArith QArith List Bool Lia Lqa Setoid Permutation.
From Verif Require Import Base BaseProofs QMat Par Par2 IseSpec IseProofs Fc3Trans Cplx IsoModel.
Import ListNotations.
Open Scope Z_scope.

(** ** Specification *)
(** displacement of atom l along m in mode k at grid point g *)
Definition polarization (nb : Z) (eig : Z -> cplx) (g k l m : Z) : cplx := eig (g * nb * nb + (l * 3 + m) * nb + k).
(** squared overlap of the motions of atom l in two modes *)
Definition overlap2 (u v : Z -> Z -> cplx) (l : Z) : Q := cnorm2 (CSum 3 (fun m => cmul (u l m) (conj (v l m)))).
(** linewidth of mode (q, b) from Fermi's golden rule with the mass variances mv; [delta g k] is the weight given to the mode (g, k) by energy conservation *)
Definition golden_rule (pi : Q) (nb : Z) (freq : Z -> Q) (eig : Z -> cplx) (mv : Z -> Q) (cutoff : Q) (N : Z) (gps : list Z) (delta : Z -> Z -> Q) (q b : Z) : Q :=
  let f0 := freq (q * nb + b) in
  if qltb f0 cutoff then 0%Q else
  (pi / 4 * (f0 * f0) / inject_Z N *
   qsum (map (fun g => Sum nb (fun k => if qltb (freq (g * nb + k)%Z) cutoff then 0
      else delta g k * Sum (nb / 3) (fun l => mv l * overlap2 (polarization nb eig q b) (polarization nb eig g k) l))) gps))%Q.

(** ** C *)
Lemma fold_plus : forall l a, (fold_left Qplus l a == a + qsum l)%Q.
Proof. induction l as [|x l IH]; intros a; cbn [fold_left]; [rewrite qs_nil; ring|rewrite IH, qs_cons; ring]. Qed.
Lemma omp_sum_value : forall vals s, omp_sum vals s -> (s == qsum vals)%Q.
Proof.
  intros vals s [sh [P ->]]. rewrite <- (qs_perm _ _ P), fold_plus. clear P. induction sh as [|x sh IH]; cbn [concat map]; [rewrite qs_nil; ring|].
  rewrite qs_app, qs_cons, <- IH, fold_plus. ring.
Qed.

Section IsoProofs.
Variables (pi : Q) (gauss : Q -> Q -> Q).
Variables (nb : Z) (freq : Z -> Q) (eig : Z -> cplx) (mv : Z -> Q) (cutoff : Q).
Hypothesis Hnb : 0 <= nb.
Local Notation pol := (polarization nb eig).

Lemma iso_atoms_value : forall e0 gp k dist s,
  (iso_atoms nb eig mv e0 gp k dist s == s + dist * Sum (nb / 3) (fun l => mv l * overlap2 (fun l m => e0 (l * 3 + m)%Z) (pol gp k) l))%Q.
Proof.
  intros e0 gp k dist s. unfold iso_atoms. rewrite (Z.quot_div_nonneg nb 3) by lia.
  rewrite <- Sum_scale. unfold Sum.
  rewrite <- (fold_qsum _ (fun l => (dist * (mv l * overlap2 (fun l m => e0 (l * 3 + m)%Z) (pol gp k) l))%Q)).
  generalize (zrange (nb / 3)). intros ls. revert s. induction ls as [|l ls IH]; intros s; [reflexivity|].
  cbn [fold_left]. match goal with |- (fold_left ?F ls ?x == fold_left ?G ls ?y)%Q => assert (E : (x == y)%Q) end.
  { unfold overlap2, CSum, cnorm2, polarization. change (zrange 3) with [0; 1; 2]. cbn [map fold_left csum fold_right re im cmul cadd conj c0]. ring. }
  revert E. match goal with |- (?x == ?y)%Q -> _ => generalize x y end. intros x y E. rewrite IH.
  clear -E. revert x y E. induction ls as [|l ls IH]; intros x y E; cbn [fold_left]; [exact E|]. apply IH. rewrite E. reflexivity.
Qed.

Lemma iso_bands_value : forall e0 gp dist,
  (iso_bands nb freq eig mv cutoff e0 gp dist == Sum nb (fun k => if qltb (freq (gp * nb + k)%Z) cutoff then 0
     else dist k * Sum (nb / 3) (fun l => mv l * overlap2 (fun l m => e0 (l * 3 + m)%Z) (pol gp k) l)))%Q.
Proof.
  intros e0 gp dist. unfold iso_bands, Sum at 1.
  match goal with |- (fold_left ?F _ _ == qsum (map ?G _))%Q => assert (K : forall l s, (fold_left F l s == s + qsum (map G l))%Q) end.
  2: { rewrite K. ring. }
  induction l as [|k ks IH]; intros s; cbn [fold_left map]; [rewrite qs_nil; ring|].
  rewrite IH, qs_cons. destruct (qltb (freq (gp * nb + k)) cutoff); [ring|]. rewrite iso_atoms_value. ring.
Qed.

Local Notation spec := (golden_rule pi nb freq eig mv cutoff).
Lemma e0_pol : forall q bi i l m, iso_e0 nb eig q bi i (l * 3 + m) = pol q (nth (Z.to_nat i) bi 0%Z) l m.
Proof. reflexivity. Qed.
(** the sum over grid points of either kernel *)
Lemma sums_value : forall q bi N gps delta i s, ~ (inject_Z N == 0)%Q -> qltb (iso_f0 nb freq q bi i) cutoff = false ->
  (s == qsum (map (fun g => iso_bands nb freq eig mv cutoff (iso_e0 nb eig q bi i) g (delta g) * 1) gps))%Q ->
  (s * iso_factor pi (iso_f0 nb freq q bi i) / inject_Z N == spec N gps delta q (nth (Z.to_nat i) bi 0%Z))%Q.
Proof.
  intros q bi N gps delta i s HN E ->. unfold golden_rule. fold (iso_f0 nb freq q bi i). rewrite E.
  rewrite (qs_ext _ _ (fun g => Sum nb (fun k => if qltb (freq (g * nb + k)%Z) cutoff then 0
      else delta g k * Sum (nb / 3) (fun l => mv l * overlap2 (pol q (nth (Z.to_nat i) bi 0%Z)) (pol g k) l)))%Q).
  - unfold iso_factor. field. exact HN.
  - intros g _. rewrite iso_bands_value, Qmult_1_r. reflexivity.
Qed.
Lemma gaussian_value : forall gamma q gps bi N sigma i, ~ (inject_Z N == 0)%Q -> 0 <= i < Z.of_nat (length bi) ->
  iso_gaussian pi gauss nb freq eig mv cutoff gamma q gps (fun _ => 1%Q) bi sigma ->
  (gamma i / inject_Z N == spec N gps (fun g k => gauss (freq (g * nb + k)%Z - freq (q * nb + nth (Z.to_nat i) bi 0%Z)%Z) sigma) q (nth (Z.to_nat i) bi 0%Z))%Q.
Proof.
  intros gamma q gps bi N sigma i HN Hi H. specialize (H i Hi). destruct (qltb (iso_f0 nb freq q bi i) cutoff) eqn:E.
  - rewrite H. unfold golden_rule. fold (iso_f0 nb freq q bi i). rewrite E. field. exact HN.
  - destruct H as [s [Hs ->]]. apply sums_value; [exact HN|exact E|]. exact (omp_sum_value _ _ Hs).
Qed.

(** memory after the two parallel loops of the tetrahedron version *)
Lemma zero_result : forall n m m' a, 0 <= a < n -> finishes Z.eq_dec (map wprog (iso_zero_iterations n)) m m' -> m' a = 0%Q.
Proof.
  intros n m m' a Ha F. assert (E : concat (iso_zero_iterations n) = map (fun i => (i, 0%Q)) (zrange n)).
  { unfold iso_zero_iterations. generalize (zrange n). induction l as [|x l IH]; cbn; [reflexivity|]. now rewrite IH. }
  assert (ND : NoDup (map fst (concat (iso_zero_iterations n)))). { rewrite E, map_map. cbn [fst]. rewrite map_id. apply NoDup_zrange. }
  rewrite (par_writes _ _ _ _ ND F). apply store_in; [exact ND|]. rewrite E. apply in_map_iff. exists a. split; [reflexivity|]. now apply in_zrange.
Qed.
Lemma thm_result : forall q gps bi iw weights m m' i j, let nb0 := Z.of_nat (length bi) in let n := Z.of_nat (length gps) in
  0 <= i < n -> 0 <= j < nb0 ->
  finishes Z.eq_dec (map wprog (map (iso_thm_iteration nb freq eig mv cutoff q gps weights bi iw) (zrange n))) m m' ->
  m' (i * nb0 + j) = if qltb (iso_f0 nb freq q bi j) cutoff then m (i * nb0 + j)
    else (iso_bands nb freq eig mv cutoff (iso_e0 nb eig q bi j) (nth (Z.to_nat i) gps 0%Z) (fun k => iw (nth (Z.to_nat i) gps 0%Z * nb0 * nb + j * nb + k)%Z) * weights (nth (Z.to_nat i) gps 0%Z))%Q.
Proof.
  intros q gps bi iw weights m m' i j nb0 n Hi Hj F.
  assert (In1 : forall i a v, In (a, v) (iso_thm_iteration nb freq eig mv cutoff q gps weights bi iw i) -> exists j, 0 <= j < nb0 /\ a = i * nb0 + j /\ qltb (iso_f0 nb freq q bi j) cutoff = false).
  { intros i0 a v H. unfold iso_thm_iteration in H. apply in_flat_map in H. destruct H as [j0 [Hj0 H]]. apply in_zrange in Hj0.
    exists j0. destruct (qltb (iso_f0 nb freq q bi j0) cutoff); [destruct H|]. destruct H as [H|[]]. injection H as <- _. auto. }
  assert (ND : NoDup (map fst (concat (map (iso_thm_iteration nb freq eig mv cutoff q gps weights bi iw) (zrange n))))).
  { rewrite <- flat_map_concat_map, map_flat_map'. apply NoDup_flat_map; [apply NoDup_zrange| |].
    - intros i0 _. unfold iso_thm_iteration. rewrite map_flat_map'. apply NoDup_flat_map; [apply NoDup_zrange| |].
      + intros j0 _. destruct (qltb (iso_f0 nb freq q bi j0) cutoff); repeat constructor; auto.
      + intros x y b Hx Hy Bx By. apply in_zrange in Hx. apply in_zrange in Hy.
        destruct (qltb (iso_f0 nb freq q bi x) cutoff); [destruct Bx|]. destruct (qltb (iso_f0 nb freq q bi y) cutoff); [destruct By|].
        destruct Bx as [<-|[]]. destruct By as [By|[]]. cbn in By. lia.
    - intros x y b Hx Hy Bx By. apply in_map_iff in Bx. destruct Bx as [[a v] [<- Bx]]. apply in_map_iff in By. destruct By as [[a' v'] [E By]].
      cbn in E. subst a'. destruct (In1 _ _ _ Bx) as [j1 [H1 [E1 _]]]. destruct (In1 _ _ _ By) as [j2 [H2 [E2 _]]]. rewrite E1 in E2.
      now destruct (flat_inj nb0 x j1 y j2 H1 H2 E2). }
  rewrite (par_writes _ _ _ _ ND F). destruct (qltb (iso_f0 nb freq q bi j) cutoff) eqn:E.
  - apply store_other. intros H. apply in_map_iff in H. destruct H as [[a v] [E1 H]]. cbn in E1. subst a.
    rewrite <- flat_map_concat_map in H. apply in_flat_map in H. destruct H as [i0 [_ H]]. destruct (In1 _ _ _ H) as [j1 [H1 [E1 E2]]].
    destruct (flat_inj nb0 i j i0 j1 Hj H1 E1) as [_ ->]. congruence.
  - apply store_in; [exact ND|]. rewrite <- flat_map_concat_map. apply in_flat_map. exists i. split; [now apply in_zrange|].
    unfold iso_thm_iteration. apply in_flat_map. exists j. split; [now apply in_zrange|]. rewrite E. left. reflexivity.
Qed.
Lemma thm_value : forall gamma q gps bi N iw i, ~ (inject_Z N == 0)%Q -> 0 <= i < Z.of_nat (length bi) ->
  iso_thm pi nb freq eig mv cutoff gamma q gps (fun _ => 1%Q) bi iw ->
  (gamma i / inject_Z N == spec N gps (fun g k => iw (g * Z.of_nat (length bi) * nb + i * nb + k)%Z) q (nth (Z.to_nat i) bi 0%Z))%Q.
Proof.
  intros gamma q gps bi N iw i HN Hi [junk [zeroed [gij [F1 [F2 H]]]]]. rewrite (H i Hi). clear H gamma.
  set (nb0 := Z.of_nat (length bi)) in *. set (n := Z.of_nat (length gps)) in *.
  rewrite (fold_qsum _ (fun x => gij (x * nb0 + i)%Z)), Qplus_0_l.
  destruct (qltb (iso_f0 nb freq q bi i) cutoff) eqn:E.
  - unfold golden_rule. fold (iso_f0 nb freq q bi i). rewrite E. rewrite (qs_zero _ _ (zrange n)); [field; exact HN|].
    intros x Hx. apply in_zrange in Hx. pose proof (thm_result q gps bi iw (fun _ => 1%Q) zeroed gij x i Hx Hi F2) as K. fold nb0 in K. rewrite E in K. rewrite K.
    rewrite (zero_result _ _ _ _ (flat_range nb0 n x i Hx Hi) F1). reflexivity.
  - apply sums_value; [exact HN|exact E|].
    assert (G : map (fun g => (iso_bands nb freq eig mv cutoff (iso_e0 nb eig q bi i) g (fun k => iw (g * nb0 * nb + i * nb + k)%Z) * 1)%Q) gps
      = map (fun g => (iso_bands nb freq eig mv cutoff (iso_e0 nb eig q bi i) g (fun k => iw (g * nb0 * nb + i * nb + k)%Z) * 1)%Q) (map (fun x => nth (Z.to_nat x) gps 0%Z) (zrange n))) by (unfold n; now rewrite map_nth_zrange).
    rewrite G, map_map. apply qs_ext. intros x Hx. apply in_zrange in Hx.
    pose proof (thm_result q gps bi iw (fun _ => 1%Q) zeroed gij x i Hx Hi F2) as K. fold nb0 in K. rewrite E in K. rewrite K. reflexivity.
Qed.

(** weight of the mode (g, k) in the linewidth of the band at position i of the band indices *)
Definition delta_c (q : Z) (bi : list Z) (sw : Q + (Z -> Q)) (i g k : Z) : Q :=
  match sw with
  | inl sigma => gauss (freq (g * nb + k) - freq (q * nb + nth (Z.to_nat i) bi 0%Z)%Z) sigma
  | inr iw => iw (g * Z.of_nat (length bi) * nb + i * nb + k)
  end.
Theorem run_c_value : forall gamma q gps bi N sw i, ~ (inject_Z N == 0)%Q -> 0 <= i < Z.of_nat (length bi) ->
  iso_run_c pi gauss nb freq eig mv cutoff gamma q gps bi N sw ->
  (gamma i == spec N gps (delta_c q bi sw i) q (nth (Z.to_nat i) bi 0%Z))%Q.
Proof.
  intros gamma q gps bi N sw i HN Hi [g [H K]]. rewrite (K i Hi). destruct sw as [sigma|iw]; cbn [delta_c].
  - exact (gaussian_value _ _ _ _ _ _ _ HN Hi H).
  - exact (thm_value _ _ _ _ _ _ _ HN Hi H).
Qed.

(** some result exists: the loops run in order by one thread *)
Lemma run_c_exists : forall q gps bi N sw, exists gamma, iso_run_c pi gauss nb freq eig mv cutoff gamma q gps bi N sw.
Proof.
  intros q gps bi N [sigma|iw].
  - set (g := fun i => if qltb (iso_f0 nb freq q bi i) cutoff then (0 * iso_factor pi (iso_f0 nb freq q bi i))%Q
      else (fold_left Qplus [fold_left Qplus (map (fun g => (iso_bands nb freq eig mv cutoff (iso_e0 nb eig q bi i) g (fun k => gauss (freq (g * nb + k)%Z - iso_f0 nb freq q bi i) sigma) * 1)%Q) gps) 0] 0 * iso_factor pi (iso_f0 nb freq q bi i))%Q).
    exists (fun i => (g i / inject_Z N)%Q), g. split; [|reflexivity]. intros i Hi. unfold g. destruct (qltb (iso_f0 nb freq q bi i) cutoff); [reflexivity|].
    eexists. split; [|reflexivity]. exists [map (fun g => (iso_bands nb freq eig mv cutoff (iso_e0 nb eig q bi i) g (fun k => gauss (freq (g * nb + k)%Z - iso_f0 nb freq q bi i) sigma) * 1)%Q) gps].
    split; [cbn [concat]; now rewrite app_nil_r|reflexivity].
  - set (nb0 := Z.of_nat (length bi)). set (n := Z.of_nat (length gps)). set (z := run_seq Z.eq_dec (map wprog (iso_zero_iterations (n * nb0))) (fun _ => 0%Q)).
    set (h := run_seq Z.eq_dec (map wprog (map (iso_thm_iteration nb freq eig mv cutoff q gps (fun _ => 1%Q) bi iw) (zrange n))) z).
    set (g := fun j => (fold_left (fun s i => (s + h (i * nb0 + j)%Z)%Q) (zrange n) 0 * iso_factor pi (iso_f0 nb freq q bi j))%Q).
    exists (fun i => (g i / inject_Z N)%Q), g. split; [|reflexivity]. exists (fun _ => 0%Q), z, h. split; [apply seq_finishes|]. split; [apply seq_finishes|]. reflexivity.
Qed.

(** ** Python *)
Lemma add_terms : forall l s, fold_left (fun s t => match s, t with Some s, Some t => Some (s + t)%Q | _, _ => None end) (map Some l) (Some s) = Some (fold_left Qplus l s).
Proof. induction l as [|x l IH]; intros s; cbn [map fold_left]; [reflexivity|]. apply IH. Qed.
Lemma flat_map_some : forall X (f : X -> list Q) l, flat_map (fun x => map Some (f x)) l = map Some (flat_map f l).
Proof. intros X f l. induction l as [|x l IH]; cbn; [reflexivity|]. now rewrite map_app, IH. Qed.
Definition delta_py (q : Z) (nb0 : Z) (sw : Q + (Z -> Q)) (b g k : Z) : Q :=
  match sw with inl sigma => gauss (freq (q * nb + b) - freq (g * nb + k)%Z) sigma | inr iw => iw (g * nb0 * nb + b * nb + k) end.
Lemma run_py_value : forall q gps bi N sw, ~ (inject_Z N == 0)%Q ->
  (forall b, In b bi -> qltb (freq (q * nb + b)) cutoff = false) -> (forall iw, sw = inr iw -> forall b, In b bi -> b < Z.of_nat (length bi)) ->
  exists l, iso_run_py pi gauss nb freq eig mv cutoff q gps bi N sw = Some l /\ Forall2 (fun b v => (v == spec N gps (delta_py q (Z.of_nat (length bi)) sw b) q b)%Q) bi l.
Proof.
  intros q gps bi N sw HN Hc Hb. unfold iso_run_py. set (nb0 := Z.of_nat (length bi)) in *. clearbody nb0.
  induction bi as [|b bi IH]; [exists []; split; constructor|].
  destruct IH as [r [Er Fr]]; [intros b' H; apply Hc; now right|intros iw E b' H; apply (Hb iw E); now right|].
  cbn [fold_right]. rewrite Er.
  set (term := fun g j => if qltb (freq (g * nb + j)) cutoff then [] else
     [(qsum (map (fun l => cnorm2 (csum (map (fun m => cmul (eig (g * nb * nb + (l * 3 + m) * nb + j)%Z) (conj (eig (q * nb * nb + (l * 3 + m) * nb + b)%Z))) (zrange 3))) * mv l) (zrange (Z.quot nb 3))) * delta_py q nb0 sw b g j)%Q]).
  match goal with |- context [fold_left _ ?t (Some 0%Q)] => assert (Et : t = map Some (flat_map (fun g => flat_map (term g) (zrange nb)) gps)) end.
  { rewrite <- flat_map_some. apply flat_map_ext. intros g. rewrite <- flat_map_some. apply flat_map_ext. intros j. unfold term.
    destruct (qltb (freq (g * nb + j)) cutoff); [reflexivity|]. destruct sw as [sigma|iw]; [reflexivity|].
    assert (L : (b <? nb0) = true) by (apply Z.ltb_lt; apply (Hb iw eq_refl); now left). rewrite L. reflexivity. }
  rewrite Et, add_terms. eexists. split; [reflexivity|]. constructor; [|exact Fr].
  unfold golden_rule. rewrite (Hc b (or_introl eq_refl)). rewrite fold_plus, Qplus_0_l, qs_flat_map.
  rewrite (qs_ext _ _ (fun g => Sum nb (fun k => if qltb (freq (g * nb + k)%Z) cutoff then 0
      else delta_py q nb0 sw b g k * Sum (nb / 3) (fun l => mv l * overlap2 (pol q b) (pol g k) l)))%Q); [field; exact HN|].
  intros g _. rewrite qs_flat_map. unfold Sum at 1. apply qs_ext. intros j _. unfold term.
  destruct (qltb (freq (g * nb + j)) cutoff); [reflexivity|]. rewrite qs_cons, qs_nil, Qplus_0_r, Qmult_comm. apply Qmult_comp; [reflexivity|].
  rewrite (Z.quot_div_nonneg nb 3) by lia. unfold Sum. apply qs_ext. intros l _. unfold overlap2, CSum, polarization. change (zrange 3) with [0; 1; 2].
  cbn [map csum fold_right]. unfold cnorm2. cbn [re im cmul cadd conj c0]. ring.
Qed.
End IsoProofs.

(** ** C89 *)
(** the lineshape is even and depends on the value of its argument only *)
Definition lineshape (gauss : Q -> Q -> Q) : Prop := forall x y s, (x == y \/ x == - y)%Q -> (gauss x s == gauss y s)%Q.

Lemma N_neq : forall N, 0 < N -> ~ (inject_Z N == 0)%Q.
Proof. intros N H E. unfold Qeq in E. cbn in E. lia. Qed.
(** the C code gives the golden rule, whatever the schedule of its threads, for Gaussian smearing and for given tetrahedron weights *)
Theorem C89_golden_rule : forall pi gauss nb freq eig mv cutoff gamma q gps bi N sw i, 0 <= nb -> 0 < N -> 0 <= i < Z.of_nat (length bi) ->
  iso_run_c pi gauss nb freq eig mv cutoff gamma q gps bi N sw ->
  (gamma i == golden_rule pi nb freq eig mv cutoff N gps
     (fun g k => match sw with
        | inl sigma => gauss (freq (g * nb + k)%Z - freq (q * nb + nth (Z.to_nat i) bi 0%Z)%Z) sigma
        | inr iw => iw (g * Z.of_nat (length bi) * nb + i * nb + k)%Z end) q (nth (Z.to_nat i) bi 0%Z))%Q.
Proof.
  intros pi gauss nb freq eig mv cutoff gamma q gps bi N sw i Hnb HN Hi H.
  rewrite (run_c_value pi gauss nb freq eig mv cutoff Hnb gamma q gps bi N sw i (N_neq N HN) Hi H). destruct sw; reflexivity.
Qed.
Print Assumptions C89_golden_rule.

Lemma nth_zrange' : forall n i, 0 <= i < n -> nth (Z.to_nat i) (zrange n) 0 = i.
Proof. intros n i Hi. unfold zrange. change 0 with (Z.of_nat 0). rewrite map_nth, seq_nth by lia. lia. Qed.
Lemma Forall2_nth_pair : forall (X Y : Type) (P : X -> Y -> Prop) l l' i dx dy, Forall2 P l l' -> (i < length l)%nat -> P (nth i l dx) (nth i l' dy).
Proof. intros X Y P l l' i dx dy F. revert i. induction F as [|x y l l' H F IH]; intros [|i] Hi; cbn in *; try lia; auto. apply IH. lia. Qed.
Lemma Forall2_len : forall (X Y : Type) (P : X -> Y -> Prop) l l', Forall2 P l l' -> length l = length l'.
Proof. intros X Y P l l' F. induction F; cbn; congruence. Qed.
Lemma golden_ext : forall pi nb freq eig mv cutoff N gps delta delta' q b, (forall g k, (delta g k == delta' g k)%Q) ->
  (golden_rule pi nb freq eig mv cutoff N gps delta q b == golden_rule pi nb freq eig mv cutoff N gps delta' q b)%Q.
Proof.
  intros pi nb freq eig mv cutoff N gps delta delta' q b H. unfold golden_rule. destruct (qltb (freq (q * nb + b)) cutoff); [reflexivity|].
  apply Qmult_comp; [reflexivity|]. apply qs_ext. intros g _. apply Sum_ext. intros k _. destruct (qltb (freq (g * nb + k)) cutoff); [reflexivity|]. rewrite H. reflexivity.
Qed.

(** run(lang="C") and run(lang="Py") give the same linewidths when no chosen mode is below the cutoff and, for the tetrahedron method, the bands chosen are all
    bands in their order *)
Theorem C89_languages_agree_partial : forall pi gauss nb freq eig mv cutoff gamma q gps bi N sw, 0 <= nb -> 0 < N -> lineshape gauss ->
  (forall b, In b bi -> (cutoff <= freq (q * nb + b)%Z)%Q) -> (forall iw, sw = inr iw -> bi = zrange nb) ->
  iso_run_c pi gauss nb freq eig mv cutoff gamma q gps bi N sw ->
  exists l, iso_run_py pi gauss nb freq eig mv cutoff q gps bi N sw = Some l /\ length l = length bi /\
    forall i, 0 <= i < Z.of_nat (length bi) -> (gamma i == nth (Z.to_nat i) l 0)%Q.
Proof.
  intros pi gauss nb freq eig mv cutoff gamma q gps bi N sw Hnb HN Hg Hc Hb H.
  destruct (run_py_value pi gauss nb freq eig mv cutoff Hnb q gps bi N sw (N_neq N HN)) as [l [El Fl]].
  - intros b Hin. apply qltb_ge, Hc, Hin.
  - intros iw E b Hin. rewrite (Hb iw E) in *. apply in_zrange in Hin. rewrite length_zrange. lia.
  - exists l. split; [exact El|]. split; [symmetry; exact (Forall2_len _ _ _ _ _ Fl)|]. intros i Hi.
    rewrite (run_c_value pi gauss nb freq eig mv cutoff Hnb gamma q gps bi N sw i (N_neq N HN) Hi H).
    rewrite (Forall2_nth_pair _ _ _ _ _ (Z.to_nat i) 0 0%Q Fl) by lia. apply golden_ext. intros g k. destruct sw as [sigma|iw]; cbn [delta_c delta_py].
    + apply Hg. right. ring.
    + assert (E : nth (Z.to_nat i) bi 0 = i). { rewrite (Hb iw eq_refl) in *. rewrite length_zrange in Hi. apply (nth_zrange' nb i). lia. }
      rewrite E. reflexivity.
Qed.
Print Assumptions C89_languages_agree_partial.

(** otherwise they need not: with the bands chosen in another order the Python version takes the integration weights of the wrong band, with a subset of the
    bands it may stop with an IndexError, and it scatters modes below the cutoff *)
Definition lorentz (x s : Q) : Q := (/ (x * x + s * s))%Q.
Definition ph_freq (i : Z) : Q := nth (Z.to_nat i) [1#20; 1; 2; 1#5; 1; 3]%Q 0%Q.
Definition ph_eig (i : Z) : cplx := nth (Z.to_nat i) [c1; c0; c0; c0; c1; c0; c0; c0; c1; C (3#5) 0; C (4#5) 0; c0; C 0 (4#5); C 0 (-3#5); c0; c0; c0; c1] c0.
Definition ph_iw (i : Z) : Q := (inject_Z (i * i) + 1)%Q.
Theorem C89_languages_agree_refuted :
  (forall gamma, iso_run_c 3 lorentz 3 ph_freq ph_eig (fun _ => 1%Q) 0 gamma 0 [0; 1] [1; 0] 2 (inr ph_iw) ->
     exists a b, iso_run_py 3 lorentz 3 ph_freq ph_eig (fun _ => 1%Q) 0 0 [0; 1] [1; 0] 2 (inr ph_iw) = Some [a; b] /\ ~ (gamma 0%Z == a)%Q) /\
  iso_run_py 3 lorentz 3 ph_freq ph_eig (fun _ => 1%Q) 0 0 [0; 1] [1] 2 (inr ph_iw) = None /\
  (forall gamma, iso_run_c 3 lorentz 3 ph_freq ph_eig (fun _ => 1%Q) (1#10) gamma 0 [0; 1] [0] 2 (inl 1%Q) ->
     (gamma 0%Z == 0)%Q /\ exists a, iso_run_py 3 lorentz 3 ph_freq ph_eig (fun _ => 1%Q) (1#10) 0 [0; 1] [0] 2 (inl 1%Q) = Some [a] /\ ~ (a == 0)%Q).
Proof.
  split; [|split; [vm_compute; reflexivity|]].
  - intros gamma H. assert (L : 0 <= 0 < Z.of_nat (length [1; 0])) by (cbn; lia). assert (P1 : 0 <= 3) by lia. assert (P2 : 0 < 2) by lia.
    pose proof (C89_golden_rule _ _ _ _ _ _ _ _ _ _ _ _ _ 0 P1 P2 L H) as E. eexists. eexists. split; [vm_compute; reflexivity|].
    rewrite E. intros K. vm_compute in K. discriminate.
  - intros gamma H. assert (L : 0 <= 0 < Z.of_nat (length [0])) by (cbn; lia). assert (P1 : 0 <= 3) by lia. assert (P2 : 0 < 2) by lia.
    pose proof (C89_golden_rule _ _ _ _ _ _ _ _ _ _ _ _ _ 0 P1 P2 L H) as E. split; [rewrite E; vm_compute; reflexivity|].
    eexists. split; [vm_compute; reflexivity|]. intros K. vm_compute in K. discriminate.
Qed.
Print Assumptions C89_languages_agree_refuted.
Example C89_ex : exists gamma, iso_run_c 3 lorentz 3 ph_freq ph_eig (fun _ => 1%Q) 0 gamma 0 [0; 1] [0; 1; 2] 2 (inr ph_iw) /\ ~ (gamma 0%Z == 0)%Q /\
  exists a b c, iso_run_py 3 lorentz 3 ph_freq ph_eig (fun _ => 1%Q) 0 0 [0; 1] [0; 1; 2] 2 (inr ph_iw) = Some [a; b; c] /\ (gamma 0%Z == a)%Q /\ (gamma 1%Z == b)%Q.
Proof.
  destruct (run_c_exists 3 lorentz 3 ph_freq ph_eig (fun _ => 1%Q) 0 0 [0; 1] [0; 1; 2] 2 (inr ph_iw)) as [gamma H]. exists gamma. split; [exact H|].
  assert (P1 : 0 <= 3) by lia. assert (P2 : 0 < 2) by lia.
  assert (L0 : 0 <= 0 < Z.of_nat (length [0; 1; 2])) by (cbn; lia). assert (L1 : 0 <= 1 < Z.of_nat (length [0; 1; 2])) by (cbn; lia).
  pose proof (C89_golden_rule _ _ _ _ _ _ _ _ _ _ _ _ _ 0 P1 P2 L0 H) as E0. pose proof (C89_golden_rule _ _ _ _ _ _ _ _ _ _ _ _ _ 1 P1 P2 L1 H) as E1.
  split; [rewrite E0; intros K; vm_compute in K; discriminate|]. eexists. eexists. eexists. split; [vm_compute; reflexivity|].
  split; [rewrite E0|rewrite E1]; vm_compute; reflexivity.
Qed.
