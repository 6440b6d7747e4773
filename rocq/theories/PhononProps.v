From Coq Require Import ZArith List Bool Lia.
From Verif Require Import Base BaseProofs Par Par2 PhononModel.
Import ListNotations.
Open Scope Z_scope.

(** ** The list of undone points *)
Lemma collect_spec : forall done gps, let r := collect_undone done gps in
  NoDup (fst r) /\ (forall g, In g (fst r) <-> In g gps /\ done g = 0) /\
  (forall g, In g gps -> done g = 0 -> snd r g = 1) /\ (forall g, ~ In g gps \/ done g <> 0 -> snd r g = done g).
Proof.
  intros done gps. unfold collect_undone.
  induction gps as [|x gps IH] using rev_ind; cbv zeta in *.
  - cbn [fold_left fst snd]. split; [constructor|]. split; [cbn; tauto|]. split; [intros g []|reflexivity].
  - rewrite fold_left_app. cbn [fold_left]. set (st := fold_left _ gps ([], done)) in *. destruct IH as [N [I [D1 D2]]]. 
    assert (Hx : snd st x = 0 <-> done x = 0 /\ ~ In x gps).
    { destruct (in_dec Z.eq_dec x gps) as [Hi|Hi]; destruct (Z.eq_dec (done x) 0) as [Hd|Hd].
      - rewrite (D1 x Hi Hd). split; [lia|tauto].
      - rewrite (D2 x (or_intror Hd)). tauto.
      - rewrite (D2 x (or_introl Hi)). tauto.
      - rewrite (D2 x (or_introl Hi)). tauto. }
    destruct (Z.eqb_spec (snd st x) 0) as [E|E].
    + apply Hx in E. destruct E as [E1 E2]. cbn [fst snd]. assert (Nx : ~ In x (fst st)) by (rewrite I; tauto). split.
      { apply (NoDup_Add (a := x) (l := fst st)); [|split; assumption]. rewrite <- (app_nil_r (fst st)) at 1. apply Add_app. }
      split; [intros g; rewrite in_app_iff, in_app_iff, I; cbn; split; [intros [H|[<-|[]]]; tauto|intros [[H|[<-|[]]] H2]; tauto]|]. split.
      * intros g Hg Dg. unfold upd. destruct (g =? x) eqn:Eg; [reflexivity|]. apply in_app_iff in Hg. destruct Hg as [Hg|[Hg|[]]]; [auto|]. subst g. rewrite Z.eqb_refl in Eg. discriminate Eg.
      * intros g Hg. unfold upd. destruct (Z.eqb_spec g x) as [Eg|Eg]; [subst g; rewrite in_app_iff in Hg; cbn in Hg; destruct Hg; tauto|]. apply D2. destruct Hg as [Hg|Hg]; [left; rewrite in_app_iff in Hg; tauto|tauto].
    + split; [exact N|]. assert (Ex : In x gps \/ done x <> 0) by (destruct (in_dec Z.eq_dec x gps); [auto|right; intros h; apply E, Hx; auto]).
      split; [intros g; rewrite I, in_app_iff; cbn; split; [tauto|intros [[H|[<-|[]]] H2]; tauto]|]. split.
      * intros g Hg Dg. apply in_app_iff in Hg. destruct Hg as [Hg|[<-|[]]]; [auto|]. destruct Ex as [Ex|Ex]; [auto|congruence].
      * intros g Hg. destruct Hg as [Hg|Hg]; [|auto]. rewrite in_app_iff in Hg. apply D2. tauto.
Qed.
(** The buffer [undone] of num_phonons elements is large enough. *)
Theorem C45_undone_fits : forall done gps n, 0 <= n -> (forall g, In g gps -> 0 <= g < n) -> Z.of_nat (length (fst (collect_undone done gps))) <= n.
Proof.
  intros done gps n Hn H. destruct (collect_spec done gps) as [N [I _]].
  assert (L : (length (fst (collect_undone done gps)) <= length (zrange n))%nat) by (apply NoDup_incl_length; [exact N|]; intros g Hg; apply in_zrange; apply H, I, Hg).
  rewrite length_zrange in L. lia.
Qed.
Print Assumptions C45_undone_fits.

Section Solver.
Context {V : Type}.
Variables (nb : Z) (dm : Z -> Z -> V) (zheev : list V -> list V * list V) (conv : V -> V) (zero : V).
Notation build := (build nb dm). Notation diagonalize := (diagonalize nb zheev conv zero).
(** ** Specification: phonons of one grid point, and where they are stored *)
Definition eig (gp : Z) : list V * list V := zheev (map (dm gp) (zrange (nb * nb))).
Definition own (gp : Z) (a : adr) : Prop :=
  (exists j, 0 <= j < nb /\ a = Fr (nb * gp + j)) \/ (exists e, 0 <= e < nb * nb /\ a = Ev (nb * nb * gp + e)).
Definition solved (m : adr -> V) (gp : Z) : Prop :=
  (forall j, 0 <= j < nb -> m (Fr (nb * gp + j)) = conv (nth (Z.to_nat j) (fst (eig gp)) zero)) /\
  (forall e, 0 <= e < nb * nb -> m (Ev (nb * nb * gp + e)) = nth (Z.to_nat e) (snd (eig gp)) zero).

Lemma own_inj : forall x y a, own x a -> own y a -> x = y.
Proof.
  intros x y a [[j [Hj E]]|[e [He E]]] [[j2 [Hj2 E2]]|[e2 [He2 E2]]]; subst a; try discriminate E2; injection E2 as E2.
  - destruct (flat_inj nb x j y j2); try lia.
  - destruct (flat_inj (nb * nb) x e y e2); try lia.
Qed.
Lemma fp_build : forall gp, fp (own gp) (own gp) (build gp).
Proof. intros gp. apply fp_wprog. intros a Ha. rewrite map_map in Ha. apply in_map_iff in Ha. destruct Ha as [e [<- He]]. apply in_zrange in He. right. exists e. auto. Qed.
Lemma fp_diag : forall gp, fp (own gp) (own gp) (diagonalize gp).
Proof.
  intros gp. apply fp_rds.
  - intros a Ha. apply in_map_iff in Ha. destruct Ha as [e [<- He]]. apply in_zrange in He. right. exists e. auto.
  - intros vs _. cbv zeta. apply fp_pseq.
    + apply fp_wprog. intros a Ha. rewrite map_app, !map_map, in_app_iff, !in_map_iff in Ha. destruct Ha as [[j [<- Hj]]|[e [<- He]]]; [left; exists j|right; exists e]; (split; [now apply in_zrange|reflexivity]).
    + apply fp_pfor. intros j Hj. apply in_zrange in Hj. constructor; [left; exists j; auto|]. intros v. constructor; [left; exists j; auto|constructor].
Qed.
Lemma nodup_map_inj : forall X Y (f : X -> Y) l, (forall x y, In x l -> In y l -> f x = f y -> x = y) -> NoDup l -> NoDup (map f l).
Proof.
  intros X Y f. induction l as [|x l IH]; intros H N; [constructor|]. inversion N; subst. cbn. constructor.
  - intros Hi. apply in_map_iff in Hi. destruct Hi as [y [E Hy]]. assert (x = y) by (apply H; [left; auto|right; auto|auto]). subst y. contradiction.
  - apply IH; auto. intros a b Ha Hb. apply H; right; auto.
Qed.
Lemma build_result : forall gp m e, 0 <= e < nb * nb -> run adr_dec (build gp) m (Ev (nb * nb * gp + e)) = dm gp e.
Proof.
  intros gp m e He. unfold PhononModel.build. rewrite run_wprog. apply store_in.
  - rewrite map_map. apply nodup_map_inj; [|apply NoDup_zrange]. intros x y _ _ E. cbn in E. injection E as E. lia.
  - apply in_map_iff. exists e. split; [reflexivity|]. now apply in_zrange.
Qed.
Lemma conv_loop : forall gp l m a, NoDup l -> 
  run adr_dec (pfor l (fun j => Rd (Fr (nb * gp + j)) (fun v => Wr (Fr (nb * gp + j)) (conv v) Ret))) m a =
  (if in_dec adr_dec a (map (fun j => Fr (nb * gp + j)) l) then conv (m a) else m a).
Proof.
  intros gp. induction l as [|j l IH]; intros m a N; [reflexivity|]. rewrite run_pfor. cbn [fold_left]. rewrite <- run_pfor. cbn [run]. inversion N as [|? ? N1 N2]; subst. rewrite IH by exact N2.
  assert (Nj : ~ In (Fr (nb * gp + j)) (map (fun j => Fr (nb * gp + j)) l)) by (intros H; apply in_map_iff in H; destruct H as [k [E Hk]]; injection E as E; assert (k = j) by lia; subst; contradiction).
  unfold wr at 1 2. destruct (adr_dec a (Fr (nb * gp + j))) as [E|E].
  - subst a. destruct (in_dec adr_dec (Fr (nb * gp + j)) (map _ l)) as [H|_]; [contradiction|]. destruct (in_dec adr_dec _ (map _ (j :: l))) as [_|H]; [reflexivity|exfalso; apply H; now left].
  - destruct (in_dec adr_dec a (map _ l)) as [H|H]; destruct (in_dec adr_dec a (map _ (j :: l))) as [H2|H2]; try reflexivity; exfalso; [apply H2; now right|]. cbn in H2. destruct H2 as [H2|H2]; [congruence|contradiction].
Qed.
Lemma diag_result : forall gp m, (forall e, 0 <= e < nb * nb -> m (Ev (nb * nb * gp + e)) = dm gp e) -> solved (run adr_dec (diagonalize gp) m) gp.
Proof.
  intros gp m H. unfold PhononModel.diagonalize. rewrite run_rds. assert (B : map m (block nb gp) = map (dm gp) (zrange (nb * nb))) by (unfold block; rewrite map_map; apply map_ext_in; intros e He; apply in_zrange in He; apply H, He).
  rewrite B. cbv zeta. fold (eig gp). rewrite run_pseq, run_wprog. set (ws := map _ (zrange nb) ++ _).
  assert (N : NoDup (map fst ws)).
  { unfold ws. rewrite map_app, !map_map. cbn [fst]. rewrite <- (map_map (fun j => nb * gp + j) Fr), <- (map_map (fun e => nb * nb * gp + e) Ev).
    assert (A : forall (a b : list adr), NoDup a -> NoDup b -> (forall x, In x a -> ~ In x b) -> NoDup (a ++ b)).
    { induction a as [|x a IH]; intros b Na Nb D; [exact Nb|]. inversion Na; subst. cbn. constructor; [rewrite in_app_iff; intros [h|h]; [contradiction|exact (D x (or_introl eq_refl) h)]|]. apply IH; auto. intros y Hy. apply D. now right. }
    apply A.
    - apply nodup_map_inj; [intros x y _ _ E; now injection E|]. apply nodup_map_inj; [intros; lia|apply NoDup_zrange].
    - apply nodup_map_inj; [intros x y _ _ E; now injection E|]. apply nodup_map_inj; [intros; lia|apply NoDup_zrange].
    - intros x Hx Hy. apply in_map_iff in Hx. destruct Hx as [i [<- _]]. apply in_map_iff in Hy. destruct Hy as [k [E _]]. discriminate E. }
  split.
  - intros j Hj. rewrite conv_loop by apply NoDup_zrange. destruct (in_dec _ _ _) as [_|K]; [|exfalso; apply K; apply in_map_iff; exists j; split; [reflexivity|now apply in_zrange]]. f_equal.
    apply store_in; [exact N|]. unfold ws. apply in_app_iff. left. apply in_map_iff. exists j. split; [reflexivity|now apply in_zrange].
  - intros e He. rewrite conv_loop by apply NoDup_zrange. destruct (in_dec _ _ _) as [K|_]; [exfalso; apply in_map_iff in K; destruct K as [j [E _]]; discriminate E|].
    apply store_in; [exact N|]. unfold ws. apply in_app_iff. right. apply in_map_iff. exists e. split; [reflexivity|now apply in_zrange].
Qed.
Lemma get_undone_spec : forall u m m', NoDup u -> get_undone nb dm zheev conv zero u m m' ->
  (forall g, In g u -> solved m' g) /\ (forall a, (forall g, In g u -> ~ own g a) -> m' a = m a).
Proof.
  intros u m m' N [m1 [F1 F2]].
  destruct (par_key adr_dec own u build m m1 N (fun g _ => fp_build g) (fun x y a _ _ => own_inj x y a) F1) as [A1 A2].
  destruct (par_key adr_dec own u diagonalize m1 m' N (fun g _ => fp_diag g) (fun x y a _ _ => own_inj x y a) F2) as [B1 B2].
  split.
  - intros g Hg. assert (S : solved (run adr_dec (diagonalize g) m1) g).
    { apply diag_result. intros e He. rewrite (A1 g) by (auto; right; exists e; auto). apply build_result, He. }
    destruct S as [S1 S2]. split; [intros j Hj|intros e He]; rewrite (B1 g); auto; [left; exists j; auto|right; exists e; auto].
  - intros a Ha. rewrite B2 by exact Ha. apply A2, Ha.
Qed.
Lemma solved_own : forall m m' g, (forall a, own g a -> m' a = m a) -> solved m g -> solved m' g.
Proof. intros m m' g H [S1 S2]. split; [intros j Hj|intros e He]; rewrite H; auto; [left; exists j; auto|right; exists e; auto]. Qed.

(** what a call, and a sequence of calls, must do for the set [req] of requested points *)
Definition right_for (req : Z -> Prop) (st st' : (Z -> Z) * (adr -> V)) : Prop :=
  (forall g, req g -> fst st g = 0 -> fst st' g = 1 /\ solved (snd st') g) /\
  (forall g, ~ req g \/ fst st g <> 0 -> fst st' g = fst st g /\ forall a, own g a -> snd st' a = snd st a).
Lemma one_call : forall gps st st', get_phonons nb dm zheev conv zero gps st st' -> right_for (fun g => In g gps) st st'.
Proof.
  intros gps [done m] [done' m'] [H1 H2]. cbn [fst snd] in *. destruct (collect_spec done gps) as [N [I [D1 D2]]]. destruct (get_undone_spec _ _ _ N H2) as [S O]. split.
  - intros g Hg D. cbn [fst snd] in *. split; [rewrite H1; auto|]. apply S, I. auto.
  - intros g Hg. cbn [fst snd] in *. split; [rewrite H1; apply D2, Hg|]. intros a Ha. apply O. intros g2 Hg2 O2. apply I in Hg2. assert (g = g2) by (eapply own_inj; eauto). subst g2. tauto.
Qed.
(** ** C45: any sequence of requests, any schedule of each parallel loop *)
Theorem C45_phonons : forall reqs st st', calls (get_phonons nb dm zheev conv zero) reqs st st' -> right_for (fun g => In g (concat reqs)) st st'.
Proof.
  intros reqs st st' H. induction H as [st|gps l st st1 st2 C1 C2 [IH1 IH2]]; [split; [intros g []|auto]|]. apply one_call in C1. destruct C1 as [A1 A2]. cbn [concat]. split.
  - intros g Hg D. destruct (in_dec Z.eq_dec g gps) as [Hi|Hi].
    + destruct (A1 g Hi D) as [E S]. destruct (IH2 g) as [E2 M2]; [right; rewrite E; discriminate|]. split; [now rewrite E2|]. apply (solved_own (snd st1)); auto.
    + destruct (A2 g (or_introl Hi)) as [E M]. apply IH1; [apply in_app_iff in Hg; tauto|now rewrite E].
  - intros g Hg. rewrite in_app_iff in Hg. destruct (A2 g) as [E M]; [tauto|]. destruct (IH2 g) as [E2 M2]; [rewrite E; tauto|]. split; [congruence|]. intros a Ha. rewrite M2, M; auto.
Qed.
(** Hence the result depends only on which points were requested. *)
Theorem C45_order : forall reqs1 reqs2 st st1 st2, (forall g, In g (concat reqs1) <-> In g (concat reqs2)) ->
  calls (get_phonons nb dm zheev conv zero) reqs1 st st1 -> calls (get_phonons nb dm zheev conv zero) reqs2 st st2 ->
  forall g, fst st1 g = fst st2 g /\ forall a, own g a -> snd st1 a = snd st2 a.
Proof.
  intros reqs1 reqs2 st st1 st2 H C1 C2 g. destruct (C45_phonons _ _ _ C1) as [A1 A2]. destruct (C45_phonons _ _ _ C2) as [B1 B2].
  destruct (Z.eq_dec (fst st g) 0) as [D|D]; [destruct (in_dec Z.eq_dec g (concat reqs1)) as [Hi|Hi]|].
  - destruct (A1 g Hi D) as [E1 [S1 S2]]. destruct (B1 g (proj1 (H g) Hi) D) as [E2 [T1 T2]]. split; [congruence|]. intros a [[j [Hj ->]]|[e [He ->]]]; [rewrite S1, T1|rewrite S2, T2]; auto.
  - destruct (A2 g (or_introl Hi)) as [E1 M1]. destruct (B2 g) as [E2 M2]; [left; rewrite <- H; exact Hi|]. split; [congruence|]. intros a Ha. rewrite M1, M2; auto.
  - destruct (A2 g (or_intror D)) as [E1 M1]. destruct (B2 g (or_intror D)) as [E2 M2]. split; [congruence|]. intros a Ha. rewrite M1, M2; auto.
Qed.
(** one thread *)
Definition seq_call (gps : list Z) (st : (Z -> Z) * (adr -> V)) : (Z -> Z) * (adr -> V) :=
  let r := collect_undone (fst st) gps in (snd r, run_seq adr_dec (map diagonalize (fst r)) (run_seq adr_dec (map build (fst r)) (snd st))).
Lemma seq_call_ok : forall gps st, get_phonons nb dm zheev conv zero gps st (seq_call gps st).
Proof. intros gps st. split; [reflexivity|]. eexists. split; apply seq_finishes. Qed.
Theorem C45_runs : forall reqs st, exists st', calls (get_phonons nb dm zheev conv zero) reqs st st'.
Proof.
  induction reqs as [|gps reqs IH]; intros st; [exists st; constructor|]. destruct (IH (seq_call gps st)) as [st' C]. exists st'. econstructor; [apply seq_call_ok|exact C].
Qed.
(** ** Without LAPACKE *)
Theorem C45_nolapack_partial : forall n gps st st', (forall g, In g gps -> 0 <= g < n) -> get_phonons_nolapack nb dm zheev conv zero n gps st st' ->
  (forall g, In g gps -> fst st g = 0 -> fst st' g = 1 /\ solved (snd st') g) /\
  (forall g, ~ In g gps \/ fst st g <> 0 -> fst st' g = fst st g) /\ (forall g a, fst st g <> 0 -> own g a -> snd st' a = snd st a).
Proof.
  intros n gps [done m] [done' m'] Hb [H1 [m1 [F1 H2]]]. cbn [fst snd] in *. destruct (collect_spec done gps) as [N [I [D1 D2]]]. set (before := filter _ (zrange n)) in *.
  destruct (par_key adr_dec own _ build m m1 N (fun g _ => fp_build g) (fun x y a _ _ => own_inj x y a) F1) as [A1 A2].
  assert (Nb : NoDup before) by (apply NoDup_filter, NoDup_zrange).
  assert (L : local own before (fun g m => run adr_dec (diagonalize g) m)).
  { intros g _. split; [intros m0 a Ha; eapply run_outside; [apply fp_diag|exact Ha]|]. intros m0 m2 E a Ha. eapply run_agree; [apply fp_diag| |left; exact Ha]. intros b [Hb2|Hb2]; auto. }
  destruct (fold_indep own (fun g m => run adr_dec (diagonalize g) m) before m1 L Nb (fun x y a _ _ => own_inj x y a)) as [B1 B2]. subst m'. split; [|split].
  - intros g Hg D. split; [rewrite H1; auto|]. assert (S : solved (run adr_dec (diagonalize g) m1) g) by (apply diag_result; intros e He; rewrite (A1 g) by (try apply I; auto; right; exists e; auto); apply build_result, He).
    eapply solved_own; [|exact S]. intros a Ha. apply B1; [|exact Ha]. apply filter_In. rewrite in_zrange, Z.eqb_eq. auto.
  - intros g Hg. rewrite H1. apply D2, Hg.
  - intros g a D Ha. rewrite B2; [apply A2|].
    + intros g2 Hg2 O2. apply I in Hg2. assert (g = g2) by (eapply own_inj; eauto). subst g2. tauto.
    + intros g2 Hg2 O2. apply filter_In in Hg2. rewrite Z.eqb_eq in Hg2. assert (g = g2) by (eapply own_inj; eauto). subst g2. tauto.
Qed.
End Solver.
Print Assumptions C45_phonons.
Print Assumptions C45_order.
Print Assumptions C45_runs.
Print Assumptions C45_nolapack_partial.
(** Without LAPACKE a point that was not requested is changed: zheev is applied to whatever is in its block. *)
Theorem C45_nolapack_other_points_refuted : exists (zheev : list Z -> list Z * list Z) st st',
  get_phonons_nolapack 1 (fun g _ => g + 5) zheev (fun x => x) 0 2 [0] st st' /\ fst st' 1 = 0 /\ snd st (Ev 1) = 0 /\ snd st' (Ev 1) = 7.
Proof.
  exists (fun l => (l, map (Z.add 7) l)), (fun _ => 0, fun _ => 0).
  eexists (_, _). split; [|split; [|split]]; [split; [intros g; reflexivity|]; eexists; split; [apply seq_finishes|reflexivity]|..]; vm_compute; reflexivity.
Qed.
Print Assumptions C45_nolapack_other_points_refuted.
Example C45_ex : fst (collect_undone (fun g => if g =? 3 then 1 else 0) [5; 3; 2; 5; 0; 2]) = [5; 2; 0] /\
  exists st', calls (get_phonons 1 (fun g _ => g + 5) (fun l => (l, map (Z.add 7) l)) (fun x => 2 * x) 0) [[5; 3; 2]; [2; 0]] (fun g => if g =? 3 then 1 else 0, fun _ => 0) st' /\
    snd st' (Fr 5) = 20 /\ snd st' (Ev 5) = 17 /\ snd st' (Fr 3) = 0 /\ fst st' 0 = 1.
Proof.
  split; [reflexivity|]. eexists. split; [econstructor; [apply seq_call_ok|]; econstructor; [apply seq_call_ok|]; constructor|]. vm_compute. auto.
Qed.
(** ** C56 *)
(** rejected when the number of grid points differs, or when every single component differs. Missing: addresses that
    differ in some but not all components (refuted). *)
Theorem C56_reject_partial : forall bz given, 
  (length given <> length bz -> accepts_phonons bz given = false) /\
  (length given = length bz -> (accepts_phonons bz given = false <-> forall x, In x (combine bz given) -> let '((a, b, c), (u, v, w)) := x in a <> u /\ b <> v /\ c <> w)).
Proof.
  intros bz given. split.
  - intros H. unfold accepts_phonons, shape_same. destruct (Nat.eqb_spec (length given) (length bz)); [congruence|reflexivity].
  - intros H. unfold accepts_phonons, shape_same. rewrite H, Nat.eqb_refl. cbn [negb]. rewrite negb_false_iff, forallb_forall. unfold diffs. split.
    + intros F [[[a b] c] [[u v] w]] Hx. assert (G : forall d, In d [a - u; b - v; c - w] -> d <> 0).
      { intros d Hd. specialize (F d). rewrite negb_true_iff, Z.eqb_neq in F. apply F. apply in_flat_map. eexists. split; [exact Hx|exact Hd]. }
      repeat split; intros E; [apply (G (a - u))|apply (G (b - v))|apply (G (c - w))]; cbn; auto; lia.
    + intros F d Hd. apply in_flat_map in Hd. destruct Hd as [[[[a b] c] [[u v] w]] [Hx Hd]]. specialize (F _ Hx). cbn in F. destruct Hd as [<-|[<-|[<-|[]]]]; apply negb_true_iff, Z.eqb_neq; lia.
Qed.
Print Assumptions C56_reject_partial.
Theorem C56_other_mesh_refuted : exists bz given, length given = length bz /\ given <> bz /\ accepts_phonons bz given = true.
Proof. exists [(0, 0, 0); (1, 0, 0)], [(0, 0, 0); (0, 1, 0)]. split; [reflexivity|]. split; [discriminate|reflexivity]. Qed.
Print Assumptions C56_other_mesh_refuted.
(** Stronger: any array that agrees in one component of one grid point, e.g. at Gamma, is accepted. *)
Theorem C56_gamma_agrees_refuted : forall bz given, length given = length bz -> nth_error bz 0 = Some (0, 0, 0) -> nth_error given 0 = Some (0, 0, 0) -> accepts_phonons bz given = true.
Proof.
  intros bz given H B G. destruct (accepts_phonons bz given) eqn:E; [reflexivity|]. exfalso. apply (proj2 (C56_reject_partial bz given) H) with (x := ((0, 0, 0), (0, 0, 0))) in E; [tauto|].
  destruct bz as [|b bz]; [discriminate B|]. destruct given as [|g given]; [discriminate G|]. cbn in B, G. injection B as ->. injection G as ->. left. reflexivity.
Qed.
Print Assumptions C56_gamma_agrees_refuted.
