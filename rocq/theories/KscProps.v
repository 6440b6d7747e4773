(** The command phono3py-kaccum (C121) *)
From Coq Require Import ZArith QArith Qabs List Bool Lia Lqa.
From Verif Require Import Base BaseProofs Mat3 QMat GridSpec GridModel GridProofs GridProps BzModel BzProps TripletModel TripletProps TetraModel IwModel IseSpec IseProofs Fc3Trans
  RestartModel RestartProps YamlProps KapModel KapProofs KapProps KaccumModel KaccumProps KscModel.
Import ListNotations.
Open Scope Z_scope.

(** ** Specification *)
(** a file whose arrays have the shapes with which they are written *)
Definition shaped (h : kfile) : Prop :=
  0 <= h_n h /\ (forall w, h_weight h = Some w -> size w = h_n h) /\ (forall w p, h_ir h = Some (w, p) -> size w = size p).
Definition all_one (w : list Z) : Prop := forall x, In x w -> x = 1.
(** a mode property at all grid points which the operations of the crystal leave unchanged *)
Definition invariant (g : bzgrid) (rots : list M3) (nb : Z) (F : Z -> Z -> Q) : Prop :=
  forall R x b, In R rots -> 0 <= x < num g -> 0 <= b < nb -> (F (rotate_grid_index x R (mesh g) vzero) b == F x b)%Q.
(** a file holds it at a list of grid points *)
Definition holds (nb : Z) (points : list Z) (P F : Z -> Z -> Q) : Prop :=
  forall i b, 0 <= i < size points -> 0 <= b < nb -> (P i b == F (nth (Z.to_nat i) points 0%Z) b)%Q.
(** average over all grid points of the sum over the bands *)
Definition mean (g : bzgrid) (nb : Z) (F : Z -> Z -> Q) : Q := (Sum (num g) (fun x => Sum nb (F x)) / inject_Z (num g))%Q.
(** what an option shows, from what is in the file *)
Definition quantity (pi2 : Q) (h : kfile) (k : skind) (t i b : Z) (x : Q) : Prop :=
  match k with
  | Cv => x = h_cv h t i b
  | Gamma => x = h_gamma h t i b
  | Tau => ((0 < h_gamma h t i b)%Q -> (2 * pi2 * h_gamma h t i b * x == 1)%Q) /\ (~ (0 < h_gamma h t i b)%Q -> x = 0%Q)
  | Dos => x = 1%Q
  | Gruneisen => (x == h_gruneisen h i b ^ 2)%Q
  | Pqj => x = h_pp h i b
  | GvNorm => x = h_norm h i b
  end.
(** the row of a tensor K *)
Definition shows (c : columns) (K : Z -> Q) (row : list Q) : Prop :=
  match c with
  | Six => size row = 12 /\ forall e, 0 <= e < 6 -> (nth (Z.to_nat e) row 0 == K e)%Q /\ (nth (Z.to_nat (6 + e)) row 0 == 0)%Q
  | Average => exists a d, row = [a; d] /\ (3 * a == K 0%Z + K 1%Z + K 2%Z)%Q /\ (d == 0)%Q
  | Trace => exists a d, row = [a; d] /\ (a == K 0%Z + K 1%Z + K 2%Z)%Q /\ (d == 0)%Q
  end.

Section Proofs.
Variable g : bzgrid.
Variable rots : list M3.
Variable init : Z -> Z.
Variable q_ok : bool.
Variable nb : Z.
Variable eps epsilon pi2 : Q.
Variable nd : Q -> Q -> Q.
Local Notation N := (num g).
Local Notation irs_ref := (ir_ref g rots init).
Local Notation mp := (ir_map g rots init).
Local Notation coll := (collect g rots init q_ok).
Local Notation scalar := (run_scalar g rots init q_ok nb eps epsilon pi2 nd).
Local Notation tensor := (run_tensor g rots init q_ok nb eps epsilon pi2).
Local Notation total := (dos g nb eps epsilon).

Hypothesis Hg : good_grid g.
Hypothesis HG : good_group (mesh g) vzero rots.
Hypothesis Hb : 0 <= nb.
Hypothesis He : (0 < epsilon)%Q.

Lemma mesh_ok : pos_mesh (mesh g). Proof. apply Hg. Qed.
Lemma N_pos : 0 < N.
Proof. clear HG. pose proof mesh_ok as H. unfold num. destruct (mesh g) as [a b c]. destruct H as [H1 [H2 H3]]. cbn in *. nia. Qed.
Lemma ref_in : forall x, In x irs_ref <-> 0 <= x < N /\ mp x = x.
Proof. intros x. apply (ir_points_fixed (mesh g) vzero rots init mesh_ok HG). Qed.
Lemma forallb_ones : forall w, forallb (fun x => x =? 1) w = true <-> all_one w.
Proof. intros w. rewrite forallb_forall. split; intros H x Hx; apply Z.eqb_eq; auto. Qed.
Lemma b2g_ref : map (o_b2g (k_out g)) (map (grg2bzg (k_out g) (k_ty g)) irs_ref) = irs_ref.
Proof. rewrite map_map. rewrite <- (map_id irs_ref) at 2. apply map_ext_in. intros x Hx. apply ref_in in Hx. now apply grg_stored. Qed.

Lemma size_repeat : forall X (x : X) n, 0 <= n -> size (repeat x (Z.to_nat n)) = n.
Proof. intros X x n H. unfold size. rewrite repeat_length. lia. Qed.
Lemma collect_cases : forall h ns irs irm w rows, shaped h -> coll h ns = KOk (irs, irm, w, rows) ->
  size w = size rows /\
  ((irs = None /\ irm = None /\ (ns = true \/ all_one w)) \/
   (irs = Some irs_ref /\ irm = Some (map mp (zrange N)) /\ w = map (ir_weight mp N) irs_ref /\ ns = false /\ ~ all_one w)) /\
  (h_weight h = Some w /\ rows = zrange (h_n h) \/ h_weight h = None).
Proof.
  intros h ns irs irm w rows [H0 [Hw Hp]] H. unfold collect in H.
  assert (K : forall w' gp rows', size w' = size rows' -> (if ns || forallb (fun x => x =? 1) w' then KOk (None, None, w', rows')
     else
      let bz := map (grg2bzg (k_out g) (k_ty g)) irs_ref in
      if negb (zlist_eqb w' (map (ir_weight mp (all_gr g)) irs_ref)) then KErr AssertionError
      else if negb match gp with Some p => zlist_eqb p bz | None => true end then KErr AssertionError
      else if negb q_ok then KErr AssertionError
      else KOk (Some (map (o_b2g (k_out g)) bz), Some (map mp (zrange (all_gr g))), w', rows')) = KOk (irs, irm, w, rows) ->
      (w = w' /\ rows = rows') /\ size w = size rows /\ ((irs = None /\ irm = None /\ (ns = true \/ all_one w)) \/
       (irs = Some irs_ref /\ irm = Some (map mp (zrange N)) /\ w = map (ir_weight mp N) irs_ref /\ ns = false /\ ~ all_one w))).
  { intros w' gp rows' Hsz K. destruct (ns || forallb (fun x => x =? 1) w') eqn:E.
    - injection K as <- <- <- <-. split; [auto|]. split; [exact Hsz|]. left. repeat split. apply orb_true_iff in E. destruct E as [E|E]; [now left|right; now apply forallb_ones].
    - cbv zeta in K. apply orb_false_iff in E. destruct E as [E1 E2]. destruct (zlist_eqb w' (map (ir_weight mp (all_gr g)) irs_ref)) eqn:E3; [|discriminate K]. cbn [negb] in K. apply zlist_eqb_spec in E3.
      destruct (match gp with Some p => zlist_eqb p (map (grg2bzg (k_out g) (k_ty g)) irs_ref) | None => true end); [|discriminate K]. cbn [negb] in K. destruct q_ok; [|discriminate K]. cbn [negb] in K.
      rewrite b2g_ref in K. injection K as <- <- <- <-. split; [auto|]. split; [exact Hsz|]. right. repeat split; try assumption. intros A. apply forallb_ones in A. congruence. }
  destruct (h_weight h) as [w0|] eqn:Ew.
  - apply K in H; [|rewrite size_zrange by assumption; auto]. destruct H as [[-> ->] [H1 H2]]. split; [assumption|]. split; [assumption|]. left. split; reflexivity.
  - destruct (h_ir h) as [[w0 p0]|] eqn:Ei; [destruct ns|].
    + apply (K (repeat 1 (Z.to_nat (h_n h))) None (zrange (h_n h))) in H; [|rewrite size_zrange, size_repeat by assumption; reflexivity]. destruct H as [_ [H1 H2]]. split; [assumption|]. split; [assumption|]. now right.
    + apply (K w0 (Some p0) p0) in H; [|now apply Hp]. destruct H as [_ [H1 H2]]. split; [assumption|]. split; [assumption|]. now right.
    + apply (K (repeat 1 (Z.to_nat (h_n h))) None (zrange (h_n h))) in H; [|rewrite size_zrange, size_repeat by assumption; reflexivity]. destruct H as [_ [H1 H2]]. split; [assumption|]. split; [assumption|]. now right.
Qed.

(** the grid points of the rows *)
Definition points (irs : option (list Z)) : list Z := match irs with None => zrange N | Some l => l end.
Lemma table_size : forall n b, get_bzgp2irgp_map (map (o_b2g (k_out g)) (zrange (o_size (k_out g)))) (zrange n) (zrange n) = Some b -> N <= n.
Proof.
  intros n b H. pose proof N_pos as HN. destruct (grg_stored g (N - 1) Hg ltac:(lia)) as [S1 S2]. set (v := grg2bzg (k_out g) (k_ty g) (N - 1)) in *.
  destruct (map_spec _ _ _ _ H (Z.to_nat v) (N - 1)) as [k [_ [_ K]]].
  - rewrite nth_error_map, nthe_zrange by assumption. cbn [option_map]. now rewrite S2.
  - assert (Z.to_nat (N - 1) < length (zrange n))%nat by (apply nth_error_Some; congruence). rewrite length_zrange in H0. lia.
Qed.
Lemma dos_size : forall freq prop n irm irs nsp r, 0 <= n -> total freq prop n irm irs nsp = KOk r ->
  (irs = None /\ irm = None) \/ (irs = Some irs_ref /\ n = size irs_ref) ->
  n = size (points irs) /\ (irs = None -> n = N) /\ (forall x, In x (or_all n irs) -> 0 <= x < N) /\ size (or_all n irs) = n /\ run_prop_dos eps epsilon freq prop n nb irm irs nsp g = Some r.
Proof.
  intros freq prop n irm irs nsp r Hn H C. unfold dos in H. destruct (forallb _ _) eqn:E; [|discriminate]. destruct (run_prop_dos eps epsilon freq prop n nb irm irs nsp g) as [r'|] eqn:R; [|discriminate]. assert (r' = r) by congruence. subst r'.
  assert (B : forall x, In x (or_all n irs) -> 0 <= x < N).
  { intros x Hx. rewrite forallb_forall in E. specialize (E x Hx). apply andb_true_iff in E. destruct E as [E1 E2]. apply Z.leb_le in E1. apply Z.ltb_lt in E2. unfold all_gr in E2. unfold num, mesh. lia. }
  destruct C as [[-> ->] | [-> C]].
  - assert (n = N) as ->.
    { assert (N <= n). { unfold run_prop_dos, kappa_dos in R. cbv zeta in R. destruct (list_min _); [|discriminate]. destruct (list_max _); [|discriminate]. destruct (get_bzgp2irgp_map _ _ _) as [b|] eqn:Eb; [|discriminate]. now apply table_size in Eb. }
      assert (n <= N); [|lia]. destruct (Z.eq_dec n 0); [pose proof N_pos; lia|]. specialize (B (n - 1)). cbn [or_all] in B. rewrite in_zrange in B. lia. }
    cbn [points]. pose proof N_pos. rewrite size_zrange by lia. repeat split; auto; cbn [or_all] in *; try (rewrite size_zrange; lia); try (apply B; assumption).
  - cbn [points or_all] in *. split; [exact C|]. split; [discriminate|]. split; [exact B|]. split; [congruence|reflexivity].
Qed.
Lemma dos_total : forall freq prop n irm irs nsp fps kd, 0 <= n -> 1 < nsp -> total freq prop n irm irs nsp = KOk (fps, kd) ->
  (irs = None /\ irm = None) \/ (irs = Some irs_ref /\ n = size irs_ref) ->
  size fps = nsp /\ forall t e, Qeq (kd t (nsp - 1) 0 e) (Sum n (fun i => Sum nb (fun b => prop t i b e)) / inject_Z N)%Q /\ Qeq (kd t (nsp - 1) 1 e) 0.
Proof.
  intros freq prop n irm irs nsp fps kd Hn Hs H C. destruct (dos_size _ _ _ _ _ _ _ Hn H C) as [_ [_ [B [S R]]]]. unfold run_prop_dos in R.
  pose proof (C76_total eps epsilon prop n nb freq g irs None irm nsp fps kd R Hg Hn Hb B S Hs He) as T. split; [apply (T 0 0)|]. intros t e. destruct (T t e) as [_ [T1 T2]]. split; [|exact T2]. rewrite T1.
  apply Qmult_comp; [|reflexivity]. apply Sum_ext. intros i Hi. apply Sum_ext. intros b Hb'. unfold weight_of. ring.
Qed.

(** ** Stars *)
Lemma inv_mp : forall F x b, invariant g rots nb F -> 0 <= x < N -> 0 <= b < nb -> (F (mp x) b == F x b)%Q.
Proof.
  intros F x b HF Hx Hb'. assert (Hm : 0 <= mp x < N) by (apply (w_range (mesh g) vzero rots init mesh_ok HG); exact Hx).
  assert (E : mp x = mp (mp x)) by (symmetry; apply (w_idem (mesh g) vzero rots init mesh_ok HG); exact Hx).
  apply (w_eq_iff (mesh g) vzero rots init mesh_ok HG x (mp x) Hx Hm) in E. destruct E as [R [HR E]]. rewrite <- E. now apply HF.
Qed.
Lemma star_total : forall (G : Z -> Q), (qsum (map (fun x => G x * inject_Z (ir_weight mp N x)) irs_ref) == Sum N (fun x => G (mp x)))%Q.
Proof.
  intros G. unfold Sum.
  rewrite (qs_ext _ _ (fun y => qsum (map (fun x => if mp x =? y then G y else 0%Q) (zrange N)))).
  2: { intros y Hy. rewrite qs_count. unfold ir_weight. ring. }
  rewrite qs_swap. apply qs_ext. intros x Hx. apply in_zrange in Hx.
  rewrite (qs_ext _ _ (fun y => if y =? mp x then G (mp x) else 0%Q)).
  2: { intros y Hy. rewrite (Z.eqb_sym y). destruct (mp x =? y) eqn:E; [apply Z.eqb_eq in E as <-; reflexivity|reflexivity]. }
  rewrite qs_count. replace (zcount (fun y => y =? mp x) irs_ref) with 1; [change (inject_Z 1) with 1%Q; ring|]. symmetry. apply zcount_eq_NoDup; [apply NoDup_filter, NoDup_zrange|].
  apply ref_in. split; [apply (w_range (mesh g) vzero rots init mesh_ok HG); exact Hx|apply (w_idem (mesh g) vzero rots init mesh_ok HG); exact Hx].
Qed.

Lemma rows_Sum : forall n (points : list Z) (f : Z -> Q), n = size points -> (Sum n (fun i => f (nth (Z.to_nat i) points 0%Z)) == qsum (map f points))%Q.
Proof.
  intros n points f ->. unfold Sum, size. rewrite <- (map_map (fun i => nth (Z.to_nat i) points 0) f). replace (map (fun i => nth (Z.to_nat i) points 0) (zrange (Z.of_nat (length points)))) with points; [reflexivity|].
  unfold zrange. rewrite map_map, Nat2Z.id. induction points as [|x l IH]; [reflexivity|]. cbn [length seq map]. f_equal. rewrite <- seq_shift, map_map. rewrite IH at 1. apply map_ext. intros i. rewrite !Nat2Z.id. reflexivity.
Qed.
(** rows of the file times weights: sum over all grid points *)
Lemma weighted_total : forall h ns irs irm w rows freq prop nsp r P F, shaped h -> coll h ns = KOk (irs, irm, w, rows) ->
  (ns = true -> all_one w) -> total freq prop (Z.of_nat (length rows)) irm irs nsp = KOk r ->
  holds nb (points irs) P F -> invariant g rots nb F ->
  (Sum (Z.of_nat (length rows)) (fun i => Sum nb (fun b => P i b * inject_Z (nth (Z.to_nat i) w 0%Z))) == Sum N (fun x => Sum nb (F x)))%Q.
Proof.
  intros h ns irs irm w rows freq prop nsp r P F Hh Hc Hw Ht HP HF. destruct (collect_cases _ _ _ _ _ _ Hh Hc) as [Hsz [C _]]. fold (size rows) in *.
  assert (C' : (irs = None /\ irm = None) \/ (irs = Some irs_ref /\ size rows = size irs_ref)).
  { destruct C as [C|C]; [left; tauto|right]. split; [apply C|]. destruct C as [_ [_ [-> _]]]. rewrite <- Hsz. apply size_map. }
  destruct (dos_size _ _ _ _ _ _ _ (Nat2Z.is_nonneg _ : 0 <= size rows) Ht C') as [Hn [HN _]]. destruct C as [[-> [-> C]] | [-> [-> [-> [-> C]]]]].
  - assert (A : all_one w) by (destruct C as [C|C]; auto). rewrite (HN eq_refl) in *. apply Sum_ext. intros i Hi. apply Sum_ext. intros b Hb'. rewrite (HP i b) by (cbn [points]; try rewrite size_zrange; lia). cbn [points].
    rewrite (nth_error_nth _ _ 0 (nthe_zrange N i Hi)). replace (nth (Z.to_nat i) w 0) with 1; [change (inject_Z 1) with 1%Q; ring|]. symmetry. apply A. apply nth_In. unfold size in *. lia.
  - cbn [points] in *.
    transitivity (Sum (size rows) (fun i => (fun x => Sum nb (F x) * inject_Z (ir_weight mp N x))%Q (nth (Z.to_nat i) irs_ref 0))).
    + apply Sum_ext. intros i Hi. rewrite Qmult_comm, <- Sum_scale. apply Sum_ext. intros b Hb'. rewrite (HP i b) by lia. rewrite Qmult_comm. apply Qmult_comp; [|reflexivity]. rewrite (nth_indep _ 0 (ir_weight mp N 0)) by (rewrite map_length; unfold size in *; lia). rewrite map_nth. reflexivity.
    + etransitivity; [exact (rows_Sum (size rows) irs_ref (fun x => Sum nb (F x) * inject_Z (ir_weight mp N x))%Q Hn)|]. rewrite (star_total (fun x => Sum nb (F x))). apply Sum_ext. intros x Hx. apply Sum_ext. intros b Hb'. now apply inv_mp.
Qed.

Lemma all_one_repeat : forall n, all_one (repeat 1 n). Proof. intros n x H. apply repeat_spec in H. exact H. Qed.
Lemma no_gridsym_ones : forall h irs irm w rows, coll h true = KOk (irs, irm, w, rows) -> (forall w, h_weight h = Some w -> all_one w) -> all_one w.
Proof.
  intros h irs irm w rows H Hw. unfold collect in H. destruct (h_weight h) as [w0|].
  - cbn [orb] in H. injection H as _ _ <- _. now apply Hw.
  - destruct (h_ir h) as [[w0 p0]|]; cbn [orb] in H; injection H as _ _ <- _; apply all_one_repeat.
Qed.
Lemma quantity_value : forall h k t i b x, (0 < pi2)%Q -> quantity pi2 h k t i b x -> (fst (mode_property pi2 h k) t i b == x)%Q.
Proof.
  intros h k t i b x Hp H. destruct k; cbn [quantity mode_property fst] in *; try (subst; reflexivity).
  - cbv zeta. destruct H as [H1 H2]. destruct (qltb 0 (h_gamma h t i b)) eqn:E.
    + rewrite E. apply qltb_lt in E. specialize (H1 E). set (y := h_gamma h t i b) in *. assert (~ (y == 0)%Q /\ ~ (pi2 == 0)%Q) as [N1 N2] by (split; lra).
      setoid_replace x with (/ (2 * pi2 * y) * (2 * pi2 * y * x))%Q by (field; auto). rewrite H1. field. auto.
    + change (qltb 0 (-1)) with false. cbv iota. rewrite H2; [reflexivity|]. apply qltb_ge in E. lra.
  - rewrite H. ring.
Qed.
Lemma nthe_map_zrange : forall X (f : Z -> X) n i, 0 <= i < n -> nth_error (map f (zrange n)) (Z.to_nat i) = Some (f i).
Proof. intros X f n i H. rewrite nth_error_map, nthe_zrange by assumption. reflexivity. Qed.
(** with several lines: never for three of the properties *)
Lemma scalar_lines : forall h k ns nsp out, shaped h -> scalar h ns false k None nsp = KOk out -> 1 < nsp -> (forall w, ns = true -> h_weight h = Some w -> all_one w) ->
  (k = Cv \/ k = Gamma \/ k = Tau \/ k = Dos) /\
  exists irs irm w rows, coll h ns = KOk (irs, irm, w, rows) /\ size out = snd (mode_property pi2 h k) /\
  forall t F, 0 <= t < size out -> holds nb (points irs) (fst (mode_property pi2 h k) t) F -> invariant g rots nb F ->
  exists lines f c d, nth_error out (Z.to_nat t) = Some (Some (nth (Z.to_nat t) (temps h) 0%Q), lines) /\ size lines = nsp /\
    nth_error lines (Z.to_nat (nsp - 1)) = Some (f, [c; d]) /\ (c == mean g nb F)%Q /\ (d == 0)%Q.
Proof.
  intros h k ns nsp out Hh H Hs Hw. unfold run_scalar in H. destruct (coll h ns) as [[[[irs irm] w] rows]|] eqn:Ec; [|discriminate H]. cbn [kthen] in H.
  destruct (mode_property pi2 h k) as [prop slots] eqn:Em. cbn [kthen] in H. cbv zeta in H.
  destruct (total _ _ _ _ _ _) as [[fps kd]|] eqn:Ed; [|discriminate H]. cbn [kthen fst snd] in H.
  destruct (collect_cases _ _ _ _ _ _ Hh Ec) as [Hsz [C _]].
  assert (C' : (irs = None /\ irm = None) \/ (irs = Some irs_ref /\ Z.of_nat (length rows) = size irs_ref)).
  { destruct C as [C|C]; [left; tauto|right]. split; [apply C|]. destruct C as [_ [_ [E _]]]. unfold size in *. rewrite <- Hsz, E, map_length. reflexivity. }
  destruct (dos_total _ _ _ _ _ _ _ _ (Nat2Z.is_nonneg _) Hs Ed C') as [S T].
  assert (L : exists a b l, fps = a :: b :: l) by (destruct fps as [|a [|b l]]; unfold size in S; cbn [length] in S; try lia; eauto).
  assert (Hw' : ns = true -> all_one w) by (intros ->; eapply no_gridsym_ones; eauto).
  assert (Hsl : 0 <= slots). { destruct k; cbn in Em; injection Em as _ <-; lia. }
  assert (K : KOk (map (fun t => (Some (nth (Z.to_nat t) (temps h) 0%Q), map (fun i => (nth (Z.to_nat i) fps 0%Q, [kd t i 0 0; kd t i 1 0])) (zrange (size fps)))) (zrange slots)) = KOk out -> exists irs0 irm0 w0 rows0, KOk (irs, irm, w, rows) = KOk (irs0, irm0, w0, rows0) /\ size out = slots /\
     forall t F, 0 <= t < size out -> holds nb (points irs0) (prop t) F -> invariant g rots nb F ->
  exists lines f c d, nth_error out (Z.to_nat t) = Some (Some (nth (Z.to_nat t) (temps h) 0%Q), lines) /\ size lines = nsp /\
    nth_error lines (Z.to_nat (nsp - 1)) = Some (f, [c; d]) /\ (c == mean g nb F)%Q /\ (d == 0)%Q).
  { intros K. assert (Eo : out = map (fun t => (Some (nth (Z.to_nat t) (temps h) 0%Q), map (fun i => (nth (Z.to_nat i) fps 0%Q, [kd t i 0 0; kd t i 1 0])) (zrange (size fps)))) (zrange slots)) by congruence. clear K H.
    exists irs, irm, w, rows. split; [reflexivity|]. assert (So : size out = slots) by (rewrite Eo, size_map, size_zrange by assumption; reflexivity). split; [exact So|]. intros t F Ht HP HF. rewrite So in Ht.
    rewrite Eo. rewrite nthe_map_zrange by assumption. do 4 eexists. split; [reflexivity|]. rewrite S. split; [rewrite size_map; apply size_zrange; lia|]. rewrite nthe_map_zrange by lia. split; [reflexivity|]. destruct (T t 0) as [T1 T2]. split; [|exact T2].
    rewrite T1. unfold mean. apply Qmult_comp; [|reflexivity]. eapply weighted_total; eauto. }
  destruct L as [a [b [l L]]].
  destruct k; cbn [show_scalar] in H; try (rewrite L in H; discriminate H); (split; [tauto|apply K; exact H]).
Qed.

(** ** One temperature *)
Lemma T_index_some : forall l T i, T_index epsilon l T = Some i ->
  0 <= i < size l /\ (Qabs (nth (Z.to_nat i) l 0 - T) < epsilon)%Q /\ forall j, 0 <= j < i -> ~ (Qabs (nth (Z.to_nat j) l 0 - T) < epsilon)%Q.
Proof.
  induction l as [|x l IH]; intros T i H; cbn [T_index] in H; [discriminate|]. destruct (qltb (Qabs (x - T)) epsilon) eqn:E.
  - assert (i = 0) by congruence. subst i. apply qltb_lt in E. unfold size. cbn [length]. split; [lia|]. split; [exact E|]. intros j Hj. lia.
  - destruct (T_index epsilon l T) as [k|] eqn:Ek; [|discriminate]. cbn [option_map] in H. assert (i = Z.succ k) by congruence. subst i. destruct (IH T k Ek) as [A [B C]]. unfold size in *. cbn [length].
    split; [lia|]. replace (Z.to_nat (Z.succ k)) with (S (Z.to_nat k)) by lia. cbn [nth]. split; [exact B|]. intros j Hj. destruct (Z.eq_dec j 0) as [->|Hj0]; [change (nth (Z.to_nat 0) (x :: l) 0%Q) with x; apply qltb_ge in E; apply Qle_not_lt; exact E|].
    replace (Z.to_nat j) with (S (Z.to_nat (j - 1))) by lia. cbn [nth]. apply C. lia.
Qed.
Lemma T_index_none : forall l T, T_index epsilon l T = None <-> forall t, In t l -> ~ (Qabs (t - T) < epsilon)%Q.
Proof.
  induction l as [|x l IH]; intros T; cbn [T_index]; [split; [intros _ t []|reflexivity]|]. destruct (qltb (Qabs (x - T)) epsilon) eqn:E.
  - split; [discriminate|]. intros H. apply qltb_lt in E. exfalso. apply (H x (or_introl eq_refl) E).
  - apply qltb_ge in E. destruct (T_index epsilon l T) as [k|] eqn:Ek; cbn [option_map].
    + split; [discriminate|]. intros H. assert (K : Some k = None); [|discriminate]. rewrite <- Ek. apply IH. intros t Ht. apply H. now right.
    + split; [|reflexivity]. intros _ t [<-|Ht]; [now apply Qle_not_lt|]. revert t Ht. now apply IH.
Qed.
Lemma dos_shift : forall freq prop n irm irs nsp fps kd i, total freq prop n irm irs nsp = KOk (fps, kd) ->
  exists kd', total freq (fun t => prop (i + t)) n irm irs nsp = KOk (fps, kd') /\ forall t f j e, kd' t f j e = kd (i + t) f j e.
Proof.
  intros freq prop n irm irs nsp fps kd i H. unfold dos in *. destruct (forallb _ _); [|discriminate]. unfold run_prop_dos, kappa_dos in *. cbv zeta in *.
  destruct (list_min _); [|discriminate]. destruct (list_max _); [|discriminate]. destruct (get_bzgp2irgp_map _ _ _); [|discriminate].
  injection H as <- <-. eexists. split; [reflexivity|]. intros. reflexivity.
Qed.
Lemma nth_pair : forall (ts : list Q) i, nth 0 [nth i ts 0%Q] 0%Q = nth i ts 0%Q. Proof. reflexivity. Qed.
Lemma scalar_temperature : forall h ns sm k T nsp out i, T_index epsilon (temps h) T = Some i -> (k = Cv \/ k = Gamma \/ k = Tau) ->
  scalar h ns sm k None nsp = KOk out -> scalar h ns sm k (Some T) nsp = KOk [nth (Z.to_nat i) out (None, [])].
Proof.
  intros h ns sm k T nsp out i Hi Hk H. destruct (T_index_some _ _ _ Hi) as [Hr _]. unfold run_scalar in *. destruct (coll h ns) as [[[[irs irm] w] rows]|]; [|discriminate H]. cbn [kthen] in *.
  assert (Ea : at_all_T k = false) by (destruct Hk as [-> | [-> | ->]]; reflexivity). assert (Es : snd (mode_property pi2 h k) = size (temps h)) by (destruct Hk as [-> | [-> | ->]]; reflexivity).
  assert (Esh : forall ts slots fps v, show_scalar k ts slots fps v = KOk (map (fun t => (Some (nth (Z.to_nat t) ts 0%Q), map (fun i => (nth (Z.to_nat i) fps 0%Q, [v t i 0; v t i 1])) (zrange (size fps)))) (zrange slots))) by (destruct Hk as [-> | [-> | ->]]; reflexivity).
  assert (Ed : match k with Dos => negb (Z.of_nat (length rows) =? h_n h) | _ => false end = false) by (destruct Hk as [-> | [-> | ->]]; reflexivity).
  destruct (mode_property pi2 h k) as [prop slots] eqn:Em. cbn [snd] in Es. subst slots. rewrite Ea, Hi. cbn [kthen] in *. cbv zeta in *. rewrite Ed in *. destruct sm.
  - unfold gamma_dos_smearing in *. cbv zeta in *. destruct (list_min (map _ _)); [|discriminate H]. destruct (list_max (map _ _)); [|discriminate H]. destruct (list_min (linspace _ _ _)); [|discriminate H]. destruct (list_max (linspace _ _ _)); [|discriminate H].
    rewrite Esh in *. injection H as <-. f_equal. change (zrange 1) with [0]. cbn [map]. f_equal. symmetry. apply nth_error_nth. rewrite nthe_map_zrange by assumption. rewrite Z.add_0_r. reflexivity.
  - destruct (total _ (fun t i b _ => _) _ _ _ _) as [[fps kd]|] eqn:Et; [|discriminate H]. cbn [kthen fst snd] in H.
    destruct (dos_shift _ _ _ _ _ _ _ _ i Et) as [kd' [E' K]]. cbv beta in E'. rewrite E'. cbn [kthen fst snd]. rewrite Esh in *. injection H as <-. f_equal. change (zrange 1) with [0]. cbn [map]. f_equal. symmetry. apply nth_error_nth. rewrite nthe_map_zrange by assumption. f_equal. f_equal.
    apply map_ext. intros f. rewrite !K, Z.add_0_r. reflexivity.
Qed.
Lemma scalar_no_temperature : forall h ns sm k T nsp out, T_index epsilon (temps h) T = None -> (k = Cv \/ k = Gamma \/ k = Tau) -> scalar h ns sm k (Some T) nsp <> KOk out.
Proof.
  intros h ns sm k T nsp out Hi Hk H. unfold run_scalar in H. destruct (coll h ns) as [[[[irs irm] w] rows]|]; [|discriminate H]. cbn [kthen] in H.
  assert (Ea : at_all_T k = false) by (destruct Hk as [-> | [-> | ->]]; reflexivity). destruct (mode_property pi2 h k) as [prop slots]. rewrite Ea, Hi in H. discriminate H.
Qed.

(** ** Tensors *)
Lemma cells_show : forall c v K, (forall e, (v 0%Z e == K e)%Q /\ (v 1%Z e == 0)%Q) -> shows c K (cells c v).
Proof.
  intros c v K H. destruct c; cbn [shows cells].
  - split; [reflexivity|]. intros e He'. assert (e = 0 \/ e = 1 \/ e = 2 \/ e = 3 \/ e = 4 \/ e = 5) as C by lia. destruct C as [-> | [-> | [-> | [-> | [-> | ->]]]]]; apply H.
  - do 2 eexists. split; [reflexivity|]. pose proof (H 0) as [A0 B0]. pose proof (H 1) as [A1 B1]. pose proof (H 2) as [A2 B2]. rewrite A0, A1, A2, B0, B1, B2. split; field.
  - do 2 eexists. split; [reflexivity|]. pose proof (H 0) as [A0 B0]. pose proof (H 1) as [A1 B1]. pose proof (H 2) as [A2 B2]. rewrite A0, A1, A2, B0, B1, B2. split; ring.
Qed.
Lemma tensor_lines : forall h ns mfp gv c volume nsp out prop n_t, shaped h -> tensor h ns gv mfp c volume None nsp = KOk out -> 1 < nsp ->
  (if gv then prop = (fun _ i b e => h_gv2 h i b e / volume)%Q /\ n_t = 1 else h_kappa h = Some prop /\ n_t = size (temps h)) -> 0 <= n_t ->
  exists irs irm w rows, coll h ns = KOk (irs, irm, w, rows) /\ size out <= n_t /\ (mfp = false \/ gv = false -> size out = n_t) /\
  forall t, 0 <= t < size out -> (irs = None -> size rows = N) /\ exists lines f row, nth_error out (Z.to_nat t) = Some (if gv then None else Some (nth (Z.to_nat t) (temps h) 0%Q), lines) /\ size lines = nsp /\
    nth_error lines (Z.to_nat (nsp - 1)) = Some (f, row) /\ shows c (fun e => Sum (size rows) (fun i => Sum nb (fun b => prop t i b e)) / inject_Z N)%Q row.
Proof.
  clear nd. intros h ns mfp gv c volume nsp out prop n_t Hh H Hs Hp Hn. unfold run_tensor in H. destruct (coll h ns) as [[[[irs irm] w] rows]|] eqn:Ec; [|discriminate H]. cbn [kthen] in H.
  destruct (collect_cases _ _ _ _ _ _ Hh Ec) as [Hsz [C _]].
  assert (C' : (irs = None /\ irm = None) \/ (irs = Some irs_ref /\ Z.of_nat (length rows) = size irs_ref)).
  { destruct C as [C|C]; [left; tauto|right]. split; [apply C|]. destruct C as [_ [_ [E _]]]. unfold size in *. rewrite <- Hsz, E, map_length. reflexivity. }
  exists irs, irm, w, rows. split; [reflexivity|].
  assert (Ep : (if gv then KOk (fun _ i b e => (h_gv2 h i b e / volume)%Q, 1) else match h_kappa h with Some p => KOk (p, Z.of_nat (length (temps h))) | None => KErr Exit end) = KOk (prop, n_t)).
  { destruct gv; destruct Hp as [E1 ->]; [subst; reflexivity|rewrite E1; reflexivity]. }
  rewrite Ep in H. cbn [kthen] in H. cbv zeta in H. destruct mfp.
  - cbn [kthen] in H. destruct (forallb _ _) eqn:E; [|discriminate H]. cbn [negb] in H. destruct (n_t <? Z.of_nat (length (temps h))) eqn:El; [discriminate H|]. apply Z.ltb_ge in El.
    destruct (run_mfp_dos _ _ _ _ _ _ _ _ _ _ _) as [l|] eqn:R; [|discriminate H].
    assert (D : forall t, 0 <= t < size (temps h) -> exists kd', total (fun k => match h_mfp h with Some p => p | None => fun t i b => get_mfp pi2 (h_gamma h t i b) (h_norm h i b) end t (k / nb) (k mod nb)) (fun t' => prop (t + t')) (Z.of_nat (length rows)) irm irs nsp = KOk kd').
    { intros t Ht. unfold dos. rewrite E. unfold run_mfp_dos in R. apply all_some_spec in R. pose proof (f_equal (fun l => nth_error l (Z.to_nat t)) R) as R'. cbv beta in R'. rewrite nthe_map_zrange in R' by exact Ht. rewrite nth_error_map in R'.
      unfold run_prop_dos. destruct (kappa_dos _ _ _ _ _ _ _ _ _ _ _ _) as [r|]; [eauto|]. cbn [option_map] in R'. destruct (nth_error l _); discriminate R'. }
    set (F := fun t => nth (Z.to_nat t) l ([], fun _ _ _ => 0%Q)) in H. assert (Eo : out = show_tensor c gv (temps h) (size (temps h)) F) by (unfold size; congruence). clear H. unfold show_tensor in Eo.
    assert (So : size out = size (temps h)) by (rewrite Eo, size_map; apply size_zrange; unfold size; lia). fold (size (temps h)) in El.
    split; [lia|]. split; [intros [?|?]; [discriminate|subst gv; destruct Hp as [_ ->]; exact So]|]. intros t Ht. rewrite So in Ht.
    destruct (D t Ht) as [r Dr]. destruct (dos_size _ _ _ _ _ _ _ (Nat2Z.is_nonneg _) Dr C') as [_ [B1 [B2 [B3 _]]]]. split; [exact B1|].
    destruct (C76_mean_free_path _ _ _ _ _ _ _ _ _ _ _ _ R Hg (Nat2Z.is_nonneg _) Hb B2 B3 Hs He t Ht) as [fps [kd [En [S T]]]].
    assert (EF : F t = (fps, kd)) by (unfold F; apply nth_error_nth; exact En).
    rewrite Eo, nthe_map_zrange by assumption. do 3 eexists. split; [reflexivity|]. rewrite EF. cbn [fst snd]. rewrite S. split; [rewrite size_map; apply size_zrange; lia|].
    rewrite nthe_map_zrange by lia. split; [reflexivity|]. apply cells_show. intros e. apply T.
  - assert (H' : kthen (total (shown_frequency nb h rows) prop (Z.of_nat (length rows)) irm irs nsp) (fun r => KOk (show_tensor c gv (temps h) n_t (fun t => (fst r, snd r t)))) = KOk out) by (destruct gv; exact H). clear H. rename H' into H.
    destruct (total _ _ _ _ _ _) as [[fps kd]|] eqn:Ed; [|discriminate H]. cbn [kthen fst snd] in H.
    destruct (dos_total _ _ _ _ _ _ _ _ (Nat2Z.is_nonneg _) Hs Ed C') as [S T]. destruct (dos_size _ _ _ _ _ _ _ (Nat2Z.is_nonneg _) Ed C') as [_ [B1 _]].
    assert (Eo : out = show_tensor c gv (temps h) n_t (fun t => (fps, kd t))) by congruence. unfold show_tensor in Eo. cbn [fst snd] in Eo. assert (So : size out = n_t) by (rewrite Eo, size_map; now apply size_zrange).
    split; [lia|]. split; [intros _; exact So|]. intros t Ht. rewrite So in Ht. split; [exact B1|]. rewrite Eo, nthe_map_zrange by assumption. do 3 eexists. split; [reflexivity|]. rewrite S. split; [rewrite size_map; apply size_zrange; lia|].
    rewrite nthe_map_zrange by lia. split; [reflexivity|]. apply cells_show. intros e. apply T.
Qed.

Lemma tensor_temperature : forall h ns mfp c volume T nsp out i, T_index epsilon (temps h) T = Some i ->
  tensor h ns false mfp c volume None nsp = KOk out -> tensor h ns false mfp c volume (Some T) nsp = KOk [nth (Z.to_nat i) out (None, [])].
Proof.
  clear nd. intros h ns mfp c volume T nsp out i Hi H. destruct (T_index_some _ _ _ Hi) as [Hr _]. unfold run_tensor in *. destruct (coll h ns) as [[[[irs irm] w] rows]|]; [|discriminate H]. cbn [kthen] in *.
  destruct (h_kappa h) as [prop|]; [|discriminate H]. cbn [kthen] in *. cbv zeta in *. rewrite Hi. fold (size (temps h)) in *. destruct mfp; cbn [kthen] in *.
  - destruct (forallb _ _); [|discriminate H]. cbn [negb] in *. rewrite Z.ltb_irrefl in H.
    replace (Z.max 0 (Z.min (i + 1) (size (temps h)) - i) <? 1) with false by (symmetry; apply Z.ltb_ge; lia).
    destruct (run_mfp_dos eps epsilon _ _ (size (temps h)) _ _ _ _ _ _) as [l|] eqn:R; [|discriminate H]. unfold run_mfp_dos in *. apply all_some_spec in R.
    pose proof (f_equal (fun l => nth_error l (Z.to_nat i)) R) as R'. cbv beta in R'. rewrite nthe_map_zrange in R' by exact Hr. rewrite nth_error_map in R'. destruct (nth_error l (Z.to_nat i)) as [x|] eqn:Ex; [|discriminate R']. cbn [option_map] in R'.
    change (zrange 1) with [0]. cbn [map all_some]. rewrite Z.add_0_r. change (fun t' : Z => prop (i + (0 + t'))) with (fun t' : Z => prop (i + t')).
    destruct (kappa_dos _ _ _ _ _ _ _ _ _ _ _ _) as [r|]; [|discriminate R']. cbn [option_map] in *. f_equal. assert (Ho : out = show_tensor c false (temps h) (size (temps h)) (fun t => nth (Z.to_nat t) l ([], fun _ _ _ => 0%Q))) by congruence. subst out. unfold show_tensor. change (zrange 1) with [0]. cbn [map].
    f_equal. symmetry. apply nth_error_nth. rewrite nthe_map_zrange by assumption. rewrite (nth_error_nth _ _ _ Ex). assert (x = (fst r, snd r 0)) by congruence. subst x. reflexivity.
  - destruct (total _ prop _ _ _ _) as [[fps kd]|] eqn:Et; [|discriminate H]. cbn [kthen fst snd] in H. destruct (dos_shift _ _ _ _ _ _ _ _ i Et) as [kd' [E' K]]. rewrite E'. cbn [kthen fst snd]. f_equal.
    assert (Ho : out = show_tensor c false (temps h) (size (temps h)) (fun t => (fps, kd t))) by congruence. subst out. unfold show_tensor. change (zrange 1) with [0]. cbn [map fst snd]. f_equal. symmetry. apply nth_error_nth. rewrite nthe_map_zrange by assumption.
    f_equal. f_equal. apply map_ext. intros f. f_equal. unfold cells. change (zrange 6) with [0; 1; 2; 3; 4; 5]. cbn [map app]. rewrite !K, Z.add_0_r. reflexivity.
Qed.
Lemma tensor_no_temperature : forall h ns mfp c volume T nsp out, T_index epsilon (temps h) T = None -> tensor h ns false mfp c volume (Some T) nsp <> KOk out.
Proof.
  clear nd. intros h ns mfp c volume T nsp out Hi H. unfold run_tensor in H. destruct (coll h ns) as [[[[irs irm] w] rows]|]; [|discriminate H]. cbn [kthen] in H. destruct (h_kappa h) as [prop|]; [|discriminate H]. cbn [kthen] in H. cbv zeta in H. rewrite Hi in H. destruct mfp; discriminate H.
Qed.
Lemma no_gridsym_rows : forall h irs irm w rows, coll h true = KOk (irs, irm, w, rows) -> irs = None /\ irm = None /\ rows = zrange (h_n h).
Proof. intros h irs irm w rows H. unfold collect in H. destruct (h_weight h); [|destruct (h_ir h) as [[? ?]|]]; cbn [orb] in H; injection H as <- <- _ <-; auto. Qed.
Lemma scalar_no_gridsym : forall h k T nsp out, 0 <= h_n h -> scalar h true false k T nsp = KOk out -> h_n h = N.
Proof.
  intros h k T nsp out H0 H. unfold run_scalar in H. destruct (coll h true) as [[[[irs irm] w] rows]|] eqn:Ec; [|discriminate H]. cbn [kthen] in H. destruct (no_gridsym_rows _ _ _ _ _ Ec) as [-> [-> ->]].
  destruct (mode_property pi2 h k) as [prop slots]. destruct (match T with Some _ => _ | None => _ end) as [[[ts prop'] slots']|]; [|discriminate H]. cbn [kthen] in H. cbv zeta in H.
  destruct (total _ _ _ _ _ _) as [r|] eqn:Ed; [|discriminate H]. destruct (dos_size _ _ _ _ _ _ _ (Nat2Z.is_nonneg _) Ed (or_introl (conj eq_refl eq_refl))) as [_ [K _]]. specialize (K eq_refl). rewrite length_zrange in K. lia.
Qed.
Lemma tensor_no_gridsym : forall h gv c volume T nsp out, 0 <= h_n h -> tensor h true gv false c volume T nsp = KOk out -> h_n h = N.
Proof.
  clear nd. intros h gv c volume T nsp out H0 H. unfold run_tensor in H. destruct (coll h true) as [[[[irs irm] w] rows]|] eqn:Ec; [|discriminate H]. cbn [kthen] in H. destruct (no_gridsym_rows _ _ _ _ _ Ec) as [-> [-> ->]].
  destruct (if gv then _ else _) as [[prop slots]|]; [|discriminate H]. cbn [kthen] in H. cbv zeta in H. destruct (match T with Some _ => _ | None => _ end) as [[[ts prop'] slots']|]; [|discriminate H]. cbn [kthen] in H.
  destruct (total _ _ _ _ _ _) as [r|] eqn:Ed; [|discriminate H]. destruct (dos_size _ _ _ _ _ _ _ (Nat2Z.is_nonneg _) Ed (or_introl (conj eq_refl eq_refl))) as [_ [K _]]. specialize (K eq_refl). rewrite length_zrange in K. lia.
Qed.
Lemma tensor_gv_mfp : forall h ns c volume nsp out, tensor h ns true true c volume None nsp = KOk out -> size (temps h) <= 1.
Proof.
  clear nd. intros h ns c volume nsp out H. unfold run_tensor in H. destruct (coll h ns) as [[[[irs irm] w] rows]|] eqn:Ec; [|discriminate H]. cbn [kthen] in H. cbv zeta in H. cbn [kthen] in H.
  destruct (forallb _ _); [|discriminate H]. cbn [negb] in H. destruct (1 <? Z.of_nat (length (temps h))) eqn:E; [discriminate H|]. apply Z.ltb_ge in E. exact E.
Qed.
Lemma scalar_three : forall h ns sm k T nsp out, (k = Pqj \/ k = Gruneisen \/ k = GvNorm) -> 1 < nsp -> scalar h ns sm k T nsp <> KOk out.
Proof.
  intros h ns sm k T nsp out Hk Hs H. unfold run_scalar in H. destruct (coll h ns) as [[[[irs irm] w] rows]|] eqn:Ec; [|discriminate H]. cbn [kthen] in H.
  assert (Ea : at_all_T k = true) by (destruct Hk as [-> | [-> | ->]]; reflexivity).
  assert (Esh : forall ts slots fps v, size fps = nsp -> show_scalar k ts slots fps v = KErr TypeError) by (intros ts slots fps v Hf; unfold size in Hf; destruct Hk as [-> | [-> | ->]]; destruct fps as [|a [|b l]]; cbn [length] in Hf; try lia; reflexivity).
  destruct (mode_property pi2 h k) as [prop slots]. rewrite Ea in H. assert (H' : forall X (a : X), match T with Some _ => a | None => a end = a) by (intros; now destruct T). 
  assert (H2 : let freq := shown_frequency nb h rows in let n_ir := Z.of_nat (length rows) in let weight := fun i => nth (Z.to_nat i) w 0 in
      (if sm then if match k with Dos => negb (n_ir =? h_n h) | _ => false end then KErr Refused else match gamma_dos_smearing nd epsilon prop freq n_ir nb weight None nsp with
           | Some (fps, gd) => show_scalar k (temps h) slots fps (fun t f j => if j =? 1 then gd t f else 0%Q)
           | None => KErr Refused
           end
      else kthen (total freq (fun t i b _ => prop t i b * inject_Z (weight i))%Q n_ir irm irs nsp) (fun r => show_scalar k (temps h) slots (fst r) (fun t f j => snd r t f j 0))) = KOk out) by (destruct T; exact H).
  clear H. cbv zeta in H2. destruct sm.
  - destruct (match k with Dos => _ | _ => false end); [discriminate H2|]. unfold gamma_dos_smearing in H2. cbv zeta in H2. destruct (list_min (map _ _)); [|discriminate H2]. destruct (list_max (map _ _)); [|discriminate H2]. destruct (list_min (linspace _ _ _)); [|discriminate H2]. destruct (list_max (linspace _ _ _)); [|discriminate H2].
    rewrite Esh in H2; [discriminate|]. now apply linspace_last.
  - unfold dos in H2. destruct (forallb _ _); [|discriminate H2]. unfold run_prop_dos, kappa_dos in H2. cbv zeta in H2.
    destruct (list_min _); [|discriminate H2]. destruct (list_max _); [|discriminate H2]. destruct (get_bzgp2irgp_map _ _ _); [|discriminate H2]. cbn [kthen fst snd] in H2. rewrite Esh in H2; [discriminate|]. now apply linspace_last.
Qed.
End Proofs.

(** ** C121 *)
(** the grid points of the rows of a file with weights *)
Definition file_points (g : bzgrid) (rots : list M3) (init : Z -> Z) (w : list Z) : list Z :=
  if forallb (fun x => x =? 1) w then zrange (num g) else ir_grid_points (get_ir_grid_map rots (mesh g) vzero init) (num g).
Definition setting (g : bzgrid) (rots : list M3) (nb : Z) (epsilon : Q) (h : kfile) (ns : bool) : Prop :=
  good_grid g /\ good_group (mesh g) vzero rots /\ 0 <= nb /\ (0 < epsilon)%Q /\ shaped h /\ (forall w, ns = true -> h_weight h = Some w -> all_one w).
(** Scalar properties: one block for each temperature. If the file holds, at its grid points, a property of the crystal, the last accumulated
    value is the mean over all grid points of its sum over the bands; its derivative there is zero. *)
Theorem C121_scalar : forall g rots init q_ok nb eps epsilon pi2 nd h ns k nsp out w, setting g rots nb epsilon h ns -> (0 < pi2)%Q -> h_weight h = Some w ->
  (k = Cv \/ k = Gamma \/ k = Tau) -> 1 < nsp -> run_scalar g rots init q_ok nb eps epsilon pi2 nd h ns false k None nsp = KOk out ->
  size out = size (temps h) /\
  forall t P F, 0 <= t < size (temps h) -> (forall i b, quantity pi2 h k t i b (P i b)) -> holds nb (file_points g rots init w) P F -> invariant g rots nb F ->
  exists lines f c d, nth_error out (Z.to_nat t) = Some (Some (nth (Z.to_nat t) (temps h) 0%Q), lines) /\ size lines = nsp /\
    nth_error lines (Z.to_nat (nsp - 1)) = Some (f, [c; d]) /\ (c == mean g nb F)%Q /\ (d == 0)%Q.
Proof.
  intros g rots init q_ok nb eps epsilon pi2 nd h ns k nsp out w [Hg [HG [Hb [He [Hh Hw]]]]] Hp Ew Hk Hs H.
  destruct (scalar_lines g rots init q_ok nb eps epsilon pi2 nd Hg HG Hb He h k ns nsp out Hh H Hs Hw) as [_ [irs [irm [w' [rows [Ec [So K]]]]]]].
  assert (Es : snd (mode_property pi2 h k) = size (temps h)) by (destruct Hk as [-> | [-> | ->]]; reflexivity). rewrite Es in So. split; [exact So|].
  intros t P F Ht HP HF HI. rewrite <- So in Ht. apply (K t F Ht); [|exact HI].
  destruct (collect_cases g rots init q_ok Hg HG h ns irs irm w' rows Hh Ec) as [_ [C D]]. destruct D as [[D _]|D]; [|congruence]. assert (w' = w) by congruence. subst w'.
  assert (Ep : file_points g rots init w = points g irs).
  { unfold file_points. destruct C as [[-> [_ C]] | [-> [_ [_ [_ C]]]]]; cbn [points].
    - replace (forallb (fun x => x =? 1) w) with true; [reflexivity|]. symmetry. apply forallb_ones. destruct C as [C|C]; [now apply Hw|exact C].
    - destruct (forallb (fun x => x =? 1) w) eqn:E; [|reflexivity]. apply forallb_ones in E. contradiction. }
  rewrite Ep in HF. intros i b Hi Hb'. rewrite (quantity_value pi2 h k t i b (P i b) Hp (HP i b)). now apply HF.
Qed.
(** --dos: the last accumulated value is the number of bands, for kappa and phonon files. *)
Theorem C121_dos : forall g rots init q_ok nb eps epsilon pi2 nd h ns nsp out, setting g rots nb epsilon h ns -> 1 < nsp ->
  run_scalar g rots init q_ok nb eps epsilon pi2 nd h ns false Dos None nsp = KOk out ->
  exists lines f c d, out = [(Some (nth 0 (temps h) 0%Q), lines)] /\ size lines = nsp /\ nth_error lines (Z.to_nat (nsp - 1)) = Some (f, [c; d]) /\ (c == inject_Z nb)%Q /\ (d == 0)%Q.
Proof.
  intros g rots init q_ok nb eps epsilon pi2 nd h ns nsp out [Hg [HG [Hb [He [Hh Hw]]]]] Hs H.
  destruct (scalar_lines g rots init q_ok nb eps epsilon pi2 nd Hg HG Hb He h Dos ns nsp out Hh H Hs Hw) as [_ [irs [irm [w' [rows [Ec [So K]]]]]]]. cbn [mode_property snd] in So.
  destruct (K 0 (fun _ _ => 1%Q)) as [lines [f [c [d [E1 [E2 [E3 [E4 E5]]]]]]]]; [lia|intros i b _ _; reflexivity|intros R x b _ _ _; reflexivity|].
  exists lines, f, c, d. split; [|split; [exact E2|split; [exact E3|split; [|exact E5]]]].
  - destruct out as [|o [|o' l]]; unfold size in So; cbn [length] in So; try lia. change (Z.to_nat 0) with 0%nat in E1. cbn [nth_error] in E1. injection E1 as ->. reflexivity.
  - rewrite E4. unfold mean, Sum. rewrite !qs_const, !length_zrange. pose proof (N_pos g Hg). rewrite !Z2Nat.id by lia. field. intros Z0. unfold Qeq in Z0. cbn in Z0. lia.
Qed.
(** Tensors, with frequencies or mean free paths as abscissa: the last line shows the sum of mode_kappa over rows and bands divided by the
    number of all grid points; with --average a third of its trace, with --trace its trace. *)
Theorem C121_tensor : forall g rots init q_ok nb eps epsilon pi2 h ns mfp c volume nsp out p, setting g rots nb epsilon h ns -> 1 < nsp -> h_kappa h = Some p -> h_weight h <> None ->
  run_tensor g rots init q_ok nb eps epsilon pi2 h ns false mfp c volume None nsp = KOk out ->
  size out = size (temps h) /\
  forall t, 0 <= t < size (temps h) -> exists lines f row, nth_error out (Z.to_nat t) = Some (Some (nth (Z.to_nat t) (temps h) 0%Q), lines) /\ size lines = nsp /\
    nth_error lines (Z.to_nat (nsp - 1)) = Some (f, row) /\ shows c (fun e => Sum (h_n h) (fun i => Sum nb (fun b => p t i b e)) / inject_Z (num g))%Q row.
Proof.
  intros g rots init q_ok nb eps epsilon pi2 h ns mfp c volume nsp out p [Hg [HG [Hb [He [Hh Hw]]]]] Hs Hp Hwt H.
  destruct (tensor_lines g rots init q_ok nb eps epsilon pi2 Hg HG Hb He h ns mfp false c volume nsp out p (size (temps h)) Hh H Hs (conj Hp eq_refl) (Nat2Z.is_nonneg _)) as [irs [irm [w [rows [Ec [_ [So K]]]]]]].
  specialize (So (or_intror eq_refl)). split; [exact So|]. intros t Ht. rewrite <- So in Ht. destruct (K t Ht) as [_ [lines [f [row [E1 [E2 [E3 E4]]]]]]]. exists lines, f, row. split; [exact E1|]. split; [exact E2|]. split; [exact E3|].
  destruct (collect_cases g rots init q_ok Hg HG h ns irs irm w rows Hh Ec) as [_ [_ D]]. destruct D as [[_ ->]|D]; [|contradiction]. rewrite size_zrange in E4 by apply Hh. exact E4.
Qed.
(** --gv: the same for the products of group velocities over the volume *)
Theorem C121_gv : forall g rots init q_ok nb eps epsilon pi2 h ns c volume nsp out, setting g rots nb epsilon h ns -> 1 < nsp -> h_weight h <> None ->
  run_tensor g rots init q_ok nb eps epsilon pi2 h ns true false c volume None nsp = KOk out ->
  exists lines f row, out = [(None, lines)] /\ size lines = nsp /\
    nth_error lines (Z.to_nat (nsp - 1)) = Some (f, row) /\ shows c (fun e => Sum (h_n h) (fun i => Sum nb (fun b => h_gv2 h i b e / volume)) / inject_Z (num g))%Q row.
Proof.
  intros g rots init q_ok nb eps epsilon pi2 h ns c volume nsp out [Hg [HG [Hb [He [Hh Hw]]]]] Hs Hwt H.
  destruct (tensor_lines g rots init q_ok nb eps epsilon pi2 Hg HG Hb He h ns false true c volume nsp out _ 1 Hh H Hs (conj eq_refl eq_refl) ltac:(lia)) as [irs [irm [w [rows [Ec [_ [So K]]]]]]].
  specialize (So (or_introl eq_refl)). destruct (K 0 ltac:(lia)) as [_ [lines [f [row [E1 [E2 [E3 E4]]]]]]]. exists lines, f, row.
  split; [destruct out as [|o [|o' l]]; unfold size in So; cbn [length] in So; try lia; change (Z.to_nat 0) with 0%nat in E1; cbn [nth_error] in E1; injection E1 as ->; reflexivity|]. split; [exact E2|]. split; [exact E3|].
  destruct (collect_cases g rots init q_ok Hg HG h ns irs irm w rows Hh Ec) as [_ [_ D]]. destruct D as [[_ ->]|D]; [|contradiction]. rewrite size_zrange in E4 by apply Hh. exact E4.
Qed.
(** A file written by a run of the relaxation time approximation: the last line is the thermal conductivity of Boltzmann's equation,
    summed over all grid points. *)
Definition voigt : list (Z * Z) := [(0, 0); (1, 1); (2, 2); (1, 2); (0, 2); (0, 1)].
Theorem C121_conductivity : forall g ops init q_ok nb eps epsilon pi2 h mfp volume nsp out p t freq vel mode_cv root cutoff ev kb conv T bfac gamma gamma_iso boundary average,
  let rots := map fst ops in let D := mesh g in let ir := ir_grid_points (get_ir_grid_map rots D vzero init) (num g) in
  setting g rots nb epsilon h false -> 1 < nsp -> h_kappa h = Some p -> h_n h = size ir -> h_weight h <> None -> 0 <= t < size (temps h) ->
  (forall i b e, 0 <= i < size ir -> 0 <= b < nb -> 0 <= e < 6 -> (p t i b e ==
     kap_mode D ops freq vel mode_cv root cutoff ev kb conv T bfac gamma gamma_iso boundary true average (nth (Z.to_nat i) ir 0%Z) b (nth (Z.to_nat e) voigt (0, 0)%Z))%Q) ->
  value_fun root -> value_fun (mode_cv T) -> NoDup rots -> (forall o, In o ops -> orthogonal_op (snd o)) -> symmetric_phonons D ops nb freq gamma gamma_iso vel ->
  run_tensor g rots init q_ok nb eps epsilon pi2 h false false mfp Six volume None nsp = KOk out ->
  exists temp lines f row, nth_error out (Z.to_nat t) = Some (temp, lines) /\ nth_error lines (Z.to_nat (nsp - 1)) = Some (f, row) /\
    forall e, 0 <= e < 6 -> let '(i, j) := nth (Z.to_nat e) voigt (0, 0)%Z in
    (nth (Z.to_nat e) row 0 == boltzmann (num g) nb cutoff conv freq (heat_of mode_cv cutoff ev kb T freq) (width_of root bfac gamma gamma_iso boundary vel) vel i j)%Q.
Proof.
  intros g ops init q_ok nb eps epsilon pi2 h mfp volume nsp out p t freq vel mode_cv root cutoff ev kb conv T bfac gamma gamma_iso boundary average rots D ir Hset Hs Hp Hn Hwt Ht Hk Hr Hcv Hnd Ho Hsym H.
  destruct (C121_tensor g rots init q_ok nb eps epsilon pi2 h false mfp Six volume nsp out p Hset Hs Hp Hwt H) as [_ K]. destruct (K t Ht) as [lines [f [row [E1 [E2 [E3 [_ E4]]]]]]].
  do 4 eexists. split; [exact E1|]. split; [exact E3|]. intros e He. destruct (E4 e He) as [E5 _]. destruct Hset as [Hg [HG [Hb [He' [Hh Hw]]]]]. assert (HD : pos_mesh D) by apply Hg.
  destruct (nth (Z.to_nat e) voigt (0, 0)%Z) as [i j] eqn:Ev.
  assert (Hij : 0 <= i < 3 /\ 0 <= j < 3). { assert (C : e = 0 \/ e = 1 \/ e = 2 \/ e = 3 \/ e = 4 \/ e = 5) by lia. clear - C Ev. destruct C as [-> | [-> | [-> | [-> | [-> | ->]]]]]; cbn in Ev; injection Ev as <- <-; lia. }
  rewrite E5. pose proof (C91_irreducible_points D ops init nb freq vel mode_cv root cutoff ev kb conv T bfac gamma gamma_iso boundary HD Hr Hcv HG Hnd Ho Hsym average i j ltac:(tauto) ltac:(tauto)) as C. change (mesh_size D) with (num g) in C. rewrite <- C.
  unfold kap_rta. rewrite (samples_star D ops init HD HG) by exact Hnd. change (mesh_size D) with (num g). apply Qmult_comp; [|reflexivity]. cbn [kap_points]. change (num_gp D) with (mesh_size D) || rewrite num_gp_mesh_size. change (mesh_size D) with (num g). fold rots. fold ir.
  rewrite <- (rows_Sum (h_n h) ir (fun x => qsum (map (fun b => kap_mode D ops freq vel mode_cv root cutoff ev kb conv T bfac gamma gamma_iso boundary true average x b (i, j)) (zrange nb))) Hn).
  rewrite Hn. apply Sum_ext. intros a Ha. apply Sum_ext. intros b Hb'. rewrite (Hk a b e Ha Hb' He), Ev. reflexivity.
Qed.
(** --temperature T: that block of the output for all temperatures, for scalars (with either method) and tensors *)
Theorem C121_temperature : forall g rots init q_ok nb eps epsilon pi2 nd h ns T nsp out t, 0 <= t < size (temps h) -> (Qabs (nth (Z.to_nat t) (temps h) 0 - T) < epsilon)%Q ->
  (forall j, 0 <= j < t -> ~ (Qabs (nth (Z.to_nat j) (temps h) 0 - T) < epsilon)%Q) ->
  (forall k sm, (k = Cv \/ k = Gamma \/ k = Tau) -> run_scalar g rots init q_ok nb eps epsilon pi2 nd h ns sm k None nsp = KOk out ->
     run_scalar g rots init q_ok nb eps epsilon pi2 nd h ns sm k (Some T) nsp = KOk [nth (Z.to_nat t) out (None, [])]) /\
  (forall mfp c volume, run_tensor g rots init q_ok nb eps epsilon pi2 h ns false mfp c volume None nsp = KOk out ->
     run_tensor g rots init q_ok nb eps epsilon pi2 h ns false mfp c volume (Some T) nsp = KOk [nth (Z.to_nat t) out (None, [])]).
Proof.
  intros g rots init q_ok nb eps epsilon pi2 nd h ns T nsp out t Ht Ha Hf.
  assert (E : T_index epsilon (temps h) T = Some t).
  { destruct (T_index epsilon (temps h) T) as [i|] eqn:E.
    - destruct (T_index_some _ _ _ _ E) as [I1 [I2 I3]]. f_equal. destruct (Z.lt_trichotomy i t) as [L | [L | L]]; [exfalso; apply (Hf i ltac:(lia) I2)|exact L|exfalso; apply (I3 t ltac:(lia) Ha)].
    - exfalso. rewrite T_index_none in E. apply (E (nth (Z.to_nat t) (temps h) 0%Q)); [apply nth_In; unfold size in Ht; lia|exact Ha]. }
  split; intros; [now apply scalar_temperature|now apply tensor_temperature].
Qed.
(** A temperature that is not in the file: no output. *)
Theorem C121_absent_temperature_refuted : forall g rots init q_ok nb eps epsilon pi2 nd h ns T nsp out, (forall t, In t (temps h) -> ~ (Qabs (t - T) < epsilon)%Q) ->
  (forall k sm, (k = Cv \/ k = Gamma \/ k = Tau) -> run_scalar g rots init q_ok nb eps epsilon pi2 nd h ns sm k (Some T) nsp <> KOk out) /\
  (forall mfp c volume, run_tensor g rots init q_ok nb eps epsilon pi2 h ns false mfp c volume (Some T) nsp <> KOk out).
Proof. intros g rots init q_ok nb eps epsilon pi2 nd h ns T nsp out H. apply T_index_none in H. split; intros; [now apply scalar_no_temperature|now apply tensor_no_temperature]. Qed.
(** --pqj, --gruneisen and --gv-norm never show a spectrum. *)
Theorem C121_three_scalars_refuted : forall g rots init q_ok nb eps epsilon pi2 nd h ns sm k T nsp out, (k = Pqj \/ k = Gruneisen \/ k = GvNorm) -> 1 < nsp ->
  run_scalar g rots init q_ok nb eps epsilon pi2 nd h ns sm k T nsp <> KOk out.
Proof. intros. now apply scalar_three. Qed.
(** --no-gridsym needs a row for each point of the mesh: it fails for the phonons at all stored points of the zone and for irreducible points *)
Theorem C121_no_gridsym_refuted : forall g rots init q_ok nb eps epsilon pi2 nd h T nsp out, good_grid g -> 0 <= h_n h -> h_n h <> num g ->
  (forall k, run_scalar g rots init q_ok nb eps epsilon pi2 nd h true false k T nsp <> KOk out) /\
  (forall gv c volume, run_tensor g rots init q_ok nb eps epsilon pi2 h true gv false c volume T nsp <> KOk out).
Proof. intros g rots init q_ok nb eps epsilon pi2 nd h T nsp out Hg H0 Hn. split; intros; intros H; apply Hn; [eapply scalar_no_gridsym|eapply tensor_no_gridsym]; eassumption. Qed.
(** --gv --mfp fails with several temperatures. *)
Theorem C121_gv_mfp_refuted : forall g rots init q_ok nb eps epsilon pi2 h ns c volume nsp out, 1 < size (temps h) ->
  run_tensor g rots init q_ok nb eps epsilon pi2 h ns true true c volume None nsp <> KOk out.
Proof. intros g rots init q_ok nb eps epsilon pi2 h ns c volume nsp out H K. apply tensor_gv_mfp in K. lia. Qed.
Print Assumptions C121_scalar. Print Assumptions C121_dos. Print Assumptions C121_tensor. Print Assumptions C121_gv. Print Assumptions C121_conductivity. Print Assumptions C121_temperature.
Print Assumptions C121_absent_temperature_refuted. Print Assumptions C121_three_scalars_refuted. Print Assumptions C121_no_gridsym_refuted. Print Assumptions C121_gv_mfp_refuted.

(** Example: three points along x, inversion: points 0 and 1 with weights 1 and 2; one band of frequency 1 or 4, two temperatures *)
Definition x_B : BzIn := mkBzIn (v3 3 1 1) I3 vzero (qm 1 0 0 0 1 0 0 0 1).
Definition x_grid (o : BzOut) : bzgrid := {| k_B := x_B; k_ty := 2; k_out := o; k_P := I3; k_micro := qm (1 # 3) 0 0 0 1 0 0 0 1; k_Q := I3; k_rl := bL x_B |}.
Definition x_rots : list M3 := [I3; mneg I3].
Definition x_row (a b : Q) (i : Z) : Q := if i =? 0 then a else b.
Definition x_file : kfile := {| h_n := 2; h_freq := fun i _ => x_row 1 4 i; h_weight := Some [1; 2]; h_grid_point := None; h_ir := None; h_temps := Some [100; 300]%Q;
  h_pp := fun i _ => x_row 1 2 i; h_gruneisen := fun i _ => x_row 1 2 i; h_norm := fun i _ => x_row 1 2 i; h_cv := fun t i _ => x_row 3 (6 + inject_Z t) i; h_gamma := fun t i _ => x_row 0 (1 # 4) i;
  h_kappa := Some (fun t i _ e => inject_Z (e + 1) * x_row 3 (6 + inject_Z t) i)%Q; h_gv2 := fun i _ e => x_row 1 2 i; h_mfp := None |}.
Definition last_line (l : list (Q * list Q)) : list Q := map Qred (snd (last l (0%Q, []))).
Definition x_show (r : kres (list block)) : kres (list (option Q * list Q)) := match r with KOk l => KOk (map (fun b => (fst b, last_line (snd b))) l) | KErr e => KErr e end.
Definition x_scalar (o : BzOut) (h : kfile) ns k T := x_show (run_scalar (x_grid o) x_rots (fun _ => 0) true 1 (1 # 1000000) (1 # 100) 6 (fun _ _ => 0%Q) h ns false k T 2).
Definition x_tensor (o : BzOut) (h : kfile) ns gv mfp c T := x_show (run_tensor (x_grid o) x_rots (fun _ => 0) true 1 (1 # 1000000) (1 # 100) 6 h ns gv mfp c 2 T 2).
Lemma x_setting : forall o, get_bz_grid_addresses x_B 2 zero_out = Some o -> setting (x_grid o) x_rots 1 (1 # 100) x_file false.
Proof.
  intros o H. split; [|split; [|split; [|split; [|split]]]].
  - split; [split; [cbn; lia|vm_compute; discriminate]|]. split; [now left|]. exists zero_out. exact H.
  - apply good_groupb_sound; [cbn; lia|vm_compute; reflexivity].
  - lia.
  - reflexivity.
  - split; [cbn; lia|]. split; [intros w E; injection E as <-; reflexivity|intros w p E; discriminate].
  - intros w E; discriminate.
Qed.
Example C121_ex : option_map (fun o => (x_scalar o x_file false Cv None, x_scalar o x_file false Tau (Some 300%Q), x_scalar o x_file false Dos None)) (get_bz_grid_addresses x_B 2 zero_out) =
  Some (KOk [(Some 100%Q, [5; 0]%Q); (Some 300%Q, [17 # 3; 0]%Q)], KOk [(Some 300%Q, [2 # 9; 0]%Q)], KOk [(Some 100%Q, [1; 0]%Q)]).
Proof. vm_compute. reflexivity. Qed.
Example C121_tensor_ex : option_map (fun o => (x_tensor o x_file false false false Six (Some 300%Q), x_tensor o x_file false false true Average None, x_tensor o x_file false true false Trace None)) (get_bz_grid_addresses x_B 2 zero_out) =
  Some (KOk [(Some 300%Q, [10 # 3; 20 # 3; 10; 40 # 3; 50 # 3; 20; 0; 0; 0; 0; 0; 0]%Q)], KOk [(Some 100%Q, [6; 0]%Q); (Some 300%Q, [20 # 3; 0]%Q)], KOk [(None, [3 # 2; 0]%Q)]).
Proof. vm_compute. reflexivity. Qed.
Example C121_failures_ex : option_map (fun o => (x_scalar o x_file false GvNorm None, x_scalar o x_file false Cv (Some 200%Q), x_scalar o x_file true Cv None, x_tensor o x_file false true true Six None)) (get_bz_grid_addresses x_B 2 zero_out) =
  Some (KErr TypeError, KErr TypeError, KErr Refused, KErr IndexError).
Proof. vm_compute. reflexivity. Qed.
Example C121_holds_ex : forall o, get_bz_grid_addresses x_B 2 zero_out = Some o ->
  holds 1 (file_points (x_grid o) x_rots (fun _ => 0) [1; 2]) (fun i _ => x_row 3 6 i) (fun x _ => x_row 3 6 x) /\ invariant (x_grid o) x_rots 1 (fun x _ => x_row 3 6 x) /\ (mean (x_grid o) 1 (fun x _ => x_row 3 6 x) == 5)%Q.
Proof.
  intros o _. split; [|split].
  - intros i b Hi Hb'. change (file_points (x_grid o) x_rots (fun _ => 0) [1; 2]) with [0; 1] in *. change (size [0; 1]) with 2 in Hi. assert (i = 0 \/ i = 1) as [-> | ->] by lia; reflexivity.
  - intros R x b HR Hx Hb'. change (num (x_grid o)) with 3 in Hx. change (mesh (x_grid o)) with (v3 3 1 1). assert (x = 0 \/ x = 1 \/ x = 2) as C by lia. destruct HR as [<- | [<- | []]]; destruct C as [-> | [-> | ->]]; vm_compute; reflexivity.
  - vm_compute. reflexivity.
Qed.
