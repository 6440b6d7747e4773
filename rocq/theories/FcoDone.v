(** Which pairs _get_fc3_done marks as computed. *)
From Coq Require Import ZArith QArith Qabs List Bool Lia Lqa Setoid.
From Verif Require Import Base BaseProofs QMat DsModel DispModel Fc3Model Fc3Trans Fc3Dist Fc3DistProps FcoModel.
Import ListNotations.
Open Scope Z_scope.

(** ** spec *)
Definition vint (v : vec) : Prop := let '(x, y, z) := v in exists a b c : Z, Qeq x (inject_Z a) /\ Qeq y (inject_Z b) /\ Qeq z (inject_Z c).
Definition same_vec (v w : vec) : Prop := let '(x, y, z) := v in let '(a, b, c) := w in Qeq x a /\ Qeq y b /\ Qeq z c.
(** Operation g brings atom i onto a periodic image of atom j. *)
Definition sends (positions : list vec) (g : sop) (i j : Z) : Prop :=
  0 <= j < Z.of_nat (length positions) /\ vint (vsub3 (pos_at positions j) (vadd3 (qrot (fst g) (pos_at positions i)) (snd g))).
(** A crystal whose operations form a group of permutations of the atoms; the test for coincidence accepts exact
    coincidence up to lattice vectors and separates different atoms. *)
Record crystal (close : vec -> bool) (positions : list vec) (ops : list sop) : Prop := {
  cr_ext : forall v w, same_vec v w -> close v = close w;
  cr_close : forall v, vint v -> close v = true;
  cr_apart : forall i j x, 0 <= i < Z.of_nat (length positions) -> 0 <= j < Z.of_nat (length positions) ->
    vint (vsub3 (pos_at positions j) x) -> close (vsub3 (pos_at positions i) x) = true -> i = j;
  cr_sym : forall g i, In g ops -> 0 <= i < Z.of_nat (length positions) -> exists j, sends positions g i j;
  cr_comp : forall g h, In g ops -> In h ops -> exists k, In k ops /\ forall i j l, 0 <= i < Z.of_nat (length positions) -> sends positions h i j -> sends positions g j l -> sends positions k i l;
  cr_inv : forall g, In g ops -> exists h, In h ops /\ forall i j, 0 <= i < Z.of_nat (length positions) -> sends positions g i j -> sends positions h j i }.
(** The rotations used for a first atom are site symmetries of that atom. *)
Definition site_ops (positions : list vec) (ops : list sop) (a : Z) (rs : list rot) : Prop :=
  forall r, In r rs -> exists t, In (r, t) ops /\ sends positions (r, t) a a.
(** A second atom counts: the dataset says so or, if it does not say, it is closer than the cutoff. *)
Definition counts (dist : Z -> Z -> Q) (cutoff : option Q) (a : Z) (s : sec) : Prop :=
  match s_incl s with Some b => b = true | None => match cutoff with Some c => Qlt (dist a (s_num s)) c | None => False end end.
(** (a, b) is the image, under an operation of the crystal, of a pair of the dataset that counts. *)
Definition computed (positions : list vec) (ops : list sop) (dist : Z -> Z -> Q) (cutoff : option Q) (firsts : list fir) (a b : Z) : Prop :=
  exists f s g, In f firsts /\ In s (f_second f) /\ counts dist cutoff (f_num f) s /\ In g ops /\ sends positions g (f_num f) a /\ sends positions g (s_num s) b.
(** The dataset fits the crystal. *)
Definition dataset_ok (positions : list vec) (firsts : list fir) : Prop :=
  forall f, In f firsts -> 0 <= f_num f < Z.of_nat (length positions) /\ forall s, In s (f_second f) -> 0 <= s_num s < Z.of_nat (length positions).

(** ** proofs *)
Lemma vint_ext : forall v w, same_vec v w -> vint v -> vint w.
Proof. intros [[x y] z] [[a b] c] [H1 [H2 H3]] [i [j [k [E1 [E2 E3]]]]]. exists i, j, k. rewrite <- H1, <- H2, <- H3. auto. Qed.
Lemma vint_add : forall v w, vint v -> vint w -> vint (vadd3 v w).
Proof.
  intros [[x y] z] [[a b] c] [i [j [k [E1 [E2 E3]]]]] [i' [j' [k' [F1 [F2 F3]]]]]. exists (i + i'), (j + j'), (k + k'). rewrite !inject_Z_plus, E1, E2, E3, F1, F2, F3. repeat split; reflexivity.
Qed.
Lemma vint_sub : forall v w, vint v -> vint w -> vint (vsub3 v w).
Proof.
  intros [[x y] z] [[a b] c] [i [j [k [E1 [E2 E3]]]]] [i' [j' [k' [F1 [F2 F3]]]]]. exists (i - i'), (j - j'), (k - k').
  unfold Z.sub. rewrite !inject_Z_plus, !inject_Z_opp, E1, E2, E3, F1, F2, F3. repeat split; reflexivity.
Qed.
Lemma sequence_nth : forall X (l : list (option X)) r, sequence l = Some r -> forall j, nth_error l j = option_map Some (nth_error r j).
Proof.
  intros X. induction l as [|[x|] l IH]; intros r H j; cbn in H; [injection H as <-; destruct j; reflexivity| |discriminate].
  destruct (sequence l) as [t|] eqn:E; [|discriminate]. injection H as <-. destruct j; cbn; [reflexivity|]. now apply IH.
Qed.
Lemma sequence_map : forall X Y (f : X -> option Y) l r, sequence (map f l) = Some r -> forall y, In y r <-> exists x, In x l /\ f x = Some y.
Proof.
  intros X Y f. induction l as [|x l IH]; intros r H y; cbn in H; [injection H as <-; split; [intros []|intros [x [[] _]]]|].
  destruct (f x) as [z|] eqn:E; [|discriminate]. destruct (sequence (map f l)) as [t|] eqn:Et; [|discriminate]. injection H as <-. cbn [In]. rewrite (IH t eq_refl). split.
  - intros [<-|[u [Hu E']]]; [exists x; auto|exists u; auto].
  - intros [u [[<-|Hu] E']]; [left; congruence|right; eauto].
Qed.
Lemma sequence_total : forall X Y (f : X -> option Y) l, (forall x, In x l -> exists y, f x = Some y) -> exists r, sequence (map f l) = Some r.
Proof.
  intros X Y f. induction l as [|x l IH]; intros H; [exists []; reflexivity|]. cbn. destruct (H x (or_introl eq_refl)) as [y ->]. destruct IH as [r ->]; [intros u Hu; apply H; right; exact Hu|].
  cbn. eauto.
Qed.
Lemma find_first_complete : forall A (f : A -> bool) l x, In x l -> f x = true -> exists y, find_first f l = Some y.
Proof. intros A f. induction l as [|y l IH]; intros x Hx H; [destruct Hx|]; cbn; destruct (f y) eqn:E; [eauto|]. destruct Hx as [->|Hx]; [congruence|eauto]. Qed.

Section Done.
Variables (close : vec -> bool) (positions : list vec) (ops : list sop) (dist : Z -> Z -> Q) (cutoff : option Q) (red : fir -> list rot) (firsts : list fir).
Let n := Z.of_nat (length positions).
Hypothesis CR : crystal close positions ops.

Lemma atom_sends : forall g i j, In g ops -> 0 <= i < n -> atom_by_symmetry close positions g i = Some j <-> sends positions g i j.
Proof.
  intros g i j Hg Hi. destruct (cr_sym _ _ _ CR g i Hg Hi) as [j0 [R0 V0]]. set (x := vadd3 (qrot (fst g) (pos_at positions i)) (snd g)) in *.
  assert (X : exists y, atom_by_symmetry close positions g i = Some y).
  { apply (find_first_complete _ _ _ j0); [now apply in_zrange|]. fold x. apply (cr_close _ _ _ CR), V0. }
  destruct X as [y Ey]. rewrite Ey. unfold atom_by_symmetry in Ey. apply find_first_some in Ey. destruct Ey as [Hy Cy]. apply in_zrange in Hy. fold x in Cy.
  assert (y = j0) by (apply (cr_apart _ _ _ CR y j0 x); auto). subst y. split.
  - intros E. injection E as <-. split; [exact R0|exact V0].
  - intros [R V]. f_equal. apply (cr_apart _ _ _ CR j0 j x); auto.
Qed.
Lemma sends_fun : forall g i j j', In g ops -> 0 <= i < n -> sends positions g i j -> sends positions g i j' -> j = j'.
Proof. intros g i j j' Hg Hi H H'. apply atom_sends in H, H'; auto. congruence. Qed.
Lemma mapping_row : forall am, atom_mapping close positions ops = Some am -> forall row, In row am <-> exists g, In g ops /\ sequence (map (atom_by_symmetry close positions g) (zrange n)) = Some row.
Proof. intros am H row. apply (sequence_map _ _ (fun g => sequence (map (atom_by_symmetry close positions g) (zrange n))) ops am H). Qed.
Lemma zrange_nth : forall j, 0 <= j < n -> nth_error (zrange n) (Z.to_nat j) = Some j.
Proof.
  intros j Hj. unfold zrange. rewrite nth_error_map. rewrite nth_error_nth' with (d := 0%nat) by (rewrite seq_length; lia). rewrite seq_nth by lia. cbn. f_equal. lia.
Qed.
Lemma row_nth : forall g row, sequence (map (atom_by_symmetry close positions g) (zrange n)) = Some row -> forall i, 0 <= i < n -> atom_by_symmetry close positions g i = Some (nth (Z.to_nat i) row 0).
Proof.
  intros g row H i Hi. pose proof (sequence_nth _ _ _ H (Z.to_nat i)) as E. rewrite nth_error_map, zrange_nth in E by auto. cbn in E.
  destruct (nth_error row (Z.to_nat i)) as [v|] eqn:F; [|discriminate]. cbn in E. injection E as E. rewrite E. f_equal. symmetry. now apply nth_error_nth.
Qed.
(** The rotation about an atom, on positions relative to that atom, acts as an operation of the crystal. *)
Lemma shifted_sends : forall a r t i j, In (r, t) ops -> 0 <= a < n -> 0 <= i < n -> sends positions (r, t) a a ->
  atom_by_symmetry close (map (fun p => vsub3 p (pos_at positions a)) positions) (r, vec0) i = Some j <-> sends positions (r, t) i j.
Proof.
  intros a r t i j Hg Ha Hi [_ Va]. rewrite <- atom_sends by auto. unfold atom_by_symmetry. rewrite map_length. fold n. cbn [fst snd].
  assert (P : forall k, 0 <= k < n -> pos_at (map (fun p => vsub3 p (pos_at positions a)) positions) k = vsub3 (pos_at positions k) (pos_at positions a)).
  { intros k Hk. unfold pos_at at 1. rewrite nth_indep with (d' := vsub3 vec0 (pos_at positions a)) by (rewrite map_length; unfold n in Hk; lia). exact (map_nth (fun p => vsub3 p (pos_at positions a)) positions vec0 (Z.to_nat k)). }
  set (x := vadd3 (qrot r (pos_at positions i)) t).
  set (x' := vadd3 (qrot r (vsub3 (pos_at positions i) (pos_at positions a))) (pos_at positions a)).
  assert (D : vint (vsub3 x' x)).
  { apply (vint_ext _ _) with (2 := Va). unfold x, x'. cbn [fst snd]. destruct (pos_at positions a) as [[a0 a1] a2], (pos_at positions i) as [[i0 i1] i2], t as [[t0 t1] t2], r as [[[[r00 r01] r02] [[r10 r11] r12]] [[r20 r21] r22]].
    cbn. repeat split; ring. }
  assert (T : forall k, 0 <= k < n -> close (vsub3 (pos_at (map (fun p => vsub3 p (pos_at positions a)) positions) k) (vadd3 (qrot r (pos_at (map (fun p => vsub3 p (pos_at positions a)) positions) i)) vec0)) = close (vsub3 (pos_at positions k) x')).
  { intros k Hk. rewrite !P by auto. apply (cr_ext _ _ _ CR). unfold x'. destruct (pos_at positions a) as [[a0 a1] a2], (pos_at positions i) as [[i0 i1] i2], (pos_at positions k) as [[k0 k1] k2], r as [[[[r00 r01] r02] [[r10 r11] r12]] [[r20 r21] r22]].
    cbn. repeat split; ring. }
  destruct (cr_sym _ _ _ CR (r, t) i Hg Hi) as [j0 [R0 V0]]. cbn [fst snd] in V0. fold x in V0.
  assert (V1 : vint (vsub3 (pos_at positions j0) x')).
  { apply (vint_ext (vsub3 (vsub3 (pos_at positions j0) x) (vsub3 x' x))); [|now apply vint_sub]. destruct (pos_at positions j0) as [[a0 a1] a2], x as [[x0 x1] x2], x' as [[y0 y1] y2]. cbn. repeat split; ring. }
  assert (U : forall h, (forall k, 0 <= k < n -> (h k = true <-> k = j0)) -> find_first h (zrange n) = Some j0).
  { intros h Hh. destruct (find_first_complete _ h (zrange n) j0) as [y E]; [now apply in_zrange|now apply Hh|]. rewrite E. apply find_first_some in E. destruct E as [E1 E2].
    apply in_zrange in E1. f_equal. now apply Hh. }
  rewrite (U (fun j1 => close (vsub3 (pos_at (map (fun p => vsub3 p (pos_at positions a)) positions) j1) (vadd3 (qrot r (pos_at (map (fun p => vsub3 p (pos_at positions a)) positions) i)) vec0)))).
  - rewrite (U (fun j1 => close (vsub3 (pos_at positions j1) x))); [reflexivity|]. intros k Hk. split; [intros C; now apply (cr_apart _ _ _ CR k j0 x)|intros ->; now apply (cr_close _ _ _ CR)].
  - intros k Hk. rewrite T by auto. split; [intros C; now apply (cr_apart _ _ _ CR k j0 x')|intros ->; now apply (cr_close _ _ _ CR)].
Qed.

Hypothesis DS : dataset_ok positions firsts.
Hypothesis RED : forall f, In f firsts -> red f <> [] /\ site_ops positions ops (f_num f) (red f).

Lemma second_counts_iff : forall a s b, second_counts dist cutoff a s = Some b -> (b = true <-> counts dist cutoff a s).
Proof.
  intros a s b. unfold second_counts, counts. destruct (s_incl s) as [b'|]; [intros E; injection E as <-; tauto|].
  destruct cutoff as [c|]; [|intros E; injection E as <-; intuition discriminate].
  destruct (match s_dist s with Some d' => qltb (Qabs (dist a (s_num s) - d')) (1 # 10000) | None => true end); [|discriminate].
  intros E. injection E as <-. unfold qltb. rewrite negb_true_iff. split.
  - intros H. apply Qnot_le_lt. intros K. apply Qle_bool_iff in K. congruence.
  - intros H. apply not_true_iff_false. intros K. apply Qle_bool_iff in K. lra.
Qed.
Lemma in_combine_map : forall (ss : list sec) bs j, sequence (map (second_counts dist cutoff j) ss) = Some bs ->
  forall x, In x (map fst (filter snd (combine (map s_num ss) bs))) <-> exists s, In s ss /\ counts dist cutoff j s /\ s_num s = x.
Proof.
  induction ss as [|s ss IH]; intros bs j H x; cbn in H; [injection H as <-; cbn; split; [intros []|intros [s [[] _]]]|].
  destruct (second_counts dist cutoff j s) as [b|] eqn:E; [|discriminate]. destruct (sequence (map (second_counts dist cutoff j) ss)) as [t|] eqn:Et; [|discriminate]. injection H as <-.
  apply second_counts_iff in E. cbn [map combine filter snd]. specialize (IH t j Et x). destruct b; cbn [map fst In]; rewrite IH.
  - split; [intros [<-|[s' [H1 H2]]]; [exists s; split; [left; reflexivity|tauto]|exists s'; split; [right; exact H1|exact H2]]|].
    intros [s' [[<-|H1] [H2 H3]]]; [left; exact H3|right; exists s'; auto].
  - split; [intros [s' [H1 H2]]; exists s'; split; [right; exact H1|exact H2]|].
    intros [s' [[<-|H1] [H2 H3]]]; [apply E in H2; discriminate|exists s'; auto].
Qed.
Lemma last_in : forall A (l : list A) d, In (last l d) (d :: l).
Proof. intros A l d. destruct l as [|x l]; [left; reflexivity|]. right. destruct (exists_last (l := x :: l)) as [l' [y E]]; [discriminate|]. rewrite E, last_last. apply in_app_iff. right. left. reflexivity. Qed.

Lemma done_iff : forall done, get_fc3_done close positions ops dist cutoff red firsts = Some done ->
  forall a b, is_done done a b = true <-> computed positions ops dist cutoff firsts a b.
Proof.
  intros done H a b. unfold get_fc3_done in H. destruct (atom_mapping close positions ops) as [am|] eqn:Eam; [|discriminate].
  destruct (sequence (map (done_of_first close positions dist cutoff red am) firsts)) as [ls|] eqn:Els; [|discriminate]. injection H as <-.
  assert (K : is_done (concat ls) a b = true <-> exists f l, In f firsts /\ done_of_first close positions dist cutoff red am f = Some l /\ In (a, b) l).
  { unfold is_done. rewrite existsb_exists. split.
    - intros [[x y] [Hin E]]. unfold keyb in E. cbn in E. apply andb_true_iff in E. destruct E as [E1 E2]. apply Z.eqb_eq in E1, E2. subst x y.
      apply in_concat in Hin. destruct Hin as [l [Hl Hin]]. apply (sequence_map _ _ _ _ _ Els) in Hl. destruct Hl as [f [Hf E]]. eauto.
    - intros [f [l [Hf [E Hin]]]]. exists (a, b). split; [|unfold keyb; cbn; now rewrite !Z.eqb_refl]. apply in_concat. exists l. split; [|exact Hin]. apply (sequence_map _ _ _ _ _ Els). eauto. }
  rewrite K. clear K. unfold computed.
  assert (G : forall f l, In f firsts -> done_of_first close positions dist cutoff red am f = Some l ->
     (In (a, b) l <-> exists s g, In s (f_second f) /\ counts dist cutoff (f_num f) s /\ In g ops /\ sends positions g (f_num f) a /\ sends positions g (s_num s) b)).
  { intros f l Hf E. destruct (DS f Hf) as [Ra Rs]. fold n in Ra, Rs. destruct (RED f Hf) as [NE SO]. unfold done_of_first in E. fold n in E.
    unfold least_second_atoms in E. destruct (sequence (map (second_counts dist cutoff (f_num f)) (f_second f))) as [bs|] eqn:Ebs; [|discriminate]. cbn [option_map] in E.
    set (least := unique n (map fst (filter snd (combine (map s_num (f_second f)) bs)))) in *.
    assert (LE : forall x, In x least <-> exists s, In s (f_second f) /\ counts dist cutoff (f_num f) s /\ s_num s = x).
    { intros x. unfold least. rewrite in_unique, (in_combine_map _ _ _ Ebs). split; [tauto|]. intros [s [H1 [H2 <-]]]. split; [eauto|]. now apply Rs. }
    assert (LR : forall x, In x least -> 0 <= x < n) by (intros x Hx; unfold least in Hx; apply in_unique in Hx; tauto).
    unfold second_atom_nums in E. set (sh := map (fun p => vsub3 p (pos_at positions (f_num f))) positions) in *.
    destruct (sequence (map (fun r => sequence (map (atom_by_symmetry close sh (r, vec0)) least)) (red f))) as [[|l0 t]|] eqn:Es; [discriminate| |discriminate]. cbn [option_map] in E. injection E as <-.
    set (sec := last t l0). assert (Hsec : In sec (l0 :: t)) by apply last_in.
    apply (sequence_map _ _ _ _ _ Es) in Hsec. destruct Hsec as [r [Hr Er]]. destruct (SO r Hr) as [tr [Hg Hfix]].
    assert (SE : forall y, In y sec <-> exists x, In x least /\ sends positions (r, tr) x y).
    { intros y. rewrite (sequence_map _ _ _ _ _ Er). split; intros [x [Hx E]]; exists x; (split; [exact Hx|]); apply (shifted_sends (f_num f) r tr x y); auto. }
    rewrite in_flat_map. split.
    - intros [row [Hrow Hin]]. apply in_map_iff in Hin. destruct Hin as [y [E Hy]]. injection E as E1 E2.
      apply (mapping_row am Eam) in Hrow. destruct Hrow as [g [Hgo Erow]]. apply SE in Hy. destruct Hy as [x [Hx Sxy]]. apply LE in Hx. destruct Hx as [s [Hs1 [Hs2 <-]]].
      destruct (cr_comp _ _ _ CR g (r, tr) Hgo Hg) as [k [Hk C]]. exists s, k. pose proof (Rs s Hs1) as Rs1.
      assert (Y : 0 <= y < n) by apply Sxy.
      assert (A1 : sends positions g (f_num f) a) by (apply atom_sends; auto; rewrite (row_nth g row Erow) by auto; congruence).
      assert (A2 : sends positions g y b) by (apply atom_sends; auto; rewrite (row_nth g row Erow) by auto; congruence).
      split; [exact Hs1|]. split; [exact Hs2|]. split; [exact Hk|]. split; [eapply C; eauto|eapply C; eauto].
    - intros [s [g [Hs1 [Hs2 [Hgo [S1 S2]]]]]]. pose proof (Rs s Hs1) as Rs1.
      destruct (cr_inv _ _ _ CR (r, tr) Hg) as [h [Hh CI]]. destruct (cr_comp _ _ _ CR g h Hgo Hh) as [k [Hk C]].
      destruct (cr_sym _ _ _ CR (r, tr) (s_num s) Hg Rs1) as [y Sy]. assert (Y : 0 <= y < n) by apply Sy.
      assert (B1 : sends positions k (f_num f) a) by (apply (C (f_num f) (f_num f) a); auto).
      assert (B2 : sends positions k y b) by (apply (C y (s_num s) b); auto).
      destruct (sequence_total _ _ (atom_by_symmetry close positions k) (zrange n)) as [row Erow].
      { intros i Hi. apply in_zrange in Hi. destruct (cr_sym _ _ _ CR k i Hk Hi) as [j Sj]. exists j. now apply atom_sends. }
      exists row. split; [apply (mapping_row am Eam); eauto|]. apply in_map_iff. exists y. split; [|apply SE; exists (s_num s); split; [apply LE; eauto|exact Sy]].
      apply atom_sends in B1, B2; auto. rewrite (row_nth k row Erow) in B1, B2 by auto. congruence. }
  split.
  - intros [f [l [Hf [E Hin]]]]. apply (G f l Hf E) in Hin. destruct Hin as [s [g Hs]]. exists f, s, g. tauto.
  - intros [f [s [g [Hf [Hs [Hc [Hg [S1 S2]]]]]]]]. 
    assert (X : exists l, done_of_first close positions dist cutoff red am f = Some l).
    { destruct (done_of_first close positions dist cutoff red am f) as [l|] eqn:E; [eauto|]. exfalso. clear - Els Hf E. revert ls Els.
      induction firsts as [|f' fs IH]; intros ls Els; [destruct Hf|]. cbn in Els. destruct Hf as [->|Hf]; [rewrite E in Els; discriminate|].
      destruct (done_of_first close positions dist cutoff red am f'); [|discriminate]. destruct (sequence (map (done_of_first close positions dist cutoff red am) fs)) as [t|] eqn:Et; [|discriminate]. apply (IH Hf t eq_refl). }
    destruct X as [l El]. exists f, l. split; [exact Hf|]. split; [exact El|]. apply (G f l Hf El). exists s, g. tauto.
Qed.
End Done.
