From Coq Require Import ZArith QArith List Bool Lia Lqa.
From Verif Require Import Base BaseProofs DsModel.
Import ListNotations.
Open Scope Z_scope.

(** ** Independent description: a type-1 dataset lists displaced configurations, first the single
    displacements, then for each of them its pairs. *)
Record slot := Slot { sl_moves : list (Z * vec); sl_incl : bool; sl_forces : option conf }.
Definition slots (fs : list fir) : list slot :=
  map (fun f => Slot [(f_num f, f_disp f)] true (f_forces f)) fs ++
  flat_map (fun f => map (fun s => Slot [(f_num f, f_disp f); (s_num s, s_disp s)] (included s) (s_forces s)) (f_second f)) fs.
Definition veq (a b : vec) : Prop := Qeq (fst (fst a)) (fst (fst b)) /\ Qeq (snd (fst a)) (snd (fst b)) /\ Qeq (snd a) (snd b).
(** Total displacement of atom a. *)
Definition shift (moves : list (Z * vec)) (a : Z) : vec :=
  fold_right (fun m v => if fst m =? a then vadd3 (snd m) v else v) vec0 moves.
(** c is the reference configuration with the moves made *)
Definition displaced (ref : conf) (moves : list (Z * vec)) (c : conf) : Prop :=
  length c = length ref /\ forall a, 0 <= a < Z.of_nat (length ref) -> veq (nth (Z.to_nat a) c vec0) (vadd3 (nth (Z.to_nat a) ref vec0) (shift moves a)).
Definition atoms_ok (natom : nat) (fs : list fir) : Prop :=
  forall f, In f fs -> 0 <= f_num f < Z.of_nat natom /\ forall s, In s (f_second f) -> 0 <= s_num s < Z.of_nat natom.

Lemma veq_refl : forall a, veq a a. Proof. intros a. repeat split; reflexivity. Qed.
Lemma veq_trans : forall a b c, veq a b -> veq b c -> veq a c.
Proof. intros a b c [H1 [H2 H3]] [G1 [G2 G3]]. repeat split; etransitivity; eauto. Qed.
Lemma veq_sym : forall a b, veq a b -> veq b a. Proof. intros a b [H1 [H2 H3]]. repeat split; symmetry; auto. Qed.
Lemma vadd_assoc : forall a b c, veq (vadd3 (vadd3 a b) c) (vadd3 a (vadd3 b c)).
Proof. intros [[a1 a2] a3] [[b1 b2] b3] [[c1 c2] c3]. repeat split; cbn; ring. Qed.
Lemma vadd_0 : forall a, veq (vadd3 a vec0) a. Proof. intros [[a1 a2] a3]. repeat split; cbn; ring. Qed.
Lemma vadd_comp : forall a a' b b', veq a a' -> veq b b' -> veq (vadd3 a b) (vadd3 a' b').
Proof. intros [[a1 a2] a3] [[x1 x2] x3] [[b1 b2] b3] [[y1 y2] y3] [H1 [H2 H3]] [G1 [G2 G3]]. cbn in *. repeat split; cbn; rewrite ?H1, ?H2, ?H3, ?G1, ?G2, ?G3; reflexivity. Qed.

Lemma set_nth_some : forall X (l : list X) i f, (i < length l)%nat -> exists l', set_nth l i f = Some l' /\ length l' = length l /\
  forall j d, (j < length l)%nat -> nth j l' d = if Nat.eqb j i then f (nth j l d) else nth j l d.
Proof.
  intros X. induction l as [|x l IH]; intros i f Hi; [cbn in Hi; lia|]. destruct i as [|i].
  - eexists. split; [reflexivity|]. split; [reflexivity|]. intros [|j] d Hj; reflexivity.
  - destruct (IH i f ltac:(cbn in Hi; lia)) as [l' [E [L N]]]. exists (x :: l'). cbn [set_nth]. rewrite E. split; [reflexivity|]. split; [cbn; now rewrite L|].
    intros [|j] d Hj; [reflexivity|]. cbn [nth Nat.eqb]. apply N. cbn in Hj. lia.
Qed.
Lemma set_nth_none : forall X (l : list X) i f, (length l <= i)%nat -> set_nth l i f = None.
Proof. intros X. induction l as [|x l IH]; intros i f Hi; [reflexivity|]. destruct i as [|i]; [cbn in Hi; lia|]. cbn [set_nth]. rewrite IH by (cbn in Hi; lia). reflexivity. Qed.
Lemma add_at_spec : forall ref moves c n d, displaced ref moves c -> 0 <= n < Z.of_nat (length ref) ->
  exists c', add_at c n d = Some c' /\ displaced ref (moves ++ [(n, d)]) c'.
Proof.
  intros ref moves c n d [L D] Hn. unfold add_at. rewrite (proj2 (Z.ltb_ge n 0)) by lia.
  destruct (set_nth_some _ c (Z.to_nat n) (fun x => vadd3 x d) ltac:(lia)) as [c' [E [L' N]]]. exists c'. split; [exact E|]. split; [lia|].
  intros a Ha. rewrite N by lia.
  assert (S : veq (shift (moves ++ [(n, d)]) a) (if n =? a then vadd3 (shift moves a) d else shift moves a)).
  { unfold shift. rewrite fold_right_app. cbn [fold_right fst snd].
    assert (G : forall v, veq (fold_right (fun m v => if fst m =? a then vadd3 (snd m) v else v) v moves) (vadd3 (fold_right (fun m v => if fst m =? a then vadd3 (snd m) v else v) vec0 moves) v)).
    { clear. induction moves as [|m moves IH]; intros v; cbn [fold_right].
      - destruct v as [[v1 v2] v3]. repeat split; cbn; ring.
      - destruct (fst m =? a); [|apply IH]. eapply veq_trans; [apply vadd_comp; [apply veq_refl|apply IH]|]. apply veq_sym, vadd_assoc. }
    destruct (n =? a); [|apply veq_refl]. eapply veq_trans; [apply G|]. apply vadd_comp; [apply veq_refl|apply vadd_0]. }
  destruct (Nat.eqb_spec (Z.to_nat a) (Z.to_nat n)) as [Ea|Ea].
  - assert (a = n) as -> by lia. rewrite Z.eqb_refl in S. eapply veq_trans; [apply vadd_comp; [apply D; lia|apply veq_refl]|].
    eapply veq_trans; [apply vadd_assoc|]. apply vadd_comp; [apply veq_refl|]. apply veq_sym, S.
  - rewrite (proj2 (Z.eqb_neq n a)) in S by lia. eapply veq_trans; [apply D; lia|]. apply vadd_comp; [apply veq_refl|]. apply veq_sym, S.
Qed.
Lemma displaced_ref : forall ref, displaced ref [] ref.
Proof. intros ref. split; [reflexivity|]. intros a Ha. apply veq_sym, vadd_0. Qed.
Lemma sequence_map : forall X Y (f : X -> option Y) (P : X -> Y -> Prop) l, (forall x, In x l -> exists y, f x = Some y /\ P x y) ->
  exists ys, sequence (map f l) = Some ys /\ Forall2 P l ys.
Proof.
  intros X Y f P. induction l as [|x l IH]; intros H; [exists []; split; [reflexivity|constructor]|].
  destruct (H x (or_introl eq_refl)) as [y [E Py]]. destruct (IH (fun x' h => H x' (or_intror h))) as [ys [Es F]].
  exists (y :: ys). cbn [map sequence]. rewrite E, Es. split; [reflexivity|constructor; auto].
Qed.
Lemma F2_map : forall X Y W (P : Y -> W -> Prop) (f : X -> Y) l ws, Forall2 (fun x w => P (f x) w) l ws -> Forall2 P (map f l) ws.
Proof. intros X Y W P f l ws F. induction F; constructor; auto. Qed.
Lemma flat_pairs : forall X Y W (f : X -> Y -> W) (g : X -> list Y) l, flat_map (fun x => map (f x) (g x)) l = map (fun p => f (fst p) (snd p)) (flat_map (fun x => map (pair x) (g x)) l).
Proof. intros. induction l as [|x l IH]; [reflexivity|]. cbn [flat_map]. rewrite map_app, map_map, IH. reflexivity. Qed.
Lemma in_pair_list : forall X Y (g : X -> list Y) l x y, In (x, y) (flat_map (fun x => map (pair x) (g x)) l) -> In x l /\ In y (g x).
Proof. intros X Y g l x y H. apply in_flat_map in H. destruct H as [x' [H1 H2]]. apply in_map_iff in H2. destruct H2 as [y' [E H2]]. injection E as -> ->. auto. Qed.

(** ** C37: the i-th displaced supercell is the one described by the i-th slot, with an empty entry for an
    excluded pair. *)
Theorem C37_supercells_in_order : forall ref natom fs, atoms_ok (length ref) fs ->
  exists cells, build_supercells ref (Type1 natom fs) = Some cells /\
  Forall2 (fun sl cell => if sl_incl sl then exists c, cell = Some c /\ displaced ref (sl_moves sl) c else cell = None) (slots fs) cells.
Proof.
  intros ref natom fs Ha. unfold build_supercells. cbn [build_singles].
  destruct (sequence_map _ _ (fun f => add_at ref (f_num f) (f_disp f)) (fun f c => displaced ref [(f_num f, f_disp f)] c) fs) as [a [Ea Fa]].
  { intros f Hf. apply (add_at_spec ref [] ref (f_num f) (f_disp f) (displaced_ref ref)). apply Ha, Hf. }
  rewrite Ea. cbn [bind]. rewrite (flat_pairs _ _ _ (fun f s => if included s then option_map Some (bind (add_at ref (f_num f) (f_disp f)) (fun c => add_at c (s_num s) (s_disp s))) else Some None)).
  destruct (sequence_map _ _ (fun p : fir * sec => let f := fst p in let s := snd p in if included s then option_map Some (bind (add_at ref (f_num f) (f_disp f)) (fun c => add_at c (s_num s) (s_disp s))) else Some None)
    (fun p cell => if included (snd p) then exists c, cell = Some c /\ displaced ref [(f_num (fst p), f_disp (fst p)); (s_num (snd p), s_disp (snd p))] c else cell = None)
    (flat_map (fun f => map (pair f) (f_second f)) fs)) as [b [Eb Fb]].
  { intros [f s] H. apply in_pair_list in H. destruct H as [Hf Hs]. cbn [fst snd]. destruct (Ha f Hf) as [H1 H2]. destruct (included s); [|eauto].
    destruct (add_at_spec ref [] ref (f_num f) (f_disp f) (displaced_ref ref) H1) as [c1 [E1 D1]].
    destruct (add_at_spec ref _ c1 (s_num s) (s_disp s) D1 (H2 s Hs)) as [c2 [E2 D2]]. rewrite E1. cbn [bind]. rewrite E2. cbn [option_map]. eexists. split; [reflexivity|]. eauto. }
  cbv zeta in Eb. rewrite Eb. cbn [bind]. eexists. split; [reflexivity|]. unfold slots. apply Forall2_app.
  - apply F2_map. clear - Fa. induction Fa; cbn [map]; constructor; auto. cbn [sl_incl sl_moves]. eauto.
  - rewrite flat_pairs. apply F2_map. clear - Fb. induction Fb; constructor; auto.
Qed.
Print Assumptions C37_supercells_in_order.
Example C37_ex_atoms : let f := Fir 0 (1, 0, 0)%Q None None None
    [Sec 1 (0, 1, 0)%Q None None None None None; Sec 1 (0, 0, 1)%Q None (Some false) None None None; Sec 0 (0, 1, 0)%Q None (Some true) None None None] in
  atoms_ok 2 [f] /\ build_supercells [(0, 0, 0); (2, 2, 2)]%Q (Type1 2 [f]) =
  Some [Some [(1, 0, 0); (2, 2, 2)]; Some [(1, 0, 0); (2, 3, 2)]; None; Some [(1, 1, 0); (2, 2, 2)]]%Q.
Proof.
  split; [|vm_compute; reflexivity]. intros f [<-|[]]. cbn. split; [lia|]. intros s H. intuition (subst; cbn; lia).
Qed.

(** Everything in the dataset but the forces. *)
Definition no_forces_s (s : sec) : sec := Sec (s_num s) (s_disp s) (s_dist s) (s_incl s) (s_id s) None (s_energy s).
Definition no_forces_f (f : fir) : fir := Fir (f_num f) (f_disp f) (f_id f) None (f_energy f) (map no_forces_s (f_second f)).

Lemma set_first_spec : forall fs vals, (length fs <= length vals)%nat ->
  exists fs', set_first vals fs = (fs', Some (skipn (length fs) vals)) /\ map f_forces fs' = map Some (firstn (length fs) vals) /\
    map no_forces_f fs' = map no_forces_f fs /\ map f_second fs' = map f_second fs.
Proof.
  induction fs as [|f fs IH]; intros vals H; [exists []; destruct vals; repeat split; reflexivity|].
  destruct vals as [|v vals]; [cbn in H; lia|]. destruct (IH vals ltac:(cbn in H; lia)) as [fs' [E [F [N S]]]]. cbn [set_first length skipn firstn]. rewrite E.
  eexists. split; [reflexivity|]. cbn [map f_forces f_second]. rewrite F, N, S. repeat split; reflexivity.
Qed.
Lemma set_first_short : forall fs vals, (length vals < length fs)%nat -> snd (set_first vals fs) = None.
Proof.
  induction fs as [|s ss IH]; intros vals H; [cbn in H; lia|]. destruct vals as [|v vals]; [reflexivity|]. cbn [set_first].
  specialize (IH vals ltac:(cbn in H; lia)). destruct (set_first vals ss) as [t r]. exact IH.
Qed.
Lemma set_secs_spec : forall ss vals, (length ss <= length vals)%nat ->
  exists ss', set_secs vals ss = (ss', Some (skipn (length ss) vals)) /\ map s_forces ss' = map Some (firstn (length ss) vals) /\ map no_forces_s ss' = map no_forces_s ss.
Proof.
  induction ss as [|s ss IH]; intros vals H; [exists []; destruct vals; repeat split; reflexivity|].
  destruct vals as [|v vals]; [cbn in H; lia|]. destruct (IH vals ltac:(cbn in H; lia)) as [ss' [E [F N]]]. cbn [set_secs length skipn firstn]. rewrite E.
  eexists. split; [reflexivity|]. cbn [map s_forces]. rewrite F, N. split; reflexivity.
Qed.
Lemma set_secs_short : forall ss vals, (length vals < length ss)%nat -> snd (set_secs vals ss) = None.
Proof.
  induction ss as [|s ss IH]; intros vals H; [cbn in H; lia|]. destruct vals as [|v vals]; [reflexivity|]. cbn [set_secs].
  specialize (IH vals ltac:(cbn in H; lia)). destruct (set_secs vals ss) as [t r]. exact IH.
Qed.
Lemma skipn_skipn2 : forall X (a b : nat) (l : list X), skipn a (skipn b l) = skipn (b + a) l.
Proof. intros X a b. induction b as [|b IH]; intros l; [reflexivity|]. destruct l as [|x l]; [destruct a; reflexivity|]. apply IH. Qed.
Lemma firstn_plus : forall X (a b : nat) (l : list X), firstn (a + b) l = firstn a l ++ firstn b (skipn a l).
Proof. intros X a b. induction a as [|a IH]; intros l; [reflexivity|]. destruct l as [|x l]; [destruct b; reflexivity|]. cbn [plus firstn skipn app]. now rewrite IH. Qed.
Definition npairs (fs : list fir) : nat := length (flat_map f_second fs).
Lemma set_second_spec : forall fs vals, (npairs fs <= length vals)%nat ->
  exists fs', set_second vals fs = (fs', Some (skipn (npairs fs) vals)) /\
   flat_map (fun f => map s_forces (f_second f)) fs' = map Some (firstn (npairs fs) vals) /\ map f_forces fs' = map f_forces fs /\ map no_forces_f fs' = map no_forces_f fs.
Proof.
  unfold npairs. induction fs as [|f fs IH]; intros vals H; [exists []; destruct vals; repeat split; reflexivity|]. cbn [flat_map] in H. rewrite app_length in H.
  destruct (set_secs_spec (f_second f) vals ltac:(lia)) as [ss [E [F N]]].
  destruct (IH (skipn (length (f_second f)) vals)) as [fs' [E' [F' [G' N']]]]; [rewrite skipn_length; lia|].
  cbn [set_second]. rewrite E, E'. cbn [flat_map map]. rewrite app_length, skipn_skipn2, firstn_plus, map_app. eexists. split; [reflexivity|].
  cbn [flat_map map f_second f_forces]. rewrite F, F', G', N'. split; [reflexivity|]. split; [reflexivity|]. f_equal. unfold no_forces_f. cbn. now rewrite N.
Qed.
Lemma set_second_short : forall fs vals, (length vals < npairs fs)%nat -> snd (set_second vals fs) = None.
Proof.
  unfold npairs. induction fs as [|f fs IH]; intros vals H; [cbn in H; lia|]. cbn [flat_map] in H. rewrite app_length in H. cbn [set_second].
  destruct (le_lt_dec (length (f_second f)) (length vals)) as [L|L].
  - destruct (set_secs_spec (f_second f) vals L) as [ss [E _]]. rewrite E. specialize (IH (skipn (length (f_second f)) vals)). rewrite skipn_length in IH.
    specialize (IH ltac:(lia)). destruct (set_second _ fs) as [t r]. exact IH.
  - pose proof (set_secs_short _ _ L) as E. destruct (set_secs vals (f_second f)) as [ss r]. cbn in E. subst r. reflexivity.
Qed.
Lemma slots_length : forall fs, length (slots fs) = (length fs + npairs fs)%nat.
Proof. intros fs. unfold slots, npairs. rewrite app_length, map_length. f_equal. induction fs as [|f fs IH]; [reflexivity|]. cbn [flat_map]. rewrite !app_length, map_length. now rewrite IH. Qed.
Lemma slots_forces : forall fs, map sl_forces (slots fs) = map f_forces fs ++ flat_map (fun f => map s_forces (f_second f)) fs.
Proof.
  intros fs. unfold slots. rewrite map_app, map_map. f_equal. induction fs as [|f fs IH]; [reflexivity|]. cbn [flat_map]. rewrite map_app, map_map, IH. reflexivity.
Qed.
Lemma slots_moves : forall fs fs', map no_forces_f fs = map no_forces_f fs' -> map (fun s => (sl_moves s, sl_incl s)) (slots fs) = map (fun s => (sl_moves s, sl_incl s)) (slots fs').
Proof.
  assert (G : forall fs, map (fun s => (sl_moves s, sl_incl s)) (slots fs) = map (fun s => (sl_moves s, sl_incl s)) (slots (map no_forces_f fs))).
  { intros fs. unfold slots. rewrite !map_app, !map_map. f_equal. induction fs as [|f fs IH]; [reflexivity|]. cbn [flat_map map]. rewrite !map_app, !map_map, IH. f_equal.
    unfold no_forces_f; cbn [f_second f_num f_disp]. rewrite map_map. reflexivity. }
  intros fs fs' E. rewrite (G fs), (G fs'), E. reflexivity.
Qed.
Lemma sequence_some : forall X (l : list X), sequence (map Some l) = Some l.
Proof. induction l as [|x l IH]; [reflexivity|]. cbn [map sequence]. now rewrite IH. Qed.

(** ** C37: assigning forces gives the i-th value to the i-th slot, and reading them returns them in that
    order; nothing else of the dataset changes. *)
Theorem C37_forces_in_order : forall natom fs vals, length vals = length (slots fs) ->
  exists fs', set_forces vals (Type1 natom fs) = (Type1 natom fs', true) /\
    map sl_forces (slots fs') = map Some vals /\ map no_forces_f fs' = map no_forces_f fs /\
    map (fun s => (sl_moves s, sl_incl s)) (slots fs') = map (fun s => (sl_moves s, sl_incl s)) (slots fs) /\
    (fs <> [] -> get_forces (Type1 natom fs') = Some (Some vals)).
Proof.
  intros natom fs vals L. rewrite slots_length in L. cbn [set_forces].
  destruct (set_first_spec fs vals ltac:(lia)) as [f1 [E1 [F1 [N1 S1]]]]. rewrite E1.
  assert (P : npairs f1 = npairs fs). { unfold npairs. rewrite !flat_map_concat_map, S1. reflexivity. }
  destruct (set_second_spec f1 (skipn (length fs) vals)) as [f2 [E2 [F2 [G2 N2]]]]; [rewrite skipn_length; lia|]. rewrite E2. exists f2. split; [reflexivity|].
  assert (A : map sl_forces (slots f2) = map Some vals).
  { rewrite slots_forces, F2, G2, F1, <- map_app. f_equal. rewrite P, (firstn_all2 (skipn _ _)) by (rewrite skipn_length; lia). apply firstn_skipn. }
  split; [exact A|]. rewrite N1 in N2. split; [exact N2|]. split; [apply slots_moves, N2|]. intros Hne.
  rewrite slots_forces in A. destruct f2 as [|f0 f2]; [destruct fs; [congruence|discriminate N2]|].
  assert (Hf : exists v, f_forces f0 = Some v). { destruct vals as [|v vals]; [destruct fs; [congruence|cbn in L; lia]|]. exists v. cbn [map app] in A. injection A as A _. exact A. }
  destruct Hf as [v Hf]. assert (T : get_forces (Type1 natom (f0 :: f2)) = option_map Some (sequence (map f_forces (f0 :: f2) ++ flat_map (fun f => map s_forces (f_second f)) (f0 :: f2)))) by (unfold get_forces; rewrite Hf; reflexivity). rewrite T, A, sequence_some. reflexivity.
Qed.
Print Assumptions C37_forces_in_order.
(** With too few values the call raises; with more values than slots the rest is silently ignored. *)
Theorem C37_wrong_number_of_forces : forall natom fs vals,
  ((length vals < length (slots fs))%nat -> snd (set_forces vals (Type1 natom fs)) = false) /\
  (forall extra, length vals = length (slots fs) -> set_forces (vals ++ extra) (Type1 natom fs) = set_forces vals (Type1 natom fs)).
Proof.
  intros natom fs vals. rewrite slots_length. split; [intros L|intros extra L]; cbn [set_forces].
  - destruct (le_lt_dec (length fs) (length vals)) as [H|H].
    + destruct (set_first_spec fs vals H) as [f1 [E1 [F1 [N1 S1]]]]. rewrite E1.
      assert (P : npairs f1 = npairs fs). { unfold npairs. rewrite !flat_map_concat_map, S1. reflexivity. }
      pose proof (set_second_short f1 (skipn (length fs) vals)) as E. rewrite skipn_length, P in E. specialize (E ltac:(lia)).
      destruct (set_second _ f1) as [f2 r]. cbn in E. subst r. reflexivity.
    + pose proof (set_first_short _ _ H) as E. destruct (set_first vals fs) as [ss r]. cbn in E. subst r. reflexivity.
  - assert (G1 : forall fs vals extra, (length fs <= length vals)%nat -> fst (set_first (vals ++ extra) fs) = fst (set_first vals fs)).
    { clear. induction fs as [|f fs IH]; intros vals extra L; [destruct vals; destruct extra; reflexivity|]. destruct vals as [|v vals]; [cbn in L; lia|]. cbn [set_first app].
      specialize (IH vals extra ltac:(cbn in L; lia)). destruct (set_first (vals ++ extra) fs), (set_first vals fs). cbn in *. now rewrite IH. }
    assert (G2 : forall ss vals extra, (length ss <= length vals)%nat -> fst (set_secs (vals ++ extra) ss) = fst (set_secs vals ss)).
    { clear. induction ss as [|f fs IH]; intros vals extra L; [destruct vals; destruct extra; reflexivity|]. destruct vals as [|v vals]; [cbn in L; lia|]. cbn [set_secs app].
      specialize (IH vals extra ltac:(cbn in L; lia)). destruct (set_secs (vals ++ extra) fs), (set_secs vals fs). cbn in *. now rewrite IH. }
    assert (G3 : forall fs vals extra, (npairs fs <= length vals)%nat -> fst (set_second (vals ++ extra) fs) = fst (set_second vals fs)).
    { clear - G2. unfold npairs. induction fs as [|f fs IH]; intros vals extra L; [destruct vals; destruct extra; reflexivity|]. cbn [flat_map] in L. rewrite app_length in L. cbn [set_second].
      specialize (G2 (f_second f) vals extra ltac:(lia)).
      destruct (set_secs_spec (f_second f) vals ltac:(lia)) as [s1 [E1 _]]. destruct (set_secs_spec (f_second f) (vals ++ extra)) as [s2 [E2 _]]; [rewrite app_length; lia|].
      rewrite E1, E2 in *. cbn in G2. subst s2. rewrite skipn_app. replace (length (f_second f) - length vals)%nat with 0%nat by lia. cbn [skipn].
      specialize (IH (skipn (length (f_second f)) vals) extra). rewrite skipn_length in IH. specialize (IH ltac:(lia)).
      destruct (set_second (skipn _ vals ++ extra) fs), (set_second (skipn _ vals) fs). cbn in *. now rewrite IH. }
    destruct (set_first_spec fs vals ltac:(lia)) as [f1 [E1 [F1 [N1 S1]]]]. destruct (set_first_spec fs (vals ++ extra)) as [f2 [E2 _]]; [rewrite app_length; lia|].
    specialize (G1 fs vals extra ltac:(lia)). rewrite E1, E2 in *. cbn in G1. subst f2.
    assert (P : npairs f1 = npairs fs). { unfold npairs. rewrite !flat_map_concat_map, S1. reflexivity. }
    rewrite skipn_app. replace (length fs - length vals)%nat with 0%nat by lia. cbn [skipn].
    destruct (set_second_spec f1 (skipn (length fs) vals)) as [f3 [E3 _]]; [rewrite skipn_length; lia|].
    destruct (set_second_spec f1 (skipn (length fs) vals ++ extra)) as [f4 [E4 _]]; [rewrite app_length, skipn_length; lia|].
    specialize (G3 f1 (skipn (length fs) vals) extra). rewrite skipn_length in G3. specialize (G3 ltac:(lia)). rewrite E3, E4 in *. cbn in G3. now subst f4.
Qed.
Print Assumptions C37_wrong_number_of_forces.
Definition ex_first : fir := Fir 0 (1, 0, 0)%Q (Some 1) None None [Sec 1 (0, 1, 0)%Q None None None None None; Sec 1 (0, 0, 1)%Q None (Some false) None None None].
Example C37_ex_forces : length (slots [ex_first]) = 3%nat /\
  let v i := [(inject_Z i, 0, 0)%Q] in
  map sl_forces (slots match fst (set_forces [v 1; v 2; v 3] (Type1 2 [ex_first])) with Type1 _ f => f | _ => [] end) = [Some (v 1); Some (v 2); Some (v 3)] /\
  snd (set_forces [v 1; v 2] (Type1 2 [ex_first])) = false.
Proof. vm_compute. repeat split. Qed.

(** What the force-constant solvers receive: the forces of the included slots, in the order of the rows of
    displacements. *)
Theorem C37_solver_forces : forall natom fs vals, map sl_forces (slots fs) = map Some vals -> vals <> [] ->
  solver_forces (Type1 natom fs) = Some (Some (map snd (filter (fun p => sl_incl (fst p)) (combine (slots fs) vals)))).
Proof.
  intros natom fs vals A Hne. cbn [solver_forces].
  assert (B : map (fun f => (true, f_forces f)) fs ++ flat_map (fun f => map (fun s => (included s, s_forces s)) (f_second f)) fs = map (fun s => (sl_incl s, sl_forces s)) (slots fs)).
  { unfold slots. rewrite map_app, map_map. f_equal. induction fs as [|f fs' IH]; [reflexivity|]. clear - f fs'. revert f. assert (G : forall l, flat_map (fun f => map (fun s => (included s, s_forces s)) (f_second f)) l =
      map (fun s => (sl_incl s, sl_forces s)) (flat_map (fun f => map (fun s => Slot [(f_num f, f_disp f); (s_num s, s_disp s)] (included s) (s_forces s)) (f_second f)) l)).
    { induction l as [|g l IH]; [reflexivity|]. cbn [flat_map]. rewrite map_app, map_map, IH. reflexivity. } intros f. apply G. }
  rewrite B. clear B. revert A. generalize (slots fs) as sl. intros sl A.
  assert (C : map (fun s => (sl_incl s, sl_forces s)) sl = map (fun p => (sl_incl (fst p), Some (snd p))) (combine sl vals) /\ length vals = length sl).
  { clear Hne. revert vals A. induction sl as [|s sl IH]; intros [|v vals] A; try discriminate A; [split; reflexivity|]. cbn [map] in A. injection A as A1 A2. destruct (IH vals A2) as [C1 C2].
    cbn [map combine fst snd length]. rewrite C1, A1, C2. split; reflexivity. }
  destruct C as [C L]. rewrite C. set (ps := combine sl vals).
  assert (Ln : length ps = length vals) by (unfold ps; rewrite combine_length; lia).
  assert (Cn : zcount (fun x : bool * option conf => match snd x with Some _ => true | None => false end) (map (fun p : slot * conf => (sl_incl (fst p), Some (snd p))) ps) = Z.of_nat (length ps)).
  { clear. unfold zcount. induction ps as [|p ps IH]; [reflexivity|]. cbn [map filter snd length] in *. lia. }
  rewrite Cn, map_length. rewrite (proj2 (Z.eqb_neq _ 0)) by (destruct vals; [congruence|cbn in Ln; lia]). rewrite Z.eqb_refl. f_equal.
  clear. induction ps as [|p ps IH]; [reflexivity|]. cbn [map filter fst]. destruct (sl_incl (fst p)); [|exact IH]. cbn [map snd sequence]. now rewrite IH.
Qed.
Print Assumptions C37_solver_forces.

(** ** C38 *)
Lemma F2_len : forall X Y (P : X -> Y -> Prop) l m, Forall2 P l m -> length l = length m.
Proof. intros X Y P l m F. induction F; cbn; auto. Qed.
Lemma nth_repeat0 : forall n i, nth i (repeat vec0 n) vec0 = vec0.
Proof. induction n as [|n IH]; intros [|i]; cbn; auto. Qed.
Lemma vadd_0l : forall a, veq (vadd3 vec0 a) a. Proof. intros [[a1 a2] a3]. repeat split; cbn; ring. Qed.
Lemma put_at_spec : forall n moves c k d, displaced (zeros n) moves c -> 0 <= k < Z.of_nat n -> (forall m, In m moves -> fst m <> k) ->
  exists c', put_at c k d = Some c' /\ displaced (zeros n) (moves ++ [(k, d)]) c'.
Proof.
  intros n moves c k d D Hk Hm. assert (Lz : length (zeros n) = n) by apply repeat_length.
  destruct (add_at_spec (zeros n) moves c k d D ltac:(lia)) as [c1 [E1 D1]]. unfold add_at, put_at in *. rewrite (proj2 (Z.ltb_ge k 0)) in * by lia.
  destruct D as [L D]. destruct (set_nth_some _ c (Z.to_nat k) (fun x => vadd3 x d) ltac:(lia)) as [c1' [E1' [L1 N1]]]. rewrite E1 in E1'. injection E1' as <-.
  destruct (set_nth_some _ c (Z.to_nat k) (fun _ => d) ltac:(lia)) as [c2 [E2 [L2 N2]]]. exists c2. split; [exact E2|]. destruct D1 as [_ D1]. split; [lia|].
  intros a Ha. eapply veq_trans; [|apply D1, Ha]. rewrite N1, N2 by lia. destruct (Nat.eqb (Z.to_nat a) (Z.to_nat k)) eqn:Ea; [|apply veq_refl].
  apply Nat.eqb_eq in Ea. assert (a = k) by lia. subst a. eapply veq_trans; [apply veq_sym, vadd_0l|]. apply vadd_comp; [|apply veq_refl].
  apply veq_sym. eapply veq_trans; [apply D, Ha|]. unfold zeros. rewrite nth_repeat0.
  replace (shift moves k) with vec0; [apply vadd_0|]. clear - Hm. unfold shift. induction moves as [|m moves IH]; [reflexivity|]. cbn [fold_right].
  rewrite (proj2 (Z.eqb_neq _ _) (Hm m (or_introl eq_refl))). apply IH. intros m' H. apply Hm. now right.
Qed.
(** What is true of the array returned by [displacements]: one row for each slot; the rows of the single
    displacements are the displacements of their supercells; type-2 rows are the displacements of the
    supercells built from them. *)
Theorem C38_displacements_partial :
  (forall natom n fs, atoms_ok natom fs -> exists rows, get_displacements natom (Type1 n fs) = Some rows /\ length rows = length (slots fs) /\
     forall i row sl, (i < length fs)%nat -> nth_error rows i = Some row -> nth_error (slots fs) i = Some sl -> displaced (zeros natom) (sl_moves sl) row) /\
  (forall natom ref disps f e, length ref = natom -> shape_ok natom disps = true ->
     exists rows, get_displacements natom (Type2 (Some disps) f e) = Some rows /\
     exists cells, build_supercells ref (Type2 (Some disps) f e) = Some cells /\ length cells = length rows /\
     forall i row cell, nth_error rows i = Some row -> nth_error cells i = Some cell ->
       exists c, cell = Some c /\ length c = natom /\ forall a, (a < natom)%nat -> nth a c vec0 = vadd3 (nth a ref vec0) (nth a row vec0)).
Proof.
  split.
  - intros natom n fs Ha. cbn [get_displacements].
    assert (Z0 : displaced (zeros natom) [] (zeros natom)) by apply displaced_ref.
    destruct (sequence_map _ _ (fun f => put_at (zeros natom) (f_num f) (f_disp f)) (fun f c => displaced (zeros natom) [(f_num f, f_disp f)] c) fs) as [a [Ea Fa]].
    { intros f Hf. apply (put_at_spec natom [] _ _ _ Z0); [apply Ha, Hf|intros m []]. }
    rewrite Ea. cbn [bind]. rewrite (flat_pairs _ _ _ (fun f s => put_at (zeros natom) (s_num s) (s_disp s))).
    destruct (sequence_map _ _ (fun p : fir * sec => put_at (zeros natom) (s_num (snd p)) (s_disp (snd p))) (fun _ _ => True) (flat_map (fun f => map (pair f) (f_second f)) fs)) as [b [Eb Fb]].
    { intros [f s] H. apply in_pair_list in H. destruct H as [Hf Hs]. destruct (put_at_spec natom [] _ (s_num s) (s_disp s) Z0 (proj2 (Ha f Hf) s Hs)) as [c [E _]]; [intros m []|]. eauto. }
    rewrite Eb. cbn [bind]. eexists. split; [reflexivity|]. pose proof (F2_len _ _ _ _ _ Fa) as La. pose proof (F2_len _ _ _ _ _ Fb) as Lb. split.
    + rewrite slots_length, app_length, <- La, <- Lb. f_equal. unfold npairs. clear. induction fs as [|f fs IH]; [reflexivity|]. cbn [flat_map]. rewrite !app_length, map_length. now rewrite IH.
    + intros i row sl Hi Hr Hs. rewrite nth_error_app1 in Hr by lia. unfold slots in Hs. rewrite nth_error_app1 in Hs by (rewrite map_length; lia).
      rewrite nth_error_map in Hs. destruct (nth_error fs i) as [f|] eqn:Ef; [|discriminate Hs]. injection Hs as <-. cbn [sl_moves].
      clear - Fa Ef Hr. revert i Ef Hr. induction Fa as [|f' c fs a P Fa IH]; intros [|i] Ef Hr; try discriminate Ef; cbn [nth_error] in *; [injection Ef as ->; injection Hr as ->; exact P|eapply IH; eauto].
  - intros natom ref disps f e Lr Sh. cbn [get_displacements]. eexists. split; [reflexivity|]. unfold build_supercells. cbn [build_singles bind]. eexists. split; [reflexivity|].
    split; [now rewrite !map_length|]. intros i row cell Hr Hc. rewrite map_map, nth_error_map in Hc. unfold conf in Hr. rewrite Hr in Hc. injection Hc as <-. eexists. split; [reflexivity|].
    unfold shape_ok in Sh. rewrite forallb_forall in Sh. specialize (Sh row (nth_error_In _ _ Hr)). apply Nat.eqb_eq in Sh.
    split; [rewrite map_length, combine_length; lia|]. intros a Ha. rewrite <- Lr in *.
    rewrite (nth_indep _ _ (vadd3 (fst (vec0, vec0)) (snd (vec0, vec0)))) by (rewrite map_length, combine_length; lia).
    rewrite (map_nth (fun p => vadd3 (fst p) (snd p))), combine_nth by lia. reflexivity.
Qed.
Print Assumptions C38_displacements_partial.
(** The rows of the pairs are not the displacements of their supercells: the displacement of the first
    atom is missing. *)
Theorem C38_displacements_refuted : exists natom n fs rows row sl, atoms_ok natom fs /\ get_displacements natom (Type1 n fs) = Some rows /\
  nth_error rows 1 = Some row /\ nth_error (slots fs) 1 = Some sl /\ sl_incl sl = true /\ ~ displaced (zeros natom) (sl_moves sl) row.
Proof.
  exists 2%nat, 2, [ex_first]. eexists. eexists. eexists. split; [intros f [<-|[]]; cbn; split; [lia|]; intros s H; intuition (subst; cbn; lia)|].
  split; [vm_compute; reflexivity|]. split; [vm_compute; reflexivity|]. split; [vm_compute; reflexivity|]. split; [reflexivity|].
  intros [_ D]. specialize (D 0 ltac:(cbn; lia)). destruct D as [D _]. vm_compute in D. discriminate D.
Qed.
Print Assumptions C38_displacements_refuted.
(** The rows given to the force-constant solvers are the displacements of the included supercells, when no
    pair displaces the same atom twice. *)
Theorem C38_solver_displacements_partial : forall natom fs, atoms_ok (Z.to_nat natom) fs ->
  (forall f s, In f fs -> In s (f_second f) -> included s = true -> s_num s <> f_num f) ->
  exists rows, solver_displacements (Type1 natom fs) = Some rows /\
  Forall2 (fun sl row => displaced (zeros (Z.to_nat natom)) (sl_moves sl) row) (filter sl_incl (slots fs)) rows.
Proof.
  intros natom fs Ha Hne. cbn [solver_displacements]. set (n := Z.to_nat natom) in *. assert (Z0 : displaced (zeros n) [] (zeros n)) by apply displaced_ref.
  destruct (sequence_map _ _ (fun f => put_at (zeros n) (f_num f) (f_disp f)) (fun f c => displaced (zeros n) [(f_num f, f_disp f)] c) fs) as [a [Ea Fa]].
  { intros f Hf. apply (put_at_spec n [] _ _ _ Z0); [apply Ha, Hf|intros m []]. }
  rewrite Ea. cbn [bind]. rewrite (flat_pairs _ _ _ (fun f s => option_map (fun c => (included s, c)) (bind (put_at (zeros n) (f_num f) (f_disp f)) (fun c => put_at c (s_num s) (s_disp s))))).
  destruct (sequence_map _ _ (fun p : fir * sec => let f := fst p in let s := snd p in option_map (fun c => (included s, c)) (bind (put_at (zeros n) (f_num f) (f_disp f)) (fun c => put_at c (s_num s) (s_disp s))))
    (fun p row => fst row = included (snd p) /\ (included (snd p) = true -> displaced (zeros n) [(f_num (fst p), f_disp (fst p)); (s_num (snd p), s_disp (snd p))] (snd row)))
    (flat_map (fun f => map (pair f) (f_second f)) fs)) as [b [Eb Fb]].
  { intros [f s] H. apply in_pair_list in H. destruct H as [Hf Hs]. cbn [fst snd]. destruct (Ha f Hf) as [H1 H2]. cbv zeta.
    destruct (put_at_spec n [] (zeros n) (f_num f) (f_disp f) Z0 H1) as [c1 [E1 D1]]; [intros m []|]. rewrite E1. cbn [bind].
    destruct (included s) eqn:Ei.
    - destruct (put_at_spec n _ c1 (s_num s) (s_disp s) D1 (H2 s Hs)) as [c2 [E2 D2]]; [intros m [<-|[]]; cbn; specialize (Hne f s Hf Hs Ei); congruence|].
      rewrite E2. cbn [option_map]. eexists. split; [reflexivity|]. cbn [fst snd]. split; auto.
    - unfold put_at. specialize (H2 s Hs). rewrite (proj2 (Z.ltb_ge _ 0)) by lia.
      assert (Lc : length c1 = n) by (destruct D1 as [L _]; rewrite L; apply repeat_length).
      destruct (set_nth_some _ c1 (Z.to_nat (s_num s)) (fun _ => s_disp s) ltac:(lia)) as [c2 [E2 _]].
      rewrite E2. cbn [option_map]. eexists. split; [reflexivity|]. cbn [fst snd]. split; [reflexivity|intros X; discriminate X]. }
  cbv zeta in Eb. rewrite Eb. cbn [bind]. eexists. split; [reflexivity|]. unfold slots. rewrite filter_app. apply Forall2_app.
  - clear - Fa. induction Fa; cbn [map filter sl_incl]; constructor; auto.
  - rewrite flat_pairs. clear - Fb. induction Fb as [|p r l b [E P] Fb IH]; [constructor|]. cbn [map filter sl_incl]. rewrite E. destruct (included (snd p)); [|exact IH].
    cbn [map]. constructor; [apply P; reflexivity|exact IH].
Qed.
Print Assumptions C38_solver_displacements_partial.
Example C38_ex : atoms_ok 2 [ex_first] /\ (forall f s, In f [ex_first] -> In s (f_second f) -> included s = true -> s_num s <> f_num f) /\
  solver_displacements (Type1 2 [ex_first]) = Some [[(1, 0, 0); (0, 0, 0)]; [(1, 0, 0); (0, 1, 0)]]%Q /\ length (filter sl_incl (slots [ex_first])) = 2%nat.
Proof.
  split; [intros f [<-|[]]; cbn; split; [lia|]; intros s H; intuition (subst; cbn; lia)|].
  split; [intros f s [<-|[]] H _ E; cbn in H, E; destruct H as [<-|[<-|[]]]; discriminate E|]. vm_compute. auto.
Qed.
(** A pair displacing one atom twice: the supercell has the sum of both displacements, the row given to the
    solver only the second. *)
Theorem C38_solver_same_atom_refuted : exists natom fs ref cell row sl, atoms_ok (Z.to_nat natom) fs /\ length ref = Z.to_nat natom /\
  (exists c0, build_supercells ref (Type1 natom fs) = Some [Some c0; Some cell]) /\ nth_error (filter sl_incl (slots fs)) 1 = Some sl /\ sl_moves sl = [(0, (1, 0, 0)%Q); (0, (0, 1, 0)%Q)] /\
  displaced ref (sl_moves sl) cell /\ (exists r0, solver_displacements (Type1 natom fs) = Some [r0; row]) /\ ~ displaced (zeros (Z.to_nat natom)) (sl_moves sl) row.
Proof.
  exists 1, [Fir 0 (1, 0, 0)%Q None None None [Sec 0 (0, 1, 0)%Q None None None None None]], [(0, 0, 0)%Q]. eexists. eexists. eexists.
  split; [intros f [<-|[]]; cbn; split; [lia|]; intros s H; intuition (subst; cbn; lia)|]. split; [reflexivity|]. split; [eexists; vm_compute; reflexivity|]. split; [vm_compute; reflexivity|].
  split; [reflexivity|]. split; [|split; [eexists; vm_compute; reflexivity|]].
  - split; [reflexivity|]. intros a Ha. assert (a = 0) as -> by (cbn in Ha; lia). vm_compute. auto.
  - intros [_ D]. specialize (D 0 (conj (Z.le_refl 0) eq_refl)). destruct D as [D _]. vm_compute in D. discriminate D.
Qed.
Print Assumptions C38_solver_same_atom_refuted.

(** ** C39 *)
Lemma build_no_forces : forall ref n fs fs', map no_forces_f fs = map no_forces_f fs' -> build_supercells ref (Type1 n fs) = build_supercells ref (Type1 n fs').
Proof.
  assert (G : forall ref n fs, build_supercells ref (Type1 n fs) = build_supercells ref (Type1 n (map no_forces_f fs))).
  { intros ref n fs. unfold build_supercells, build_singles. rewrite map_map. cbn [no_forces_f f_num f_disp].
    destruct (sequence (map (fun f => add_at ref (f_num f) (f_disp f)) fs)) as [a|]; [|reflexivity]. cbn [bind]. f_equal. f_equal.
    clear. induction fs as [|f fs IH]; [reflexivity|]. cbn [flat_map map]. rewrite IH. f_equal. unfold no_forces_f; cbn [f_second f_num f_disp]. rewrite map_map. reflexivity. }
  intros ref n fs fs' E. rewrite (G ref n fs), (G ref n fs'), E. reflexivity.
Qed.
Lemma set_first_keeps : forall fs vals, map no_forces_f (fst (set_first vals fs)) = map no_forces_f fs.
Proof. induction fs as [|f fs IH]; intros [|v vals]; [reflexivity..|]. cbn [set_first]. specialize (IH vals). destruct (set_first vals fs) as [t r]. cbn in *. now rewrite IH. Qed.
Lemma set_secs_keeps : forall ss vals, map no_forces_s (fst (set_secs vals ss)) = map no_forces_s ss.
Proof. induction ss as [|f fs IH]; intros [|v vals]; [reflexivity..|]. cbn [set_secs]. specialize (IH vals). destruct (set_secs vals fs) as [t r]. cbn in *. now rewrite IH. Qed.
Lemma set_second_keeps : forall fs vals, map no_forces_f (fst (set_second vals fs)) = map no_forces_f fs.
Proof.
  induction fs as [|f fs IH]; intros vals; [destruct vals; reflexivity|]. cbn [set_second]. pose proof (set_secs_keeps (f_second f) vals) as E. destruct (set_secs vals (f_second f)) as [ss [vals'|]]; cbn [fst] in E.
  - specialize (IH vals'). destruct (set_second vals' fs) as [t r]. cbn [fst] in *. cbn [map]. rewrite IH. f_equal. unfold no_forces_f. cbn. now rewrite E.
  - cbn [fst map]. f_equal. unfold no_forces_f. cbn. now rewrite E.
Qed.
Lemma set_forces_build : forall ref vals d, build_supercells ref (fst (set_forces vals d)) = build_supercells ref d.
Proof.
  intros ref vals [n fs|[x|] [y|] e]; try reflexivity. cbn [set_forces]. pose proof (set_first_keeps fs vals) as E1. destruct (set_first vals fs) as [f1 [v1|]]; cbn [fst] in E1.
  - pose proof (set_second_keeps f1 v1) as E2. destruct (set_second v1 f1) as [f2 r]. cbn [fst] in *. apply build_no_forces. congruence.
  - apply build_no_forces, E1.
Qed.
Definition fresh (ref : conf) : obj := Obj ref None None.
Definition cache_ok (ref : conf) (o : obj) : Prop := o_ref o = ref /\ forall c, o_cache o = Some c -> bind (o_data o) (build_supercells ref) = Some c.
Lemma step_ok : forall ref o c, cache_ok ref o -> (forall a, c = CDataset a -> snd (step o c) = true) -> cache_ok ref (fst (step o c)).
Proof.
  intros ref o c [Hr Hc] Hok. destruct c as [a|x|x|d|]; cbn [step].
  - specialize (Hok a eq_refl). cbn [step] in Hok. destruct a as [|d|disps forces|]; cbn [set_dataset] in *; [split; [exact Hr|intros c H; discriminate H]..| |discriminate Hok].
    unfold set_displacements in *. cbn [o_ref o_data] in *. destruct (negb _); [discriminate Hok|]. destruct forces as [f|]; [|split; [exact Hr|intros c H; discriminate H]].
    cbn [set_forces_obj o_data set_forces] in *. split; [exact Hr|intros c H; discriminate H].
  - unfold set_displacements. destruct (negb _); [split; auto|]. destruct (o_data o) as [[n fs|x' y e]|] eqn:Ed; cbn [fst]; [split; auto; rewrite Ed; exact Hc|..]; split; try exact Hr; intros c H; discriminate H.
  - unfold set_forces_obj. destruct (o_data o) as [d|] eqn:Ed; [|cbn [fst]; split; auto; rewrite Ed; exact Hc]. pose proof (set_forces_build ref x d) as E.
    destruct (set_forces x d) as [d' ok]. cbn [fst] in *. split; [exact Hr|]. cbn [o_cache o_data bind]. intros c H. rewrite E. exact (Hc c H).
  - split; [exact Hr|]. intros c H. discriminate H.
  - unfold supercells_with_displacements. destruct (o_cache o) as [c0|] eqn:Ec; [cbn [fst]; split; auto; rewrite Ec; exact Hc|].
    rewrite Hr. destruct (bind (o_data o) (build_supercells ref)) as [c0|] eqn:Eb; cbn [fst]; [|split; auto; intros c H; rewrite Ec in H; discriminate H].
    split; [reflexivity|]. cbn [o_cache o_data]. intros c H. injection H as <-. exact Eb.
Qed.
(** After any calls, among which every assignment to [dataset] returned (the others may have raised), the
    displaced supercells returned are those of the current dataset. *)
Theorem C39_supercells_are_current_partial : forall ref cs,
  Forall2 (fun c ok => forall a, c = CDataset a -> ok = true) cs (snd (session (fresh ref) cs)) ->
  let o := fst (session (fresh ref) cs) in
  snd (supercells_with_displacements o) = bind (o_data o) (build_supercells ref).
Proof.
  intros ref cs H. assert (K : cache_ok ref (fst (session (fresh ref) cs))).
  { assert (I : cache_ok ref (fresh ref)) by (split; [reflexivity|intros c E; discriminate E]). revert I H. generalize (fresh ref) as o.
    induction cs as [|c cs IH]; intros o I H; [exact I|]. cbn [session] in *. pose proof (step_ok ref o c I) as S. destruct (step o c) as [o1 ok]. specialize (IH o1).
    destruct (session o1 cs) as [o2 r]. cbn [fst snd] in *. inversion H as [|x y l l' H1 H2]; subst. apply IH; [apply S, H1|exact H2]. }
  cbv zeta. set (o := fst (session (fresh ref) cs)) in *. destruct K as [Hr Hc]. unfold supercells_with_displacements. destruct (o_cache o) as [c|] eqn:Ec.
  - cbn [snd]. symmetry. apply Hc. reflexivity.
  - rewrite Hr. destruct (bind (o_data o) (build_supercells ref)); reflexivity.
Qed.
Print Assumptions C39_supercells_are_current_partial.
Example C39_ex : let ref := [(0, 0, 0); (5, 5, 5)]%Q in let v := [(1, 0, 0); (0, 0, 0)]%Q in
  let cs := [CGenerate (Type1 2 [ex_first]); CSupercells; CForces [v]; CSupercells; CDisplacements [v]; CDataset (ADisp [v; v] None); CSupercells; CDisplacements [v]] in
  snd (session (fresh ref) cs) = [true; true; false; true; false; true; true; true] /\
  snd (supercells_with_displacements (fst (session (fresh ref) cs))) = Some [Some [(0 + 1, 0 + 0, 0 + 0); (5 + 0, 5 + 0, 5 + 0)]]%Q.
Proof. vm_compute. auto. Qed.
(** An assignment to [dataset] that raises leaves the supercells of the previous dataset in the cache, and
    they are returned although that dataset is gone. *)
Theorem C39_failed_assignment_refuted : exists ref d bad cs o, build_supercells ref d = Some cs /\
  session (fresh ref) [CDataset (AFirst d); CSupercells; CDataset bad] = (o, [true; true; false]) /\
  o_data o <> Some d /\ bind (o_data o) (build_supercells ref) = None /\ snd (supercells_with_displacements o) = Some cs.
Proof.
  exists [(0, 0, 0); (5, 5, 5)]%Q, (Type1 2 [ex_first]), (ADisp [[(1, 0, 0)]]%Q None). eexists. eexists. split; [vm_compute; reflexivity|]. split; [vm_compute; reflexivity|].
  split; [intros E; discriminate E|]. split; vm_compute; reflexivity.
Qed.
Print Assumptions C39_failed_assignment_refuted.
