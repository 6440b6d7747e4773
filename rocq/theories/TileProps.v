(** Theorem C24: the relative tetrahedra fill the neighbourhood of a grid point; choice of the
    main diagonal. *)
From Coq Require Import ZArith QArith List Bool Lia Lqa.
From Verif Require Import Base Mat3 QMat TetraModel.
Import ListNotations.
Open Scope Z_scope.

(* ------------------------------------------------------------------ spec *)
(** same set of vertices *)
Definition same_tetra (t t' : list V3) : Prop := forall v, In v t <-> In v t'.
(** the tetrahedra of a table, after translation by [-v] *)
Definition shifted_by (v : V3) (t : list V3) : list V3 := map (fun u => vsub u v) t.
Definition edge_det (t : list V3) : Z :=
  match t with
  | [p; v3 a b c; v3 d e f; v3 g h i] => det (m3 a b c d e f g h i)
  | _ => 0
  end.
Definition near (v : V3) : Prop := let '(v3 x y z) := v in -1 <= x <= 1 /\ -1 <= y <= 1 /\ -1 <= z <= 1.
Definition comb (c1 c2 c3 : Q) (v1 v2 v3' : V3) : QV :=
  qv (c1 * qz (vx v1) + c2 * qz (vx v2) + c3 * qz (vx v3'))
     (c1 * qz (vy v1) + c2 * qz (vy v2) + c3 * qz (vy v3'))
     (c1 * qz (vz v1) + c2 * qz (vz v2) + c3 * qz (vz v3')).
(** [y] lies in the cone of the tetrahedron seen from the origin (its first vertex); [strict]: in the interior *)
Definition in_cone (t : list V3) (y : QV) : Prop :=
  exists v1 v2 v3' c1 c2 c3, t = [vzero; v1; v2; v3'] /\ (0 <= c1 /\ 0 <= c2 /\ 0 <= c3)%Q /\ qveq y (comb c1 c2 c3 v1 v2 v3').
Definition in_open_cone (t : list V3) (y : QV) : Prop :=
  exists v1 v2 v3' c1 c2 c3, t = [vzero; v1; v2; v3'] /\ (0 < c1 /\ 0 < c2 /\ 0 < c3)%Q /\ qveq y (comb c1 c2 c3 v1 v2 v3').

(** the two ends of a diagonal of the unit cell as a tetrahedron edge *)
Definition has_edge (t : list V3) (d : V3) : Prop := exists p, In p t /\ In (vadd p d) t.

(* ------------------------------------------------------------------ checks *)
Definition memb (v : V3) (t : list V3) : bool := existsb (veqb v) t.
Definition sub_b (t t' : list V3) : bool := forallb (fun v => memb v t') t.
Definition same_b (t t' : list V3) : bool := sub_b t t' && sub_b t' t.
Lemma memb_iff : forall v t, memb v t = true <-> In v t.
Proof.
  intros v t. unfold memb. rewrite existsb_exists. split.
  - intros [x [Hx E]]. apply veqb_eq in E. now subst.
  - intros H. exists v. split; [exact H|]. now apply veqb_eq.
Qed.
Lemma same_b_iff : forall t t', same_b t t' = true <-> same_tetra t t'.
Proof.
  intros t t'. unfold same_b, sub_b, same_tetra. rewrite andb_true_iff, !forallb_forall. split.
  - intros [H1 H2] v. split; intros H; [apply H1 in H|apply H2 in H]; now apply memb_iff in H.
  - intros H. split; intros v Hv; apply memb_iff; now apply H.
Qed.

Definition near_b (v : V3) : bool := let '(v3 x y z) := v in (-1 <=? x) && (x <=? 1) && (-1 <=? y) && (y <=? 1) && (-1 <=? z) && (z <=? 1).
Lemma near_b_iff : forall v, near_b v = true -> near v.
Proof. intros [x y z]. unfold near_b, near. rewrite !andb_true_iff. lia. Qed.

Fixpoint pairs_b {A} (f : A -> A -> bool) (l : list A) : bool :=
  match l with [] => true | x :: r => forallb (fun y => f x y && f y x) r && pairs_b f r end.
Lemma pairs_b_spec : forall A (f : A -> A -> bool) l, pairs_b f l = true ->
  forall i j x y, nth_error l i = Some x -> nth_error l j = Some y -> i <> j -> f x y = true.
Proof.
  intros A f. induction l as [|z l IH]; cbn [pairs_b]; intros H i j x y Hi Hj Hij.
  - destruct i; discriminate.
  - apply andb_prop in H. destruct H as [H1 H2]. rewrite forallb_forall in H1.
    destruct i as [|i], j as [|j]; cbn in Hi, Hj; try congruence.
    + inversion Hi; subst. apply nth_error_In in Hj. specialize (H1 _ Hj). apply andb_prop in H1. tauto.
    + inversion Hj; subst. apply nth_error_In in Hi. specialize (H1 _ Hi). apply andb_prop in H1. tauto.
    + eapply IH; eauto.
Qed.

(** inward normals of the three facets through the origin *)
Definition vdot (a b : V3) : Z := vx a * vx b + vy a * vy b + vz a * vz b.
Definition vcross (a b : V3) : V3 :=
  v3 (vy a * vz b - vz a * vy b) (vz a * vx b - vx a * vz b) (vx a * vy b - vy a * vx b).
Definition vscale (k : Z) (a : V3) : V3 := v3 (k * vx a) (k * vy a) (k * vz a).
Definition normals (t : list V3) : list V3 :=
  match t with
  | [_; a; b; c] => let d := edge_det t in [vscale d (vcross b c); vscale d (vcross c a); vscale d (vcross a b)]
  | _ => []
  end.
Definition edges (t : list V3) : list V3 := tl t.
(** h separates t from t', and is not zero on t *)
Definition sep (h : V3) (t t' : list V3) : bool :=
  forallb (fun v => 0 <=? vdot h v) (edges t) && forallb (fun v => vdot h v <=? 0) (edges t') && existsb (fun v => 0 <? vdot h v) (edges t).
Definition separated (t t' : list V3) : bool :=
  existsb (fun h => sep h t t') (normals t) || existsb (fun h => sep h t' t) (normals t').

Definition table (k : nat) : list (list V3) := nth k db_relative_grid_address [].

Definition first_zero_b (t : list V3) : bool := match t with [a; _; _; _] => veqb a vzero | _ => false end.
Definition table_ok (k : nat) : bool :=
  let T := table k in
  (Z.of_nat (length T) =? 24) &&
  forallb (fun t => first_zero_b t && forallb near_b t && (Z.abs (edge_det t) =? 1)) T &&
  pairs_b (fun t t' => negb (same_b t t')) T &&
  forallb (fun t => existsb (fun t' => same_b t' (map vneg t)) T) T &&
  forallb (fun t => forallb (fun v => existsb (fun t' => same_b t' (shifted_by v t)) T) t) T &&
  forallb (fun t => existsb (fun p => memb (vadd p (nth k main_diagonals vzero)) t) t) T &&
  pairs_b separated T.
Lemma tables_ok : forallb table_ok [0; 1; 2; 3]%nat = true.
Proof. vm_compute. reflexivity. Qed.

(* ------------------------------------------------------------------ cones *)
Open Scope Q_scope.
Definition qdot (h : V3) (y : QV) : Q := let '(qv a b c) := y in qz (vx h) * a + qz (vy h) * b + qz (vz h) * c.
Lemma qdot_comb : forall h y c1 c2 c3 v1 v2 v3', qveq y (comb c1 c2 c3 v1 v2 v3') ->
  qdot h y == c1 * qz (vdot h v1) + c2 * qz (vdot h v2) + c3 * qz (vdot h v3').
Proof.
  intros [h0 h1 h2] [a b c] c1 c2 c3 [p0 p1 p2] [q0 q1 q2] [r0 r1 r2]. unfold comb, vdot, qdot, qveq. cbn [vx vy vz]. unfold qz. intros [-> [-> ->]].
  rewrite !inject_Z_plus, !inject_Z_mult. ring.
Qed.
Lemma qz_nn : forall z, (0 <= z)%Z -> 0 <= qz z.
Proof. intros z H. unfold qz. change 0 with (inject_Z 0). now rewrite <- Zle_Qle. Qed.
Lemma qz_np : forall z, (z <= 0)%Z -> qz z <= 0.
Proof. intros z H. unfold qz. change 0 with (inject_Z 0). now rewrite <- Zle_Qle. Qed.
Lemma qz_pos : forall z, (0 < z)%Z -> 0 < qz z.
Proof. intros z H. unfold qz. change 0 with (inject_Z 0). now rewrite <- Zlt_Qlt. Qed.
Lemma mnn : forall a b, 0 <= a -> 0 <= b -> 0 <= a * b.
Proof. intros. nra. Qed.

Lemma sep_disjoint : forall h t t' y, sep h t t' = true -> in_open_cone t y -> in_cone t' y -> False.
Proof.
  intros h t t' y S [v1 [v2 [v3' [c1 [c2 [c3 [-> [C Y]]]]]]]] [u1 [u2 [u3 [e1 [e2 [e3 [-> [E Y']]]]]]]].
  apply qdot_comb with (h := h) in Y. apply qdot_comb with (h := h) in Y'.
  unfold sep, edges in S. cbn [tl forallb existsb] in S. rewrite !andb_true_iff, !orb_true_iff in S.
  destruct S as [[[S1 [S2 [S3 _]]] [U1 [U2 [U3 _]]]] P].
  apply Z.leb_le in S1, S2, S3, U1, U2, U3. apply qz_nn in S1, S2, S3. apply qz_np in U1, U2, U3.
  assert (0 < qdot h y).
  { rewrite Y. destruct P as [P|[P|[P|P]]]; [apply Z.ltb_lt in P; apply qz_pos in P; nra..|discriminate]. }
  assert (qdot h y <= 0) by (rewrite Y'; nra). lra.
Qed.
Lemma open_closed : forall t y, in_open_cone t y -> in_cone t y.
Proof.
  intros t y [v1 [v2 [v3' [c1 [c2 [c3 [E [C Y]]]]]]]]. exists v1, v2, v3', c1, c2, c3. split; [exact E|]. split; [lra|exact Y].
Qed.

Lemma normals_dual : forall v1 v2 v3' y, Z.abs (edge_det [vzero; v1; v2; v3']) = 1%Z ->
  let t := [vzero; v1; v2; v3'] in
  qveq y (comb (qdot (nth 0 (normals t) vzero) y) (qdot (nth 1 (normals t) vzero) y) (qdot (nth 2 (normals t) vzero) y) v1 v2 v3').
Proof.
  intros [p0 p1 p2] [q0 q1 q2] [r0 r1 r2] [a b c] D t. unfold t.
  assert (Z.abs (edge_det t) = 1)%Z as D' by exact D.
  assert (E : qz (edge_det t) * qz (edge_det t) == 1).
  { unfold qz. rewrite <- inject_Z_mult. assert (edge_det t * edge_det t = 1)%Z as -> by nia. reflexivity. }
  cbn [normals nth]. fold t. set (d := edge_det t) in *.
  assert (Ed : qz d == qz p0 * (qz q1 * qz r2 - qz q2 * qz r1) + qz p1 * (qz q2 * qz r0 - qz q0 * qz r2) + qz p2 * (qz q0 * qz r1 - qz q1 * qz r0)).
  { unfold d, t, qz. cbn [edge_det]. unfold det. unfold Z.sub. repeat rewrite ?inject_Z_plus, ?inject_Z_mult, ?inject_Z_opp. ring. }
  unfold comb, vscale, vcross, qdot, qveq. cbn [vx vy vz]. unfold qz in *. unfold Z.sub. repeat rewrite ?inject_Z_plus, ?inject_Z_mult, ?inject_Z_opp.
  set (D2 := inject_Z d) in *.
  repeat split.
  - setoid_replace a with (D2 * D2 * a) at 1 by (rewrite E; ring). rewrite Ed at 2. ring.
  - setoid_replace b with (D2 * D2 * b) at 1 by (rewrite E; ring). rewrite Ed at 2. ring.
  - setoid_replace c with (D2 * D2 * c) at 1 by (rewrite E; ring). rewrite Ed at 2. ring.
Qed.

Lemma normals_cone : forall t y, first_zero_b t = true -> Z.abs (edge_det t) = 1%Z ->
  Forall (fun h => 0 <= qdot h y) (normals t) -> in_cone t y.
Proof.
  intros t y F D H. destruct t as [|p [|v1 [|v2 [|v3' [|]]]]]; try discriminate. cbn in F. apply veqb_eq in F. subst p.
  pose proof (normals_dual v1 v2 v3' y D) as N. cbn zeta in N.
  exists v1, v2, v3', (qdot (nth 0 (normals [vzero; v1; v2; v3']) vzero) y), (qdot (nth 1 (normals [vzero; v1; v2; v3']) vzero) y),
    (qdot (nth 2 (normals [vzero; v1; v2; v3']) vzero) y).
  split; [reflexivity|]. split; [|exact N].
  cbn [normals] in *. inversion_clear H as [|? ? H1 H']. inversion_clear H' as [|? ? H2 H'']. inversion_clear H'' as [|? ? H3 _]. auto.
Qed.

Ltac cover_tac k a b c p q r :=
  apply Exists_exists;
  assert (X : Exists (fun hs => Forall (fun h => 0 <= qdot h (qv a b c)) hs) (map normals (table k)));
  [ let l := eval vm_compute in (map normals (table k)) in change (map normals (table k)) with l;
    destruct (Qlt_le_dec p 0), (Qlt_le_dec q 0), (Qlt_le_dec r 0), (Qlt_le_dec p q), (Qlt_le_dec q r), (Qlt_le_dec p r);
    try (exfalso; lra);
    repeat first [ apply Exists_cons_hd; repeat (apply Forall_cons; [cbn [qdot vx vy vz]; unfold qz, inject_Z; lra|]); apply Forall_nil
                 | apply Exists_cons_tl ]
  | rewrite Exists_exists in X; destruct X as [hs [Hin H]]; apply in_map_iff in Hin; destruct Hin as [t [<- Ht]];
    apply Exists_exists; exists t; auto ].
Lemma cover : forall k y, In k [0; 1; 2; 3]%nat -> exists t, In t (table k) /\ Forall (fun h => 0 <= qdot h y) (normals t).
Proof.
  intros k [a b c] Hk. cbn in Hk. destruct Hk as [<-|[<-|[<-|[<-|[]]]]].
  - cover_tac 0%nat a b c a b c.
  - cover_tac 1%nat a b c (- a) b c.
  - cover_tac 2%nat a b c a (- b) c.
  - cover_tac 3%nat a b c a b (- c).
Qed.

Lemma main_diagonal_spec : forall M, let k := get_main_diagonal M in
  In k [0; 1; 2; 3]%nat /\ forall j, In j [0; 1; 2; 3]%nat -> diag_length M k <= diag_length M j.
Proof.
  intros M. unfold get_main_diagonal. cbn [fold_left].
  set (l0 := diag_length M 0). set (l1 := diag_length M 1). set (l2 := diag_length M 2). set (l3 := diag_length M 3).
  repeat match goal with
    | |- context [qltb ?x ?y] => let E := fresh "E" in destruct (qltb x y) eqn:E; [apply qltb_lt in E|apply qltb_ge in E] end;
  cbn [fst]; (split; [cbn; tauto|]); intros j Hj; cbn in Hj;
  repeat match type of Hj with _ \/ _ => destruct Hj as [Hj|Hj] end; try contradiction; subst j;
  fold l0 l1 l2 l3; lra.
Qed.

(* ------------------------------------------------------------------ theorems *)
Theorem C24_tetrahedra_tile : forall rec_lattice, let T := thm_get_relative_grid_address rec_lattice in
  length T = 24%nat /\
  (forall t, In t T -> exists v1 v2 v3', t = [vzero; v1; v2; v3'] /\ near v1 /\ near v2 /\ near v3' /\ Z.abs (edge_det t) = 1%Z) /\
  (forall i j t t', nth_error T i = Some t -> nth_error T j = Some t' -> same_tetra t t' -> i = j) /\
  (forall t, In t T -> exists t', In t' T /\ same_tetra t' (map vneg t)) /\
  (forall t v, In t T -> In v t -> exists t', In t' T /\ same_tetra t' (shifted_by v t)) /\
  (forall y, exists t, In t T /\ in_cone t y) /\
  (forall i j t t' y, nth_error T i = Some t -> nth_error T j = Some t' -> in_open_cone t y -> in_open_cone t' y -> i = j).
Proof.
  intros M T. destruct (main_diagonal_spec M) as [Hk _]. unfold T, thm_get_relative_grid_address.
  set (k := get_main_diagonal M) in *. change (nth k db_relative_grid_address []) with (table k).
  pose proof tables_ok as OK. rewrite forallb_forall in OK. specialize (OK k Hk). unfold table_ok in OK.
  rewrite !andb_true_iff in OK. destruct OK as [[[[[[O1 O2] O3] O4] O5] O6] O7].
  rewrite forallb_forall in O2, O4, O5.
  split; [apply Z.eqb_eq in O1; lia|].
  assert (Sh : forall t, In t (table k) -> first_zero_b t = true /\ forallb near_b t = true /\ Z.abs (edge_det t) = 1%Z).
  { intros t Ht. specialize (O2 t Ht). rewrite !andb_true_iff in O2. destruct O2 as [[H1 H2] H3]. apply Z.eqb_eq in H3. auto. }
  split.
  { intros t Ht. destruct (Sh t Ht) as [F [N D]]. destruct t as [|p [|v1 [|v2 [|v3' [|]]]]]; try discriminate.
    cbn in F. apply veqb_eq in F. subst p. exists v1, v2, v3'. split; [reflexivity|].
    cbn [forallb] in N. rewrite !andb_true_iff in N. destruct N as [_ [N1 [N2 [N3 _]]]]. auto using near_b_iff. }
  split.
  { intros i j t t' Hi Hj S. destruct (Nat.eq_dec i j) as [E|E]; auto. exfalso.
    pose proof (pairs_b_spec _ _ _ O3 i j t t' Hi Hj E) as K. apply negb_true_iff in K. apply same_b_iff in S. congruence. }
  split.
  { intros t Ht. specialize (O4 t Ht). apply existsb_exists in O4. destruct O4 as [t' [H1 H2]]. exists t'. split; auto. now apply same_b_iff. }
  split.
  { intros t v Ht Hv. specialize (O5 t Ht). rewrite forallb_forall in O5. specialize (O5 v Hv).
    apply existsb_exists in O5. destruct O5 as [t' [H1 H2]]. exists t'. split; auto. now apply same_b_iff. }
  split.
  { intros y. destruct (cover k y Hk) as [t [Ht H]]. exists t. split; auto. destruct (Sh t Ht) as [F [N D]]. now apply normals_cone. }
  intros i j t t' y Hi Hj C C'. destruct (Nat.eq_dec i j) as [E|E]; auto. exfalso.
  pose proof (pairs_b_spec _ _ _ O7 i j t t' Hi Hj E) as K. unfold separated in K. apply orb_true_iff in K.
  destruct K as [K|K]; apply existsb_exists in K; destruct K as [h [_ K]].
  - eapply sep_disjoint; eauto using open_closed.
  - eapply sep_disjoint; eauto using open_closed.
Qed.
Print Assumptions C24_tetrahedra_tile.

(** All tetrahedra have the chosen diagonal as an edge, and no diagonal of the cell is shorter. *)
Theorem C24_shortest_diagonal : forall rec_lattice, exists d,
  In d [v3 1 1 1; v3 (-1) 1 1; v3 1 (-1) 1; v3 1 1 (-1)] /\
  (forall t, In t (thm_get_relative_grid_address rec_lattice) -> has_edge t d) /\
  (forall e, In e [v3 1 1 1; v3 (-1) 1 1; v3 1 (-1) 1; v3 1 1 (-1)] ->
     qnorm2 (qmulMV rec_lattice (qv_of d)) <= qnorm2 (qmulMV rec_lattice (qv_of e))).
Proof.
  intros M. destruct (main_diagonal_spec M) as [Hk Hm]. unfold thm_get_relative_grid_address.
  set (k := get_main_diagonal M) in *. change (nth k db_relative_grid_address []) with (table k).
  exists (nth k main_diagonals vzero).
  split. { apply nth_In. cbn in Hk. repeat match type of Hk with _ \/ _ => destruct Hk as [<-|Hk] end; try contradiction; cbn; lia. }
  split.
  { intros t Ht. pose proof tables_ok as OK. rewrite forallb_forall in OK. specialize (OK k Hk). unfold table_ok in OK.
    rewrite !andb_true_iff in OK. destruct OK as [[[[[[O1 O2] O3] O4] O5] O6] O7]. rewrite forallb_forall in O6. specialize (O6 t Ht).
    apply existsb_exists in O6. destruct O6 as [p [Hp H]]. exists p. split; auto. now apply memb_iff. }
  intros e He. apply (In_nth _ _ vzero) in He. destruct He as [j [Hj <-]].
  apply (Hm j). cbn in Hj. do 4 (destruct j as [|j]; [cbn; tauto|]). exfalso; lia.
Qed.
Print Assumptions C24_shortest_diagonal.

(** an oblique lattice where a diagonal other than the first is taken *)
Example C24_ex : get_main_diagonal (qm 1 (1 # 2) 0 0 1 0 0 0 1) = 1%nat /\
  in_open_cone [vzero; v3 1 0 0; v3 0 1 0; v3 0 1 1] (comb 1 2 3 (v3 1 0 0) (v3 0 1 0) (v3 0 1 1)) /\
  In [vzero; v3 1 0 0; v3 0 1 0; v3 0 1 1] (thm_get_relative_grid_address (qm 1 (1 # 2) 0 0 1 0 0 0 1)).
Proof.
  split; [vm_compute; reflexivity|]. split; [|vm_compute; tauto].
  exists (v3 1 0 0), (v3 0 1 0), (v3 0 1 1), 1, 2, 3. split; [reflexivity|]. split; [lra|apply qveq_refl].
Qed.
