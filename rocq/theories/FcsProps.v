(** C134: force constants that are produced belong to the datasets and options of the moment. *)
From Coq Require Import ZArith QArith List Bool Lia.
From Verif Require Import Base FcsModel.
Import ListNotations.

Section Props.
Context {F2 F3 D C X : Type}.
Variable T : solvers F2 F3 D C X.
Notation obj := (object F2 F3 D C).
Notation call := (@call F2 F3 D X).
Notation step := (@step F2 F3 D C X T).
Notation exec := (@exec F2 F3 D C X T).

(** ** What the documentation says *)
(** symmetrization is applied if it is asked for, with the built-in calculator *)
Inductive symmetrized {A} (f : A -> A) : bool -> calculator X -> A -> A -> Prop :=
| sym_done k x : other k = None -> symmetrized f true k x (f x)
| sym_not_asked k x : symmetrized f false k x x
| sym_external k n b x : other k = Some n -> symmetrized f b k x x.
(** fc3 of a dataset, and the fc2 that comes with it *)
Definition fc3_of (c : C) (d : D) (sym compact : bool) (k : calculator X) (x : F3) : Prop :=
  exists a b, solve3 T c d k compact = Some (a, b) /\ symmetrized (fun z => perm3 T compact (trans3 T compact z)) sym k b x.
Definition fc2_beside (c : C) (d : D) (sym compact : bool) (k : calculator X) (x : F2) : Prop :=
  exists a b, solve3 T c d k compact = Some (a, b) /\ symmetrized (sym2 T c compact) sym k a x.
Definition fc2_of (c : C) (d : D) (sym compact : bool) (k : calculator X) (x : F2) : Prop :=
  exists a, solve2 T c d k compact = Some a /\ symmetrized (sym2 T c compact) sym k a x.
(** the dataset for fc2: that for phonons if there is one *)
Inductive data_of_fc2 (s : obj) : D -> Prop :=
| own d : phonon_data s = Some d -> data_of_fc2 s d
| shared d : phonon_data s = None -> data s = Some d -> data_of_fc2 s d.
Definition inputs_same (s s' : obj) : Prop :=
  cell s' = cell s /\ phonon_cell s' = phonon_cell s /\ has_matrix s' = has_matrix s /\ data s' = data s /\ phonon_data s' = phonon_data s.

Lemma symmetrized_ok : forall A (f : A -> A) b k x, symmetrized f b k x (if built_in k && b then f x else x).
Proof.
  intros. unfold built_in. destruct (other k) eqn:E; cbn [andb]; [now apply (sym_external _ _ x0)|]. destruct b; [now apply sym_done|apply sym_not_asked].
Qed.

(** fc3 is that of the dataset that is set now, whatever was done before; inputs do not change; an exception changes nothing *)
Theorem C134_fc3 : forall s sym compact k s', step s (ProduceFc3 sym compact k) = (s', true) ->
  inputs_same s s' /\ exists d x, data s = Some d /\ fc3 s' = Some x /\ fc3_of (cell s) d sym compact k x.
Proof.
  intros s sym compact k s' H. cbn in H. unfold produce_fc3 in H. destruct (data s) as [d|] eqn:Ed; [|discriminate].
  destruct (solve3 T (cell s) d k compact) as [[a b]|] eqn:Es; [|discriminate].
  set (none := match fc2 s with None => true | _ => false end) in H. clearbody none.
  pose proof (symmetrized_ok _ (fun z => perm3 T compact (trans3 T compact z)) sym k b) as S. destruct (built_in k && sym);
    injection H as <-; (split; [repeat split; reflexivity || (cbn; congruence)|]); exists d; eexists; (split; [reflexivity|]; split; [reflexivity|]); exists a, b; auto.
Qed.
Theorem C134_exception : forall s c s', step s c = (s', false) -> s' = s.
Proof.
  intros s c s' H. destruct c; cbn in H; try discriminate.
  - destruct (produce_fc3 T sym compact k s); congruence.
  - destruct (produce_fc2 T sym compact k s); congruence.
  - destruct (fc3 s); congruence.
Qed.
(** fc2 beside fc3: set from the same solution if the object had none, there is no phonon supercell matrix and one calculator is named
    for both; in all other cases it stays *)
Theorem C134_fc2_beside : forall s sym compact k s', step s (ProduceFc3 sym compact k) = (s', true) ->
  fc2 s = None -> has_matrix s = false -> name_bar k = false -> options_bar k = false ->
  exists d x, data s = Some d /\ fc2 s' = Some x /\ fc2_beside (cell s) d sym compact k x.
Proof.
  intros s sym compact k s' H E2 Em En Eo. cbn in H. unfold produce_fc3 in H. destruct (data s) as [d|] eqn:Ed; [|discriminate].
  destruct (solve3 T (cell s) d k compact) as [[a b]|] eqn:Es; [|discriminate]. rewrite E2, Em, En, Eo in H.
  pose proof (symmetrized_ok _ (sym2 T (cell s) compact) sym k a) as S. destruct (built_in k && sym);
    injection H as <-; exists d; eexists; (split; [reflexivity|]; split; [reflexivity|]); exists a, b; auto.
Qed.
Theorem C134_fc2_stays : forall s sym compact k s', step s (ProduceFc3 sym compact k) = (s', true) ->
  fc2 s <> None \/ has_matrix s = true \/ name_bar k = true \/ options_bar k = true -> fc2 s' = fc2 s.
Proof.
  intros s sym compact k s' H W. cbn in H. unfold produce_fc3 in H. destruct (data s) as [d|]; [|discriminate].
  destruct (solve3 T (cell s) d k compact) as [[a b]|]; [|discriminate]. destruct (fc2 s) as [y|] eqn:E2.
  - destruct (built_in k && sym); injection H as <-; reflexivity.
  - destruct W as [W|W]; [contradiction|]. destruct (built_in k && sym), (has_matrix s), (options_bar k), (name_bar k); injection H as <-; try reflexivity;
      destruct W as [W|[W|W]]; discriminate W.
Qed.
(** produce_fc2: fc2 is that of the dataset for phonons if there is one, of the dataset otherwise, whatever was done before; fc3 stays *)
Theorem C134_fc2 : forall s sym compact k s', step s (ProduceFc2 sym compact k) = (s', true) ->
  inputs_same s s' /\ fc3 s' = fc3 s /\ exists d x, data_of_fc2 s d /\ has_forces T d = true /\ fc2 s' = Some x /\ fc2_of (phonon_cell s) d sym compact k x.
Proof.
  intros s sym compact k s' H. cbn in H. unfold produce_fc2 in H.
  destruct (match phonon_data s with None => data s | Some d => Some d end) as [d|] eqn:Ed; [|discriminate].
  assert (W : data_of_fc2 s d) by (destruct (phonon_data s) eqn:Ep; [injection Ed as <-; now apply own|now apply shared]).
  destruct (has_forces T d) eqn:Ef; cbn [negb] in H; [|discriminate]. destruct (solve2 T (phonon_cell s) d k compact) as [a|] eqn:Es; [|discriminate].
  injection H as <-. split; [repeat split; reflexivity|]. split; [reflexivity|]. exists d. eexists. split; [exact W|]. split; [exact Ef|]. split; [reflexivity|].
  exists a. split; [exact Es|]. apply symmetrized_ok.
Qed.
(** it is refused when there are no forces *)
Theorem C134_no_forces : forall s sym compact k, (forall d, data_of_fc2 s d -> has_forces T d = false) -> step s (ProduceFc2 sym compact k) = (s, false).
Proof.
  intros s sym compact k H. cbn. unfold produce_fc2. destruct (match phonon_data s with None => data s | Some d => Some d end) as [d|] eqn:Ed; [|reflexivity].
  rewrite (H d); [reflexivity|]. destruct (phonon_data s) eqn:Ep; [injection Ed as <-; now apply own|now apply shared].
Qed.

(** Both in turn, as the command and phono3py.load do: both are of the datasets that are set, whatever force constants there were *)
Theorem C134_both : forall s y2 y3 sym compact k sym' compact' k' s1 s2,
  step s (ProduceFc3 sym compact k) = (s1, true) -> step s1 (ProduceFc2 sym' compact' k') = (s2, true) ->
  (exists d x, data s = Some d /\ fc3 s2 = Some x /\ fc3_of (cell s) d sym compact k x) /\
  (exists d x, data_of_fc2 s d /\ fc2 s2 = Some x /\ fc2_of (phonon_cell s) d sym' compact' k' x) /\
  exec (with_fc s y2 y3) [ProduceFc3 sym compact k; ProduceFc2 sym' compact' k'] = s2.
Proof.
  intros s y2 y3 sym compact k sym' compact' k' s1 s2 H1 H2.
  destruct (C134_fc3 _ _ _ _ _ H1) as ((I1 & I2 & I3 & I4 & I5) & d & x & E1 & E2 & E3).
  destruct (C134_fc2 _ _ _ _ _ H2) as ((J1 & J2 & J3 & J4 & J5) & K3 & d' & x' & W & Ef & G2 & G3).
  split; [exists d, x; rewrite K3; auto|]. split.
  - exists d', x'. split; [|split; [exact G2|rewrite <- I2; exact G3]]. destruct W as [d' W|d' W W']; [apply own; congruence|apply shared; congruence].
  - cbn [FcsModel.exec]. assert (P : exists y, step (with_fc s y2 y3) (ProduceFc3 sym compact k) = (with_fc s1 y (fc3 s1), true)).
    { cbn in H1 |- *. unfold produce_fc3 in *. cbn [data cell fc2 has_matrix with_fc]. destruct (data s) as [e|]; [|discriminate].
      destruct (solve3 T (cell s) e k compact) as [[a b]|]; [|discriminate].
      destruct (built_in k && sym); injection H1 as <-; eexists; reflexivity. }
    destruct P as [y ->]. cbn [fst]. cbn in H2 |- *. unfold produce_fc2 in *. cbn [data phonon_data phonon_cell fc3 with_fc].
    destruct (match phonon_data s1 with None => data s1 | Some d => Some d end); [|discriminate]. destruct (negb _); [discriminate|].
    destruct (solve2 T (phonon_cell s1) _ k' compact'); [|discriminate]. injection H2 as <-. reflexivity.
Qed.

(** A session on one pair of datasets, with any number of calls of the two methods in any order and with any options, also failing
    ones: the force constants are of these datasets *)
Definition producing (c : call) : Prop := match c with ProduceFc3 _ _ _ | ProduceFc2 _ _ _ => True | _ => False end.
Definition belongs (s : obj) : Prop :=
  (forall x, fc3 s = Some x -> exists d sym compact k, data s = Some d /\ fc3_of (cell s) d sym compact k x) /\
  (forall x, fc2 s = Some x -> exists d sym compact k, (data s = Some d /\ has_matrix s = false /\ fc2_beside (cell s) d sym compact k x) \/ (data_of_fc2 s d /\ fc2_of (phonon_cell s) d sym compact k x)).
Lemma belongs_step : forall s c, belongs s -> producing c -> belongs (fst (step s c)) /\ inputs_same s (fst (step s c)).
Proof.
  intros s c [B3 B2] Pc. destruct (step s c) as [s' ok] eqn:E. cbn [fst]. destruct ok.
  - destruct c; try contradiction.
    + destruct (C134_fc3 _ _ _ _ _ E) as (I & d & x & E1 & E2 & E3). split; [|exact I]. destruct I as (I1 & I2 & I3 & I4 & I5). split.
      * intros z Hz. exists d, sym, compact, k. rewrite I1, I4. split; [exact E1|]. congruence.
      * intros z Hz. destruct (fc2 s) as [y|] eqn:Ey.
        -- rewrite (C134_fc2_stays _ _ _ _ _ E) in Hz by (left; congruence). rewrite Ey in Hz. injection Hz as <-.
           destruct (B2 y eq_refl) as (d0 & a & b & c & W). exists d0, a, b, c. rewrite I1, I2, I3, I4. destruct W as [W|[W W']]; [left; exact W|right]. split; [|exact W'].
           destruct W; [apply own|apply shared]; congruence.
        -- destruct (has_matrix s) eqn:Em; [rewrite (C134_fc2_stays _ _ _ _ _ E) in Hz by auto; congruence|].
           destruct (name_bar k) eqn:En; [rewrite (C134_fc2_stays _ _ _ _ _ E) in Hz by auto; congruence|].
           destruct (options_bar k) eqn:Eo; [rewrite (C134_fc2_stays _ _ _ _ _ E) in Hz by auto; congruence|].
           destruct (C134_fc2_beside _ _ _ _ _ E Ey Em En Eo) as (d1 & x1 & F1 & G1 & G2). exists d1, sym, compact, k. left. rewrite I1, I3, I4.
           split; [exact F1|]. split; [reflexivity|]. congruence.
    + destruct (C134_fc2 _ _ _ _ _ E) as (I & K3 & d & x & W & Ef & E2 & E3). split; [|exact I]. destruct I as (I1 & I2 & I3 & I4 & I5). split.
      * intros z Hz. rewrite K3 in Hz. destruct (B3 z Hz) as (d0 & a & b & c & Q1 & Q2). exists d0, a, b, c. rewrite I1, I4. auto.
      * intros z Hz. exists d, sym, compact, k. right. rewrite I2. split; [destruct W; [apply own|apply shared]; congruence|]. congruence.
  - rewrite (C134_exception _ _ _ E). split; [now split|]. repeat split.
Qed.
Theorem C134_session : forall l s, fc2 s = None -> fc3 s = None -> Forall producing l -> belongs (exec s l) /\ inputs_same s (exec s l).
Proof.
  intros l s E2 E3 Q. assert (B : belongs s) by (split; intros x H; congruence). clear E2 E3. revert s B. induction l as [|c l IH]; intros s B.
  - split; [exact B|repeat split].
  - inversion Q; subst. destruct (belongs_step s c B H1) as [B1 I1]. destruct (IH H2 _ B1) as [B2 I2]. split; [exact B2|].
    destruct I1 as (A1 & A2 & A3 & A4 & A5), I2 as (A6 & A7 & A8 & A9 & A10). cbn [FcsModel.exec] in *. repeat split; congruence.
Qed.

(** Each setter sets what it is for and nothing else *)
Theorem C134_setters : forall s d x2 x3,
  (let t := fst (step s (SetData d)) in data t = d /\ phonon_data t = phonon_data s /\ fc2 t = fc2 s /\ fc3 t = fc3 s) /\
  (let t := fst (step s (SetPhononData d)) in data t = data s /\ phonon_data t = d /\ fc2 t = fc2 s /\ fc3 t = fc3 s) /\
  (let t := fst (step s (SetFc2 x2)) in data t = data s /\ phonon_data t = phonon_data s /\ fc2 t = x2 /\ fc3 t = fc3 s) /\
  (let t := fst (step s (SetFc3 x3)) in data t = data s /\ phonon_data t = phonon_data s /\ fc2 t = fc2 s /\ fc3 t = x3).
Proof. intros. repeat split. Qed.
(** Cutoff and the two symmetrizations work on what is there: the cutoff on fc3 only, the symmetrizations on both *)
Theorem C134_changes : forall s q, (forall s', step s (Cutoff q) = (s', true) -> inputs_same s s' /\ fc2 s' = fc2 s /\ exists x, fc3 s = Some x /\ fc3 s' = Some (cut3 T (cell s) q x)) /\
  (snd (step s (Cutoff q)) = false <-> fc3 s = None) /\
  forall c f2 f3, c = SetPermutation /\ f2 = perm2 T /\ f3 = perm3 T false \/ c = SetTranslation /\ f2 = trans2 T /\ f3 = trans3 T false ->
    snd (step s c) = true /\ inputs_same s (fst (step s c)) /\
    (forall y, fc2 (fst (step s c)) = Some y <-> exists x, fc2 s = Some x /\ y = f2 x) /\ (forall y, fc3 (fst (step s c)) = Some y <-> exists x, fc3 s = Some x /\ y = f3 x).
Proof.
  intros s q. split; [|split].
  - intros s' H. cbn in H. destruct (fc3 s) as [x|] eqn:E; [|discriminate]. injection H as <-. split; [repeat split|]. split; [reflexivity|]. exists x. auto.
  - cbn. destruct (fc3 s); cbn; split; congruence.
  - assert (M : forall A (f : A -> A) o y, option_map f o = Some y <-> exists x, o = Some x /\ y = f x).
    { intros A f [x|] y; cbn; split; [intro H; injection H as <-; eauto|intros [z [H ->]]; congruence|discriminate|intros [z [H _]]; discriminate]. }
    intros c f2 f3 [(-> & -> & ->)|(-> & -> & ->)]; cbn; repeat split; intros; try (now apply M).
Qed.

(** Refuted: a new dataset and produce_fc3 leave the fc2 of the old dataset, if there is one *)
Theorem C134_new_data_refuted : forall s d y sym compact k s', fc2 s = Some y -> step (fst (step s (SetData (Some d)))) (ProduceFc3 sym compact k) = (s', true) ->
  fc2 s' = Some y /\ exists x, fc3 s' = Some x /\ fc3_of (cell s) d sym compact k x.
Proof.
  intros s d y sym compact k s' E H. split.
  - rewrite (C134_fc2_stays _ _ _ _ _ H); cbn; [exact E|left; congruence].
  - destruct (C134_fc3 _ _ _ _ _ H) as (_ & d' & x & E1 & E2 & E3). cbn in E1, E3. injection E1 as <-. exists x. auto.
Qed.
(** Refuted: with a phonon supercell matrix but no dataset for it, produce_fc2 does not raise by itself: displacements in the supercell
    for fc3 are given to the solver for the phonon supercell *)
Theorem C134_wrong_cell_refuted : forall s d sym compact k a, has_matrix s = true -> phonon_data s = None -> data s = Some d -> has_forces T d = true ->
  solve2 T (phonon_cell s) d k compact = Some a -> snd (step s (ProduceFc2 sym compact k)) = true.
Proof. intros s d sym compact k a _ E1 E2 E3 E4. cbn. unfold produce_fc2. rewrite E1, E2, E3, E4. reflexivity. Qed.
End Props.

(** A case: force constants are lists of what was done *)
Definition toy : solvers (list Z) (list Z) Z Z Z :=
  {| has_forces := fun d => (0 <? d)%Z; solve3 := fun c d k b => if (0 <? d)%Z then Some ([2; c; d], [3; c; d])%Z else None; solve2 := fun c d k b => Some [22; c; d]%Z;
     trans3 := fun _ => cons 100%Z; perm3 := fun _ => cons 101%Z; sym2 := fun c _ => cons 102%Z; perm2 := cons 103%Z; trans2 := cons 104%Z; cut3 := fun _ _ => cons 105%Z |}.
Definition plain : calculator Z := Calculator None false false.
Definition start (m : bool) : object (list Z) (list Z) Z Z := Object 1 8 m (Some 5) None None None.
Example C134_session_ex : let s := exec toy (start false) [ProduceFc3 true true plain; ProduceFc3 false true plain; ProduceFc2 true false (Calculator (Some 1) false false)]%Z in
  fc2 s = Some [22; 8; 5]%Z /\ fc3 s = Some [3; 1; 5]%Z /\ fc2 (exec toy (start false) [ProduceFc3 true true plain]) = Some [102; 2; 1; 5]%Z
  /\ fc3 (exec toy (start false) [ProduceFc3 true true plain]) = Some [101; 100; 3; 1; 5]%Z.
Proof. vm_compute. auto. Qed.
Example C134_new_data_refuted_ex : let s := exec toy (start false) [ProduceFc3 true true plain; SetData (Some 6%Z); ProduceFc3 true true plain] in
  fc2 s = Some [102; 2; 1; 5]%Z /\ fc3 s = Some [101; 100; 3; 1; 6]%Z.
Proof. vm_compute. auto. Qed.
Example C134_wrong_cell_refuted_ex : step toy (start true) (ProduceFc2 false true plain) = (Object 1 8 true (Some 5) None (Some [22; 8; 5]) None, true)%Z
  /\ step toy (start true) (ProduceFc3 false true plain) = (Object 1 8 true (Some 5) None None (Some [3; 1; 5]), true)%Z.
Proof. vm_compute. auto. Qed.
Example C134_changes_ex : let s := exec toy (start false) [ProduceFc3 false true plain; Cutoff 4%Q; SetPermutation; SetTranslation] in
  fc2 s = Some [104; 103; 2; 1; 5]%Z /\ fc3 s = Some [100; 101; 105; 3; 1; 5]%Z.
Proof. vm_compute. auto. Qed.
Example C134_setters_ex : let s := exec toy (start false) [SetPhononData (Some 4); ProduceFc3 false true plain; ProduceFc2 false true plain]%Z in
  data s = Some 5%Z /\ phonon_data s = Some 4%Z /\ fc2 s = Some [22; 8; 4]%Z /\ fc3 s = Some [3; 1; 5]%Z.
Proof. vm_compute. auto. Qed.
Example C134_no_forces_ex : step toy (Object 1 8 true (Some 5) (Some 0) None None)%Z (ProduceFc2 false true plain) = (Object 1 8 true (Some 5) (Some 0) None None, false)%Z.
Proof. vm_compute. reflexivity. Qed.

Print Assumptions C134_fc3.
Print Assumptions C134_exception.
Print Assumptions C134_fc2_beside.
Print Assumptions C134_fc2_stays.
Print Assumptions C134_fc2.
Print Assumptions C134_no_forces.
Print Assumptions C134_both.
Print Assumptions C134_session.
Print Assumptions C134_changes.
Print Assumptions C134_setters.
Print Assumptions C134_new_data_refuted.
Print Assumptions C134_wrong_cell_refuted.
