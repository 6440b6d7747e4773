(** Symmetrization and expansion of the collision matrix: theorems. *)
From Coq Require Import ZArith QArith List Lia Lqa Bool Permutation.
From Verif Require Import Base BaseProofs Mat3 QMat GridSpec GridModel GridProofs GridProps
  Par Par2 Fc3Trans Fc3Props IseModel IseSpec IseProofs ColSpec ColModel ColProofs ColExpand.
Import ListNotations.
Open Scope Z_scope.

(* ------------------------------------------------------------------ C31 *)
(** For every schedule of the parallel loops: element (k, l) of each (sigma, temperature) block
    becomes the mean of (k, l) and (l, k), the diagonal is exactly kept, nothing else is written. *)
Theorem C31_symmetrized : forall nc nt ns m m', 0 <= nc -> phases (symmetrize_loops nc nt ns) m m' ->
  let el (m : Z -> Q) i j k l := m (((i * nt + j) * nc + k) * nc + l) in
  (forall i j k l, 0 <= i < ns -> 0 <= j < nt -> 0 <= k < nc -> 0 <= l < nc ->
    Qeq (el m' i j k l) ((el m i j k l + el m i j l k) / 2) /\ el m' i j k l = el m' i j l k) /\
  (forall i j k, 0 <= i < ns -> 0 <= j < nt -> 0 <= k < nc -> el m' i j k k = el m i j k k) /\
  (forall a, a < 0 \/ ns * nt * nc * nc <= a -> m' a = m a).
Proof.
  intros nc nt ns m m' Hnc P el. destruct (symmetrize_result nc nt ns m m' Hnc P) as [R1 R2].
  assert (Dg : forall i j k, 0 <= i < ns -> 0 <= j < nt -> 0 <= k < nc -> el m' i j k k = el m i j k k).
  { intros i j k Hi Hj Hk. apply R2. intros i' j' k' l' Hi' Hj' Hk' Hl' Hn E.
    apply flat_inj in E; auto. destruct E as [E E']. apply flat_inj in E; auto. lia. }
  split; [|split; [exact Dg|]].
  - intros i j k l Hi Hj Hk Hl. destruct (Z.eq_dec k l) as [->|Hn].
    + split; [rewrite Dg by auto; field|reflexivity].
    + unfold el. rewrite (R1 i j k l), (R1 i j l k) by auto. rewrite (Z.min_comm l k), (Z.max_comm l k). split; [|reflexivity].
      destruct (Z.min_spec k l) as [[L M]|[L M]], (Z.max_spec k l) as [[L' M']|[L' M']]; rewrite M, M'; try lia; field.
  - intros a Ha. apply R2. intros i j k l Hi Hj Hk Hl _ ->.
    assert (0 <= ((i * nt + j) * nc + k) * nc + l < ns * nt * nc * nc); [|lia].
    apply flat_range; auto. apply flat_range; auto. apply flat_range; auto.
Qed.
Print Assumptions C31_symmetrized.
Definition ex31 : Z -> Q := fun a => inject_Z (a * a).
Example C31_ex : let m' := fold_left (fun m ps => run_seq Z.eq_dec ps m) (symmetrize_loops 3 2 1) ex31 in
  phases (symmetrize_loops 3 2 1) ex31 m' /\ map (fun a => Qred (m' a)) (zrange 9) = map inject_Z [0; 5; 20; 5; 16; 37; 20; 37; 64].
Proof.
  split; [|vm_compute; reflexivity].
  assert (G : forall l m, phases l m (fold_left (fun m ps => run_seq Z.eq_dec ps m) l m)).
  { induction l as [|ps l IH]; intros m; [constructor|]. cbn [fold_left]. econstructor; [apply seq_finishes|apply IH]. }
  apply G.
Qed.

(* ------------------------------------------------------------------ C32 *)
Section C32.
  Variables (rot irs : Z -> Z) (nir ng nrot ns nt nb : Z) (m m' : Z -> Q).
  Let r l x := rot (l * ng + x).
  Hypothesis HA : is_action nrot ng r.
  Hypothesis HR : representatives nrot ng r nir irs.
  Hypothesis Hnb : 0 <= nb.
  Hypothesis P : phases (expand_loops rot irs nir ng nrot ns nt nb) m m'.
  Let M := cm nt ng nb m.
  Let M' := cm nt ng nb m'.

  Lemma star_move : forall k x a, 0 <= k < nir -> 0 <= a < nrot -> (exists l, 0 <= l < nrot /\ r l (irs k) = x) ->
    exists l, 0 <= l < nrot /\ r l (irs k) = r a x.
  Proof.
    intros k x a Hk Ha [l [Hl <-]]. destruct (act_mul _ _ _ HA) as [mul [M1 [M2 _]]]. exists (mul a l).
    split; [auto|]. apply M2; auto. apply HR; auto.
  Qed.
  (** rows of one star: only the row of the representative is given *)
  Definition only_rep (s t k : Z) : Prop := forall l j y c, 0 <= l < nrot -> 0 <= j < nb -> 0 <= y < ng -> 0 <= c < nb ->
    r l (irs k) <> irs k -> Qeq (M s t (r l (irs k)) j y c) 0.
  Lemma expand_sum : forall s t k x j y c, 0 <= s < ns -> 0 <= t < nt -> 0 <= k < nir -> only_rep s t k ->
    (exists l, 0 <= l < nrot /\ r l (irs k) = x) -> 0 <= j < nb -> 0 <= y < ng -> 0 <= c < nb ->
    Qeq (M' s t x j y c) (Sum nrot (fun l => if r l (irs k) =? x then
        Sum ng (fun n => if r l n =? y then (M s t (irs k) j n c / inject_Z (multi rot ng nrot (irs k)))%Q else 0%Q) else 0%Q)).
  Proof.
    intros s t k x j y c Hs Ht Hk Ho Hx Hj Hy Hc.
    destruct (expand_result rot irs nir ng nrot ns nt nb m m' HA HR Hnb P) as [F _].
    etransitivity; [apply (F s t k x j y c); auto|]. fold M.
    assert (E : Qeq (if x =? irs k then 0%Q else M s t x j y c) 0).
    { destruct (Z.eqb_spec x (irs k)) as [|N]; [reflexivity|]. destruct Hx as [l [Hl <-]]. apply Ho; auto. }
    etransitivity; [apply Qplus_comp; [exact E|reflexivity]|]. apply Qplus_0_l.
  Qed.
End C32.

(** The expanded matrix has the symmetry of the crystal. *)
Theorem C32_expanded_invariant : forall rot irs nir ng nrot ns nt nb m m', let r l x := rot (l * ng + x) in
  is_action nrot ng r -> representatives nrot ng r nir irs -> 0 <= nb ->
  phases (expand_loops rot irs nir ng nrot ns nt nb) m m' ->
  forall s t k, 0 <= s < ns -> 0 <= t < nt -> 0 <= k < nir ->
  (forall l j y c, 0 <= l < nrot -> 0 <= j < nb -> 0 <= y < ng -> 0 <= c < nb -> r l (irs k) <> irs k -> Qeq (cm nt ng nb m s t (r l (irs k)) j y c) 0) ->
  forall a l j y c, 0 <= a < nrot -> 0 <= l < nrot -> 0 <= j < nb -> 0 <= y < ng -> 0 <= c < nb ->
  Qeq (cm nt ng nb m' s t (r a (r l (irs k))) j (r a y) c) (cm nt ng nb m' s t (r l (irs k)) j y c).
Proof.
  intros rot irs nir ng nrot ns nt nb m m' r HA HR Hnb P s t k Hs Ht Hk Ho a l j y c Ha Hl Hj Hy Hc.
  assert (Hir : 0 <= irs k < ng) by (apply HR; auto). set (x := r l (irs k)).
  assert (Hx : exists l, 0 <= l < nrot /\ r l (irs k) = x) by (exists l; auto).
  assert (Hxr : 0 <= x < ng) by (apply (act_in _ _ _ HA); auto).
  etransitivity; [apply (expand_sum rot irs nir ng nrot ns nt nb m m' HA HR Hnb P s t k); auto|].
  { apply (star_move rot irs nir ng nrot HA HR); auto. }
  { apply (act_in _ _ _ HA); auto. }
  symmetry. etransitivity; [apply (expand_sum rot irs nir ng nrot ns nt nb m m' HA HR Hnb P s t k); auto|].
  set (G := fun l' => if r l' (irs k) =? r a x then
        Sum ng (fun n => if r l' n =? r a y then (cm nt ng nb m s t (irs k) j n c / inject_Z (multi rot ng nrot (irs k)))%Q else 0%Q) else 0%Q).
  destruct (act_reindex nrot ng r a G (irs k) HA Ha Hir) as [mul [M1 M2]].
  etransitivity; [|exact M2]. apply Sum_ext. intros l' Hl'. destruct (M1 l' Hl') as [_ E]. unfold G. rewrite E by auto.
  fold (r l' (irs k)).
  assert (B : forall u v, 0 <= u < ng -> 0 <= v < ng -> (r a u =? r a v) = (u =? v)).
  { intros u v Hu Hv. destruct (Z.eqb_spec u v) as [->|N]; [apply Z.eqb_refl|]. apply Z.eqb_neq. intros K. apply N.
    apply (act_inj nrot ng r a u v HA Ha Hu Hv K). }
  rewrite B by (auto; apply (act_in _ _ _ HA); auto). destruct (r l' (irs k) =? x); [|reflexivity].
  apply Sum_ext. intros n Hn. rewrite E by auto. rewrite B by (auto; apply (act_in _ _ _ HA); auto). reflexivity.
Qed.
Print Assumptions C32_expanded_invariant.

(** If the row of an irreducible point already has the symmetry of that point, the expansion keeps it
    and copies it to the images: with the previous theorem the result is the only symmetric matrix with
    the given rows. *)
Theorem C32_expanded_rows : forall rot irs nir ng nrot ns nt nb m m', let r l x := rot (l * ng + x) in
  is_action nrot ng r -> representatives nrot ng r nir irs -> 0 <= nb ->
  phases (expand_loops rot irs nir ng nrot ns nt nb) m m' ->
  forall s t k, 0 <= s < ns -> 0 <= t < nt -> 0 <= k < nir ->
  (forall l j y c, 0 <= l < nrot -> 0 <= j < nb -> 0 <= y < ng -> 0 <= c < nb -> r l (irs k) <> irs k -> Qeq (cm nt ng nb m s t (r l (irs k)) j y c) 0) ->
  (forall a j y c, 0 <= a < nrot -> r a (irs k) = irs k -> 0 <= j < nb -> 0 <= y < ng -> 0 <= c < nb ->
     Qeq (cm nt ng nb m s t (irs k) j (r a y) c) (cm nt ng nb m s t (irs k) j y c)) ->
  forall a j y c, 0 <= a < nrot -> 0 <= j < nb -> 0 <= y < ng -> 0 <= c < nb ->
  Qeq (cm nt ng nb m' s t (r a (irs k)) j (r a y) c) (cm nt ng nb m s t (irs k) j y c).
Proof.
  intros rot irs nir ng nrot ns nt nb m m' r HA HR Hnb P s t k Hs Ht Hk Ho Hinv a j y c Ha Hj Hy Hc.
  assert (Hir : 0 <= irs k < ng) by (apply HR; auto). destruct (act_id _ _ _ HA) as [e [He Hid]].
  pose proof (C32_expanded_invariant rot irs nir ng nrot ns nt nb m m' HA HR Hnb P s t k Hs Ht Hk Ho a e j y c Ha He Hj Hy Hc) as I.
  fold (r e (irs k)) in I. fold (r a (r e (irs k))) in I. fold (r a y) in I. rewrite Hid in I by exact Hir. etransitivity; [exact I|]. clear I.
  etransitivity; [apply (expand_sum rot irs nir ng nrot ns nt nb m m' HA HR Hnb P s t k); auto; exists e; split; [auto|apply (Hid _ Hir)]|].
  pose proof (multi_pos rot ng nrot (irs k) HA Hir) as Mp. set (mu := multi rot ng nrot (irs k)) in *.
  set (v := cm nt ng nb m s t (irs k) j y c).
  transitivity (Sum nrot (fun l => if r l (irs k) =? irs k then (v / inject_Z mu)%Q else 0%Q)).
  - apply Sum_ext. intros l Hl. fold (r l (irs k)). destruct (Z.eqb_spec (r l (irs k)) (irs k)) as [E|]; [|reflexivity].
    destruct (act_inv _ _ _ HA l Hl) as [b [Hb [B1 B2]]].
    assert (Hby : 0 <= r b y < ng) by (apply (act_in _ _ _ HA); auto).
    etransitivity; [apply (Sum_only ng (r b y)); [exact Hby|]|].
    + intros n Hn Nn. fold (r l n). destruct (Z.eqb_spec (r l n) y) as [K|]; [|reflexivity]. exfalso. apply Nn. rewrite <- K, B1 by auto. reflexivity.
    + cbv beta. fold (r l (r b y)). rewrite B2 by auto. rewrite Z.eqb_refl.
      assert (E' : r b (irs k) = irs k) by (rewrite <- E at 1; apply B1; auto).
      rewrite (Hinv b j y c Hb E' Hj Hy Hc). reflexivity.
  - rewrite Sum_count. change (zcount (fun l => r l (irs k) =? irs k) (zrange nrot)) with mu. field. apply inject_nz. lia.
Qed.
Print Assumptions C32_expanded_rows.

(** Only rows of the given stars are written. *)
Theorem C32_other_rows_kept : forall rot irs nir ng nrot ns nt nb m m', let r l x := rot (l * ng + x) in
  is_action nrot ng r -> representatives nrot ng r nir irs -> 0 <= nb ->
  phases (expand_loops rot irs nir ng nrot ns nt nb) m m' ->
  (forall s t x j y c, 0 <= s < ns -> 0 <= t < nt -> 0 <= x < ng -> 0 <= j < nb -> 0 <= y < ng -> 0 <= c < nb ->
    (forall k l, 0 <= k < nir -> 0 <= l < nrot -> r l (irs k) <> x) -> cm nt ng nb m' s t x j y c = cm nt ng nb m s t x j y c) /\
  (forall a, a < 0 \/ ns * nt * ng * nb * ng * nb <= a -> m' a = m a).
Proof.
  intros rot irs nir ng nrot ns nt nb m m' r HA HR Hnb P.
  destruct (expand_result rot irs nir ng nrot ns nt nb m m' HA HR Hnb P) as [_ F].
  assert (Rin : forall k l, 0 <= k < nir -> 0 <= l < nrot -> 0 <= r l (irs k) < ng).
  { intros k l Hk Hl. apply (act_in _ _ _ HA); auto. apply HR; auto. }
  split.
  - intros s t x j y c Hs Ht Hx Hj Hy Hc Hn. apply F. intros s' t' k l j' y' c' Hs' Ht' Hk Hl Hj' Hy' Hc' E.
    apply inj_row in E; auto. destruct E as [E _]. apply flat_inj in E; [|auto|apply (Rin k l Hk Hl)]. apply (Hn k l Hk Hl). symmetry. apply E.
  - intros a Ha. apply F. intros s t k l j y c Hs Ht Hk Hl Hj Hy Hc E. fold (r l (irs k)) in E.
    assert (0 <= ((((s * nt + t) * ng + r l (irs k)) * nb + j) * ng + y) * nb + c < ns * nt * ng * nb * ng * nb); [|lia].
    repeat (apply flat_range; auto).
Qed.
Print Assumptions C32_other_rows_kept.

(** The table of rotated grid points made from a point group is such an action. *)
Theorem C32_grid_is_action : forall D rots rot, pos_mesh D -> is_group rots -> NoDup rots ->
  (forall R, In R rots -> compat D R) -> let n := mesh_size D in
  (forall l x, 0 <= l < Z.of_nat (length rots) -> 0 <= x < n -> rot (l * n + x) = rotate_address_py (get_grid_address_from_index x D) (nth (Z.to_nat l) rots I3) D) ->
  is_action (Z.of_nat (length rots)) n (fun l x => rot (l * n + x)).
Proof.
  intros D rots rot HD [G1 [G2 G3]] N HC n Hrot. set (nr := Z.of_nat (length rots)) in *. set (op := fun l => nth (Z.to_nat l) rots I3).
  assert (Hop : forall l, 0 <= l < nr -> In (op l) rots) by (intros l Hl; apply nth_In; lia).
  assert (Hpos : forall R, In R rots -> exists l, 0 <= l < nr /\ op l = R).
  { intros R HRi. destruct (In_nth rots R I3 HRi) as [i [Hi E]]. exists (Z.of_nat i). split; [lia|]. unfold op. rewrite Nat2Z.id. exact E. }
  assert (Hinj : forall l l', 0 <= l < nr -> 0 <= l' < nr -> op l = op l' -> l = l').
  { intros l l' Hl Hl' E. assert (Z.to_nat l = Z.to_nat l') by (apply (proj1 (NoDup_nth rots I3) N); [lia|lia|exact E]). lia. }
  set (act := fun R x => rotate_grid_index x R D vzero).
  assert (Er : forall l x, 0 <= l < nr -> 0 <= x < n -> rot (l * n + x) = act (op l) x).
  { intros l x Hl Hx. rewrite Hrot by auto. fold (op l). rewrite C57_python_rotation_agrees_partial by auto. unfold act.
    rewrite index_of_address by auto. reflexivity. }
  destruct (C04_rotation_acts_on_grid D vzero HD) as [A1 [_ [A3 [A4 _]]]].
  assert (Ac : forall R S x, In R rots -> In S rots -> 0 <= x < n -> act (mulMM R S) x = act R (act S x)).
  { intros R S x HRi HS Hx. apply A4; auto using shift_ok_zero. }
  assert (Pos : exists pos : M3 -> Z, forall R, In R rots -> 0 <= pos R < nr /\ op (pos R) = R).
  { exists (fun R => match List.find (fun l => if M3_eq_dec (op l) R then true else false) (zrange nr) with Some l => l | None => 0 end).
    intros R HRi. destruct (List.find _ (zrange nr)) as [l|] eqn:E.
    - apply find_some in E. destruct E as [E1 E2]. apply in_zrange in E1. destruct (M3_eq_dec (op l) R); [auto|discriminate].
    - destruct (Hpos R HRi) as [l [Hl El]]. apply in_zrange in Hl. pose proof (find_none _ _ E l Hl) as K. cbv beta in K.
      destruct (M3_eq_dec (op l) R); [discriminate|contradiction]. }
  destruct Pos as [pos Pos]. constructor.
  - intros l x Hl Hx. rewrite Er by auto. apply A1.
  - destruct (Hpos I3 G1) as [e [He E]]. exists e. split; [exact He|]. intros x Hx. rewrite Er, E by auto. apply A3, Hx.
  - exists (fun a b => pos (mulMM (op a) (op b))). split; [|split].
    + intros a b Ha Hb. apply Pos. auto.
    + intros a b x Ha Hb Hx. assert (Hm : In (mulMM (op a) (op b)) rots) by auto. destruct (Pos _ Hm) as [P1 P2].
      rewrite (Er (pos _) x), P2, Ac by auto. rewrite (Er b x) by auto. rewrite Er; auto. apply A1.
    + intros a b b' Ha Hb Hb' E.
      assert (mulMM (op a) (op b) = mulMM (op a) (op b')) as E'.
      { rewrite <- (proj2 (Pos (mulMM (op a) (op b)) ltac:(auto))), <- (proj2 (Pos (mulMM (op a) (op b')) ltac:(auto))). congruence. }
      apply Hinj; auto. destruct (G3 (op a) (Hop a Ha)) as [c [_ [_ Hc]]].
      rewrite <- (mulMM_1_l (op b)), <- (mulMM_1_l (op b')), <- Hc, <- !mulMM_assoc, E'. reflexivity.
  - intros a Ha. destruct (G3 (op a) (Hop a Ha)) as [c [Hc [C1 C2]]]. destruct (Hpos c Hc) as [b [Hb E]]. exists b. split; [exact Hb|].
    split; intros x Hx.
    + rewrite (Er a x) by auto. rewrite Er by (auto; apply A1). rewrite E, <- Ac, C2 by auto. apply A3, Hx.
    + rewrite (Er b x) by auto. rewrite Er by (auto; apply A1). rewrite E, <- Ac, C1 by auto. apply A3, Hx.
Qed.
Print Assumptions C32_grid_is_action.

(** Example: four points on a line, identity and reversal; two bands. *)
Definition x_r (l x : Z) : Z := if l =? 0 then x else (4 - x) mod 4.
Definition x_rot (a : Z) : Z := x_r (a / 4) (a mod 4).
Definition x_irs (k : Z) : Z := k.
Lemma x_r_eq : forall l x, 0 <= l < 2 -> 0 <= x < 4 -> x_rot (l * 4 + x) = x_r l x.
Proof.
  intros l x Hl Hx. unfold x_rot. rewrite <- (Z.div_unique (l * 4 + x) 4 l x) by lia. rewrite <- (Z.mod_unique (l * 4 + x) 4 l x) by lia. reflexivity.
Qed.
Lemma x_cases : forall x, 0 <= x < 4 -> x = 0 \/ x = 1 \/ x = 2 \/ x = 3. Proof. lia. Qed.
Lemma x_r_range : forall l x, 0 <= x < 4 -> 0 <= x_r l x < 4.
Proof. intros l x Hx. unfold x_r. destruct (l =? 0); [auto|apply Z.mod_pos_bound; lia]. Qed.
Example C32_ex_action : is_action 2 4 (fun l x => x_rot (l * 4 + x)).
Proof.
  constructor.
  - intros l x Hl Hx. rewrite x_r_eq by auto. now apply x_r_range.
  - exists 0. split; [lia|]. intros x Hx. rewrite x_r_eq by lia. reflexivity.
  - exists (fun a b => (a + b) mod 2). split; [intros; apply Z.mod_pos_bound; lia|]. split.
    + intros a b x Ha Hb Hx. rewrite (x_r_eq b x) by auto.
      rewrite (x_r_eq a) by (auto using x_r_range). rewrite x_r_eq by (auto; apply Z.mod_pos_bound; lia).
      assert (a = 0 \/ a = 1) as [-> | ->] by lia; assert (b = 0 \/ b = 1) as [-> | ->] by lia;
        destruct (x_cases x Hx) as [-> | [-> | [-> | ->]]]; reflexivity.
    + intros a b b' Ha Hb Hb' E. Z.to_euclidean_division_equations; lia.
  - intros a Ha. exists a. split; [auto|]. split; intros x Hx; rewrite (x_r_eq a x) by auto;
      rewrite x_r_eq by (auto using x_r_range);
      assert (a = 0 \/ a = 1) as [-> | ->] by lia; destruct (x_cases x Hx) as [-> | [-> | [-> | ->]]]; reflexivity.
Qed.
Example C32_ex_reps : representatives 2 4 (fun l x => x_rot (l * 4 + x)) 3 x_irs.
Proof.
  split; [unfold x_irs; lia|]. unfold x_irs. intros k k' l l' Hk Hk' Hl Hl' E. rewrite !x_r_eq in E by lia. unfold x_r in E.
  destruct (l =? 0), (l' =? 0); Z.to_euclidean_division_equations; lia.
Qed.
(** rows 0, 2 symmetric, row 1 arbitrary, row 3 zero *)
Definition x_m : Z -> Q := fun a => inject_Z (nth (Z.to_nat a) [1; 2; 3; 2;  5; 6; 7; 8;  4; 3; 9; 3;  0; 0; 0; 0] 0).
Example C32_ex : let m' := fold_left (fun m ps => run_seq Z.eq_dec ps m) (expand_loops x_rot x_irs 3 4 2 1 1 1) x_m in
  map (fun a => Qred (m' a)) (zrange 16) = map inject_Z [1; 2; 3; 2;  5; 6; 7; 8;  4; 3; 9; 3;  5; 8; 7; 6].
Proof. vm_compute. reflexivity. Qed.

(* ------------------------------------------------------------------ C63 *)
Lemma expand_values_result : forall rot irs nir ng nrot w f m, let r l x := rot (l * ng + x) in
  is_action nrot ng r -> representatives nrot ng r nir irs ->
  (forall l v v' c, (forall i, 0 <= i < w -> v i = v' i) -> 0 <= c < w -> f l v c = f l v' c) ->
  let m' := expand_values rot irs nir ng nrot w f m in
  (forall k x c, 0 <= k < nir -> (exists l, 0 <= l < nrot /\ r l (irs k) = x) -> 0 <= c < w ->
    Qeq (m' (x * w + c)) ((if x =? irs k then 0%Q else m (x * w + c)) +
      Sum nrot (fun l => if r l (irs k) =? x then (f l (fun i => m (irs k * w + i)%Z) c / inject_Z (multi rot ng nrot (irs k)))%Q else 0%Q))) /\
  (forall a, (forall k l c, 0 <= k < nir -> 0 <= l < nrot -> 0 <= c < w -> a <> r l (irs k) * w + c) -> m' a = m a).
Proof.
  intros rot irs nir ng nrot w f m r HA HR Hf m'.
  set (st := fun k (m : Z -> Q) => let ir := irs k in
    let copy := fun c => m (ir * w + c) in
    let m1 := fold_left (fun m c => upd m (ir * w + c) 0%Q) (zrange w) m in
    fold_left (fun m l => fold_left (fun m c =>
        upd m (rot (l * ng + ir) * w + c) (m (rot (l * ng + ir) * w + c)%Z + f l copy c / inject_Z (multi rot ng nrot ir))%Q)
      (zrange w) m) (zrange nrot) m1).
  change m' with (fold_left (fun m k => st k m) (zrange nir) m).
  destruct (act_id _ _ _ HA) as [e [He Hid]]. destruct HR as [HR1 HR2].
  set (S := fun k a => exists l c, 0 <= l < nrot /\ 0 <= c < w /\ a = r l (irs k) * w + c).
  assert (Zr : forall ir l (m : Z -> Q) a, fold_left (fun m c => upd m (ir * w + c) 0%Q) l m a = if in_dec Z.eq_dec a (map (fun c => ir * w + c) l) then 0%Q else m a).
  { intros ir l u a. rewrite <- zeroed, fold_map. revert u. induction l as [|c l IH]; intros u; cbn [fold_left]; [reflexivity|].
    rewrite IH. clear IH. revert u. assert (W : forall (u u' : Z -> Q), (forall b, u b = u' b) -> fold_left (fun m x => wr Z.eq_dec m (ir * w + x) 0%Q) l u a = fold_left (fun m x => wr Z.eq_dec m (ir * w + x) 0%Q) l u' a).
    { clear. induction l as [|d l IH]; intros u u' E; cbn [fold_left]; [apply E|]. apply IH. intros b. unfold wr. destruct (Z.eq_dec b (ir * w + d)); auto. }
    intros u. apply W. intros b. symmetry. apply wr_upd. }
  assert (Zin : forall ir x c, 0 <= c < w -> forall (u : Z -> Q), (if in_dec Z.eq_dec (x * w + c) (map (fun c => ir * w + c) (zrange w)) then 0%Q else u (x * w + c)) = if x =? ir then 0%Q else u (x * w + c)).
  { intros ir x c Hc u. destruct (in_dec Z.eq_dec _ _) as [Hi|Hi]; destruct (Z.eqb_spec x ir) as [E|N]; auto; exfalso.
    - apply in_map_iff in Hi. destruct Hi as [c' [E Hc']]. apply in_zrange in Hc'. apply flat_inj in E; auto. destruct E. apply N. congruence.
    - apply Hi. apply in_map_iff. exists c. split; [congruence|now apply in_zrange]. }
  assert (Ex : forall k m x c, 0 <= k < nir -> 0 <= x -> 0 <= c < w -> Qeq (st k m (x * w + c)) ((if x =? irs k then 0%Q else m (x * w + c)) +
      Sum nrot (fun l => if r l (irs k) =? x then (f l (fun i => m (irs k * w + i)%Z) c / inject_Z (multi rot ng nrot (irs k)))%Q else 0%Q))).
  { intros k u x c Hk Hx Hc. unfold st. set (ir := irs k). set (copy := fun c => u (ir * w + c)). set (mu := inject_Z (multi rot ng nrot ir)).
    pose proof (addsf_for _ (zrange nrot) (fun m l => fold_left (fun m c => upd m (rot (l * ng + ir) * w + c) (m (rot (l * ng + ir) * w + c)%Z + f l copy c / mu)%Q) (zrange w) m)
      (fun l z => Sum w (fun c => if rot (l * ng + ir) * w + c =? z then (f l copy c / mu)%Q else 0%Q))) as A.
    etransitivity; [apply A|].
    { intros l _. apply (addsf_for _ (zrange w) (fun m c => upd m (rot (l * ng + ir) * w + c) (m (rot (l * ng + ir) * w + c)%Z + f l copy c / mu)%Q)
        (fun c z => if rot (l * ng + ir) * w + c =? z then (f l copy c / mu)%Q else 0%Q)). intros c' _. apply addsf_one. }
    apply Qplus_comp; [rewrite Zr, Zin by auto; reflexivity|]. apply Sum_ext. intros l Hl. fold (r l ir).
    etransitivity; [apply (Sum_only w c); [exact Hc|]|].
    - intros c' Hc' Nc. destruct (Z.eqb_spec (r l ir * w + c') (x * w + c)) as [E|]; [|reflexivity]. apply flat_inj in E; auto. tauto.
    - cbv beta. destruct (Z.eqb_spec (r l ir) x) as [->|N]; [rewrite Z.eqb_refl; reflexivity|].
      destruct (Z.eqb_spec (r l ir * w + c) (x * w + c)) as [E|]; [|reflexivity]. apply flat_inj in E; auto. tauto. }
  assert (Loc : local S (zrange nir) st).
  { intros k Hk. apply in_zrange in Hk. specialize (HR1 k Hk).
    assert (Irow : forall c, 0 <= c < w -> S k (irs k * w + c)) by (intros c Hc; exists e, c; rewrite Hid by auto; auto).
    assert (G : forall (copy copy' : Z -> Q) mu, (forall l c, 0 <= c < w -> f l copy c = f l copy' c) -> forall lr, (forall l, In l lr -> 0 <= l < nrot) ->
      forall (u u' : Z -> Q), (forall a, S k a -> u a = u' a) ->
      let F cp := fun u0 : Z -> Q => fold_left (fun m l => fold_left (fun m c => upd m (rot (l * ng + irs k) * w + c) (m (rot (l * ng + irs k) * w + c)%Z + f l cp c / mu)%Q) (zrange w) m) lr u0 in
      (forall a, S k a -> F copy u a = F copy' u' a) /\ forall a, ~ S k a -> F copy u a = u a).
    { intros copy copy' mu Hcp. induction lr as [|l lr IH]; intros Hlr u u' E F; [split; [exact E|reflexivity]|].
      assert (Hl : 0 <= l < nrot) by (apply Hlr; now left).
      assert (G2 : forall lc, (forall c, In c lc -> 0 <= c < w) -> forall (u u' : Z -> Q), (forall a, S k a -> u a = u' a) ->
        let F2 cp := fun u0 : Z -> Q => fold_left (fun m c => upd m (rot (l * ng + irs k) * w + c) (m (rot (l * ng + irs k) * w + c)%Z + f l cp c / mu)%Q) lc u0 in
        (forall a, S k a -> F2 copy u a = F2 copy' u' a) /\ forall a, ~ S k a -> F2 copy u a = u a).
      { induction lc as [|c lc IHc]; intros Hlc v v' Ev F2; [split; [exact Ev|reflexivity]|].
        assert (Hc : 0 <= c < w) by (apply Hlc; now left). assert (Sc : S k (rot (l * ng + irs k) * w + c)) by (exists l, c; auto).
        set (v1 := upd v (rot (l * ng + irs k) * w + c) (v (rot (l * ng + irs k) * w + c)%Z + f l copy c / mu)%Q).
        set (v1' := upd v' (rot (l * ng + irs k) * w + c) (v' (rot (l * ng + irs k) * w + c)%Z + f l copy' c / mu)%Q).
        assert (E1 : forall a, S k a -> v1 a = v1' a).
        { intros a Ha. unfold v1, v1', upd. rewrite (Ev _ Sc), (Hcp l c Hc), (Ev a Ha). reflexivity. }
        destruct (IHc (fun c' Hc' => Hlc c' (or_intror Hc')) v1 v1' E1) as [I1 I2]. unfold F2. cbn [fold_left]. fold v1 v1'. split; [exact I1|].
        intros a Ha. etransitivity; [apply (I2 a Ha)|]. unfold v1. apply upd_other. intros ->. contradiction. }
      destruct (G2 (zrange w) (fun c Hc => proj1 (in_zrange w c) Hc) u u' E) as [J1 J2].
      destruct (IH (fun l' Hl' => Hlr l' (or_intror Hl')) _ _ J1) as [I1 I2]. unfold F. cbn [fold_left]. split; [exact I1|].
      intros a Ha. etransitivity; [apply (I2 a Ha)|]. apply (J2 a Ha). }
    assert (Zs : forall (u u' : Z -> Q), (forall a, S k a -> u a = u' a) -> forall a, S k a ->
      fold_left (fun m c => upd m (irs k * w + c) 0%Q) (zrange w) u a = fold_left (fun m c => upd m (irs k * w + c) 0%Q) (zrange w) u' a).
    { intros u u' E a Ha. rewrite !Zr. destruct (in_dec _ _ _); auto. }
    split.
    - intros u a Ha. unfold st.
      destruct (G (fun c => u (irs k * w + c)) (fun c => u (irs k * w + c)) (inject_Z (multi rot ng nrot (irs k))) (fun _ _ _ => eq_refl) (zrange nrot)
        (fun l Hl => proj1 (in_zrange nrot l) Hl) (fold_left (fun m c => upd m (irs k * w + c) 0%Q) (zrange w) u)
        (fold_left (fun m c => upd m (irs k * w + c) 0%Q) (zrange w) u) (fun _ _ => eq_refl)) as [_ I].
      etransitivity; [apply (I a Ha)|]. rewrite Zr. destruct (in_dec _ _ _) as [Hi|]; [|reflexivity].
      exfalso. apply Ha. apply in_map_iff in Hi. destruct Hi as [c [<- Hc]]. apply in_zrange in Hc. auto.
    - intros u u' E a Ha. unfold st.
      destruct (G (fun c => u (irs k * w + c)) (fun c => u' (irs k * w + c)) (inject_Z (multi rot ng nrot (irs k)))) with (lr := zrange nrot)
        (u := fold_left (fun m c => upd m (irs k * w + c) 0%Q) (zrange w) u) (u' := fold_left (fun m c => upd m (irs k * w + c) 0%Q) (zrange w) u') as [I _].
      + intros l c Hc. apply Hf; auto.
      + intros l. apply in_zrange.
      + apply Zs, E.
      + apply (I a Ha). }
  destruct (fold_indep S st (zrange nir) m Loc (NoDup_zrange nir)) as [Q1 Q2].
  { intros x y a Hx Hy [l [c [Hl [Hc ->]]]] [l' [c' [Hl' [Hc' E]]]]. apply in_zrange in Hx, Hy. apply flat_inj in E; auto. destruct E as [E _]. eauto. }
  split.
  - intros k x c Hk Hx Hc. assert (Hin : In k (zrange nir)) by now apply in_zrange.
    rewrite (Q1 k (x * w + c) Hin) by (destruct Hx as [l [Hl <-]]; exists l, c; auto). apply Ex; auto.
    destruct Hx as [l [Hl <-]]. apply (act_in _ _ _ HA); auto.
  - intros a Ha. apply Q2. intros k Hk [l [c [Hl [Hc ->]]]]. apply in_zrange in Hk. apply (Ha k l c); auto.
Qed.

(** Scalars (heat capacity, linewidth): every image gets the value of the irreducible point. *)
Theorem C63_expanded_scalars : forall rot irs nir ng nrot w m, let r l x := rot (l * ng + x) in
  is_action nrot ng r -> representatives nrot ng r nir irs ->
  (forall k l c, 0 <= k < nir -> 0 <= l < nrot -> 0 <= c < w -> r l (irs k) <> irs k -> Qeq (m (r l (irs k) * w + c)) 0) ->
  let m' := expand_values rot irs nir ng nrot w (fun _ v => v) m in
  forall k l c, 0 <= k < nir -> 0 <= l < nrot -> 0 <= c < w -> Qeq (m' (r l (irs k) * w + c)) (m (irs k * w + c)).
Proof.
  intros rot irs nir ng nrot w m r HA HR Ho m' k l c Hk Hl Hc.
  destruct (expand_values_result rot irs nir ng nrot w (fun _ v => v) m HA HR) as [F _]; [intros l' v v' c' E Hc'; auto|].
  assert (Hir : 0 <= irs k < ng) by (apply HR; auto). pose proof (multi_pos rot ng nrot (irs k) HA Hir) as Mp.
  assert (Hx : exists l', 0 <= l' < nrot /\ r l' (irs k) = r l (irs k)) by (exists l; auto).
  etransitivity; [apply (F k (r l (irs k)) c Hk Hx Hc)|].
  assert (E : Qeq (if r l (irs k) =? irs k then 0%Q else m (r l (irs k) * w + c)) 0) by (destruct (Z.eqb_spec (r l (irs k)) (irs k)); [reflexivity|auto]).
  etransitivity; [apply Qplus_comp; [exact E|apply Sum_count]|].
  pose proof (star_count rot ng nrot (irs k) (r l (irs k)) HA Hir Hx) as S. cbv zeta in S. rewrite S.
  cbv beta. rewrite Qplus_0_l. field. apply inject_nz. lia.
Qed.
Print Assumptions C63_expanded_scalars.

(** Vectors (group velocity, three components per band): the expanded vectors rotate with the points. *)
Definition rotv (cart : Z -> Z -> Z -> Q) (l : Z) (v : Z -> Q) (c : Z) : Q :=
  (cart l (c mod 3) 0%Z * v (c / 3 * 3 + 0)%Z + cart l (c mod 3) 1%Z * v (c / 3 * 3 + 1)%Z + cart l (c mod 3) 2%Z * v (c / 3 * 3 + 2)%Z)%Q.
Theorem C63_expanded_vectors : forall rot irs nir ng nrot nb cart mul m, let r l x := rot (l * ng + x) in
  is_action nrot ng r -> representatives nrot ng r nir irs ->
  (forall a b, 0 <= a < nrot -> 0 <= b < nrot -> 0 <= mul a b < nrot) ->
  (forall a b x, 0 <= a < nrot -> 0 <= b < nrot -> 0 <= x < ng -> r (mul a b) x = r a (r b x)) ->
  (forall a b b', 0 <= a < nrot -> 0 <= b < nrot -> 0 <= b' < nrot -> mul a b = mul a b' -> b = b') ->
  (forall a b i j, 0 <= a < nrot -> 0 <= b < nrot -> 0 <= i < 3 -> 0 <= j < 3 ->
     Qeq (cart (mul a b) i j) (cart a i 0%Z * cart b 0%Z j + cart a i 1%Z * cart b 1%Z j + cart a i 2%Z * cart b 2%Z j)%Q) ->
  (forall k l c, 0 <= k < nir -> 0 <= l < nrot -> 0 <= c < nb * 3 -> r l (irs k) <> irs k -> Qeq (m (r l (irs k) * (nb * 3) + c)) 0) ->
  let gv := expand_values rot irs nir ng nrot (nb * 3) (rotv cart) m in
  let at_ x b i := x * (nb * 3) + (b * 3 + i) in
  forall k l a b i, 0 <= k < nir -> 0 <= l < nrot -> 0 <= a < nrot -> 0 <= b < nb -> 0 <= i < 3 -> let x := r l (irs k) in
  Qeq (gv (at_ (r a x) b i)) (cart a i 0%Z * gv (at_ x b 0%Z) + cart a i 1%Z * gv (at_ x b 1%Z) + cart a i 2%Z * gv (at_ x b 2%Z))%Q.
Proof.
  intros rot irs nir ng nrot nb cart mul m r HA HR U1 U2 U3 U4 Ho gv at_ k l a b i Hk Hl Ha Hb Hi x.
  destruct (expand_values_result rot irs nir ng nrot (nb * 3) (rotv cart) m HA HR) as [F _].
  { intros l' v v' c E Hc. unfold rotv. assert (0 <= c / 3 < nb) by (split; [apply Z.div_pos; lia|apply Z.div_lt_upper_bound; lia]).
    rewrite !E by lia. reflexivity. }
  assert (Hir : 0 <= irs k < ng) by (apply HR; auto). set (mu := inject_Z (multi rot ng nrot (irs k))) in *.
  set (v := fun b j => m (irs k * (nb * 3) + (b * 3 + j))).
  assert (G : forall x b i, (exists l', 0 <= l' < nrot /\ r l' (irs k) = x) -> 0 <= b < nb -> 0 <= i < 3 ->
    Qeq (gv (at_ x b i)) (Sum nrot (fun l => if r l (irs k) =? x then ((cart l i 0%Z * v b 0%Z + cart l i 1%Z * v b 1%Z + cart l i 2%Z * v b 2%Z) / mu)%Q else 0%Q))).
  { intros x' b' i' Hx' Hb' Hi'. etransitivity; [apply (F k x' (b' * 3 + i') Hk Hx'); lia|].
    assert (E : Qeq (if x' =? irs k then 0%Q else m (x' * (nb * 3) + (b' * 3 + i'))) 0).
    { destruct (Z.eqb_spec x' (irs k)) as [|N]; [reflexivity|]. destruct Hx' as [l' [Hl' <-]]. apply Ho; auto. lia. }
    etransitivity; [apply Qplus_comp; [exact E|reflexivity]|]. rewrite Qplus_0_l. apply Sum_ext. intros l' _. fold (r l' (irs k)).
    destruct (r l' (irs k) =? x'); [|reflexivity]. unfold rotv.
    rewrite <- (Z.div_unique (b' * 3 + i') 3 b' i') by lia. rewrite <- (Z.mod_unique (b' * 3 + i') 3 b' i') by lia. reflexivity. }
  assert (Hx : exists l', 0 <= l' < nrot /\ r l' (irs k) = x) by (exists l; auto). assert (Hxr : 0 <= x < ng) by (apply (act_in _ _ _ HA); auto).
  assert (Hax : exists l', 0 <= l' < nrot /\ r l' (irs k) = r a x) by (exists (mul a l); split; [auto|apply U2; auto]).
  rewrite (G (r a x) b i Hax Hb Hi), !(G x b) by (auto; lia).
  set (H := fun l => if r l (irs k) =? r a x then ((cart l i 0%Z * v b 0%Z + cart l i 1%Z * v b 1%Z + cart l i 2%Z * v b 2%Z) / mu)%Q else 0%Q).
  transitivity (Sum nrot (fun l => H (mul a l))).
  { symmetry. unfold Sum. apply (qs_reindex nrot (mul a)); [auto|]. intros b1 b2 H1 H2 E. apply (U3 a b1 b2); auto. }
  rewrite <- !Sum_scale, <- !Sum_add. apply Sum_ext. intros l' Hl'. unfold H. rewrite U2 by auto. fold (r l' (irs k)).
  assert (Hr' : 0 <= r l' (irs k) < ng) by (apply (act_in _ _ _ HA); auto).
  destruct (Z.eqb_spec (r l' (irs k)) x) as [E|N].
  - rewrite E, Z.eqb_refl. rewrite !U4 by (auto; lia). unfold Qdiv. ring.
  - destruct (Z.eqb_spec (r a (r l' (irs k))) (r a x)) as [K|]; [|ring]. exfalso. apply N. apply (act_inj nrot ng r a _ _ HA Ha Hr' Hxr K).
Qed.
Print Assumptions C63_expanded_vectors.
(** one band with velocity (3) at point 1, reversal: -3 at point 3 *)
Definition x_cart (l i j : Z) : Q := if i =? j then (if l =? 0 then 1 else -1)%Q else 0%Q.
Example C63_ex : map (fun a => Qred (expand_values x_rot x_irs 3 4 2 3 (rotv x_cart) (fun a => if a =? 3 then 3 else if a =? 0 then 5 else 0)%Q a)) (zrange 12)
  = map inject_Z [0; 0; 0; 3; 0; 0; 0; 0; 0; -3; 0; 0].
Proof. vm_compute. reflexivity. Qed.
Example C63_ex_scalar : map (fun a => Qred (expand_values x_rot x_irs 3 4 2 1 (fun _ v => v) (fun a => if a <? 3 then inject_Z (7 + a) else 0)%Q a)) (zrange 4)
  = map inject_Z [7; 8; 9; 8].
Proof. vm_compute. reflexivity. Qed.

(* ------------------------------------------------------------------ C64 *)
(** The warning "Symmetry of grid is broken" is never printed for the images of a group, and the
    number of arms times the number of operations keeping the point is the order of the group. [iota]
    is the numbering (BZ grid) in which the images are given. *)
Theorem C64_weights : forall rot ng nrot bound ir iota tbl i, let r l x := rot (l * ng + x) in
  is_action nrot ng r -> 0 <= ir < ng ->
  (forall x y, 0 <= x < ng -> 0 <= y < ng -> iota x = iota y -> x = y) -> (forall x, 0 <= x < ng -> 0 <= iota x < bound) ->
  (forall j, 0 <= j < nrot -> tbl (i * nrot + j) = iota (r j ir)) ->
  sym_broken tbl nrot bound i = false /\
  Z.of_nat (length (arms tbl nrot bound i)) * zcount (fun l => r l ir =? ir) (zrange nrot) = nrot.
Proof.
  intros rot ng nrot bound ir iota tbl i r HA Hir Hinj Hb Ht. set (mu := multi rot ng nrot ir).
  pose proof (multi_pos rot ng nrot ir HA Hir) as Mp. fold mu in Mp.
  set (cnt := fun gp => zcount (fun j => tbl (i * nrot + j) =? gp) (zrange nrot)).
  assert (Rin : forall j, 0 <= j < nrot -> 0 <= r j ir < ng) by (intros j Hj; apply (act_in _ _ _ HA); auto).
  assert (C : forall gp, In gp (arms tbl nrot bound i) -> cnt gp = mu).
  { intros gp Hgp. unfold arms in Hgp. apply filter_In in Hgp. destruct Hgp as [_ Hgp]. apply existsb_exists in Hgp.
    destruct Hgp as [j [Hj E]]. apply in_zrange in Hj. apply Z.eqb_eq in E. rewrite Ht in E by auto.
    unfold mu. rewrite <- (star_count rot ng nrot ir (r j ir) HA Hir) by (exists j; auto). unfold cnt. apply zcount_ext_in. intros l Hl. apply in_zrange in Hl.
    rewrite Ht, <- E by auto. fold (r l ir). destruct (Z.eqb_spec (r l ir) (r j ir)) as [->|N]; [apply Z.eqb_refl|]. apply Z.eqb_neq. intros K. apply N. auto. }
  assert (T : zsum (map cnt (zrange bound)) = nrot).
  { unfold cnt. transitivity (zsum (map (fun gp => zsum (map (fun j => if tbl (i * nrot + j) =? gp then 1 else 0) (zrange nrot))) (zrange bound))).
    - apply zsum_map_ext_in. intros gp _. apply zcount_sum.
    - rewrite zsum_swap. transitivity (zsum (map (fun _ : Z => 1) (zrange nrot))).
      + apply zsum_map_ext_in. intros j Hj. apply in_zrange in Hj. rewrite <- zcount_sum.
        rewrite <- (zcount_eq_NoDup (zrange bound) (tbl (i * nrot + j))); [|apply NoDup_zrange|apply in_zrange; rewrite Ht by auto; auto].
        apply zcount_ext_in. intros gp _. apply Z.eqb_sym.
      + rewrite zsum_map_const, length_zrange. destruct (act_id _ _ _ HA) as [e [He _]]. lia. }
  assert (L : Z.of_nat (length (arms tbl nrot bound i)) * mu = nrot).
  { transitivity (zsum (map cnt (zrange bound))); [|exact T]. rewrite Z.mul_comm, <- (zsum_map_const _ mu (arms tbl nrot bound i)). unfold arms in *. revert C.
    generalize (zrange bound) as L0. induction L0 as [|gp L0 IH]; intros C; [reflexivity|]. cbn [filter map] in *. rewrite zsum_cons.
    destruct (existsb (fun j => tbl (i * nrot + j) =? gp) (zrange nrot)) eqn:E.
    - cbn [map]. rewrite zsum_cons, (C gp (or_introl eq_refl)). rewrite IH; [lia|]. intros g Hg. apply C. now right.
    - rewrite IH by exact C. assert (cnt gp = 0) as ->; [|lia]. unfold cnt.
      pose proof (zcount_nonneg _ (fun j => tbl (i * nrot + j) =? gp) (zrange nrot)). destruct (Z.eq_dec (zcount (fun j => tbl (i * nrot + j) =? gp) (zrange nrot)) 0) as [|Np]; [auto|].
      exfalso. assert (K : 0 < zcount (fun j => tbl (i * nrot + j) =? gp) (zrange nrot)) by lia. apply zcount_pos in K.
      assert (existsb (fun j => tbl (i * nrot + j) =? gp) (zrange nrot) = true) by (apply existsb_exists; exact K). congruence. }
  split; [|exact L]. unfold sym_broken. apply not_true_is_false. intros K. apply existsb_exists in K. destruct K as [gp [Hgp K]].
  apply negb_true_iff, Z.eqb_neq in K. apply K. fold (cnt gp). rewrite C by exact Hgp.
  apply (Z.div_unique_exact _ _ mu); [|lia]. destruct (arms tbl nrot bound i); [contradiction|]. cbn [length]. lia.
Qed.
Print Assumptions C64_weights.
Example C64_ex : (arms (fun a => 10 + x_rot (a * 4 + 1)) 2 20 0, sym_broken (fun a => 10 + x_rot (a * 4 + 1)) 2 20 0) = ([11; 13], false).
Proof. vm_compute. reflexivity. Qed.
