(** Third-order force constants from exact data are exact (C126). *)
From Coq Require Import ZArith QArith List Bool Lia Lqa Permutation.
From Verif Require Import Base BaseProofs Par Par2 Fc3Model Fc3Spec Fc3Proofs Fc3Compact Fc3Transpose Fc3Trans Fc3Dist Fc3DistProps FdfModel.
Import ListNotations.
Open Scope Z_scope.

(** ** spec: a crystal with second- and third-order force constants *)
(** second-order force constants of the crystal whose atom [a] is displaced by [u] *)
Definition effective (P2 : fcs2) (P3 : Z -> Z -> Z -> Z * Z * Z -> Q) (a : Z) (u : vec3) (b c i j : Z) : Q := (P2 b c i j + sum3 (fun x => u x * P3 a b c (x, i, j)))%Q.
(** forces that are linear in the displacement [u] of the atom with the row [Phi] *)
Definition linear_forces (n : Z) (Phi : Z -> Z -> Z -> Q) (u : vec3) (f : forces) : Prop :=
  forall c j, 0 <= c < n -> 0 <= j < 3 -> Qeq (f c j) (- sum3 (fun i => u i * Phi c i j)%Q)%Q.
Definition same_row (n : Z) (A B : Z -> Z -> Z -> Q) : Prop := forall c i j, 0 <= c < n -> 0 <= i < 3 -> 0 <= j < 3 -> Qeq (A c i j) (B c i j).
Definition same2 (n : Z) (A B : fcs2) : Prop := forall b, 0 <= b < n -> same_row n (A b) (B b).
Definition left_inverse (W : Z -> Z -> Q) (rows : list vec3) : Prop := forall k k', 0 <= k < 3 -> 0 <= k' < 3 ->
  Qeq (qsum (map (fun nn => W k nn * nth (Z.to_nat nn) rows (fun _ => 0%Q) k')%Q (zrange (Z.of_nat (length rows))))) (if k =? k' then 1 else 0).

Lemma nth_flat : forall X Y (g : X -> list Y) len dx dy l k, (0 < len)%nat -> (forall x, length (g x) = len) -> (k < len * length l)%nat ->
  nth k (flat_map g l) dy = nth (k mod len) (g (nth (k / len) l dx)) dy.
Proof.
  intros X Y g len dx dy. induction l as [|x l IH]; intros k Hl Hg Hk; cbn [length] in Hk; [lia|]. cbn [flat_map].
  destruct (lt_dec k len) as [L|L].
  - rewrite app_nth1 by (rewrite Hg; exact L). rewrite Nat.div_small, Nat.mod_small by exact L. reflexivity.
  - rewrite app_nth2 by (rewrite Hg; lia). rewrite Hg. rewrite IH by (auto; lia).
    replace k with ((k - len) + 1 * len)%nat at 3 4 by lia. rewrite Nat.div_add, Nat.mod_add by lia. rewrite Nat.add_1_r. reflexivity.
Qed.
Lemma block_spec : forall n p v m b c i j k, 0 <= b < n -> 0 <= c < n -> In (i, j, k) comps -> raw n (set_block n p v m) p b c (i, j, k) = v b c i j k.
Proof.
  intros n p v m b c i j k Hb Hc Hq. apply in_comps in Hq. unfold raw, set_block, off.
  replace ((p * n * n + b * n + c) * 27 + (i * 9 + j * 3 + k) - p * (n * n * 27)) with ((b * n + c) * 27 + (i * 9 + j * 3 + k)) by ring.
  set (e := (b * n + c) * 27 + (i * 9 + j * 3 + k)).
  assert (H1 : e / 27 = b * n + c) by (symmetry; apply Z.div_unique with (i * 9 + j * 3 + k); unfold e; lia).
  assert (H2 : e mod 27 = i * 9 + j * 3 + k) by (symmetry; apply Z.mod_unique with (b * n + c); unfold e; lia).
  assert (H3 : e mod 9 = j * 3 + k) by (symmetry; apply Z.mod_unique with ((b * n + c) * 3 + i); unfold e; lia).
  assert (H4 : e mod 3 = k) by (symmetry; apply Z.mod_unique with ((b * n + c) * 9 + i * 3 + j); unfold e; lia).
  rewrite H1, H2, H3, H4.
  assert (0 <= e < n * n * 27) by (unfold e; nia).
  destruct (Z.leb_spec 0 e); [|lia]. destruct (Z.ltb_spec e (n * n * 27)); [|lia]. cbn [andb].
  rewrite <- (Z.div_unique (b * n + c) n b c), <- (Z.mod_unique (b * n + c) n b c) by lia.
  rewrite <- (Z.div_unique (i * 9 + j * 3 + k) 9 i (j * 3 + k)), <- (Z.div_unique (j * 3 + k) 3 j k) by lia. reflexivity.
Qed.
Lemma block_other : forall n p p' v m b c q, p <> p' -> 0 <= b < n -> 0 <= c < n -> In q comps -> raw n (set_block n p v m) p' b c q = raw n m p' b c q.
Proof.
  intros n p p' v m b c q Hp Hb Hc Hq. pose proof (off_range q Hq) as O. unfold raw, set_block.
  set (a := (p' * n * n + b * n + c) * 27 + off q). destruct (_ && _) eqn:E; [|reflexivity]. exfalso.
  apply andb_true_iff in E. destruct E as [E1 E2]. apply Z.leb_le in E1. apply Z.ltb_lt in E2. apply Hp.
  assert (0 <= (b * n + c) * 27 + off q < n * n * 27) by nia.
  assert (0 < n * n * 27) by nia. replace (a - p * (n * n * 27)) with ((p' - p) * (n * n * 27) + ((b * n + c) * 27 + off q)) in E1, E2 by (unfold a; ring).
  nia.
Qed.

Section F.
Variable R : Type.
Variable cart : R -> Z -> Z -> Q.
Variable n : Z.
Variable solve : Z -> list vec3 -> list forces -> list R -> Z -> Z -> Z -> Q.
Variable distribute : fcs2 -> list Z -> list R -> Z -> fcs2.
Variable site : Z -> list R.
Variable reduce : list R -> vec3 -> list R.
Variable bond : list R -> Z -> Z -> list R.
Variable rmap : R -> Z -> Z -> Z.
Variable pinv : list vec3 -> Z -> Z -> Q.
(** what phonopy's functions promise: [enough us syms], the displacements and symmetries determine a row; [fits syms a b Phi], the row of atom b has the symmetries of the
    pair (a, b); [reaches l syms a], rows of the atoms of l give all rows; [fits2 syms a Phi], the force constants have the symmetries around atom a *)
Variable enough : list vec3 -> list R -> Prop.
Variable fits : list R -> Z -> (Z -> Z -> Z -> Q) -> Prop.
Variable reaches : list Z -> list R -> Z -> Prop.
Variable fits2 : list R -> Z -> fcs2 -> Prop.
Definition exact_solver : Prop := forall b us fs syms Phi, 0 <= b < n -> enough us syms -> fits syms b Phi -> Forall2 (linear_forces n Phi) us fs -> same_row n (solve b us fs syms) Phi.
Definition exact_distribution : Prop := forall fc2 l syms a Phi, reaches l syms a -> fits2 syms a Phi ->
  (forall b, In b l -> same_row n (fc2 b) (Phi b)) -> same2 n (distribute fc2 l syms a) Phi.
Variables (P2 : fcs2) (P3 : Z -> Z -> Z -> Z * Z * Z -> Q).
(** the entry of the dataset of one first displacement: forces of all pairs linear in the second displacement *)
Definition pairs_ok (f : first) : Prop :=
  let a := d_num f in let red := reduce (site a) (d_disp f) in let E := effective P2 P3 a (d_disp f) in
  (forall s, In s (d_seconds f) -> 0 <= s_num s < n /\ linear_forces n (E (s_num s)) (s_disp s) (fun c i => (s_forces s c i - d_forces f c i)%Q)) /\
  (forall b, In b (map s_num (d_seconds f)) -> enough (map s_disp (filter (fun s => s_num s =? b) (d_seconds f))) (bond red a b) /\ fits (bond red a b) b (E b)) /\
  reaches (unique n (map s_num (d_seconds f))) red a /\ fits2 red a E.
Definition delta_ok (d : fcs2) (f : first) : Prop := forall b c i j, 0 <= b < n -> 0 <= c < n -> 0 <= i < 3 -> 0 <= j < 3 -> Qeq (d b c i j) (sum3 (fun x => d_disp f x * P3 (d_num f) b c (x, i, j))%Q).
Definition entry_ok (f : first) : Prop := match d_delta f with Some d => delta_ok d f | None => pairs_ok f end.

Lemma rows_set : forall (g : Z -> Z -> Z -> Z -> Q) l fc2 b c i j,
  fold_left (fun fc2 b => set_row fc2 b (g b)) l fc2 b c i j = if memb l b then g b c i j else fc2 b c i j.
Proof.
  intros g. induction l as [|x l IH]; intros fc2 b c i j; cbn [fold_left memb existsb]; [reflexivity|]. rewrite IH. unfold set_row. fold (memb l b).
  destruct (memb l b); [now rewrite orb_true_r|]. rewrite orb_false_r. destruct (Z.eqb_spec b x) as [->|]; reflexivity.
Qed.
Lemma forall2_map : forall X Y V (P : Y -> V -> Prop) (f : X -> Y) (g : X -> V) l, (forall x, In x l -> P (f x) (g x)) -> Forall2 P (map f l) (map g l).
Proof. intros X Y V P f g. induction l as [|x l IH]; intros H; cbn [map]; constructor; [apply H; now left|apply IH; intros; apply H; now right]. Qed.

Lemma constrained_exact : forall f, exact_solver -> exact_distribution -> pairs_ok f ->
  same2 n (constrained_fc2 R n solve distribute bond f (reduce (site (d_num f)) (d_disp f))) (effective P2 P3 (d_num f) (d_disp f)).
Proof.
  intros f HS HD [H1 [H2 [H3 H4]]]. unfold constrained_fc2. apply HD; [exact H3|exact H4|]. intros b Hb c i j Hc Hi Hj. 
  set (red := reduce (site (d_num f)) (d_disp f)) in *.
  rewrite (rows_set (fun b => solve b (map s_disp (filter (fun s => s_num s =? b) (d_seconds f)))
     (map (fun s c i => (s_forces s c i - d_forces f c i)%Q) (filter (fun s => s_num s =? b) (d_seconds f))) (bond red (d_num f) b))).
  rewrite (proj2 (memb_in _ b) Hb). apply in_unique in Hb. destruct Hb as [Hb Hr]. destruct (H2 b Hb) as [E F].
  apply HS; auto. apply forall2_map. intros s Hs. apply filter_In in Hs. destruct Hs as [Hs Eb]. apply Z.eqb_eq in Eb. rewrite <- Eb. apply H1, Hs.
Qed.
Lemma delta_exact : forall fc2 f, exact_solver -> exact_distribution -> same2 n fc2 P2 -> entry_ok f -> delta_ok (delta_fc2 R n solve distribute site reduce bond fc2 f) f.
Proof.
  intros fc2 f HS HD H2 HE b c i j Hb Hc Hi Hj. unfold delta_fc2, entry_ok in *. destruct (d_delta f) as [d|]; [apply HE; auto|].
  rewrite (constrained_exact f HS HD HE b Hb c i j Hc Hi Hj), (H2 b Hb c i j Hc Hi Hj). unfold effective. ring.
Qed.

(** the operations of the sites of displaced atoms keep the crystal *)
Definition site_ok (a : Z) : Prop := site a <> [] /\ forall r, In r (site a) -> orthogonal (cart r) /\ (forall x, 0 <= x < n -> 0 <= rmap r a x < n) /\
  forall b c q, 0 <= b < n -> 0 <= c < n -> In q comps -> Qeq (P3 a b c q) (rot3 (cart r) (P3 a (rmap r a b) (rmap r a c)) q).
Lemma solve_exact : forall d a fs ds, site_ok a -> left_inverse (pinv (rot_disps R cart site a (map d_disp fs))) (rot_disps R cart site a (map d_disp fs)) ->
  length ds = length fs -> (forall i dl f, nth_error ds i = Some dl -> nth_error fs i = Some f -> d_num f = a /\ delta_ok dl f) ->
  forall b c i j k, 0 <= b < n -> 0 <= c < n -> In (i, j, k) comps -> Qeq (solve_fc3 R cart site rmap pinv d a (map d_disp fs) ds b c i j k) (P3 a b c (i, j, k)).
Proof.
  intros d a fs ds [S0 SO] LI L HD b c i j k Hb Hc Hq. apply in_comps in Hq. unfold solve_fc3.
  set (ns := length (site a)). assert (Hns : (0 < ns)%nat) by (unfold ns; destruct (site a); [congruence|cbn; lia]).
  assert (IN : forall j, 0 <= j < Z.of_nat ns -> In (nth_rot R site a d j) (site a)) by (intros j' Hj'; apply nth_In; fold ns; lia).
  set (disps := map d_disp fs) in *. assert (Ld : length disps = length fs) by apply map_length.
  assert (Lr : length (rot_disps R cart site a disps) = (ns * length disps)%nat).
  { unfold rot_disps. clear. induction disps as [|u l IH]; cbn [flat_map length]; [lia|]. rewrite app_length, map_length, IH. fold ns. lia. }
  apply (C60_first_row_exact n (Z.of_nat ns) (Z.of_nat (length disps)) (P3 a) (fun x => nth (Z.to_nat x) disps (fun _ => 0%Q))); try lia; try tauto.
  - intros j' x Hj' Hx. apply (SO _ (IN j' Hj')), Hx.
  - intros j' Hj'. apply (SO _ (IN j' Hj')).
  - intros j' x y q Hj' Hx Hy Hq'. apply (SO _ (IN j' Hj')); auto.
  - intros x b' c' l m Hx Hb' Hc' Hl Hm. destruct (nth_error fs (Z.to_nat x)) as [f|] eqn:Ef; [|apply nth_error_None in Ef; lia].
    destruct (nth_error ds (Z.to_nat x)) as [dl|] eqn:Ed; [|apply nth_error_None in Ed; lia]. destruct (HD _ _ _ Ed Ef) as [Ea Hdl].
    rewrite (nth_error_nth ds _ _ Ed). rewrite (Hdl b' c' l m Hb' Hc' Hl Hm). unfold disps. rewrite (nth_error_nth (map d_disp fs) _ _ (map_nth_error d_disp _ _ Ef)), Ea. reflexivity.
  - intros k1 k2 H1 H2. rewrite <- (LI k1 k2 H1 H2). rewrite Lr. replace (Z.of_nat (ns * length disps)) with (Z.of_nat ns * Z.of_nat (length disps)) by lia.
    apply qs_ext. intros x Hx. apply in_zrange in Hx. apply Qmult_comp; [reflexivity|].
    unfold rot_disps. rewrite (nth_flat _ _ (fun u => map (fun r => apply (cart r) u) (site a)) ns (fun _ => 0%Q) (fun _ => 0%Q) disps (Z.to_nat x) Hns) by (try (intros; apply map_length); lia).
    rewrite Z.quot_div_nonneg, Z.rem_mod_nonneg by lia.
    replace (Z.to_nat x / ns)%nat with (Z.to_nat (x / Z.of_nat ns)) by (rewrite Z2Nat.inj_div, Nat2Z.id by lia; reflexivity).
    replace (Z.to_nat x mod ns)%nat with (Z.to_nat (x mod Z.of_nat ns)) by (rewrite Z2Nat.inj_mod, Nat2Z.id by lia; reflexivity).
    assert (Hm : 0 <= x mod Z.of_nat ns < Z.of_nat ns) by (apply Z.mod_pos_bound; lia).
    rewrite (nth_indep (map (fun r => apply (cart r) (nth (Z.to_nat (x / Z.of_nat ns)) disps (fun _ => 0%Q))) (site a)) (fun _ => 0%Q) (apply (cart d) (nth (Z.to_nat (x / Z.of_nat ns)) disps (fun _ => 0%Q)))) by (rewrite map_length; fold ns; lia).
    rewrite (map_nth (fun r => apply (cart r) (nth (Z.to_nat (x / Z.of_nat ns)) disps (fun _ => 0%Q)))). reflexivity.
Qed.

Lemma blocks_set : forall (v : Z -> Z -> Z -> Z -> Z -> Z -> Q) (idx : Z -> Z) l m a b c i j k, NoDup l -> (forall x y, In x l -> In y l -> idx x = idx y -> x = y) ->
  0 <= b < n -> 0 <= c < n -> In (i, j, k) comps ->
  (In a l -> raw n (fold_left (fun m a => set_block n (idx a) (v a) m) l m) (idx a) b c (i, j, k) = v a b c i j k) /\
  ((forall x, In x l -> idx x <> idx a) -> raw n (fold_left (fun m a => set_block n (idx a) (v a) m) l m) (idx a) b c (i, j, k) = raw n m (idx a) b c (i, j, k)).
Proof.
  intros v idx. induction l as [|x l IH]; intros m a b c i j k N I Hb Hc Hq; cbn [fold_left]; [split; [intros []|reflexivity]|]. inversion_clear N as [|? ? N1 N2].
  destruct (IH (set_block n (idx x) (v x) m) a b c i j k N2 (fun x y Hx Hy => I x y (or_intror Hx) (or_intror Hy)) Hb Hc Hq) as [I1 I2]. split.
  - intros [-> | Ha]; [|auto]. rewrite I2; [apply block_spec; auto|]. intros y Hy E. apply N1. rewrite <- (I y a); auto; [now right|now left].
  - intros H. rewrite I2 by (intros y Hy; apply H; now right). apply block_other; auto. apply H. now left.
Qed.
Lemma nodup_unique : forall l, NoDup (unique n l).
Proof. intros l. apply NoDup_filter, NoDup_zrange. Qed.
Notation LEAST := (least_atoms R cart n solve distribute site reduce bond rmap pinv).
Notation GET := (get_fc3 R cart n solve distribute site reduce bond rmap pinv).
Definition dataset_ok (firsts : list first) : Prop := (forall f, In f firsts -> entry_ok f) /\
  forall a, In a (map d_num firsts) -> 0 <= a < n -> site_ok a /\
    left_inverse (pinv (rot_disps R cart site a (map d_disp (filter (fun f => d_num f =? a) firsts)))) (rot_disps R cart site a (map d_disp (filter (fun f => d_num f =? a) firsts))).
Lemma least_exact : forall d s2p s2c compact firsts fc2 m, exact_solver -> exact_distribution -> same2 n fc2 P2 -> dataset_ok firsts ->
  (compact = true -> forall a a', In a (map d_num firsts) /\ 0 <= a < n -> In a' (map d_num firsts) /\ 0 <= a' < n -> s2c a = s2c a' -> a = a') ->
  LEAST d s2p s2c compact firsts fc2 = Some m -> forall a, In a (map d_num firsts) -> 0 <= a < n -> row_is n P3 m (if compact then s2c a else a) a.
Proof.
  intros d s2p s2c compact firsts fc2 m HS HD H2 [HE HA] I E a Ha Hr. unfold least_atoms in E. destruct (compact && _); [discriminate|]. injection E as <-.
  set (mine := fun a => filter (fun f => d_num f =? a) firsts).
  set (v := fun a => solve_fc3 R cart site rmap pinv d a (map d_disp (mine a)) (map (delta_fc2 R n solve distribute site reduce bond fc2) (mine a))).
  set (idx := fun a => if compact then s2c a else a).
  intros b c [[i j] k] Hb Hc Hq.
  change (Qeq (raw n (fold_left (fun m a => set_block n (idx a) (v a) m) (unique n (map d_num firsts)) (fun _ => 0%Q)) (idx a) b c (i, j, k)) (P3 a b c (i, j, k))).
  destruct (blocks_set v idx (unique n (map d_num firsts)) (fun _ => 0%Q) a b c i j k (nodup_unique _)) as [B _]; auto.
  { intros x y Hx Hy Exy. apply in_unique in Hx, Hy. unfold idx in Exy. destruct compact; [apply I; tauto|exact Exy]. }
  rewrite B by (apply in_unique; auto). unfold v. destruct (HA a Ha Hr) as [SO LI]. apply solve_exact; auto; [apply map_length|].
  intros x dl f Ed Ef. rewrite nth_error_map, Ef in Ed. cbn [option_map] in Ed. injection Ed as <-. apply nth_error_In in Ef. apply filter_In in Ef. destruct Ef as [Hin Ea].
  split; [now apply Z.eqb_eq|]. apply delta_exact; auto.
Qed.

(** ** C126: forces linear in the second displacement, for a crystal displaced along the first, give the third-order force constants of the crystal in all rows,
    and its second-order ones *)
Theorem C126_exact : forall d o s2p s2c p2s compact firsts fc2 r2 m, exact_solver -> exact_distribution -> same2 n fc2 P2 -> dataset_ok firsts ->
  invariant o n P3 -> (forall p, In p p2s -> 0 <= p < n) -> (forall p p', In p p2s -> In p' p2s -> s2c p = s2c p' -> p = p') ->
  GET d o s2p s2c p2s compact firsts fc2 = Some (r2, m) ->
  if compact then (forall p, In p p2s -> row_is n P3 m (s2c p) p) /\ forall i p, nth_error p2s i = Some p -> same_row n (r2 (Z.of_nat i)) (P2 p)
  else (forall a, 0 <= a < n -> row_is n P3 m a a) /\ same2 n r2 P2.
Proof.
  intros d o s2p s2c p2s compact firsts fc2 r2 m HS HD H2 HO IV Hp I G. unfold get_fc3 in G.
  destruct (LEAST d s2p s2c compact firsts fc2) as [m0|] eqn:E; [|discriminate]. destruct (expand_fc3 _ _ _ _ _ _ m0) as [m1|] eqn:X; [|discriminate].
  cbn [option_map] in G. injection G as <- <-.
  assert (NP : forall a, In a (map d_num firsts) -> 0 <= a < n -> In a p2s).
  { intros a Ha Hr. unfold expand_fc3 in X. destruct (forallb (memb p2s) (unique n (map d_num firsts))) eqn:F; [|discriminate]. rewrite forallb_forall in F. apply memb_in, F, in_unique. auto. }
  assert (L : forall a, In a (map d_num firsts) -> 0 <= a < n -> row_is n P3 m0 (if compact then s2c a else a) a).
  { apply (least_exact d s2p s2c compact firsts fc2 m0); auto. intros _ a a' [Ha Hr] [Ha' Hr']. apply I; auto. }
  pose proof (C29_distribution_reconstructs o n P3 s2c p2s (map d_num firsts) compact m0 m1 IV Hp I X L) as K.
  destruct compact.
  - split; [exact K|]. intros i p Ei. rewrite Nat2Z.id, (nth_error_nth p2s i 0 Ei). apply H2, Hp. now apply nth_error_In in Ei.
  - split; [exact K|exact H2].
Qed.
(** and the calculation does not fail when every atom can be mapped onto a displaced one and the displaced atoms are representatives *)
Theorem C126_succeeds : forall d o s2p s2c p2s compact firsts fc2,
  (forall a, In a (map d_num firsts) -> 0 <= a < n -> In a p2s /\ s2p a = a) -> (forall p, In p p2s -> 0 <= p < n) ->
  (forall a, 0 <= a < n -> exists g, 0 <= g < op_n o /\ In (op_perm o g a) (map d_num firsts) /\ 0 <= op_perm o g a < n) ->
  exists r2 m, GET d o s2p s2c p2s compact firsts fc2 = Some (r2, m).
Proof.
  intros d o s2p s2c p2s compact firsts fc2 A Hp G. unfold get_fc3, least_atoms.
  assert (F : forallb (fun i => i =? s2p i) (unique n (map d_num firsts)) = true).
  { apply forallb_forall. intros a Ha. apply in_unique in Ha. apply Z.eqb_eq. symmetry. apply A; tauto. }
  rewrite F. cbn [negb]. rewrite andb_false_r. set (m0 := fold_left _ _ _).
  destruct (C29_distribution_succeeds o s2c n p2s (map d_num firsts) compact m0) as [m' E]; auto; [intros a Ha Hr; now apply A|]. rewrite E. cbn [option_map]. eauto.
Qed.
End F.
Print Assumptions C126_exact.
Print Assumptions C126_succeeds.

(** ** A concrete case: the two atoms of inv_ops (exchanged by an inversion), atom 0 displaced along the axes by 2, all pairs with unit displacements of both atoms *)
Definition x_e (i : Z) : vec3 := fun k => if k =? i then 1%Q else 0%Q.
Definition x_P2 : fcs2 := fun a b i j => inject_Z (a + 2 * b + 3 * i + j).
Definition x_P3 (a b c : Z) (q : Z * Z * Z) : Q := ((if a =? 0 then 1 else -1) * inject_Z (1 + off q + (if b =? a then 0 else 40) + (if c =? a then 0 else 100)))%Q.
Definition x_second (u : vec3) (b i : Z) : second :=
  {| s_num := b; s_disp := x_e i; s_forces := fun c j => (inject_Z (c + j) - sum3 (fun k => x_e i k * effective x_P2 x_P3 0%Z u b c k j))%Q |}.
Definition x_first (x : Z) : first := let u := fun k => (2 * x_e x k)%Q in
  {| d_num := 0; d_disp := u; d_forces := fun c j => inject_Z (c + j); d_delta := None; d_seconds := flat_map (fun b => map (x_second u b) [0; 1; 2]) [1; 0] |}.
Definition x_firsts : list first := map x_first [0; 1; 2].
Definition x_id (_ : unit) : Z -> Z -> Q := fun a b => if a =? b then 1%Q else 0%Q.
Definition x_solve (b : Z) (us : list vec3) (fs : list forces) (syms : list unit) (c i j : Z) : Q := (- nth (Z.to_nat i) fs (fun _ _ => 0%Q) c j)%Q.
Definition x_get := get_fc3 unit x_id 2 x_solve (fun fc2 _ _ _ => fc2) (fun _ => [tt]) (fun l _ => l) (fun l _ _ => l) (fun _ _ a => a) (fun _ k i => if k =? i then (1#2)%Q else 0%Q).
Lemma x_solver : exact_solver unit 2 x_solve (fun us _ => us = [x_e 0; x_e 1; x_e 2]) (fun _ _ _ => True).
Proof.
  intros b us fs syms Phi Hb -> _ F c i j Hc Hi Hj. inversion F as [|? f0 ? ? F0 F']; subst. inversion F' as [|? f1 ? ? F1 F'']; subst. inversion F'' as [|? f2 ? ? F2 F3]; subst. inversion F3; subst.
  unfold x_solve. assert (i = 0 \/ i = 1 \/ i = 2) as [-> | [-> | ->]] by lia; cbn [Z.to_nat Pos.to_nat Pos.iter_op Nat.add nth].
  - rewrite (F0 c j Hc Hj). unfold sum3, x_e. cbn. ring.
  - change (nth (Z.to_nat 1) [f0; f1; f2] (fun _ _ => 0%Q)) with f1. rewrite (F1 c j Hc Hj). unfold sum3, x_e. cbn. ring.
  - change (nth (Z.to_nat 2) [f0; f1; f2] (fun _ _ => 0%Q)) with f2. rewrite (F2 c j Hc Hj). unfold sum3, x_e. cbn. ring.
Qed.
Lemma x_invariant : invariant inv_ops 2 x_P3.
Proof.
  destruct C29_ex as [[V1 V2 _] _]. constructor; [exact V1|exact V2|].
  intros g i j k q Hg Hi Hj Hk Hq. cbn [op_n inv_ops] in Hg.
  assert (g = 0 \/ g = 1) as [-> | ->] by lia; assert (i = 0 \/ i = 1) as [-> | ->] by lia; assert (j = 0 \/ j = 1) as [-> | ->] by lia; assert (k = 0 \/ k = 1) as [-> | ->] by lia;
    repeat (destruct Hq as [<- | Hq]; [vm_compute; reflexivity|]); destruct Hq.
Qed.
Lemma x_dataset : dataset_ok unit x_id 2 (fun _ => [tt]) (fun l _ => l) (fun l _ _ => l) (fun _ _ a => a) (fun _ k i => if k =? i then (1#2)%Q else 0%Q)
  (fun us _ => us = [x_e 0; x_e 1; x_e 2]) (fun _ _ _ => True) (fun l _ _ => forall b, 0 <= b < 2 -> In b l) (fun _ _ _ => True) x_P2 x_P3 x_firsts.
Proof.
  split.
  - intros f Hf. apply in_map_iff in Hf. destruct Hf as [x [<- Hx]]. unfold entry_ok. cbn [d_delta x_first]. unfold pairs_ok. cbn [d_num d_disp d_seconds x_first].
    split; [|split; [|split]].
    + intros s Hs. apply in_flat_map in Hs. destruct Hs as [b [Hb Hs]]. apply in_map_iff in Hs. destruct Hs as [i [<- Hi]].
      cbn [s_num s_disp s_forces x_second]. split; [destruct Hb as [<- | [<- | []]]; lia|]. intros c j Hc Hj. cbn [d_forces x_first]. ring.
    + intros b Hb. split; [|exact I]. cbn [flat_map map app s_num x_second] in Hb.
      repeat (destruct Hb as [<- | Hb]; [reflexivity|]). destruct Hb.
    + intros b Hb. apply in_unique. split; [|exact Hb]. assert (b = 0 \/ b = 1) as [-> | ->] by lia; cbn; auto.
    + exact I.
  - intros a Ha Hr. assert (a = 0) as -> by (cbn in Ha; intuition). split.
    + split; [discriminate|]. intros [] _. split; [|split; [auto|]].
      * intros i j Hi Hj. assert (i = 0 \/ i = 1 \/ i = 2) as [-> | [-> | ->]] by lia; assert (j = 0 \/ j = 1 \/ j = 2) as [-> | [-> | ->]] by lia; reflexivity.
      * intros b c q Hb Hc Hq. assert (b = 0 \/ b = 1) as [-> | ->] by lia; assert (c = 0 \/ c = 1) as [-> | ->] by lia;
          repeat (destruct Hq as [<- | Hq]; [vm_compute; reflexivity|]); destruct Hq.
    + intros k k' Hk Hk'. assert (k = 0 \/ k = 1 \/ k = 2) as [-> | [-> | ->]] by lia; assert (k' = 0 \/ k' = 1 \/ k' = 2) as [-> | [-> | ->]] by lia; vm_compute; reflexivity.
Qed.
Example C126_ex : exists r2 m, x_get tt inv_ops (fun a => a) (fun a => a) [0; 1] false x_firsts x_P2 = Some (r2, m) /\ Qeq (raw 2 m 1 0 1 (0, 1, 2)) (-46) /\ Qeq (raw 2 m 0 0 1 (2, 1, 0)) 122.
Proof. eexists. eexists. split; [reflexivity|]. split; vm_compute; reflexivity. Qed.
