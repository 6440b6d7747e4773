(** The Python and C implementations of the integration weights of triplets agree (C122) *)
From Coq Require Import ZArith QArith Qabs List Bool Lia Lqa.
From Verif Require Import Base BaseProofs Mat3 QMat GridSpec GridModel GridProofs GridProps BzModel BzSpec BzProofs BzProps TripletModel TripletProps TetraModel TetraProps Par IwModel IwProps KaccumModel KaccumProps TiwModel.
Import ListNotations.
Open Scope Z_scope.

(** frequencies of periodic phonons: equal at translationally equivalent BZ grid points *)
Definition periodic (g : bzgrid) (nb : Z) (freq : Z -> Q) : Prop :=
  forall x y b, 0 <= x < o_size (k_out g) -> 0 <= y < o_size (k_out g) -> 0 <= b < nb -> vcong (mesh g) (addr g x) (addr g y) -> freq (x * nb + b) = freq (y * nb + b).
Definition stable (g : bzgrid) (nb : Z) (freq : Z -> Q) : Prop :=
  forall x b, 0 <= x < o_size (k_out g) -> 0 <= b < nb -> (0 <= freq (x * nb + b)%Z)%Q.
(** the triplets are stored points *)
Definition stored_triplets (g : bzgrid) (triplets : Z -> Z * Z * Z) (nt : Z) : Prop :=
  forall i k, 0 <= i < nt -> 0 <= k < 3 -> 0 <= tp_nth (triplets i) k < o_size (k_out g).

Lemma comb_map : forall X Y W C (h : X -> Y -> C) (f : W -> X) (f' : W -> Y) l, combine_with h (map f l) (map f' l) = map (fun x => h (f x) (f' x)) l.
Proof. intros. unfold combine_with. induction l as [|a l IH]; [reflexivity|]. cbn. f_equal. exact IH. Qed.
Lemma vneg_signed : forall v, (let '(v3 x y z) := v in v3 (x * -1) (y * -1) (z * -1)) = vneg v.
Proof. intros [x y z]. cbn. f_equal; ring. Qed.
Lemma same_signed : forall v, (let '(v3 x y z) := v in v3 (x * 1) (y * 1) (z * 1)) = v.
Proof. intros [x y z]. cbn. f_equal; ring. Qed.

Section Same.
Variable g : bzgrid.
Variable triplets : Z -> Z * Z * Z.
Variable nt : Z.
Variable Qg : M3.
Variable rl : QM.
Hypothesis Hg : good_grid g.
Hypothesis Ht : stored_triplets g triplets nt.
Local Notation T := (tp_grid (k_B g) (k_out g) (k_ty g) Qg rl).

Lemma neighbour_at : forall x r, 0 <= x < o_size (k_out g) -> points_to (k_B g) (k_out g) (vadd (addr g x) r) (neighbor T x r).
Proof.
  intros x r Hx. pose proof Hg as [HB [Hty [init Ho]]]. destruct Hty as [E | [E HG]]; rewrite E in *; [eapply C19_dense_neighbours|eapply C19_default_neighbours]; eauto.
Qed.
Lemma grid_point_at : forall a, let y := grg2bzg (k_out g) (k_ty g) (grid_point_from_address_py a (mesh g)) in
  0 <= y < o_size (k_out g) /\ vcong (mesh g) (addr g y) a.
Proof.
  intros a y. assert (HD : pos_mesh (mesh g)) by apply Hg. pose proof (proj2 (proj2 (C02_indexing_implementations_agree (mesh g) (fun _ => vzero) HD)) a) as E.
  pose proof (grid_index_range (mesh g) a HD) as R. rewrite <- E in R. destruct (grg_stored g _ Hg R) as [K1 K2]. fold y in K1, K2. split; [exact K1|].
  apply (grid_index_eq_iff (mesh g) (addr g y) a HD). destruct (b2g_index g y Hg K1) as [B _]. rewrite B, K2. exact E.
Qed.
Lemma neighbour_freq : forall nb freq x r b, periodic g nb freq -> 0 <= x < o_size (k_out g) -> 0 <= b < nb ->
  freq (neighbor T x r * nb + b) = freq (grg2bzg (k_out g) (k_ty g) (grid_point_from_address_py (vadd (addr g x) r) (mesh g)) * nb + b).
Proof.
  intros nb freq x r b P Hx Hb. destruct (neighbour_at x r Hx) as [N1 [N2 _]]. destruct (grid_point_at (vadd (addr g x) r)) as [M1 M2]. apply P; auto.
  apply (grid_index_eq_iff (mesh g)); [apply Hg|]. apply (grid_index_eq_iff (mesh g)) in N2; [|apply Hg]. apply (grid_index_eq_iff (mesh g)) in M2; [|apply Hg]. etransitivity; [exact N2|symmetry; exact M2].
Qed.
Lemma clamp_id : forall tp f, (0 <= f)%Q -> clamp tp f = f.
Proof. intros tp f H. unfold clamp. destruct (_ || _); [|reflexivity]. destruct (qltb f 0) eqn:E; [|reflexivity]. apply qltb_lt in E. lra. Qed.

Lemma vertices_same : forall nb freq tp rel i b1 b2 k, periodic g nb freq -> stable g nb freq -> tp = 2 \/ tp = 3 -> 0 <= i < nt -> 0 <= b1 < nb -> 0 <= b2 < nb ->
  freq_vertices tp freq freq nb nb b1 b2 (tetrahedra_vertices T tp rel (triplets i) 0) (tetrahedra_vertices T tp rel (triplets i) 1) k =
  combine_with (fun r0 r1 => to_t4 (combine_with (fun x y => (fun f1 f2 => (if k =? 0 then - f1 + f2 else if k =? 1 then f1 - f2 else f1 + f2)%Q) (freq (x * nb + b1)) (freq (y * nb + b2))) r0 r1))
    (py_vertices g rel (triplets i) 0) (py_vertices g rel (triplets i) 1).
Proof.
  intros nb freq tp rel i b1 b2 k P St Htp Hi H1 H2. unfold freq_vertices, tetrahedra_vertices, py_vertices, tp_relative, neighboring_grid_points. rewrite !map_map, !comb_map. apply map_ext. intros row. f_equal.
  rewrite !map_map, !comb_map. apply map_ext. intros r. change (0 + 1) with 1. change (1 + 1) with 2. change (0 =? 0) with true. change (1 =? 0) with false. cbv iota.
  assert (S0 : tp_sign tp 0 = 1) by reflexivity. assert (S1 : tp_sign tp 1 = -1) by (destruct Htp; subst; reflexivity). rewrite S0, S1. rewrite same_signed, vneg_signed.
  pose proof (Ht i 1 Hi ltac:(lia)) as T1. pose proof (Ht i 2 Hi ltac:(lia)) as T2.
  destruct (neighbour_at _ r T1) as [N1 _]. destruct (neighbour_at _ (vneg r) T2) as [N2 _]. rewrite !clamp_id by (apply St; auto). rewrite !neighbour_freq by auto. reflexivity.
Qed.
End Same.

(** ** the weights of the two implementations are equal *)
(** what the C loops leave in plane k of g, for any order of the parallel iterations *)
Definition index (nb0 nb nt k i j b1 b2 : Z) : Z := ((i * nb0 + j) * nb + b1) * nb + b2 + k * (nt * nb0 * nb * nb).
Definition result_of (nt nb0 nb : Z) (body : Z -> Z -> Z -> Z * list Q) (m m' : cell -> Q) : Prop := finishes cell_dec (map wprog (iw_iterations nt nb0 nb nb body)) m m'.

(** with the tetrahedron method *)
Theorem C122_tetrahedra : forall g rel engine gauss triplets nb nt nb0 fp freq eps Qg rl sigma sigma_cutoff icm m m' k i j b1 b2,
  good_grid g -> stored_triplets g triplets nt -> periodic g nb freq -> stable g nb freq ->
  sigma = None \/ (exists s, sigma = Some s /\ Qeq s 0) ->
  (forall f0 ts, engine f0 ts == thm_get_integration_weight eps f0 ts true)%Q ->
  result_of nt nb0 nb (c_body g rel gauss triplets nb fp freq eps Qg rl sigma sigma_cutoff icm) m m' ->
  0 <= k < (if icm then 3 else 2) -> 0 <= i < nt -> 0 <= j < nb0 -> 0 <= b1 < nb -> 0 <= b2 < nb ->
  (m' (c_iw (index nb0 nb nt k i j b1 b2)) == py_weight g rel engine gauss triplets nb fp freq sigma sigma_cutoff k i j b1 b2)%Q.
Proof.
  intros g rel engine gauss triplets nb nt nb0 fp freq eps Qg rl sigma sc icm m m' k i j b1 b2 Hg Ht P St Hs He F Hk Hi Hj H1 H2.
  assert (Es : smeared_by sigma = None) by (destruct Hs as [-> | [s [-> E]]]; [reflexivity|]; unfold smeared_by; rewrite (proj2 (Qeq_bool_iff s 0) E); reflexivity).
  unfold result_of, c_body, py_weight in *. rewrite Es in *. set (tp := if icm then 3 else 2) in *. assert (Htp : tp = 2 \/ tp = 3) by (unfold tp; destruct icm; auto).
  destruct (C22_tetrahedron_weights _ _ _ _ _ _ _ _ _ _ _ _ _ _ i b1 b2 j Htp F Hi H1 H2 Hj) as [W0 [W1 [W2 _]]].
  unfold delta_weight in *. pose proof (fun q => vertices_same g triplets nt Qg rl Hg Ht nb freq tp rel i b1 b2 q P St Htp Hi H1 H2) as V. rewrite (V 2) in W0. rewrite (V 0), (V 1) in W1. rewrite (V 0), (V 1), (V 2) in W2. change (2 =? 0) with false in *. change (2 =? 1) with false in *. change (0 =? 0) with true in *. change (1 =? 0) with false in *. change (1 =? 1) with true in *. cbv iota in *.
  unfold py_tetra_weight, py_planes, index.
  assert (k = 0 \/ k = 1 \/ (k = 2 /\ tp = 3)) as [-> | [-> | [-> Et]]] by (unfold tp in *; destruct icm; lia).
  - rewrite Z.mul_0_l, Z.add_0_r. change (0 =? 0) with true. cbv iota. rewrite He. exact W0.
  - rewrite Z.mul_1_l. change (1 =? 0) with false. change (1 =? 1) with true. cbv iota. rewrite !He. rewrite W1. reflexivity.
  - rewrite (W2 Et). change (2 =? 0) with false. change (2 =? 1) with false. cbv iota. rewrite !He. ring.
Qed.

(** with smearing and no cutoff *)
Theorem C122_smearing : forall g rel engine gauss triplets nb nt nb0 fp freq eps Qg rl s icm m m' k i j b1 b2,
  (0 < s)%Q ->
  result_of nt nb0 nb (c_body g rel gauss triplets nb fp freq eps Qg rl (Some s) None icm) m m' ->
  0 <= k < (if icm then 3 else 2) -> 0 <= i < nt -> 0 <= j < nb0 -> 0 <= b1 < nb -> 0 <= b2 < nb ->
  (m' (c_iw (index nb0 nb nt k i j b1 b2)) == py_weight g rel engine gauss triplets nb fp freq (Some s) None k i j b1 b2)%Q.
Proof.
  intros g rel engine gauss triplets nb nt nb0 fp freq eps Qg rl s icm m m' k i j b1 b2 Hs F Hk Hi Hj H1 H2.
  assert (Es : smeared_by (Some s) = Some s) by (unfold smeared_by; destruct (Qeq_bool s 0) eqn:E; [apply Qeq_bool_iff in E; lra|reflexivity]).
  unfold result_of, c_body, py_weight in *. rewrite Es in *. set (tp := if icm then 3 else 2) in *. assert (Htp : tp = 2 \/ tp = 3) by (unfold tp; destruct icm; auto).
  destruct (C22_smearing_weights _ _ _ _ _ _ _ _ _ _ _ _ i b1 b2 j Htp F Hi H1 H2 Hj) as [[_ [[C _] _]] | [_ [_ [W0 [W1 W2]]]]]; [lra|].
  unfold py_sigma_weight, py_planes, index.
  assert (k = 0 \/ k = 1 \/ (k = 2 /\ tp = 3)) as [-> | [-> | [-> Et]]] by (unfold tp in *; destruct icm; lia).
  - rewrite Z.mul_0_l, Z.add_0_r, W0. reflexivity.
  - rewrite Z.mul_1_l, W1. reflexivity.
  - rewrite (W2 Et). change (2 =? 0) with false. change (2 =? 1) with false. cbv iota. ring.
Qed.

(** with a cutoff the C weights differ from the Python ones, which ignore it, only where all three
    distances are beyond the cutoff; there the C weights are zero *)
Theorem C122_cutoff : forall g rel engine gauss triplets nb nt nb0 fp freq eps Qg rl s c icm m m' k i j b1 b2,
  (0 < s)%Q ->
  result_of nt nb0 nb (c_body g rel gauss triplets nb fp freq eps Qg rl (Some s) (Some c) icm) m m' ->
  0 <= k < (if icm then 3 else 2) -> 0 <= i < nt -> 0 <= j < nb0 -> 0 <= b1 < nb -> 0 <= b2 < nb ->
  let x1 := freq (tp_nth (triplets i) 1 * nb + b1) in
  let x2 := freq (tp_nth (triplets i) 2 * nb + b2) in
  (m' (c_iw (index nb0 nb nt k i j b1 b2)) == py_weight g rel engine gauss triplets nb fp freq (Some s) (Some c) k i j b1 b2)%Q \/
  (m' (c_iw (index nb0 nb nt k i j b1 b2)) == 0 /\ 0 < s * c /\ s * c < Qabs (fp j + x1 - x2) /\ s * c < Qabs (fp j - x1 + x2) /\ s * c < Qabs (fp j - x1 - x2))%Q.
Proof.
  intros g rel engine gauss triplets nb nt nb0 fp freq eps Qg rl s c icm m m' k i j b1 b2 Hs F Hk Hi Hj H1 H2 x1 x2.
  assert (Es : smeared_by (Some s) = Some s) by (unfold smeared_by; destruct (Qeq_bool s 0) eqn:E; [apply Qeq_bool_iff in E; lra|reflexivity]).
  unfold result_of, c_body, py_weight in *. rewrite Es in *. set (tp := if icm then 3 else 2) in *. assert (Htp : tp = 2 \/ tp = 3) by (unfold tp; destruct icm; auto).
  assert (Kc : k = 0 \/ k = 1 \/ (k = 2 /\ tp = 3)) by (unfold tp in *; destruct icm; lia).
  destruct (C22_smearing_weights _ _ _ _ _ _ _ _ _ _ _ _ i b1 b2 j Htp F Hi H1 H2 Hj) as [[_ [C [W0 [W1 W2]]]] | [_ [_ [W0 [W1 W2]]]]]; unfold index.
  - right. split; [|exact C]. destruct Kc as [-> | [-> | [-> Et]]]; [rewrite Z.mul_0_l, Z.add_0_r; exact W0|rewrite Z.mul_1_l; exact W1|exact (W2 Et)].
  - left. unfold py_sigma_weight, py_planes. destruct Kc as [-> | [-> | [-> Et]]].
    + rewrite Z.mul_0_l, Z.add_0_r, W0. reflexivity.
    + rewrite Z.mul_1_l, W1. reflexivity.
    + rewrite (W2 Et). change (2 =? 0) with false. change (2 =? 1) with false. cbv iota. ring.
Qed.
Print Assumptions C122_tetrahedra.
Print Assumptions C122_smearing.
Print Assumptions C122_cutoff.

(** ** where they differ *)
(** a frequency per regular grid point *)
Definition by_point (g : bzgrid) (f : Z -> Q) (x : Z) : Q := f (o_b2g (k_out g) x).
Lemma by_point_periodic : forall g f, good_grid g -> periodic g 1 (by_point g f).
Proof.
  intros g f Hg x y b Hx Hy Hb C. assert (b = 0) as -> by lia. unfold by_point. rewrite !Z.mul_1_r, !Z.add_0_r. f_equal.
  destruct (b2g_index g x Hg Hx) as [E1 _]. destruct (b2g_index g y Hg Hy) as [E2 _]. rewrite <- E1, <- E2. apply grid_index_eq_iff; [apply Hg|exact C].
Qed.
Definition one_rel : list (list V3) := [[vzero; v3 1 0 0; v3 1 1 0; v3 1 1 1]].
Definition at_zero (z : Z) : Z * Z * Z := (0, 0, 0).
Definition thm_engine (eps : Q) : Q -> list T4 -> Q := fun f0 ts => thm_get_integration_weight eps f0 ts true.
Definition ex_eps : Q := 1 # 1000000.
Definition ex_array (o : BzOut) (f : Z -> Q) (sigma cut : option Q) (icm : bool) : cell -> Q :=
  iw_arrays 1 1 1 1 (c_body (rod_grid o) one_rel (fun _ _ => 1%Q) at_zero 1 (fun _ => 1%Q) (by_point (rod_grid o) f) ex_eps I3 (bL rod) sigma cut icm) (fun _ => 0%Q).
Definition ex_py (o : BzOut) (f : Z -> Q) (sigma cut : option Q) : Z -> Q := fun k =>
  py_weight (rod_grid o) one_rel (thm_engine ex_eps) (fun _ _ => 1%Q) at_zero 1 (fun _ => 1%Q) (by_point (rod_grid o) f) sigma cut k 0 0 0 0.
Definition soft (p : Z) : Q := if p =? 0 then (-1)%Q else 1%Q.
Definition hard (p : Z) : Q := if p =? 0 then (1 # 4)%Q else 1%Q.
Lemma rod_good : forall o, get_bz_grid_addresses rod 2 zero_out = Some o -> good_grid (rod_grid o) /\ stored_triplets (rod_grid o) at_zero 1.
Proof.
  intros o E. split; [split; [apply C11_ex_rod|]; split; [now left|exists zero_out; exact E]|].
  assert (option_map o_size (get_bz_grid_addresses rod 2 zero_out) = Some 3) as Ev by (vm_compute; reflexivity). rewrite E in Ev. injection Ev as Ev.
  intros i k Hi Hk. cbn [k_out rod_grid]. rewrite Ev. unfold at_zero, tp_nth. destruct (k =? 0), (k =? 1); lia.
Qed.
Lemma ex_finishes : forall o f sigma cut icm, result_of 1 1 1 (c_body (rod_grid o) one_rel (fun _ _ => 1%Q) at_zero 1 (fun _ => 1%Q) (by_point (rod_grid o) f) ex_eps I3 (bL rod) sigma cut icm) (fun _ => 0%Q) (ex_array o f sigma cut icm).
Proof. intros. unfold result_of, ex_array, iw_arrays. rewrite <- run_seq_wprog. apply seq_finishes. Qed.

(** With imaginary modes (negative frequencies) the weights differ: the C function replaces negative frequencies by zero, the Python one does not. *)
Theorem C122_negative_frequencies_refuted : ~ (forall g rel engine gauss triplets nb nt nb0 fp freq eps Qg rl sigma_cutoff icm m m' k i j b1 b2,
  good_grid g -> stored_triplets g triplets nt -> periodic g nb freq ->
  (forall f0 ts, engine f0 ts == thm_get_integration_weight eps f0 ts true)%Q ->
  result_of nt nb0 nb (c_body g rel gauss triplets nb fp freq eps Qg rl None sigma_cutoff icm) m m' ->
  0 <= k < (if icm then 3 else 2) -> 0 <= i < nt -> 0 <= j < nb0 -> 0 <= b1 < nb -> 0 <= b2 < nb ->
  (m' (c_iw (index nb0 nb nt k i j b1 b2)) == py_weight g rel engine gauss triplets nb fp freq None sigma_cutoff k i j b1 b2)%Q).
Proof.
  intros H. destruct (get_bz_grid_addresses rod 2 zero_out) as [o|] eqn:E; [|vm_compute in E; discriminate]. destruct (rod_good o E) as [Hg Ht].
  specialize (H (rod_grid o) one_rel (thm_engine ex_eps) (fun _ _ => 1%Q) at_zero 1 1 1 (fun _ => 1%Q) (by_point (rod_grid o) soft) ex_eps I3 (bL rod) None false (fun _ => 0%Q) _ 0 0 0 0 0 Hg Ht
    (by_point_periodic _ _ Hg) ltac:(intros; reflexivity) (ex_finishes o soft None None false) ltac:(lia) ltac:(lia) ltac:(lia) ltac:(lia) ltac:(lia)).
  change (ex_array o soft None None false (c_iw (index 1 1 1 0 0 0 0 0)) == ex_py o soft None None 0)%Q in H.
  assert (K : option_map (fun o => Qeq_bool (ex_array o soft None None false (c_iw (index 1 1 1 0 0 0 0 0))) (ex_py o soft None None 0)) (get_bz_grid_addresses rod 2 zero_out) = Some false) by (vm_compute; reflexivity).
  rewrite E in K. cbn [option_map] in K. injection K as K. apply Qeq_bool_neq in K. exact (K H).
Qed.
(** The Python implementation ignores sigma_cutoff. *)
Theorem C122_cutoff_refuted : ~ (forall g rel engine gauss triplets nb nt nb0 fp freq eps Qg rl s c icm m m' k i j b1 b2,
  good_grid g -> stored_triplets g triplets nt -> periodic g nb freq -> stable g nb freq -> (0 < s)%Q ->
  result_of nt nb0 nb (c_body g rel gauss triplets nb fp freq eps Qg rl (Some s) (Some c) icm) m m' ->
  0 <= k < (if icm then 3 else 2) -> 0 <= i < nt -> 0 <= j < nb0 -> 0 <= b1 < nb -> 0 <= b2 < nb ->
  (m' (c_iw (index nb0 nb nt k i j b1 b2)) == py_weight g rel engine gauss triplets nb fp freq (Some s) (Some c) k i j b1 b2)%Q).
Proof.
  intros H. destruct (get_bz_grid_addresses rod 2 zero_out) as [o|] eqn:E; [|vm_compute in E; discriminate]. destruct (rod_good o E) as [Hg Ht].
  specialize (H (rod_grid o) one_rel (thm_engine ex_eps) (fun _ _ => 1%Q) at_zero 1 1 1 (fun _ => 1%Q) (by_point (rod_grid o) hard) ex_eps I3 (bL rod) (1 # 10)%Q 2%Q false (fun _ => 0%Q) _ 0 0 0 0 0 Hg Ht
    (by_point_periodic _ _ Hg) ltac:(intros x b _ _; unfold by_point, hard; destruct (_ =? 0); lra) ltac:(lra) (ex_finishes o hard (Some (1 # 10)%Q) (Some 2%Q) false) ltac:(lia) ltac:(lia) ltac:(lia) ltac:(lia) ltac:(lia)).
  change (ex_array o hard (Some (1 # 10)%Q) (Some 2%Q) false (c_iw (index 1 1 1 0 0 0 0 0)) == ex_py o hard (Some (1 # 10)%Q) (Some 2%Q) 0)%Q in H.
  assert (K : option_map (fun o => Qeq_bool (ex_array o hard (Some (1 # 10)%Q) (Some 2%Q) false (c_iw (index 1 1 1 0 0 0 0 0))) (ex_py o hard (Some (1 # 10)%Q) (Some 2%Q) 0)) (get_bz_grid_addresses rod 2 zero_out) = Some false) by (vm_compute; reflexivity).
  rewrite E in K. cbn [option_map] in K. injection K as K. apply Qeq_bool_neq in K. exact (K H).
Qed.
Print Assumptions C122_negative_frequencies_refuted.
Print Assumptions C122_cutoff_refuted.

(** the hypotheses are met by positive frequencies on the two point grid *)
Example C122_hyp_ex : forall o, get_bz_grid_addresses rod 2 zero_out = Some o ->
  good_grid (rod_grid o) /\ stored_triplets (rod_grid o) at_zero 1 /\ periodic (rod_grid o) 1 (by_point (rod_grid o) hard) /\ stable (rod_grid o) 1 (by_point (rod_grid o) hard) /\
  result_of 1 1 1 (c_body (rod_grid o) one_rel (fun _ _ => 1%Q) at_zero 1 (fun _ => 1%Q) (by_point (rod_grid o) hard) ex_eps I3 (bL rod) None None true) (fun _ => 0%Q) (ex_array o hard None None true).
Proof.
  intros o E. destruct (rod_good o E) as [Hg Ht]. split; [exact Hg|]. split; [exact Ht|]. split; [apply by_point_periodic; exact Hg|]. split; [|apply ex_finishes].
  intros x b _ _. unfold by_point, hard. destruct (_ =? 0); lra.
Qed.
Example C122_ex : option_map (fun o => (map (fun k => Qred (ex_array o hard None None true (c_iw (index 1 1 1 k 0 0 0 0)))) [0; 1; 2], map (fun k => Qred (ex_py o hard None None k)) [0; 1; 2],
    map (fun k => Qred (ex_array o hard (Some 1%Q) None true (c_iw (index 1 1 1 k 0 0 0 0)))) [0; 1; 2]))
  (get_bz_grid_addresses rod 2 zero_out) = Some ([2 # 81; 0; 2 # 81], [2 # 81; 0; 2 # 81], [1; 0; 3])%Q.
Proof. vm_compute. reflexivity. Qed.
