From Coq Require Import ZArith QArith List Bool Lia Permutation.
From Verif Require Import Base BaseProofs Mat3 QMat GridSpec GridModel GridProofs GridProps BzModel BzSpec BzProofs BzProps TripletModel TripletSpec TripletProofs TripletProps KaccumModel KaccumProps WgpModel.
Import ListNotations.
Open Scope Z_scope.

(** ** C131: grid points for distributed runs *)
Lemma nth_zr : forall n i, 0 <= i < n -> nth (Z.to_nat i) (zrange n) 0 = i.
Proof. intros n i Hi. unfold zrange. change 0 with (Z.of_nat 0). rewrite map_nth, seq_nth by lia. lia. Qed.
Lemma bzg_eq : forall g i, 0 <= i < num g -> bzg g i = grg2bzg (k_out g) (k_ty g) i.
Proof.
  intros g i H. unfold bzg, grg2bzg_array. rewrite (nth_indep _ 0 (grg2bzg (k_out g) (k_ty g) 0)) by (rewrite map_length, length_zrange; lia).
  rewrite map_nth. f_equal. apply nth_zr. lia.
Qed.
Lemma array_len : forall g, 0 <= num g -> length (grg2bzg_array g) = Z.to_nat (num g).
Proof. intros g H. unfold grg2bzg_array. now rewrite map_length, length_zrange. Qed.
(** The grid points and weights of the file are those of the run, with and without --noks. *)
Theorem C131_same_points : forall g mp ks, 0 <= num g ->
  let '(gps, _, ws) := get_grid_info g mp None ks in listed g mp ks = (gps, ws) /\ length gps = length ws /\
  ir_grid_points_yaml g mp ks = (Z.of_nat (length gps), map (fun x => (fst x, snd x, addr g (fst x))) (combine gps ws)).
Proof.
  intros g mp ks H. unfold get_grid_info, base_ir_grid_points, ir_grid_points_yaml, listed. destruct ks.
  - split; [reflexivity|]. split; [now rewrite !map_length|reflexivity].
  - rewrite (firstn_all2 (grg2bzg_array g)) by (rewrite array_len; lia). split; [reflexivity|]. split; [now rewrite map_length|reflexivity].
Qed.
(** Every grid point is symmetrically equivalent to exactly one listed point, the listed points are different stored points, and the
    weights sum to the number of grid points. *)
Theorem C131_representatives : forall g rots PS init, good_grid g -> good_group (mesh g) PS rots ->
  let mp := get_ir_grid_map rots (mesh g) PS init in let '(gps, ws) := listed g mp true in
  NoDup gps /\ (forall p, In p gps -> 0 <= p < o_size (k_out g)) /\
  (forall x, 0 <= x < num g -> exists p, (In p gps /\ exists R, In R rots /\ rotate_grid_index (o_b2g (k_out g) p) R (mesh g) PS = x) /\
     forall p', In p' gps -> (exists R, In R rots /\ rotate_grid_index (o_b2g (k_out g) p') R (mesh g) PS = x) -> p' = p) /\
  zsum ws = num g /\ Forall2 (fun p w => w = zcount (fun x => existsb (fun R => rotate_grid_index (o_b2g (k_out g) p) R (mesh g) PS =? x) rots) (zrange (num g))) gps ws.
Proof.
  intros g rots PS init GG HG mp. assert (HD : pos_mesh (mesh g)) by apply (proj1 GG). cbn [listed].
  destruct (C06_ir_points_and_weights rots (mesh g) PS init HD HG) as [F [ND [_ [W S]]]]. fold mp in F, ND, W, S. change (mesh_size (mesh g)) with (num g) in *.
  assert (B : forall i, In i (ir_grid_points mp (num g)) -> 0 <= bzg g i < o_size (k_out g) /\ o_b2g (k_out g) (bzg g i) = i).
  { intros i I. apply F in I. rewrite bzg_eq by apply I. apply grg_stored; [exact GG|apply I]. }
  split; [|split; [|split; [|split; [exact S|]]]].
  - apply NoDup_nth_error. intros a b La E. rewrite map_length in La. rewrite !nth_error_map in E.
    destruct (nth_error (ir_grid_points mp (num g)) a) as [x|] eqn:Ea; [|apply nth_error_None in Ea; lia].
    destruct (nth_error (ir_grid_points mp (num g)) b) as [y|] eqn:Eb; [|discriminate E]. cbn in E.
    assert (x = y). { destruct (B x (nth_error_In _ _ Ea)) as [_ X]. destruct (B y (nth_error_In _ _ Eb)) as [_ Y]. assert (bzg g x = bzg g y) by congruence. congruence. }
    subst y. rewrite NoDup_nth_error in ND. apply ND; [apply nth_error_Some; congruence|congruence].
  - intros p I. apply in_map_iff in I. destruct I as [i [<- I]]. apply B, I.
  - intros x Hx. exists (bzg g (mp x)). assert (I : In (mp x) (ir_grid_points mp (num g))).
    { apply F. split; [apply w_range; auto|]. apply w_idem; auto. }
    split.
    + split; [now apply in_map|]. destruct (B _ I) as [_ ->]. pose proof (proj1 (F _) I) as [R1 R2].
      apply (proj1 (w_eq_iff (mesh g) PS rots init HD HG (mp x) x R1 Hx)). exact R2.
    + intros p' I' [R [HR E]]. apply in_map_iff in I'. destruct I' as [i [<- I']]. destruct (B i I') as [_ Bi]. rewrite Bi in E.
      pose proof (proj1 (F _) I') as [R1 R2]. f_equal. rewrite <- R2. apply (proj2 (w_eq_iff (mesh g) PS rots init HD HG i x R1 Hx)). eauto.
  - clear - W B. induction (ir_grid_points mp (num g)) as [|i l IH]; cbn [map]; constructor.
    + destruct (B i (or_introl eq_refl)) as [_ ->]. apply W. now left.
    + apply IH; intros j J; [apply W|apply B]; now right.
Qed.

(** ** Weights of the points given with --gp *)
Lemma fold_count : forall (l : list Z) w x, fold_left (fun w gp => fun y => if y =? gp then w y + 1 else w y) l w x = w x + zcount (fun g => g =? x) l.
Proof.
  induction l as [|a l IH]; intros w x; [cbn; lia|]. cbn [fold_left]. rewrite IH, zcount_cons, (Z.eqb_sym a x). destruct (x =? a); lia.
Qed.
Definition star (g : bzgrid) (rots : list M3) (PS : V3) (p : Z) : Z :=
  zcount (fun x => existsb (fun R => rotate_grid_index (o_b2g (k_out g) p) R (mesh g) PS =? x) rots) (zrange (num g)).
Lemma weight_star : forall g rots PS init p, good_grid g -> good_group (mesh g) PS rots -> 0 <= p < o_size (k_out g) ->
  let mp := get_ir_grid_map rots (mesh g) PS init in ir_weight mp (num g) (mp (o_b2g (k_out g) p)) = star g rots PS p.
Proof.
  intros g rots PS init p GG HG Hp mp. assert (HD : pos_mesh (mesh g)) by apply (proj1 GG). destruct (b2g_index g p GG Hp) as [_ Hr].
  unfold ir_weight, star. apply zcount_ext_in. intros x Hx. apply in_zrange in Hx. apply eq_true_iff_eq. rewrite Z.eqb_eq, existsb_exists. split.
  - intros E. symmetry in E. apply (w_eq_iff (mesh g) PS rots init HD HG _ _ Hr Hx) in E. destruct E as [R [HR ER]]. exists R. rewrite Z.eqb_eq. auto.
  - intros [R [HR ER]]. apply Z.eqb_eq in ER. symmetry. apply (w_eq_iff (mesh g) PS rots init HD HG _ _ Hr Hx). exists R; auto.
Qed.
(** The weights of a run at given points are the numbers of points of their stars, whatever points are given, also those on the
    surface of the Brillouin zone and those that are not in the file, and the points are those given. *)
Theorem C131_given_points : forall g rots PS init gps ks, good_grid g -> good_group (mesh g) PS rots -> (forall p, In p gps -> 0 <= p < o_size (k_out g)) ->
  let mp := get_ir_grid_map rots (mesh g) PS init in
  get_grid_info g mp (Some gps) ks = (gps, fst (listed g mp true), map (star g rots PS) gps).
Proof.
  intros g rots PS init gps ks GG HG Hp mp. unfold get_grid_info, base_ir_grid_points. cbn [listed fst]. f_equal. apply map_ext_in. intros p I.
  rewrite fold_count, zcount_map. cbn. exact (weight_star g rots PS init p GG HG (Hp p I)).
Qed.
(** Separate runs for the points of the file together have the points and weights of the run at once, and no run warns. *)
Theorem C131_distributed : forall g rots init, good_grid g -> good_group (mesh g) vzero rots -> NoDup rots ->
  let mp := get_ir_grid_map rots (mesh g) vzero init in
  let whole := get_grid_info g mp None true in let run p := get_grid_info g mp (Some [p]) true in
  flat_map (fun p => fst (fst (run p))) (fst (listed g mp true)) = fst (fst whole) /\
  flat_map (fun p => snd (run p)) (fst (listed g mp true)) = snd whole /\
  (forall p, In p (fst (listed g mp true)) -> snd (fst (run p)) = snd (fst whole)) /\
  forall p w, 0 <= p < o_size (k_out g) -> snd (run p) = [w] -> order_and_warning g rots true p w = (w, false).
Proof.
  intros g rots init GG HG ND mp whole run. assert (HD : pos_mesh (mesh g)) by apply (proj1 GG).
  pose proof (C131_representatives g rots vzero init GG HG) as K. fold mp in K. cbn [listed] in K. destruct K as [_ [B [_ [_ W]]]].
  assert (E : forall p, 0 <= p < o_size (k_out g) -> run p = ([p], fst (listed g mp true), [star g rots vzero p])).
  { intros p Hp. apply C131_given_points; auto. intros q [<-|[]]. exact Hp. }
  unfold whole, get_grid_info, base_ir_grid_points. cbn [listed fst snd]. set (irs := map (bzg g) (ir_grid_points mp (num g))) in *.
  split; [|split; [|split]].
  - assert (G : forall l, (forall p, In p l -> 0 <= p < o_size (k_out g)) -> flat_map (fun p => fst (fst (run p))) l = l).
    { induction l as [|p l IH]; intros Hl; [reflexivity|]. cbn [flat_map]. rewrite E by (apply Hl; now left). cbn. f_equal. apply IH. intros q I. apply Hl. now right. }
    apply G. exact B.
  - clear - W E B. induction W as [|p w ps ws H F IH]; [reflexivity|]. cbn [flat_map]. rewrite E by (apply B; now left). cbn. f_equal; [symmetry; exact H|]. apply IH. intros q I. apply B. now right.
  - intros p I. rewrite E by (apply B, I). reflexivity.
  - intros p w Hp Hw. rewrite E in Hw by exact Hp. cbn in Hw. injection Hw as <-. unfold order_and_warning.
    rewrite (C06_kstar_order_equals_weight rots (mesh g) init (addr g p) HD HG ND). fold mp. destruct (b2g_index g p GG Hp) as [Hi _]. rewrite Hi.
    change (mesh_size (mesh g)) with (num g). pose proof (weight_star g rots vzero init p GG HG Hp) as WS. cbv zeta in WS. fold mp in WS. rewrite WS, Z.eqb_refl. reflexivity.
Qed.
(** With --noks the weight of a point given with --gp is that of its star, not one, and the run warns that the grid breaks the
    symmetry whenever the star has more points. *)
Theorem C131_noks_warning : forall g rots PS init p, good_grid g -> good_group (mesh g) PS rots -> 0 <= p < o_size (k_out g) -> 1 < star g rots PS p ->
  let mp := get_ir_grid_map rots (mesh g) PS init in let w := star g rots PS p in
  snd (get_grid_info g mp (Some [p]) false) = [w] /\ order_and_warning g rots false p w = (1, true).
Proof.
  intros g rots PS init p GG HG Hp S mp w. split.
  - unfold mp. rewrite C131_given_points; auto. intros q [<-|[]]. exact Hp.
  - unfold order_and_warning. change (1 / 1) with 1. rewrite (proj2 (Z.eqb_neq 1 w)) by (unfold w; lia). reflexivity.
Qed.

(** ** Numbers of triplets *)
(** The lines of --stp are for the points given, or the points of the file; the number is that of the run, and the size that of the
    array of interaction strengths, if symmetry is used and no direction is given at the Gamma point. *)
Theorem C131_triplets : forall g mp rots na bands x ks lines direction,
  match x with GivenArray _ => False | _ => True end ->
  show_num_triplets g mp rots na bands x ks = Some lines ->
  let gps := match x with GivenList (a :: l) => a :: l | _ => fst (fst (get_grid_info g mp None ks)) end in
  0 <= num g -> (direction = None \/ forall p, In p gps -> addr g p <> vzero) ->
  let nb0 := match bands with None => na * 3 | Some l => Z.of_nat (length l) end in
  Forall2 (fun p line => exists n, line = (p, addr g p, n, strength_bytes n nb0 na) /\ triplets_used g rots direction true p = Some n) gps lines.
Proof.
  intros g mp rots na bands x ks lines direction NA H gps Hn HD nb0. unfold show_num_triplets in H.
  assert (E : exists b, truth x = Some b /\ (if b then points_of x else fst (listed g mp ks)) = gps).
  { pose proof (C131_same_points g mp ks Hn) as L. unfold gps. destruct (get_grid_info g mp None ks) as [[ps irs] ws]. destruct L as [L _]. rewrite L. cbn [fst].
    destruct x as [|[|a l]|l]; [exists false|exists false|exists true|destruct NA]; split; reflexivity. }
  destruct E as [b [T E]]. rewrite T, E in H. clear T E NA. clearbody gps. revert lines H. induction gps as [|p gps IH]; intros lines H; [cbn in H; injection H as <-; constructor|].
  cbn [map all_some] in H. unfold number_of_triplets in H. destruct (get_triplets_at_q (k_B g) (k_out g) (k_ty g) (k_Q g) (k_rl g) p true rots true) as [r|] eqn:G; [|discriminate H]. cbn [option_map] in H.
  match type of H with option_map _ ?t = _ => destruct t as [ls|] eqn:EL; [|discriminate H] end. cbn [option_map] in H. match type of H with Some ?u = _ => assert (HL : lines = u) by congruence end. clear H. subst lines. constructor.
  - exists (Z.of_nat (length (fst (fst (fst r))))). split; [f_equal; unfold strength_bytes, product, nb0; cbn [fold_right]; rewrite Z.pow_2_r; ring|].
    unfold triplets_used. cbn [negb]. rewrite G. destruct HD as [-> | HD]; [reflexivity|]. destruct direction as [rs|]; [|reflexivity].
    destruct (veqb (addr g p) vzero) eqn:V; [apply veqb_eq in V; destruct (HD p (or_introl eq_refl) V)|reflexivity].
  - apply IH; [|exact EL]. destruct HD as [HD|HD]; [now left|right]. intros q I. apply HD. now right.
Qed.
(** The lines are shown whenever the points are stored points and the operations are a group of the mesh. *)
Theorem C131_shown : forall g mp rots na bands x ks, good_grid g -> k_ty g = 2 -> is_group rots -> (forall R, In R rots -> compat (mesh g) R) ->
  reciprocal_point_group rots true false <> None ->
  match x with GivenList l => forall p, In p l -> 0 <= p < o_size (k_out g) | GivenArray _ => False | NotGiven => True end ->
  (forall x, 0 <= x < num g -> 0 <= mp x < num g) ->
  exists lines, show_num_triplets g mp rots na bands x ks = Some lines.
Proof.
  intros g mp rots na bands x ks GG Ty HG HC NR HX HM. unfold show_num_triplets.
  assert (E : exists b, truth x = Some b /\ forall p, In p (if b then points_of x else fst (listed g mp ks)) -> 0 <= p < o_size (k_out g)).
  { assert (L : forall p, In p (fst (listed g mp ks)) -> 0 <= p < o_size (k_out g)).
    { intros p I. assert (A : exists i, 0 <= i < num g /\ p = grg2bzg (k_out g) (k_ty g) i).
      { unfold listed in I. destruct ks; cbn [fst] in I.
        - apply in_map_iff in I. destruct I as [i [<- I]]. unfold ir_grid_points in I. apply filter_In in I. destruct I as [I _]. apply in_zrange in I. exists i. split; [exact I|]. now apply bzg_eq.
        - assert (I' : In p (grg2bzg_array g)) by (rewrite <- (firstn_skipn (Z.to_nat (num g)) (grg2bzg_array g)); apply in_or_app; now left).
          apply in_map_iff in I'. destruct I' as [i [<- I']]. apply in_zrange in I'. eauto. }
      destruct A as [i [Hi ->]]. apply grg_stored; auto. }
    destruct x as [|[|a l]|l]; [exists false|exists false|exists true|destruct HX]; split; auto. }
  destruct E as [b [T E]]. rewrite T. set (gps := if b then _ else _) in *. clearbody gps. induction gps as [|p gps IH]; [exists []; reflexivity|].
  destruct IH as [ls IH]; [intros q I; apply E; now right|]. cbn [map all_some]. unfold number_of_triplets at 1.
  destruct GG as [HB [_ [init Ho]]]. rewrite Ty in Ho.
  assert (BH : bz_hyp (k_B g) 2 init (k_out g) p) by (split; [exact HB|]; split; [now right|]; split; [exact Ho|]; split; [apply E; now left|intros K; discriminate K]).
  pose proof (C15_triplets_conserve_momentum (k_B g) 2 init (k_out g) (k_Q g) (k_rl g) p true rots true BH HG HC) as K. cbv zeta in K. rewrite Ty.
  destruct (get_triplets_at_q (k_B g) (k_out g) 2 (k_Q g) (k_rl g) p true rots true) as [r|]; [|congruence]. cbn [option_map]. rewrite IH. eexists. reflexivity.
Qed.
(** Without symmetry (--nomeshsym) the run uses as many triplets as there are grid points. *)
Theorem C131_nomeshsym : forall g rots direction p, good_grid g -> k_ty g = 2 -> 0 <= p < o_size (k_out g) ->
  triplets_used g rots direction false p = Some (num g).
Proof.
  intros g rots direction p [HB [_ [init Ho]]] Ty Hp. rewrite Ty in Ho. unfold triplets_used. cbn [negb]. rewrite Ty.
  assert (BH : bz_hyp (k_B g) 2 init (k_out g) p) by (split; [exact HB|]; split; [now right|]; split; [exact Ho|]; split; [exact Hp|intros K; discriminate K]).
  destruct (C15_nosym_triplets (k_B g) 2 init (k_out g) (k_Q g) (k_rl g) p BH) as [t [w [E [F _]]]]. rewrite E. cbn [option_map fst]. f_equal.
  pose proof (F2_length _ _ _ _ _ F) as L. rewrite length_zrange in L. unfold num. pose proof (mesh_size_pos (mesh g) (proj1 HB)). unfold mesh in *. lia.
Qed.
(** Grid addresses (--ga): an address at grid point 0 shows all points of the file instead, several addresses are an exception. *)
Theorem C131_addresses_refuted : forall g mp rots na bands ks,
  show_num_triplets g mp rots na bands (GivenArray [0]) ks = show_num_triplets g mp rots na bands NotGiven ks /\
  (forall a b l, show_num_triplets g mp rots na bands (GivenArray (a :: b :: l)) ks = None) /\
  forall a, a <> 0 -> show_num_triplets g mp rots na bands (GivenArray [a]) ks = show_num_triplets g mp rots na bands (GivenList [a]) ks.
Proof.
  intros g mp rots na bands ks. split; [reflexivity|]. split; [reflexivity|]. intros a Ha. unfold show_num_triplets, truth. rewrite (proj2 (Z.eqb_neq a 0) Ha). reflexivity.
Qed.

(** ** Memory *)
Theorem C131_phonon_memory : forall g mp ks na bands, snd (memory_shown g mp ks na bands) = phonon_bytes g na.
Proof. intros g mp ks na bands. unfold memory_shown, phonon_bytes, product. cbn [fold_right snd]. ring. Qed.
Theorem C131_memory : forall g mp ks na gps, 0 <= num g -> 
  let '(piece, full, _) := memory_shown g mp ks na None in
  (ks = true -> piece = colmat_bytes g mp (Some gps) false ks na (na * 3) 1 1) /\ full = colmat_bytes g mp None false ks na (na * 3) 1 1.
Proof.
  intros g mp ks na gps Hn. unfold memory_shown, colmat_bytes. pose proof (C131_same_points g mp ks Hn) as L.
  destruct (get_grid_info g mp None ks) as [[ps irs] ws] eqn:E. destruct L as [L _]. rewrite L. cbn [fst].
  assert (I : irs = ps). { unfold get_grid_info, base_ir_grid_points in E. destruct ks; congruence. }
  split.
  - intros ->. unfold get_grid_info, base_ir_grid_points in *. cbn [listed] in L. injection L as L _. rewrite L. unfold product. cbn [fold_right]. ring.
  - subst irs. unfold product. cbn [fold_right]. ring.
Qed.

(** The number of triplets is the count returned by the C function. *)
Lemma tp_count : forall g tr rots p c, good_grid g -> k_ty g = 2 -> 0 <= p < o_size (k_out g) -> is_group rots -> (forall R, In R rots -> compat (mesh g) R) ->
  option_map snd (triplets_reciprocal_mesh_at_q (o_b2g (k_out g) p) (mesh g) tr rots true) = Some c ->
  option_map (fun r => Z.of_nat (length (fst (fst (fst r))))) (get_triplets_at_q (k_B g) (k_out g) (k_ty g) (k_Q g) (k_rl g) p tr rots true) = Some c.
Proof.
  intros g tr rots p c [HB [_ [init Ho]]] Ty Hp HG HC H. rewrite Ty in Ho |- *.
  assert (BH : bz_hyp (k_B g) 2 init (k_out g) p) by (split; [exact HB|]; split; [now right|]; split; [exact Ho|]; split; [exact Hp|intros K; discriminate K]).
  pose proof (C15_triplets_conserve_momentum (k_B g) 2 init (k_out g) (k_Q g) (k_rl g) p tr rots true BH HG HC) as K. cbv zeta in K.
  destruct (get_triplets_at_q (k_B g) (k_out g) 2 (k_Q g) (k_rl g) p tr rots true) as [[[[t w] mt] mq]|].
  - destruct K as [c' [irs [E [_ [L _]]]]]. change (bD (k_B g)) with (mesh g) in E. rewrite E in H. cbn in H |- *. congruence.
  - unfold triplets_reciprocal_mesh_at_q in H. rewrite K in H. discriminate H.
Qed.

(** ** Witnesses *)
Definition line3 : BzIn := mkBzIn (v3 3 1 1) I3 vzero (qm 1 0 0 0 1 0 0 0 1).
Definition grid_of (B : BzIn) : bzgrid := match get_bz_grid_addresses B 2 zero_out with Some o => Build_bzgrid B 2 o I3 (bL B) I3 (bL B) | None => Build_bzgrid B 2 zero_out I3 (bL B) I3 (bL B) end.
Lemma grid_of_good : forall B, good_in B -> det (bQ B) = 1 -> good_grid (grid_of B).
Proof.
  intros B H U. unfold grid_of. destruct (get_bz_grid_addresses B 2 zero_out) as [o|] eqn:E.
  - split; [exact H|]. split; [left; reflexivity|]. exists zero_out. exact E.
  - apply C11_failure_iff_not_unimodular in E. lia.
Qed.
Definition g3 : bzgrid := grid_of line3.
Definition both : list M3 := [I3; mneg I3].
Definition map3 : Z -> Z := get_ir_grid_map both (mesh g3) vzero (fun _ => 0).
Example C131_ex : good_grid g3 /\ good_group (mesh g3) vzero both /\ NoDup both /\ k_ty g3 = 2 /\ is_group both /\ (forall R, In R both -> compat (mesh g3) R) /\ reciprocal_point_group both true false <> None.
Proof.
  assert (M : mesh (grid_of line3) = v3 3 1 1) by (unfold grid_of; destruct (get_bz_grid_addresses line3 2 zero_out); reflexivity).
  assert (G : good_group (mesh g3) vzero both) by (unfold g3; rewrite M; apply good_groupb_sound; [cbn; lia|vm_compute; reflexivity]).
  split; [|split; [|split; [|split; [|split; [|split]]]]].
  - apply grid_of_good; [split; [cbn; lia|vm_compute; discriminate]|reflexivity].
  - exact G.
  - repeat constructor; cbn; intuition discriminate.
  - unfold g3, grid_of. destruct (get_bz_grid_addresses line3 2 zero_out); reflexivity.
  - apply is_groupb_sound. vm_compute. reflexivity.
  - intros R I. apply (proj2 G R I).
  - vm_compute. discriminate.
Qed.
Lemma g3_points : o_size (k_out g3) = 3 /\ o_b2g (k_out g3) 0 = 0 /\ o_b2g (k_out g3) 1 = 1.
Proof. vm_compute. auto. Qed.
Example C131_file_ex : ir_grid_points_yaml g3 map3 true = (2, [(0, 1, vzero); (1, 2, v3 1 0 0)]) /\ 
  (exists lines, show_num_triplets g3 map3 both 1 None (GivenList [1]) true = Some lines) /\ number_of_triplets g3 both 1 = Some 2.
Proof.
  destruct C131_ex as [E1 [E2 [_ [E3 [E4 [E5 E6]]]]]]. destruct g3_points as [P1 [_ P3]].
  split; [vm_compute; reflexivity|]. split.
  - apply C131_shown; [exact E1|exact E3|exact E4|exact E5|exact E6| |].
    + intros p [<-|[]]. rewrite P1. lia.
    + intros x Hx. apply (w_range (mesh g3) vzero both (fun _ => 0) (proj1 (proj1 E1)) E2 x Hx).
  - apply tp_count; [exact E1|exact E3|rewrite P1; lia|exact E4|exact E5|rewrite P3; vm_compute; reflexivity].
Qed.
(** --noks: the weights of separate runs at all points do not sum to the number of points, and those with a star warn. *)
Theorem C131_noks_refuted : exists g rots init p, good_grid g /\ good_group (mesh g) vzero rots /\
  let mp := get_ir_grid_map rots (mesh g) vzero init in let pts := fst (listed g mp false) in
  In p pts /\ snd (get_grid_info g mp (Some [p]) false) <> [1] /\
  zsum (flat_map (fun p => snd (get_grid_info g mp (Some [p]) false)) pts) <> num g /\ snd (order_and_warning g rots false p 2) = true.
Proof.
  exists g3, both, (fun _ => 0), 1. split; [apply C131_ex|]. split; [apply C131_ex|]. cbv zeta.
  split; [vm_compute; auto|]. split; [vm_compute; discriminate|]. split; [vm_compute; discriminate|vm_compute; reflexivity].
Qed.
(** --nomeshsym: the number shown is not that of the run. *)
Theorem C131_nomeshsym_refuted : exists g rots p n m, good_grid g /\ number_of_triplets g rots p = Some n /\ triplets_used g rots None false p = Some m /\ n < m.
Proof.
  destruct C131_ex as [E1 [E2 [_ [E3 [E4 [E5 E6]]]]]]. destruct g3_points as [P1 [P2 _]]. exists g3, both, 0, 2, 3. split; [exact E1|]. split; [|split; [|lia]].
  - apply tp_count; [exact E1|exact E3|rewrite P1; lia|exact E4|exact E5|rewrite P2; vm_compute; reflexivity].
  - rewrite C131_nomeshsym; [vm_compute; reflexivity|exact E1|exact E3|rewrite P1; lia].
Qed.
(** --q-direction at the Gamma point: nor is it. *)
Definition square : BzIn := mkBzIn (v3 2 2 1) I3 vzero (qm 1 0 0 0 1 0 0 0 1).
Definition g22 : bzgrid := grid_of square.
Definition flip : list M3 := [I3; m3 0 1 0 1 0 0 0 0 1].
Theorem C131_direction_refuted : exists g rots some p n m, good_grid g /\ incl some rots /\ number_of_triplets g rots p = Some n /\ triplets_used g rots (Some some) true p = Some m /\ n < m.
Proof.
  assert (G : good_grid g22) by (apply grid_of_good; [split; [cbn; lia|vm_compute; discriminate]|reflexivity]).
  assert (M : mesh (grid_of square) = v3 2 2 1) by (unfold grid_of; destruct (get_bz_grid_addresses square 2 zero_out); reflexivity).
  assert (T : k_ty g22 = 2) by (unfold g22, grid_of; destruct (get_bz_grid_addresses square 2 zero_out); reflexivity).
  assert (F : good_group (mesh g22) vzero flip) by (unfold g22; rewrite M; apply good_groupb_sound; [cbn; lia|vm_compute; reflexivity]).
  assert (O : good_group (mesh g22) vzero [I3]) by (unfold g22; rewrite M; apply good_groupb_sound; [cbn; lia|vm_compute; reflexivity]).
  destruct (grg_stored g22 0 G) as [S B]; [unfold num, g22; rewrite M; cbn; lia|]. set (p := grg2bzg (k_out g22) (k_ty g22) 0) in *.
  assert (A : addr g22 p = vzero) by (vm_compute; reflexivity).
  exists g22, flip, [I3], p, 3, 4. split; [exact G|]. split; [intros x [<-|[]]; now left|]. split; [|split; [|lia]].
  - apply tp_count; [exact G|exact T|exact S|apply F|intros R I; apply (proj2 F R I)|rewrite B; unfold g22; rewrite M; vm_compute; reflexivity].
  - unfold triplets_used. cbn [negb]. rewrite A. change (veqb vzero vzero) with true. cbv iota. apply tp_count; [exact G|exact T|exact S|apply O|intros R I; apply (proj2 O R I)|rewrite B; unfold g22; rewrite M; vm_compute; reflexivity].
Qed.
(** the reducible collision matrix has all points of the mesh and all bands on both sides *)
Theorem C131_reducible_memory : forall g mp ks na,
  colmat_bytes g mp None true ks na (na * 3) 1 1 = 8 * (num g * (na * 3)) ^ 2.
Proof. intros g mp ks na. unfold colmat_bytes. destruct (get_grid_info g mp None ks) as [[ps irs] ws]. unfold product. cbn [fold_right]. ring. Qed.
(** --reducible-colmat: the size shown is not that of the collision matrix. *)
Theorem C131_memory_refuted : exists g rots init na, good_grid g /\ good_group (mesh g) vzero rots /\
  let mp := get_ir_grid_map rots (mesh g) vzero init in
  snd (fst (memory_shown g mp true na None)) <> colmat_bytes g mp None true true na (na * 3) 1 1.
Proof. exists g3, both, (fun _ => 0), 1. split; [apply C131_ex|]. split; [apply C131_ex|]. vm_compute. discriminate. Qed.
Print Assumptions C131_same_points.
Print Assumptions C131_representatives.
Print Assumptions C131_given_points.
Print Assumptions C131_distributed.
Print Assumptions C131_noks_warning.
Print Assumptions C131_triplets.
Print Assumptions C131_shown.
Print Assumptions C131_nomeshsym.
Print Assumptions C131_addresses_refuted.
Print Assumptions C131_memory.
Print Assumptions C131_reducible_memory.
Print Assumptions C131_phonon_memory.
Print Assumptions C131_noks_refuted.
Print Assumptions C131_nomeshsym_refuted.
Print Assumptions C131_direction_refuted.
Print Assumptions C131_memory_refuted.
