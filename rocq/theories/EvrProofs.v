From Coq Require Import ZArith QArith List Bool Lia Lqa Setoid.
From Verif Require Import Base BaseProofs Mat3 QMat Cplx IseSpec IsoSym DynModel DynProps R2rProofs R2rSym DynSym BzModel EvrModel EvrSpectrum.
Import ListNotations.
Open Scope Z_scope.

Lemma CSum_mul_r : forall n c f, CSum n (fun i => cmul (f i) c) =c= cmul (CSum n f) c.
Proof. intros n c f. transitivity (CSum n (fun i => cmul c (f i))); [apply CSum_ext; intros; ring|]. rewrite CSum_scale. ring. Qed.
Lemma ix_div : forall i l, 0 <= l < 3 -> ix i l / 3 = i. Proof. intros i l Hl. unfold ix. symmetry. apply (Z.div_unique_pos _ _ _ l); lia. Qed.
Lemma ix_mod : forall i l, 0 <= l < 3 -> ix i l mod 3 = l. Proof. intros i l Hl. unfold ix. symmetry. apply (Z.mod_unique_pos _ _ i l); lia. Qed.
Lemma CSum_add : forall n f g, CSum n (fun i => cadd (f i) (g i)) =c= cadd (CSum n f) (CSum n g).
Proof. intros. unfold CSum. apply csum_add. Qed.
Local Arguments CSum : simpl never.

Definition orthogonal (R : Z -> Z -> Q) : Prop :=
  forall a b, 0 <= a < 3 -> 0 <= b < 3 -> (R 0%Z a * R 0%Z b + R 1%Z a * R 1%Z b + R 2%Z a * R 2%Z b == if (a =? b)%Z then 1 else 0)%Q.
Definition bijection (np : Z) (pm pm' : Z -> Z) : Prop := forall i, 0 <= i < np -> 0 <= pm i < np /\ 0 <= pm' i < np /\ pm' (pm i) = i /\ pm (pm' i) = i.
Definition unit_phase (z : cplx) : Prop := cmul (conj z) z =c= c1.

(** ** one rotation *)
Section Rotate.
Variable np : Z.
Variable R : Z -> Z -> Q.
Variables pm pm' : Z -> Z.
Variable rc : Z -> Z -> Q.
Variable ph : cplx.
Variable E : Z -> Z -> cplx.
Hypothesis Hnp : 0 <= np.
Hypothesis Ho : orthogonal R.
Hypothesis Hpm : bijection np pm pm'.
Hypothesis Hrc : forall a b, 0 <= a < 3 -> 0 <= b < 3 -> (rc a b == R b a)%Q.
Hypothesis Hph : unit_phase ph.
Let n := np * 3.
Definition turned (z b : Z) : cplx :=
  let v k := cmul (E (pm (z / 3) * 3 + k) b) ph in
  cadd (cadd (cscale (rc (z mod 3) 0) (v 0)) (cscale (rc (z mod 3) 1) (v 1))) (cscale (rc (z mod 3) 2) (v 2)).
Lemma turned_at : forall i l b, 0 <= l < 3 -> turned (ix i l) b =c= turn1 (fun a b => R b a) (fun k => cmul (E (ix (pm i) k) b) ph) l.
Proof.
  intros i l b Hl. unfold turned. rewrite ix_div, ix_mod by exact Hl. unfold turn1. rewrite CSum3. cbv zeta. unfold ix. rewrite !Hrc by lia. reflexivity.
Qed.
Lemma turned_carried : forall b, carried np R pm (fun z => turned z b) (fun z => cmul (E z b) ph).
Proof.
  intros b i l Hi Hl. rewrite <- (turn1_back R Ho (fun k => cmul (E (ix (pm i) k) b) ph) l Hl). apply turn1_ext. intros l' Hl'. symmetry. now apply turned_at.
Qed.
Lemma turned_unitary : unitary n E -> unitary n turned.
Proof.
  intros [H1 H2]. split.
  - intros a b Ha Hb. transitivity (CSum n (fun z => cmul (conj (cmul (E z a) ph)) (cmul (E z b) ph))); [symmetry; apply (slot_turn np R pm pm' (fun z => conj (turned z a)) (fun z => conj (cmul (E z a) ph)) (fun z => turned z b) (fun z => cmul (E z b) ph) Hnp Hpm Ho); [|apply turned_carried]|].
    2: { transitivity (CSum n (fun z => cmul (cmul (conj (E z a)) (E z b)) (cmul (conj ph) ph))); [apply CSum_ext; intros z _; rewrite conj_mul; ring|]. rewrite CSum_mul_r, H1 by assumption. unfold unit_phase in Hph. rewrite Hph. ring. }
    intros i l Hi Hl. rewrite (turned_carried a i l Hi Hl). unfold turn1. rewrite !CSum3. split; cbn [re im cscale cadd conj]; ring.
  - intros y z Hy Hz. destruct (split3 np y Hy) as [i [k [Hi [Hk ->]]]]. destruct (split3 np z Hz) as [j [l [Hj [Hl ->]]]].
    destruct (Hpm i Hi) as [Pi [_ [Qi _]]]. destruct (Hpm j Hj) as [Pj [_ [Qj _]]].
    assert (G : forall a c, 0 <= a < 3 -> 0 <= c < 3 -> CSum n (fun b => cmul (E (ix (pm i) a) b) (conj (E (ix (pm j) c) b))) =c= if (i =? j) && (a =? c) then c1 else c0).
    { intros a c Ha Hc. rewrite H2 by (unfold n, ix; lia). replace (ix (pm i) a =? ix (pm j) c) with ((i =? j) && (a =? c)); [reflexivity|].
      destruct (Z.eqb_spec i j) as [->|Ne]; cbn [andb]; [destruct (Z.eqb_spec a c) as [->|Ne]; symmetry; [apply Z.eqb_eq; reflexivity|apply Z.eqb_neq; unfold ix; lia]|].
      symmetry. apply Z.eqb_neq. intros Eq. apply Ne. assert (pm i = pm j) by (unfold ix in Eq; lia). congruence. }
    set (X := fun a b => E (ix (pm i) a) b) in *. set (Y := fun c b => E (ix (pm j) c) b) in *.
    transitivity (CSum n (fun b => cadd (cadd (cadd (cmul (C (R 0 k * R 0 l) 0) (cmul (X 0 b) (conj (Y 0 b)))) (cmul (C (R 0 k * R 1 l) 0) (cmul (X 0 b) (conj (Y 1 b))))) (cadd (cmul (C (R 0 k * R 2 l) 0) (cmul (X 0 b) (conj (Y 2 b)))) (cmul (C (R 1 k * R 0 l) 0) (cmul (X 1 b) (conj (Y 0 b))))))
      (cadd (cadd (cmul (C (R 1 k * R 1 l) 0) (cmul (X 1 b) (conj (Y 1 b)))) (cmul (C (R 1 k * R 2 l) 0) (cmul (X 1 b) (conj (Y 2 b))))) (cadd (cadd (cmul (C (R 2 k * R 0 l) 0) (cmul (X 2 b) (conj (Y 0 b)))) (cmul (C (R 2 k * R 1 l) 0) (cmul (X 2 b) (conj (Y 1 b))))) (cmul (C (R 2 k * R 2 l) 0) (cmul (X 2 b) (conj (Y 2 b)))))))).
    { apply CSum_ext. intros b _. rewrite !turned_at by lia. unfold turn1. rewrite !CSum3. fold (X 0 b) (X 1 b) (X 2 b) (Y 0 b) (Y 1 b) (Y 2 b).
      transitivity (cmul (cmul (conj ph) ph) (cmul (cadd (cadd (cscale (R 0%Z k) (X 0 b)) (cscale (R 1%Z k) (X 1 b))) (cscale (R 2%Z k) (X 2 b))) (conj (cadd (cadd (cscale (R 0%Z l) (Y 0 b)) (cscale (R 1%Z l) (Y 1 b))) (cscale (R 2%Z l) (Y 2 b)))))).
      - generalize (X 0 b) (X 1 b) (X 2 b) (Y 0 b) (Y 1 b) (Y 2 b). intros x0 x1 x2 y0 y1 y2. unfold c1. split; cbn [re im cscale cadd cmul conj]; ring.
      - unfold unit_phase in Hph. rewrite Hph. generalize (X 0 b) (X 1 b) (X 2 b) (Y 0 b) (Y 1 b) (Y 2 b). intros x0 x1 x2 y0 y1 y2. unfold c1. split; cbn [re im cscale cadd cmul conj]; ring. }
    assert (G00 := G 0 0 ltac:(lia) ltac:(lia)). assert (G01 := G 0 1 ltac:(lia) ltac:(lia)). assert (G02 := G 0 2 ltac:(lia) ltac:(lia)).
    assert (G10 := G 1 0 ltac:(lia) ltac:(lia)). assert (G11 := G 1 1 ltac:(lia) ltac:(lia)). assert (G12 := G 1 2 ltac:(lia) ltac:(lia)).
    assert (G20 := G 2 0 ltac:(lia) ltac:(lia)). assert (G21 := G 2 1 ltac:(lia) ltac:(lia)). assert (G22 := G 2 2 ltac:(lia) ltac:(lia)).
    rewrite !CSum_add, !CSum_scale. unfold X, Y. rewrite G00, G01, G02, G10, G11, G12, G20, G21, G22. cbn [Z.eqb Pos.eqb]. pose proof (Ho k l Hk Hl) as O.
    destruct (Z.eqb_spec i j) as [->|Ne]; cbn [andb].
    + replace (ix j k =? ix j l) with (k =? l); [|destruct (Z.eqb_spec k l) as [->|Ne]; symmetry; [apply Z.eqb_eq; reflexivity|apply Z.eqb_neq; unfold ix; lia]].
      transitivity (C (R 0%Z k * R 0%Z l + R 1%Z k * R 1%Z l + R 2%Z k * R 2%Z l) 0); [unfold c0, c1; split; cbn [re im cadd cmul]; ring|]. unfold c0, c1. destruct (k =? l); split; cbn [re im]; try reflexivity; exact O.
    + rewrite (proj2 (Z.eqb_neq (ix i k) (ix j l))) by (unfold ix; lia). unfold c0, c1. split; cbn [re im cadd cmul]; ring.
Qed.
Lemma turned_solution : forall M M' w, (forall e e' lambda, carried np R pm e e' -> (eigen n M lambda e <-> eigen n M' lambda e')) -> solution n M' w E -> solution n M w turned.
Proof.
  intros M M' w HM S. split; [|apply turned_unitary, (sol_unitary _ _ _ _ S)|apply (sol_ascending _ _ _ _ S)].
  intros b Hb. apply (HM _ _ _ (turned_carried b)). intros x Hx. pose proof (sol_eigen _ _ _ _ S b Hb x Hx) as G.
  rewrite (CSum_ext n _ (fun y => cmul (cmul (M' x y) (E y b)) ph)) by (intros; ring). rewrite CSum_mul_r, G. split; cbn [re im cscale cmul]; ring.
Qed.
End Rotate.

(** ** reversal of the wave vector *)
Lemma conj_solution : forall n M M' w V, (forall x y, 0 <= x < n -> 0 <= y < n -> M x y =c= conj (M' x y)) -> solution n M' w V -> solution n M w (fun z b => conj (V z b)).
Proof.
  intros n M M' w V HM [He [H1 H2] Ha]. assert (D : forall b : bool, conj (if b then c1 else c0) =c= if b then c1 else c0) by (intros []; split; cbn; ring). split; [|split|exact Ha].
  - intros b Hb x Hx. rewrite (CSum_ext n _ (fun y => conj (cmul (M' x y) (V y b)))) by (intros y Hy; rewrite (HM x y Hx Hy), conj_mul; reflexivity). rewrite <- CSum_conj', (He b Hb x Hx). split; cbn [re im conj cscale]; ring.
  - intros a b Ha' Hb. rewrite <- D, <- (H1 a b Ha' Hb), CSum_conj'. apply CSum_ext. intros z _. rewrite conj_mul. reflexivity.
  - intros y z Hy Hz. rewrite <- D, <- (H2 y z Hy Hz), CSum_conj'. apply CSum_ext. intros b _. rewrite conj_mul. reflexivity.
Qed.

(** ** the run *)
Section Run.
Variable cis : Q -> cplx.
Variable solve : Z -> (Z -> Q) * (Z -> Z -> cplx).
Variable other : phonons -> Z -> (Z -> Q) * (Z -> Z -> cplx).
Variable B : BzIn.
Variable o : BzOut.
Variable ty : Z.
Variable grots recs : list M3.
Variable L : QM.
Variable QDinv : Z -> Z -> Q.
Variable rots : list M3.
Variable tau : Z -> Z -> Q.
Variable perms : Z -> Z -> Z.
Variable np : Z.
Variable Mat : Z -> Z -> Z -> cplx.
Variable conv : Q -> Q.
Variable irs : list Z.
Hypothesis Hnp : 0 <= np.
Let n := np * 3.
Definition phonon_at (gp : Z) (f : Z -> Q) (e : Z -> Z -> cplx) : Prop := exists w, solution n (Mat gp) w e /\ forall b, 0 <= b < n -> (f b == conv (w b))%Q.
Hypothesis Hcis : forall x, unit_phase (cis x).
Hypothesis Hsolve : forall gp, 0 <= gp < o_size o -> phonon_at gp (fst (solve gp)) (snd (solve gp)).
Hypothesis Hirs : forall ir, In ir irs -> 0 <= ir < o_size o.
(** operation d, at position r_i of the reciprocal operations, turns the matrix at the rotated point into that at the irreducible point *)
Definition turns_matrix (d r_i ir : Z) : Prop :=
  let y := bz_rotate_grid_index B o ty ir (nth (Z.to_nat r_i) grots I3) in
  exists R pm', orthogonal R /\ bijection np (perms d) pm' /\
    (forall a b, 0 <= a < 3 -> 0 <= b < 3 -> (qmentry (similarity L (nth (Z.to_nat r_i) recs I3)) a b == R b a)%Q) /\
    forall e e' lambda, carried np R (perms d) e e' -> (eigen n (Mat y) lambda e <-> eigen n (Mat ir) lambda e').
Hypothesis Hneg : forall x, 0 <= x < o_size o -> let y := bz_rotate_grid_index B o ty x (mneg I3) in
  0 <= y < o_size o /\ forall a b, 0 <= a < n -> 0 <= b < n -> Mat x a b =c= conj (Mat y a b).
Definition good (s : phonons) : Prop := forall gp, 0 <= gp < o_size o -> done s gp = true -> phonon_at gp (freq s gp) (eig s gp).
Lemma write_good : forall s gp f e, good s -> (0 <= gp < o_size o -> phonon_at gp f e) -> good (write s gp f e).
Proof. intros s gp f e G H g Hg D. unfold write in *. cbn in *. destruct (Z.eqb_spec g gp) as [->|]; [now apply H|now apply G]. Qed.
Lemma listed_in : forall g l, listed g l = true <-> In g l.
Proof. intros g l. unfold listed. rewrite existsb_exists. split; [intros [x [H E]]; apply Z.eqb_eq in E; now subst|intros H; exists g; split; [assumption|apply Z.eqb_refl]]. Qed.
Lemma solver_good : forall gps s, good s -> good (run_phonon_solver solve other gps s).
Proof.
  intros gps s G g Hg D. unfold run_phonon_solver in *. cbn in *. destruct (done s g) eqn:E; [now apply G|]. cbn in D. rewrite D. now apply Hsolve.
Qed.
Lemma rotate_one_good : forall d r_i ir s, In ir irs -> turns_matrix d r_i ir -> good s -> (forall g, In g irs -> done s g = true) ->
  let s' := rotate_one cis B o ty grots recs L QDinv tau perms d r_i s ir in good s' /\ (forall g, In g irs -> done s' g = true).
Proof.
  intros d r_i ir s Hir [R [pm' [Ho [Hpm [Hrc HM]]]]] G D. unfold rotate_one. cbv zeta. destruct (done s _) eqn:E; [now split|]. split.
  - apply write_good; [exact G|]. intros Hy. destruct (G ir (Hirs ir Hir) (D ir Hir)) as [w [S F]]. exists w. split; [|exact F].
    apply (turned_solution np R (perms d) pm' _ (cis _) (eig s ir) Hnp Ho Hpm Hrc (Hcis _) _ _ w HM S).
  - intros g Hg. unfold rotate_eigvecs, write. cbn. destruct (_ =? _); [reflexivity|now apply D].
Qed.
Lemma rotate_all_good : forall map d s, (forall k ir, (k < length map)%nat -> In ir irs -> turns_matrix (d + Z.of_nat k) (nth k map 0) ir) -> good s -> (forall g, In g irs -> done s g = true) ->
  good (rotate_all cis B o ty grots recs L QDinv tau perms irs d map s).
Proof.
  induction map as [|r t IH]; intros d s H G D; [exact G|]. cbn [rotate_all].
  assert (X : forall l s, (forall ir, In ir l -> In ir irs) -> good s -> (forall g, In g irs -> done s g = true) ->
    let s' := fold_left (rotate_one cis B o ty grots recs L QDinv tau perms d r) l s in good s' /\ (forall g, In g irs -> done s' g = true)).
  { induction l as [|ir l IHl]; intros s0 Sub G0 D0; [now split|]. cbn [fold_left]. assert (T : turns_matrix d r ir) by (rewrite <- (Z.add_0_r d); apply (H 0%nat ir); [cbn; lia|apply Sub; now left]).
    destruct (rotate_one_good d r ir s0 (Sub ir (or_introl eq_refl)) T G0 D0) as [G1 D1]. apply IHl; [intros; apply Sub; now right|exact G1|exact D1]. }
  destruct (X irs s (fun _ h => h) G D) as [G1 D1]. apply IH; [|exact G1|exact D1]. intros k ir Hk Hir. replace (d + 1 + Z.of_nat k) with (d + Z.of_nat (S k)) by lia. apply (H (S k) ir); [cbn; lia|exact Hir].
Qed.
Lemma minus_one_good : forall s x, 0 <= x < o_size o -> good s -> let s' := minus_one solve other B o ty s x in good s' /\ done s' x = true /\ forall g, done s g = true -> done s' g = true.
Proof.
  intros s x Hx G. unfold minus_one. cbv zeta. destruct (done s x) eqn:E; [repeat split; auto|]. destruct (Hneg x Hx) as [Hy HM]. set (y := bz_rotate_grid_index B o ty x (mneg I3)) in *.
  set (s1 := if done s y then s else run_phonon_solver solve other [y] s).
  assert (G1 : good s1) by (unfold s1; destruct (done s y); [exact G|now apply solver_good]).
  assert (D1 : done s1 y = true) by (unfold s1; destruct (done s y) eqn:Ey; [exact Ey|cbn; rewrite Z.eqb_refl; apply orb_true_r]).
  split; [|split].
  - apply write_good; [exact G1|]. intros _. destruct (G1 y Hy D1) as [w [S F]]. exists w. split; [|exact F]. now apply (conj_solution n (Mat x) (Mat y)).
  - cbn. now rewrite Z.eqb_refl.
  - intros g Dg. cbn. destruct (g =? x); [reflexivity|]. unfold s1. destruct (done s y); [exact Dg|]. cbn. now rewrite Dg.
Qed.
Lemma minus_all_good : forall l s, (forall x, In x l -> 0 <= x < o_size o) -> good s -> let s' := fold_left (minus_one solve other B o ty) l s in
  good s' /\ (forall x, In x l -> done s' x = true) /\ forall g, done s g = true -> done s' g = true.
Proof.
  induction l as [|x l IH]; intros s Hl G; [repeat split; [exact G|intros ? []|auto]|]. cbn [fold_left]. destruct (minus_one_good s x (Hl x (or_introl eq_refl)) G) as [G1 [D1 K1]].
  destruct (IH _ (fun y h => Hl y (or_intror h)) G1) as [G2 [D2 K2]]. split; [exact G2|]. split; [|auto]. intros y [<-|Hy]; [now apply K2|now apply D2].
Qed.
Theorem run_good : forall map s, d2r_map recs rots = Some map -> (forall k ir, (k < length map)%nat -> In ir irs -> turns_matrix (Z.of_nat k) (nth k map 0) ir) ->
  exists s', run_phonon_solver_with_eigvec_rotation cis solve other B o ty grots recs L QDinv rots tau perms irs s = Some s' /\ forall gp, 0 <= gp < o_size o -> done s' gp = true /\ phonon_at gp (freq s' gp) (eig s' gp).
Proof.
  intros map s Hm HT. unfold run_phonon_solver_with_eigvec_rotation. cbv zeta. rewrite Hm. set (s0 := mkph (fun _ => false) (freq s) (eig s)). set (s1 := run_phonon_solver solve other irs s0).
  assert (G0 : good s0) by (intros g _ D; discriminate D). assert (G1 : good s1) by now apply solver_good.
  assert (D1 : forall g, In g irs -> done s1 g = true) by (intros g Hg; cbn; now apply listed_in).
  pose proof (rotate_all_good map 0 s1 HT G1 D1) as G2. unfold get_phonons_at_minus_q. cbv zeta.
  destruct (minus_all_good (zrange (o_size o)) _ (fun x h => proj1 (in_zrange _ _) h) G2) as [G3 [D3 _]]. set (s3 := fold_left _ _ _) in *.
  rewrite (proj2 (forallb_forall (done s3) (zrange (o_size o)))) by exact D3. exists s3. split; [reflexivity|]. intros gp Hgp. assert (Dg : done s3 gp = true) by (apply D3; now apply in_zrange). split; [exact Dg|now apply G3].
Qed.
End Run.
