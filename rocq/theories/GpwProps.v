(** Integration weights at grid points (C75): c/phono3py.c:650-705 with phono3py/other/tetrahedron_method.py:88-178 *)
From Coq Require Import ZArith QArith Qabs List Bool Lia Lqa Permutation.
From Verif Require Import Base BaseProofs Mat3 QMat GridSpec GridModel GridProofs BzModel BzSpec BzProofs BzProps
  TripletModel TripletSpec TripletProofs TripletProps TetraModel TetraSpec TetraProofs TetraProps TileProps Par IwModel IwProps IseSpec IseProofs Fc3Trans.
Import ListNotations.
Open Scope Z_scope.

(** ** Specification *)
(** values at the vertices of tetrahedron [t] put at address [a]; F gives the value at each point of the mesh *)
Definition quad (D : V3) (F : Z -> Q) (a : V3) (t : list V3) : T4 := to_t4 (map (fun v => F (grid_index (vadd a v) D)) t).
Definition below (w : Q) (q : T4) : Q := let '(t4 a b c d) := q in states_below w a b c d.
Definition q4 (R : Q -> Q -> Q -> Q -> Prop) (q : T4) : Prop := let '(t4 a b c d) := q in R a b c d.
Definition all4 (R : Q -> Prop) (q : T4) : Prop := let '(t4 a b c d) := q in R a /\ R b /\ R c /\ R d.

(** ** Layout *)
Lemma gp_nodup : forall eps T rel gps n nf nb fp freq g2i fI, 0 <= nf -> 0 <= nb -> NoDup (map fst (concat (thm_gp_iterations eps T rel gps n nf nb fp freq g2i fI))).
Proof.
  intros eps T rel gps n nf nb fp freq g2i fI Hnf Hnb. unfold thm_gp_iterations. rewrite <- flat_map_concat_map, map_flat_map.
  assert (K : forall i c, 0 <= i < n -> In c (map fst (flat_map (fun bi => map (fun j => (i * nf * nb + j * nb + bi, thm_get_integration_weight eps (fp j) (map (fun r => to_t4 (map (fun v => freq (g2i v * nb + bi)) r)) (map (neighboring_grid_points T (gps i)) rel)) fI)) (zrange nf)) (zrange nb))) ->
    exists j bi, 0 <= j < nf /\ 0 <= bi < nb /\ c = (i * nf + j) * nb + bi).
  { intros i c Hi Hc. rewrite map_flat_map in Hc. apply in_flat_map in Hc. destruct Hc as [bi [Hb Hc]]. rewrite map_map in Hc. apply in_map_iff in Hc. destruct Hc as [j [E Hj]]. apply in_zrange in Hb, Hj. cbn [fst] in E. exists j, bi. repeat split; try lia. }
  apply NoDup_flat_map; [apply NoDup_zrange| |].
  - intros i Hi. apply in_zrange in Hi. rewrite map_flat_map. apply NoDup_flat_map; [apply NoDup_zrange| |].
    + intros bi Hb. rewrite map_map. cbn [fst]. apply FinFun.Injective_map_NoDup; [|apply NoDup_zrange]. intros j j' E. apply in_zrange in Hb. nia.
    + intros bi bi' c Hb Hb' A1 A2. rewrite map_map in A1, A2. apply in_map_iff in A1, A2. destruct A1 as [j [E1 Hj]], A2 as [j' [E2 Hj']]. apply in_zrange in Hb, Hb', Hj, Hj'. cbn [fst] in *.
      assert (E : j * nb + bi = j' * nb + bi') by lia. destruct (flat_inj nb j bi j' bi' Hb Hb' E). auto.
  - intros i i' c Hi Hi' A1 A2. apply in_zrange in Hi, Hi'. apply K in A1, A2; auto. destruct A1 as [j [b [Hj [Hb E1]]]], A2 as [j' [b' [Hj' [Hb' E2]]]]. subst c.
    destruct (flat_inj nb _ b _ b' Hb Hb' E2) as [E3 _]. destruct (flat_inj nf i j i' j' Hj Hj' E3). auto.
Qed.
Lemma gp_value : forall eps T rel gps n nf nb fp freq g2i fI m m' i j b, finishes Z.eq_dec (map wprog (thm_gp_iterations eps T rel gps n nf nb fp freq g2i fI)) m m' -> 0 <= i < n -> 0 <= j < nf -> 0 <= b < nb ->
  m' ((i * nf + j) * nb + b) = thm_get_integration_weight eps (fp j) (map (fun r => to_t4 (map (fun v => freq (g2i (neighbor T (gps i) v) * nb + b)) r)) rel) fI.
Proof.
  intros eps T rel gps n nf nb fp freq g2i fI m m' i j b F Hi Hj Hb. assert (N := gp_nodup eps T rel gps n nf nb fp freq g2i fI ltac:(lia) ltac:(lia)). rewrite (par_writes _ _ _ _ N F). apply store_in; [exact N|].
  unfold thm_gp_iterations. rewrite <- flat_map_concat_map. apply in_flat_map. exists i. split; [now apply in_zrange|]. apply in_flat_map. exists b. split; [now apply in_zrange|]. apply in_map_iff. exists j. split; [|now apply in_zrange].
  f_equal; [ring|]. rewrite map_map. f_equal. apply map_ext. intros r. unfold neighboring_grid_points. now rewrite map_map.
Qed.

(** ** Ends of the spectrum *)
Lemma term_ends : forall eps fI w t, (all4 (fun x => x < w)%Q t -> (tetra_term eps fI w t == if fI then 0 else 1 # 4)%Q) /\ (all4 (fun x => w < x)%Q t -> (tetra_term eps fI w t == 0)%Q).
Proof.
  intros eps fI w [a b c d]. unfold tetra_term. pose proof (arranged_sort a b c d) as A. destruct (sort_omegas (t4 a b c d)) as [x k]. destruct A as [S [P [Hk _]]]. destruct x as [x0 x1 x2 x3].
  assert (V : forall R : Q -> Prop, all4 R (t4 a b c d) -> R x0 /\ R x1 /\ R x2 /\ R x3).
  { intros R [Ra [Rb [Rc Rd]]]. assert (K : forall y, In y [x0; x1; x2; x3] -> R y) by (intros y Hy; apply (Permutation_in y (Permutation_sym P)) in Hy; cbn in Hy; intuition (subst; auto)). repeat split; apply K; cbn; auto. }
  pose proof (region_spec w (t4 x0 x1 x2 x3) S) as R. split; intros H; apply V in H; cbn beta in H; destruct H as [H0 [H1 [H2 H3]]].
  - destruct (region w (t4 x0 x1 x2 x3)) as [i|].
    + destruct R as [Hi R]. assert (i = 4) as -> by (cbn in Hi; destruct Hi as [<-|[<-|[<-|[<-|[<-|[]]]]]]; cbn [in_region] in R; (reflexivity || (exfalso; lra))). destruct fI; cbn; destruct k as [|p|p]; cbn; try reflexivity; destruct p; reflexivity.
    + exfalso. destruct R as [R|[R|[R|R]]]; lra.
  - destruct (region w (t4 x0 x1 x2 x3)) as [i|].
    + destruct R as [Hi R]. assert (i = 0) as -> by (cbn in Hi; destruct Hi as [<-|[<-|[<-|[<-|[<-|[]]]]]]; cbn [in_region] in R; (reflexivity || (exfalso; lra))). destruct fI; cbn; destruct k as [|p|p]; cbn; reflexivity.
    + exfalso. destruct R as [R|[R|[R|R]]]; lra.
Qed.
Lemma weight_sum : forall eps w ts fI, (thm_get_integration_weight eps w ts fI == qsum (map (tetra_term eps fI w) ts) / 6)%Q.
Proof. intros. unfold thm_get_integration_weight. rewrite fold_sum. apply Qdiv_comp; [|reflexivity]. rewrite Qplus_0_l. induction ts as [|t ts IH]; [reflexivity|]. cbn [fold_right map]. rewrite qs_cons, IH. reflexivity. Qed.
Theorem C75_ends : forall eps w ts, length ts = 24%nat ->
  ((forall t, In t ts -> all4 (fun x => x < w)%Q t) -> thm_get_integration_weight eps w ts false == 1 /\ thm_get_integration_weight eps w ts true == 0)%Q /\
  ((forall t, In t ts -> all4 (fun x => w < x)%Q t) -> forall fI, (thm_get_integration_weight eps w ts fI == 0)%Q).
Proof.
  intros eps w ts L. assert (Z0 : forall fI, (forall t, In t ts -> (tetra_term eps fI w t == 0)%Q) -> (thm_get_integration_weight eps w ts fI == 0)%Q) by (intros fI H; rewrite weight_sum, qs_zero by exact H; reflexivity).
  split; intros H; [split|].
  - rewrite weight_sum, (qs_ext _ _ (fun _ => 1 # 4)%Q) by (intros t Ht; apply (proj1 (term_ends eps false w t)); auto). rewrite qs_const, L. reflexivity.
  - apply Z0. intros t Ht. apply (proj1 (term_ends eps true w t)); auto.
  - intros fI. apply Z0. intros t Ht. apply (proj2 (term_ends eps fI w t)); auto.
Qed.

(** ** Counting states *)
Definition vle (a b : V3) : bool := let '(v3 a0 a1 a2) := a in let '(v3 b0 b1 b2) := b in (a0 <? b0) || ((a0 =? b0) && ((a1 <? b1) || ((a1 =? b1) && (a2 <=? b2)))).
Definition ins (a : V3) (l : list V3) : list V3 := match l with [b; c] => if vle a b then [a; b; c] else if vle a c then [b; a; c] else [b; c; a] | _ => l end.
Definition nf (t : list V3) : list V3 := match t with [p; a; b; c] => p :: ins a (if vle b c then [b; c] else [c; b]) | _ => t end.
Definition reroots (t : list V3) : list (list V3) :=
  match t with [a; b; c; d] => [shifted_by a [a; b; c; d]; shifted_by b [b; a; c; d]; shifted_by c [c; a; b; d]; shifted_by d [d; a; b; c]] | _ => [] end.
Definition teqb (t t' : list V3) : bool := match t, t' with [a; b; c; d], [a'; b'; c'; d'] => veqb a a' && veqb b b' && veqb c c' && veqb d d' | _, _ => false end.
Fixpoint remove1 (x : list V3) (l : list (list V3)) : option (list (list V3)) := match l with [] => None | y :: r => if teqb x y then Some r else match remove1 x r with Some r' => Some (y :: r') | None => None end end.
Fixpoint perm_b (l l' : list (list V3)) : bool := match l with [] => match l' with [] => true | _ => false end | x :: r => match remove1 x l' with Some r' => perm_b r r' | None => false end end.
Lemma teqb_eq : forall t t', teqb t t' = true -> t = t'.
Proof.
  intros [|a [|b [|c [|d [|]]]]] t'; cbn; try discriminate. destruct t' as [|a' [|b' [|c' [|d' [|]]]]]; cbn; try discriminate. rewrite !andb_true_iff. intros [[[A B] C] E]. apply veqb_eq in A, B, C, E. now subst.
Qed.
Lemma remove1_perm : forall x l r, remove1 x l = Some r -> Permutation l (x :: r).
Proof.
  intros x. induction l as [|y l IH]; intros r H; [discriminate|]. cbn in H. destruct (teqb x y) eqn:E; [injection H as <-; apply teqb_eq in E; now subst|]. destruct (remove1 x l) as [r'|]; [|discriminate]. injection H as <-. rewrite (IH r' eq_refl). apply perm_swap.
Qed.
Lemma perm_b_sound : forall l l', perm_b l l' = true -> Permutation l l'.
Proof. induction l as [|x l IH]; intros l' H; cbn in H; [destruct l'; [constructor|discriminate]|]. destruct (remove1 x l') as [r|] eqn:E; [|discriminate]. apply remove1_perm in E. rewrite E. constructor. auto. Qed.
Lemma rerooted : forall L, let T := thm_get_relative_grid_address L in Permutation (map nf (flat_map reroots T)) (map nf (T ++ T ++ T ++ T)).
Proof.
  intros L T. unfold T, thm_get_relative_grid_address. apply perm_b_sound.
  destruct (get_main_diagonal L) as [|[|[|[|k]]]]; cbn [nth db_relative_grid_address]; [vm_compute; reflexivity..|]. destruct k; reflexivity.
Qed.
Section Count.
Variable D : V3.
Variable F : Z -> Q.
Variable P : M3.
Variable eps w : Q.
Variable L : QM.
Hypothesis HD : pos_mesh D.
Hypothesis He : (0 <= eps)%Q.
Local Notation T := (thm_get_relative_grid_address L).
Local Notation N := (mesh_size D).
Local Notation J := (tetra_term eps false w).
Definition pquad (a : V3) (t : list V3) : T4 := quad D F a (map (mulMV P) t).
Definition okq (q : T4) : Prop := q4 (off_vertices w) q /\ q4 (gap_ok eps w) q.

Lemma ok_perm : forall a b c d a' b' c' d', Permutation [a; b; c; d] [a'; b'; c'; d'] -> okq (t4 a b c d) -> okq (t4 a' b' c' d').
Proof.
  intros a b c d a' b' c' d' Pm [O G]. cbn in O, G. split; cbn.
  - assert (K : forall y, In y [a'; b'; c'; d'] -> ~ (w == y)%Q) by (intros y Hy; apply (Permutation_in y (Permutation_sym Pm)) in Hy; unfold off_vertices in O; cbn in Hy; intuition (subst; auto)). repeat split; apply K; cbn; auto.
  - intros x y Hx Hy. apply G; eapply Permutation_in; try apply Permutation_sym; eauto.
Qed.
Lemma term_perm : forall fI a b c d b' c' d', Permutation [b; c; d] [b'; c'; d'] -> okq (t4 a b c d) -> (tetra_term eps fI w (t4 a b c d) == tetra_term eps fI w (t4 a b' c' d'))%Q.
Proof.
  intros fI a b c d b' c' d' Pm K. assert (K' := ok_perm _ _ _ _ _ _ _ _ (perm_skip a Pm) K). destruct K as [O G], K' as [O' G']. cbn in O, G, O', G'.
  pose proof (arranged_sort a b c d) as A. destruct (sort_omegas (t4 a b c d)) as [x k].
  assert (A' : arranged x k a b' c' d') by (destruct A as [S [Px H]]; split; [exact S|]; split; [|exact H]; destruct x; rewrite <- Px; apply Permutation_sym; now constructor).
  destruct (arranged_off w x k a b c d A O) as [i [Hi [R _]]].
  destruct (term_value eps w a b c d x k i He O G A R Hi) as [E F1]. destruct (term_value eps w a b' c' d' x k i He O' G' A' R Hi) as [E' F2]. destruct fI; [now rewrite F1, F2|now rewrite E, E'].
Qed.
Lemma nf_form : forall p a b c, exists a' b' c', nf [p; a; b; c] = [p; a'; b'; c'] /\ Permutation [a; b; c] [a'; b'; c'].
Proof.
  intros p a b c. unfold nf, ins. destruct (vle b c).
  - destruct (vle a b); [exists a, b, c; split; auto|]. destruct (vle a c); [exists b, a, c; split; auto; apply perm_swap|exists b, c, a; split; auto]. eapply perm_trans; [apply perm_swap|]. constructor. apply perm_swap.
  - destruct (vle a c); [exists a, c, b; split; auto; constructor; apply perm_swap|]. destruct (vle a b); [exists c, a, b; split; auto|exists c, b, a; split; auto].
    + eapply perm_trans; [constructor; apply perm_swap|]. apply perm_swap.
    + eapply perm_trans; [constructor; apply perm_swap|]. eapply perm_trans; [apply perm_swap|]. constructor. apply perm_swap.
Qed.
Lemma term_nf : forall fI a t, length t = 4%nat -> okq (pquad a t) -> (tetra_term eps fI w (pquad a t) == tetra_term eps fI w (pquad a (nf t)))%Q.
Proof.
  intros fI a [|p [|q [|r [|s [|]]]]] H K; try discriminate. destruct (nf_form p q r s) as [q' [r' [s' [-> Pm]]]]. unfold pquad, quad, to_t4 in *. cbn [map nth] in *. apply term_perm; [|exact K].
  set (f := fun v => F (grid_index (vadd a (mulMV P v)) D)). apply (Permutation_map f Pm).
Qed.
Lemma J_nf : forall a t, length t = 4%nat -> okq (pquad a t) -> (J (pquad a t) == J (pquad a (nf t)))%Q.
Proof. intros; now apply term_nf. Qed.
Lemma T_len : forall t, In t T -> exists p q r s, t = [p; q; r; s].
Proof. intros t Ht. destruct (C24_tetrahedra_tile L) as [_ [H _]]. destruct (H t Ht) as [v1 [v2 [v3' [E _]]]]. now exists vzero, v1, v2, v3'. Qed.
Lemma vcong_quad : forall a a' t, vcong D a a' -> pquad a t = pquad a' t.
Proof. intros a a' t H. unfold pquad, quad. f_equal. rewrite !map_map. apply map_ext. intros v. f_equal. apply (grid_index_eq_iff D); auto. now apply vcong_add_r. Qed.
(** moving the origin of a tetrahedron to one of its vertices *)
Lemma move_quad : forall a p t, pquad (vadd a (mulMV P p)) (shifted_by p t) = pquad a t.
Proof.
  intros a p t. unfold pquad, quad, shifted_by. f_equal. rewrite !map_map. apply map_ext. intros v. f_equal. f_equal. destruct a as [a0 a1 a2], p as [p0 p1 p2], v as [x y z], P. cbn. f_equal; ring.
Qed.
Lemma back_quad : forall a p t, pquad a (shifted_by p t) = pquad (vsub a (mulMV P p)) t.
Proof. intros a p t. rewrite <- (move_quad (vsub a (mulMV P p)) p t). f_equal. destruct a as [a0 a1 a2], (mulMV P p). cbn. f_equal; ring. Qed.
Hypothesis ok_all : forall a t, In t T -> okq (pquad a t).
Lemma four : forall a, (4 * qsum (map (fun t => J (pquad a t)) T) == qsum (map (fun t => J (pquad a t)) (flat_map reroots T)))%Q.
Proof.
  intros a. assert (E4 : (4 * qsum (map (fun t => J (pquad a t)) T) == qsum (map (fun t => J (pquad a t)) (T ++ T ++ T ++ T)))%Q) by (rewrite !map_app, !qs_app; ring). rewrite E4.
  rewrite (qs_ext _ _ (fun t => J (pquad a (nf t))) (T ++ T ++ T ++ T)).
  2:{ intros t Ht. assert (In t T) by (rewrite !in_app_iff in Ht; tauto). apply J_nf; [|auto]. destruct (T_len t H) as [p [q [r [s ->]]]]. reflexivity. }
  rewrite (qs_ext _ (fun t => J (pquad a t)) (fun t => J (pquad a (nf t))) (flat_map reroots T)).
  2:{ intros u Hu. apply in_flat_map in Hu. destruct Hu as [t [Ht Hu]]. destruct (T_len t Ht) as [p [q [r [s ->]]]]. apply J_nf.
    - cbn in Hu. destruct Hu as [<-|[<-|[<-|[<-|[]]]]]; reflexivity.
    - assert (K : forall z, okq (pquad z [p; q; r; s])) by auto.
      cbn [reroots In] in Hu. destruct Hu as [<-|[<-|[<-|[<-|[]]]]]; rewrite back_quad; [apply K|eapply ok_perm; [|apply (K (vsub a (mulMV P q)))]|eapply ok_perm; [|apply (K (vsub a (mulMV P r)))]|eapply ok_perm; [|apply (K (vsub a (mulMV P s)))]]; cbn [map nth].
      + apply perm_swap.
      + eapply perm_trans; [constructor; apply perm_swap|]. apply perm_swap.
      + eapply perm_trans; [constructor; constructor; apply perm_swap|]. eapply perm_trans; [constructor; apply perm_swap|]. apply perm_swap. }
  rewrite <- (map_map nf (fun t => J (pquad a t)) (T ++ T ++ T ++ T)), <- (map_map nf (fun t => J (pquad a t)) (flat_map reroots T)). apply qs_perm. apply Permutation_map. apply Permutation_sym. apply rerooted.
Qed.
(** addresses of the points of the mesh *)
Variable adr : Z -> V3.
Hypothesis Hadr : forall x, 0 <= x < N -> grid_index (adr x) D = x.
Lemma shift_sum : forall (h : V3 -> Q) v, (forall a a', vcong D a a' -> h a = h a') -> (Sum N (fun x => h (adr x)) == Sum N (fun x => h (vadd (adr x) v)))%Q.
Proof.
  intros h v Hh. set (f := fun x => grid_index (vadd (adr x) v) D).
  assert (Rf : forall x, 0 <= x < N -> 0 <= f x < N) by (intros; apply grid_index_range; auto).
  assert (If : forall x y, 0 <= x < N -> 0 <= y < N -> f x = f y -> x = y).
  { intros x y Hx Hy E. apply (grid_index_eq_iff D _ _ HD) in E. rewrite <- (Hadr x Hx), <- (Hadr y Hy). apply (grid_index_eq_iff D); auto. apply (vcong_add_r D _ _ (vneg v)) in E. replace (adr x) with (vadd (vadd (adr x) v) (vneg v)) by (destruct (adr x), v; cbn; f_equal; ring). replace (adr y) with (vadd (vadd (adr y) v) (vneg v)) by (destruct (adr y), v; cbn; f_equal; ring). exact E. }
  unfold Sum. rewrite <- (qs_perm _ _ (Permutation_map (fun x => h (adr x)) (zrange_bij N f Rf If))). rewrite map_map. apply qs_ext. intros x Hx. apply in_zrange in Hx. rewrite (Hh (adr (f x)) (vadd (adr x) v)); [reflexivity|]. apply (grid_index_eq_iff D); auto. rewrite Hadr by auto. reflexivity.
Qed.
Definition vsum (q : T4) : Q := let '(t4 a b c d) := q in (J (t4 a b c d) + J (t4 b a c d) + J (t4 c a b d) + J (t4 d a b c))%Q.
Lemma count_all : (4 * Sum N (fun x => qsum (map (fun t => J (pquad (adr x) t)) T)) == Sum N (fun x => qsum (map (fun t => vsum (pquad (adr x) t)) T)))%Q.
Proof.
  rewrite <- Sum_scale. rewrite (Sum_ext _ _ _ (fun x _ => four (adr x))). unfold Sum.
  set (G := fun x t => qsum (map (fun u => J (pquad (adr x) u)) (reroots t))).
  transitivity (qsum (map (fun x => qsum (map (fun t => G x t) T)) (zrange N))).
  { apply qs_ext. intros x _. unfold G. clear. generalize T. intros l0. induction l0 as [|t l IH]; [reflexivity|]. cbn [flat_map map]. rewrite map_app, qs_app, qs_cons, IH. reflexivity. }
  rewrite (qs_swap _ _ G), (qs_swap _ _ (fun x t => vsum (pquad (adr x) t))). apply qs_ext. intros t Ht. unfold G. destruct (T_len t Ht) as [p [q [r [s ->]]]]. cbn [reroots].
  assert (S1 : forall p t, (qsum (map (fun x => J (pquad (adr x) (shifted_by p t))) (zrange N)) == qsum (map (fun x => J (pquad (adr x) t)) (zrange N)))%Q).
  { intros p' t'. pose proof (shift_sum (fun a => J (pquad a (shifted_by p' t'))) (mulMV P p')) as K. cbn beta in K. unfold Sum in K. rewrite K; [|intros a a' H; now rewrite (vcong_quad _ _ _ H)]. apply qs_ext. intros x _. now rewrite move_quad. }
  transitivity (qsum (map (fun x => (J (pquad (adr x) (shifted_by p [p; q; r; s])) + J (pquad (adr x) (shifted_by q [q; p; r; s])) + J (pquad (adr x) (shifted_by r [r; p; q; s])) + J (pquad (adr x) (shifted_by s [s; p; q; r])))%Q) (zrange N))).
  { apply qs_ext. intros x _. cbn [map]. rewrite !qs_cons, qs_nil. ring. }
  rewrite !qs_add, !S1, <- !qs_add. apply qs_ext. intros x _. reflexivity.
Qed.
Lemma below_nonneg : forall x y z u, distinct4 x y z u -> off_vertices w x y z u -> (0 <= states_below w x y z u)%Q.
Proof.
  intros x y z u Dq O. destruct (sorted_form w x y z u Dq) as [x0 [x1 [x2 [x3 [k [A [L1 [L2 [L3 [_ [Sb _]]]]]]]]]]]. destruct (arranged_off w _ k x y z u A O) as [i [Hi [R _]]]. destruct (PN_exact w x0 x1 x2 x3 i L1 L2 L3 Hi R) as [EN _].
  rewrite <- Sb, <- EN, <- PJ_sum by exact Hi. assert (B : forall k, In k [0; 1; 2; 3] -> (0 <= PJ w (t4 x0 x1 x2 x3) i k <= (1 # 4))%Q) by (intros k' Hk; apply PJ_bounds; auto; apply A).
  pose proof (B 0 ltac:(cbn; tauto)). pose proof (B 1 ltac:(cbn; tauto)). pose proof (B 2 ltac:(cbn; tauto)). pose proof (B 3 ltac:(cbn; tauto)). lra.
Qed.
Lemma mesh_size_pos : 0 < N. Proof. clear - HD. destruct D as [d0 d1 d2]. cbn in *. nia. Qed.
Lemma count_bounds : (forall a t, In t T -> q4 distinct4 (pquad a t)) ->
  let total := (Sum N (fun x => qsum (map (fun t => below w (pquad (adr x) t)) T)) / 24)%Q in
  let weights := Sum N (fun x => (qsum (map (fun t => J (pquad (adr x) t)) T) / 6)%Q) in
  (total - inject_Z N * eps <= weights /\ weights <= total)%Q.
Proof.
  intros Dist total weights.
  assert (Ew : (weights == Sum N (fun x => qsum (map (fun t => vsum (pquad (adr x) t)) T)) / 24)%Q).
  { unfold weights. rewrite <- count_all. rewrite (Sum_ext _ _ (fun x => (1 # 6) * qsum (map (fun t => J (pquad (adr x) t)) T))%Q) by (intros; unfold Qdiv; change (/ 6)%Q with (1 # 6)%Q; ring). rewrite Sum_scale. field. }
  assert (B : forall a t, In t T -> (below w (pquad a t) - eps <= vsum (pquad a t) /\ vsum (pquad a t) <= below w (pquad a t))%Q).
  { intros a t Ht. destruct (ok_all a t Ht) as [O G]. pose proof (Dist a t Ht) as Dq. destruct (pquad a t) as [x y z u]. cbn in O, G, Dq. destruct (C21_partition eps w x y z u He O G) as [_ [_ [[S0 S1] [_ [_ Q]]]]]. destruct (Q Dq) as [E|[Lt E]]; unfold vsum, below; [rewrite E; lra|]. rewrite E.
    pose proof (below_nonneg x y z u Dq O). lra. }
  assert (M : forall (f g : Z -> Q) n, (forall x, 0 <= x < n -> (f x <= g x)%Q) -> (Sum n f <= Sum n g)%Q).
  { intros f g n H. unfold Sum. assert (H' : forall x, In x (zrange n) -> (f x <= g x)%Q) by (intros x Hx; apply H; now apply in_zrange). induction (zrange n) as [|x l IH]; [apply Qle_refl|]. cbn [map]. rewrite !qs_cons. apply Qplus_le_compat; [apply H'; now left|]. apply IH. intros; apply H'; now right. }
  assert (Ml : forall (f g : list V3 -> Q) l, (forall t, In t l -> (f t <= g t)%Q) -> (qsum (map f l) <= qsum (map g l))%Q).
  { intros f g l H'. induction l as [|x l IH]; [apply Qle_refl|]. cbn [map]. rewrite !qs_cons. apply Qplus_le_compat; [apply H'; now left|]. apply IH. intros; apply H'; now right. }
  assert (Len : length T = 24%nat) by apply C24_tetrahedra_tile.
  assert (Up : (Sum N (fun x => qsum (map (fun t => vsum (pquad (adr x) t)) T)) <= Sum N (fun x => qsum (map (fun t => below w (pquad (adr x) t)) T)))%Q).
  { apply M. intros x _. apply Ml. intros t Ht. apply B; auto. }
  assert (Lo : (Sum N (fun x => qsum (map (fun t => below w (pquad (adr x) t)) T)) + - (24 * eps) * inject_Z N <= Sum N (fun x => qsum (map (fun t => vsum (pquad (adr x) t)) T)))%Q).
  { assert (EN : (- (24 * eps) * inject_Z N == Sum N (fun _ => - (24 * eps)))%Q) by (unfold Sum; rewrite qs_const, length_zrange; rewrite Z2Nat.id by (pose proof (mesh_size_pos); nia); ring).
    rewrite EN, <- Sum_add. apply M. intros x _. apply (Qle_trans _ (qsum (map (fun t => below w (pquad (adr x) t) + - eps)%Q T))); [|apply Ml; intros t Ht; destruct (B (adr x) t Ht); lra].
    rewrite qs_add, qs_const, Len. change (inject_Z (Z.of_nat 24)) with 24%Q. lra. }
  rewrite Ew. unfold total, Qdiv. change (/ 24)%Q with (1 # 24)%Q. split; lra.
Qed.
End Count.

(** the array written by the C function under every schedule, as (grid point, frequency point, band) *)
Theorem C75_layout : forall eps T rel gps n nf nb fp freq g2i fI m m' i j b,
  finishes Z.eq_dec (map wprog (thm_gp_iterations eps T rel gps n nf nb fp freq g2i fI)) m m' -> 0 <= i < n -> 0 <= j < nf -> 0 <= b < nb ->
  m' ((i * nf + j) * nb + b) = thm_get_integration_weight eps (fp j) (map (fun r => to_t4 (map (fun v => freq (g2i (neighbor T (gps i) v) * nb + b)) r)) rel) fI.
Proof. exact gp_value. Qed.
(** All regular grid points, 'J': the weights add up to the number of states, of the bands interpolated linearly in the tetrahedra around all the points
    (each tetrahedron met at four vertices, 6 per cell), below the frequency; up to the guard eps of the code. *)
Theorem C75_number_of_states : forall B ty init o Qg rl P L eps gps nf nb fp freq g2i m m' (F : Z -> Z -> Q) j b,
  good_in B -> (ty = 2 \/ (ty = 1 /\ no_short_G (bL B) (bQ B) (bz_tolerance B))) -> get_bz_grid_addresses B ty init = Some o ->
  let D := bD B in let N := mesh_size D in let T := thm_get_relative_grid_address L in
  (forall i, 0 <= i < N -> 0 <= gps i < o_size o /\ grid_index (o_addr o (gps i)) D = i) ->
  (forall v b, 0 <= v < o_size o -> 0 <= b < nb -> freq (g2i v * nb + b) = F b (grid_index (o_addr o v) D)) ->
  finishes Z.eq_dec (map wprog (thm_gp_iterations eps (tp_grid B o ty Qg rl) (map (map (mulMV P)) T) gps N nf nb fp freq g2i false)) m m' ->
  0 <= j < nf -> 0 <= b < nb -> (0 <= eps)%Q ->
  (forall a t, In t T -> let q := quad D (F b) a (map (mulMV P) t) in q4 distinct4 q /\ q4 (off_vertices (fp j)) q /\ q4 (gap_ok eps (fp j)) q) ->
  let states := (Sum N (fun i => qsum (map (fun t => below (fp j) (quad D (F b) (o_addr o (gps i)) (map (mulMV P) t))) T)) / 24)%Q in
  let weights := Sum N (fun i => m' ((i * nf + j) * nb + b)) in
  (states - inject_Z N * eps <= weights /\ weights <= states)%Q.
Proof.
  intros B ty init o Qg rl P L eps gps nf nb fp freq g2i m m' F j b HB Hty Ho D N T Hgps Hf Fin Hj Hb He Hq states weights. pose proof (proj1 HB) as HD. fold D in HD.
  destruct (count_bounds D (F b) P eps (fp j) L HD He (fun a t Ht => proj2 (Hq a t Ht)) (fun i => o_addr o (gps i)) (fun x Hx => proj2 (Hgps x Hx)) (fun a t Ht => proj1 (Hq a t Ht))) as [Lo Up].
  assert (E : (weights == Sum N (fun x => qsum (map (fun t => tetra_term eps false (fp j) (pquad D (F b) P (o_addr o (gps x)) t)) T) / 6))%Q).
  { apply Sum_ext. intros i Hi. rewrite (gp_value _ _ _ _ _ _ _ _ _ _ _ _ _ _ _ _ Fin Hi Hj Hb), weight_sum. apply Qdiv_comp; [|reflexivity]. rewrite !map_map. apply qs_ext. intros t Ht.
    assert (Eq : to_t4 (map (fun v => freq (g2i (neighbor (tp_grid B o ty Qg rl) (gps i) v) * nb + b)) (map (mulMV P) t)) = pquad D (F b) P (o_addr o (gps i)) t); [|now rewrite Eq].
    unfold pquad, quad. f_equal. apply map_ext. intros v. destruct (Hgps i Hi) as [Hg _].
    assert (K : points_to B o (vadd (o_addr o (gps i)) v) (neighbor (tp_grid B o ty Qg rl) (gps i) v)) by (destruct Hty as [-> | [-> HG]]; [eapply C19_dense_neighbours|eapply C19_default_neighbours]; eauto).
    destruct K as [K1 [K2 _]]. rewrite Hf by assumption. f_equal. apply (grid_index_eq_iff D); auto. }
  rewrite E. split; [exact Lo|exact Up].
Qed.
Print Assumptions C75_ends. Print Assumptions C75_layout. Print Assumptions C75_number_of_states.

(** Example: simple cubic 2x2x2 mesh, one band with value (index of the point) at each point, frequency point 7/2. *)
Definition ex_val (i : Z) : Q := inject_Z i.
Definition quad_okb (eps w : Q) (q : T4) : bool :=
  let '(t4 a b c d) := q in let l := [a; b; c; d] in
  negb (Qeq_bool a b || Qeq_bool a c || Qeq_bool a d || Qeq_bool b c || Qeq_bool b d || Qeq_bool c d) && forallb (fun x => negb (Qeq_bool w x)) l &&
  forallb (fun x => forallb (fun y => Qle_bool w x || Qle_bool y w || Qle_bool eps (y - x)) l) l.
Lemma quad_okb_sound : forall eps w q, quad_okb eps w q = true -> q4 distinct4 q /\ q4 (off_vertices w) q /\ q4 (gap_ok eps w) q.
Proof.
  intros eps w [a b c d] H. unfold quad_okb in H. apply andb_true_iff in H. destruct H as [H Hg]. apply andb_true_iff in H. destruct H as [Hd Ho].
  assert (NE : forall x y, Qeq_bool x y = false -> ~ (x == y)%Q) by (intros x y E E'; apply Qeq_bool_iff in E'; congruence).
  split; [|split]; cbn.
  - apply negb_true_iff in Hd. rewrite !orb_false_iff in Hd. destruct Hd as [[[[[? ?] ?] ?] ?] ?]. unfold distinct4. repeat split; apply NE; assumption.
  - rewrite forallb_forall in Ho. assert (K : forall x, In x [a; b; c; d] -> ~ (w == x)%Q) by (intros x Hx; apply NE, negb_true_iff, Ho, Hx). unfold off_vertices. repeat split; apply K; cbn; auto.
  - intros x y Hx Hy L1 L2. rewrite forallb_forall in Hg. specialize (Hg x Hx). rewrite forallb_forall in Hg. specialize (Hg y Hy). rewrite !orb_true_iff, !Qle_bool_iff in Hg. destruct Hg as [[Hg|Hg]|Hg]; [lra|lra|exact Hg].
Qed.
Definition ex_T := thm_get_relative_grid_address (bL cubic).
Lemma ex_quads : forall a t, In t ex_T -> let q := quad (bD cubic) ex_val a (map (mulMV I3) t) in q4 distinct4 q /\ q4 (off_vertices (7 # 2)) q /\ q4 (gap_ok (1 # 2) (7 # 2)) q.
Proof.
  intros a t Ht. cbv zeta. apply quad_okb_sound.
  assert (K : forallb (fun i => forallb (fun t => quad_okb (1 # 2) (7 # 2) (quad (bD cubic) ex_val (get_grid_address_from_index i (bD cubic)) (map (mulMV I3) t))) ex_T) (zrange 8) = true) by (vm_compute; reflexivity).
  rewrite forallb_forall in K. assert (HD : pos_mesh (bD cubic)) by apply C11_ex_good. assert (R := grid_index_range (bD cubic) a HD). specialize (K (grid_index a (bD cubic)) (proj2 (in_zrange _ _) R)). rewrite forallb_forall in K. rewrite <- (K t Ht). f_equal.
  apply (vcong_quad (bD cubic) ex_val I3 HD). apply (grid_index_eq_iff (bD cubic)); auto. symmetry. apply index_of_address; auto.
Qed.
Example C75_ex : exists o, get_bz_grid_addresses cubic 2 zero_out = Some o /\
  let nb := 1 in let gps := o_map o in let freq := fun k => ex_val (grid_index (o_addr o k) (bD cubic)) in
  good_in cubic /\ (forall i, 0 <= i < 8 -> 0 <= gps i < o_size o /\ grid_index (o_addr o (gps i)) (bD cubic) = i) /\
  (forall v b, 0 <= v < o_size o -> 0 <= b < nb -> freq (v * nb + b) = ex_val (grid_index (o_addr o v) (bD cubic))) /\
  (Sum 8 (fun i => qsum (map (fun t => below (7 # 2) (quad (bD cubic) ex_val (get_grid_address_from_index i (bD cubic)) (map (mulMV I3) t))) ex_T)) / 24 == 4)%Q.
Proof.
  destruct (get_bz_grid_addresses cubic 2 zero_out) as [o|] eqn:E; [|exfalso; revert E; unfold get_bz_grid_addresses; destruct (inverse_unimodular (bQ cubic)) eqn:Q; [discriminate|vm_compute in Q; discriminate Q]].
  exists o. split; [reflexivity|]. cbv zeta. split; [apply C11_ex_good|]. split; [|split].
  - intros i Hi. destruct (C11_dense_layout cubic zero_out o C11_ex_good E) as [L0 [LN [Lb Ls]]]. change (mesh_size (bD cubic)) with 8 in *.
    assert (Mono : forall k, 0 <= k -> k <= 8 -> 0 <= o_map o k /\ o_map o k <= o_size o).
    { assert (Up : forall n, forall k, 0 <= k -> k + Z.of_nat n <= 8 -> o_map o k <= o_map o (k + Z.of_nat n)).
      { induction n as [|n IH]; intros k Hk Hn; [rewrite Z.add_0_r; lia|]. specialize (IH k Hk ltac:(lia)). destruct (Lb (k + Z.of_nat n) ltac:(lia)) as [L _]. replace (k + Z.of_nat (S n)) with (k + Z.of_nat n + 1) by lia. lia. }
      intros k H0 H8. pose proof (Up (Z.to_nat k) 0 ltac:(lia) ltac:(lia)) as U1. pose proof (Up (Z.to_nat (8 - k)) k ltac:(lia) ltac:(lia)) as U2. rewrite Z2Nat.id in U1, U2 by lia. replace (0 + k) with k in U1 by ring. replace (k + (8 - k)) with 8 in U2 by ring. lia. }
    destruct (Lb i Hi) as [Li [_ Lg]]. destruct (Mono i ltac:(lia) ltac:(lia)). destruct (Mono (i + 1) ltac:(lia) ltac:(lia)). split; [lia|]. destruct (Ls (o_map o i) ltac:(lia)) as [_ [_ V]]. rewrite (Lg (o_map o i) ltac:(lia)) in V.
    assert (HD : pos_mesh (bD cubic)) by apply C11_ex_good. apply (grid_index_eq_iff (bD cubic)) in V; auto. rewrite V. apply index_of_address; auto.
  - intros v b Hv Hb. replace (v * 1 + b) with v by lia. reflexivity.
  - vm_compute. reflexivity.
Qed.
