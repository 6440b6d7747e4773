From Coq Require Import ZArith List Bool Lia Setoid Morphisms Ring_theory Field_theory Ring Field Permutation.
From Verif Require Import Base BaseProofs Par Par2 DirModel DirSpec DirProofs DirSpectral DirGroup.
Import ListNotations.
Open Scope Z_scope.

Section Main.
Variable K : numbers.
Declare Scope K_scope.
Delimit Scope K_scope with K.
Bind Scope K_scope with num.
Notation "0" := (n0 K) : K_scope.
Notation "1" := (n1 K) : K_scope.
Infix "+" := (nadd K) : K_scope.
Infix "*" := (nmul K) : K_scope.
Infix "-" := (nsub K) : K_scope.
Infix "/" := (ndiv K) : K_scope.
Infix "==" := (neq K) (at level 70, no associativity) : K_scope.
Add Field Kfield4 : (n_field K) (setoid (n_equiv K) (n_ext K)).
Local Notation ks := (ks K).
Local Notation Sm := (Sm K).

Variables (g n nir nb : Z) (r : Z -> Z -> Z) (irs : Z -> Z) (cart : Z -> Z -> Z -> K)
  (mul : Z -> Z -> Z) (inv : Z -> Z).
Hypothesis HG : point_group K g n r cart mul inv.
Hypothesis HI : one_of_each g n nir r irs.
Hypothesis Hnb : 0 <= nb.
Variables (mo : Z -> Z -> Z -> Z -> K) (dg : Z -> Z -> K) (gv : Z -> Z -> Z -> K) (fs : Z -> Z -> K)
  (mi : Z -> Z -> Z -> Z -> Z -> Z -> K) (di : Z -> Z -> K) (gvi : Z -> Z -> Z -> K) (fsi : Z -> Z -> K).
Hypothesis HT : two_forms K g n nir nb r irs cart mo dg gv fs mi di gvi fsi.
Variable root : K -> K.
Let rot (i l : Z) : Z := r l (irs i).
Hypothesis root_g : (root (of_nat K (Z.to_nat g)) * root (of_nat K (Z.to_nat g)) == of_nat K (Z.to_nat g))%K.
Hypothesis root_arms : forall i, 0 <= i < nir ->
  (root (of_nat K (num_arms g rot i)) * root (of_nat K (num_arms g rot i)) == of_nat K (num_arms g rot i))%K.
Let wt := dir_weight K g rot root.
Local Notation cnt := (count K g r).
Let Gin := irs_in g n nir r irs HI.
Let Rin := r_in K g n r cart mul inv HG.

Lemma dir_weight_sq : forall i, 0 <= i < nir -> (wt i * wt i * cnt (irs i) (irs i) == 1)%K.
Proof.
  intros i Hi. unfold wt, dir_weight. set (a := root (of_nat K (num_arms g rot i))). set (b := root (of_nat K (Z.to_nat g))).
  assert (Nb : ~ (b * b == 0)%K).
  { unfold b. rewrite root_g. apply of_nat_neq0. pose proof (pg_pos _ _ _ _ _ _ _ HG). lia. }
  assert (Nb' : ~ (b == 0)%K) by (intros E; apply Nb; rewrite E; ring).
  transitivity ((a * a) * cnt (irs i) (irs i) / (b * b))%K; [field; auto|].
  unfold a, b. rewrite root_arms, root_g by auto. unfold num_arms, rot.
  rewrite (orbit_stabilizer K g n r cart mul inv HG (irs i) (Gin i Hi)). field. fold b in root_g. rewrite <- root_g. exact Nb.
Qed.

(** the sum of the parts, at all grid points *)
Let O := combine_reducible K mo dg.
Lemma O_cov : forall l q j q' j', 0 <= l < g -> 0 <= q < n -> 0 <= j < nb -> 0 <= q' < n -> 0 <= j' < nb ->
  (O (r l q) j (r l q') j' == O q j q' j')%K.
Proof.
  intros l q j q' j' Hl Hq Hj Hq' Hj'. unfold O, combine_reducible.
  assert (E : (r l q =? r l q') = (q =? q')).
  { destruct (Z.eqb_spec q q') as [->|Ne]; [apply Z.eqb_refl|]. apply Z.eqb_neq. intros E. apply Ne. now apply (r_inj K g n r cart mul inv HG l). }
  rewrite E. destruct ((q =? q') && (j =? j'))%bool.
  - rewrite (tf_mo _ _ _ _ _ _ _ _ _ _ _ _ _ _ _ _ HT l q j q' j'), (tf_dg _ _ _ _ _ _ _ _ _ _ _ _ _ _ _ _ HT l q j) by auto. reflexivity.
  - now apply (tf_mo _ _ _ _ _ _ _ _ _ _ _ _ _ _ _ _ HT).
Qed.
Lemma fold_if : forall (c : Z -> bool) f L s, (fold_left (fun s l => if c l then s + f l else s) L s == s + ks L (fun l => if c l then f l else 0))%K.
Proof.
  intros c f. induction L as [|x L IH]; intros s; cbn [fold_left]; [rewrite ks_nil; ring|]. rewrite IH, ks_cons.
  destruct (c x); ring.
Qed.
Let raw := combine K g rot irs cart mi di.
Lemma raw_sum : forall i j a i' j' b, 0 <= i < nir -> 0 <= j < nb -> 0 <= a < 3 -> 0 <= i' < nir -> 0 <= j' < nb -> 0 <= b < 3 ->
  (raw i j a i' j' b == Sm g (fun l => O (irs i) j (r l (irs i')) j' * cart l a b))%K.
Proof.
  intros i j a i' j' b Hi Hj Ha Hi' Hj' Hb. unfold raw, combine, O, combine_reducible.
  pose proof (tf_mi _ _ _ _ _ _ _ _ _ _ _ _ _ _ _ _ HT i j a i' j' b Hi Hj Ha Hi' Hj' Hb) as M.
  destruct (Z.eqb_spec i i') as [<-|Ne]; cbn [andb].
  - destruct (Z.eqb_spec j j') as [<-|Ne].
    + rewrite fold_if, M. change (ks (zrange g)) with (Sm g). rewrite <- Sm_add. apply Sm_ext. intros l Hl. unfold rot. rewrite andb_true_r, (Z.eqb_sym (irs i)).
      destruct (r l (irs i) =? irs i); [rewrite (tf_di _ _ _ _ _ _ _ _ _ _ _ _ _ _ _ _ HT i j Hi Hj)|]; ring.
    + rewrite M. apply Sm_ext. intros l Hl. rewrite andb_false_r. reflexivity.
  - rewrite M. apply Sm_ext. intros l Hl. destruct (Z.eqb_spec (irs i) (r l (irs i'))) as [E|_]; [|reflexivity].
    exfalso. apply Ne. pose proof HI as [_ [_ I3]]. destruct (r_unit K g n r cart mul inv HG) as [e [He Hu]]. apply (I3 i i' e l); auto. rewrite (Hu _ (Gin i Hi)). exact E.
Qed.
Lemma raw_transpose : forall i j a i' j' b, 0 <= i < nir -> 0 <= j < nb -> 0 <= a < 3 -> 0 <= i' < nir -> 0 <= j' < nb -> 0 <= b < 3 ->
  (raw i' j' b i j a == Sm g (fun l => O (r l (irs i')) j' (irs i) j * cart l a b))%K.
Proof.
  intros i j a i' j' b Hi Hj Ha Hi' Hj' Hb. rewrite raw_sum by auto. symmetry.
  rewrite <- (Sm_inv K g n r cart mul inv HG). apply Sm_ext. intros l Hl.
  pose proof (pg_inv_in _ _ _ _ _ _ _ HG l Hl) as Hv.
  rewrite (pg_cart_inv _ _ _ _ _ _ _ HG l a b Hl Ha Hb).
  rewrite <- (O_cov l (r (inv l) (irs i')) j' (irs i) j); auto.
  rewrite (r_inv_r K g n r cart mul inv HG l (irs i')); auto. reflexivity.
Qed.
Let om (q j q' j' : Z) : K := red_matrix K nb mo dg (q * nb + j) (q' * nb + j').
Lemma om_val : forall q j q' j', 0 <= j < nb -> 0 <= j' < nb -> (om q j q' j' == (O q j q' j' + O q' j' q j) / (1 + 1))%K.
Proof.
  intros q j q' j' Hj Hj'. unfold om, red_matrix, symmetrized, flat_red.
  rewrite !Z.div_add_l, !(Z.div_small j), !(Z.div_small j'), !Z.add_0_r by lia.
  rewrite !(Z.add_comm (_ * nb)), !Z.mod_add, !(Z.mod_small j), !(Z.mod_small j') by lia. reflexivity.
Qed.
Lemma om_cov : forall l q j q' j', 0 <= l < g -> 0 <= q < n -> 0 <= j < nb -> 0 <= q' < n -> 0 <= j' < nb ->
  (om (r l q) j (r l q') j' == om q j q' j')%K.
Proof. intros. rewrite !om_val by auto. rewrite !O_cov by auto. reflexivity. Qed.
Let cmat := ir_matrix K g nb rot irs cart root mi di.
Lemma flat3 : forall p i j a, 0 <= j < nb -> 0 <= a < 3 -> p = (i * nb + j) * 3 + a ->
  p / 3 / nb = i /\ (p / 3) mod nb = j /\ p mod 3 = a.
Proof.
  intros p i j a Hj Ha ->. rewrite Z.div_add_l, (Z.div_small a), Z.add_0_r by lia.
  rewrite Z.div_add_l, (Z.div_small j), Z.add_0_r by lia.
  rewrite (Z.add_comm (i * nb)), Z.mod_add, Z.mod_small by lia.
  rewrite Z.add_comm, Z.mod_add, Z.mod_small by lia. auto.
Qed.
Lemma cmat_val : forall i j a i' j' b, 0 <= i < nir -> 0 <= j < nb -> 0 <= a < 3 -> 0 <= i' < nir -> 0 <= j' < nb -> 0 <= b < 3 ->
  (cmat ((i * nb + j) * 3 + a) ((i' * nb + j') * 3 + b) == reduced K g r irs cart wt om i j a i' j' b)%K.
Proof.
  intros i j a i' j' b Hi Hj Ha Hi' Hj' Hb. unfold cmat, ir_matrix, symmetrized, flat_ir, weighted.
  destruct (flat3 _ i j a Hj Ha eq_refl) as [-> [-> ->]]. destruct (flat3 _ i' j' b Hj' Hb eq_refl) as [-> [-> ->]].
  fold raw. fold wt. rewrite (raw_sum i j a i' j' b), (raw_transpose i j a i' j' b) by auto. unfold reduced.
  transitivity (wt i * wt i' * ((Sm g (fun l => O (irs i) j (r l (irs i')) j' * cart l a b) + Sm g (fun l => O (r l (irs i')) j' (irs i) j * cart l a b)) / (1 + 1)))%K.
  { field. apply two_neq0. }
  apply K_mul; [reflexivity|]. rewrite <- Sm_add, <- Sm_div. apply Sm_ext. intros l Hl. rewrite om_val by auto. field. apply two_neq0.
Qed.

(** vectors *)
Definition un3 (u : Z -> K) (i j a : Z) : K := u ((i * nb + j) * 3 + a).
Lemma mapp_ir : forall u i j a, 0 <= i < nir -> 0 <= j < nb -> 0 <= a < 3 ->
  (mapp K (nir * nb * 3) cmat u ((i * nb + j) * 3 + a) == apply_reduced K g nir nb r irs cart wt om (un3 u) i j a)%K.
Proof.
  intros u i j a Hi Hj Ha. unfold mapp, apply_reduced. rewrite Sm_flat by lia. rewrite Sm_flat by lia.
  apply Sm_ext. intros i' Hi'. apply Sm_ext. intros j' Hj'. apply Sm_ext. intros b Hb. rewrite cmat_val by auto. reflexivity.
Qed.
Definition fld (F : Z -> Z -> Z -> K) (a p : Z) : K := F (p / nb) (p mod nb) a.
Lemma fld_at : forall F a q j, 0 <= j < nb -> fld F a (q * nb + j) = F q j a.
Proof.
  intros F a q j Hj. unfold fld. rewrite Z.div_add_l, (Z.div_small j), Z.add_0_r by lia.
  rewrite (Z.add_comm (q * nb)), Z.mod_add, Z.mod_small by lia. reflexivity.
Qed.
Lemma split_nb : forall k p, 0 <= p < k * nb -> exists q j, 0 <= q < k /\ 0 <= j < nb /\ p = q * nb + j.
Proof.
  intros k p Hp. assert (0 < nb) by (destruct (Z.eq_dec nb 0) as [E|E]; [rewrite E, Z.mul_0_r in Hp; lia|lia]).
  exists (p / nb), (p mod nb). pose proof (Z.mod_pos_bound p nb). pose proof (Z.div_mod p nb).
  split; [split; [apply Z.div_pos; lia|apply Z.div_lt_upper_bound; lia]|split; lia].
Qed.
Let omat := red_matrix K nb mo dg.
Lemma mapp_red : forall F a q j, 0 <= q < n -> 0 <= j < nb ->
  (mapp K (n * nb) omat (fld F a) (q * nb + j) == apply_full K n nb om F q j a)%K.
Proof.
  intros F a q j Hq Hj. unfold mapp, apply_full. rewrite Sm_flat by lia. apply Sm_ext. intros q' Hq'. apply Sm_ext. intros j' Hj'.
  rewrite fld_at by auto. reflexivity.
Qed.

Variable kp : K -> bool.
Hypothesis kp_ext : forall x y, (x == y)%K -> kp x = kp y.
Hypothesis kp_neq0 : forall x, kp x = true -> ~ (x == 0)%K.
Local Notation expand := (expand K g nir r irs cart wt).
Let expand_ext := expand_ext K g nir nb r irs cart wt.
Let EP := expand_restrict K g n nir nb r irs cart mul inv HG HI wt dir_weight_sq.
Let ER := expand_reduced K g n nir nb r irs cart mul inv HG HI wt dir_weight_sq om om_cov.

Lemma eig_expand : forall b B, eigs K kp (nir * nb * 3) cmat b B -> forall xu, In xu B ->
  forall q j a, 0 <= q < n -> 0 <= j < nb -> 0 <= a < 3 ->
  (apply_full K n nb om (expand (un3 (snd xu))) q j a == fst xu * expand (un3 (snd xu)) q j a)%K.
Proof.
  intros b B HB xu I q j a Hq Hj Ha. destruct (HB xu I) as [_ E]. rewrite <- ER by auto. rewrite <- expand_mul.
  apply expand_ext; auto. intros i j' a' Hi Hj' Ha'. rewrite <- mapp_ir by auto. rewrite E by nia. reflexivity.
Qed.
Lemma transfer : forall (x y : Z -> K) (X3 : Z -> Z -> Z -> K) (a : Z), 0 <= a < 3 -> covariant K g n nb r cart X3 ->
  (forall i j c, 0 <= i < nir -> 0 <= j < nb -> 0 <= c < 3 -> x ((i * nb + j) * 3 + c)%Z == wt i * X3 (irs i) j c)%K ->
  truncated K kp (nir * nb * 3) cmat x y ->
  truncated K kp (n * nb) omat (fld X3 a) (fld (expand (un3 y)) a).
Proof.
  intros x y X3 a Ha CX Hx [B [D [HB [HD [EY ED]]]]].
  set (lift := map (fun xu : K * (Z -> K) => (fst xu, fld (expand (un3 (snd xu))) a))).
  assert (T : forall L q j, (total K (lift L) (q * nb + j) == expand (un3 (total K L)) q j a)%K \/ ~ (0 <= j < nb)).
  { intros L q j. destruct (Z_lt_dec j nb) as [H1|H1]; [|right; lia]. destruct (Z_le_dec 0 j) as [H2|H2]; [|right; lia]. left.
    unfold total, lift. rewrite ks_map. cbn [snd].
    transitivity (ks L (fun xu => expand (un3 (snd xu)) q j a)); [apply ks_ext; intros xu _; rewrite fld_at by lia; reflexivity|].
    symmetry. apply (expand_ks K g nir r irs cart wt _ L (fun xu => un3 (snd xu)) q j a). }
  assert (EG : forall b L, eigs K kp (nir * nb * 3) cmat b L -> eigs K kp (n * nb) omat b (lift L)).
  { intros b L HL zu I. apply in_map_iff in I. destruct I as [xu [<- I]]. destruct (HL xu I) as [k _]. split; [exact k|]. cbn [fst snd].
    intros p Hp. destruct (split_nb n p Hp) as [q [j [Hq [Hj ->]]]]. rewrite mapp_red, fld_at by auto. now apply (eig_expand b L HL). }
  exists (lift B), (lift D). split; [now apply EG|]. split; [now apply EG|]. split.
  - intros p Hp. destruct (split_nb n p Hp) as [q [j [Hq [Hj ->]]]]. destruct (T B q j) as [->|C]; [|contradiction]. rewrite fld_at by auto.
    apply expand_ext; auto. intros i j' a' Hi Hj' Ha'. unfold un3. apply EY. nia.
  - intros p Hp. destruct (split_nb n p Hp) as [q [j [Hq [Hj ->]]]]. destruct (T D q j) as [->|C]; [|contradiction].
    rewrite mapp_red, fld_at by auto. rewrite <- ER by auto. rewrite <- (EP X3 CX q j a Hq Hj Ha), <- expand_sub.
    apply expand_ext; auto. intros i j' a' Hi Hj' Ha'. rewrite <- mapp_ir by auto. unfold restrict. rewrite <- Hx by auto. apply ED. nia.
Qed.
(** the solution is the restriction of its expansion *)
Lemma own_restriction : forall (x y : Z -> K), truncated K kp (nir * nb * 3) cmat x y ->
  forall i j a, 0 <= i < nir -> 0 <= j < nb -> 0 <= a < 3 ->
  (y ((i * nb + j) * 3 + a)%Z == wt i * expand (un3 y) (irs i) j a)%K.
Proof.
  intros x y [B [D [HB [HD [EY ED]]]]] i j a Hi Hj Ha. rewrite EY by nia.
  transitivity (wt i * expand (un3 (total K B)) (irs i) j a)%K.
  2:{ apply K_mul; [reflexivity|]. apply expand_ext; auto. intros i' j' a' Hi' Hj' Ha'. unfold un3. symmetry. apply EY. nia. }
  change (un3 (total K B)) with (fun i j a => ks B (fun xu => un3 (snd xu) i j a)). rewrite (expand_ks K g nir r irs cart wt _ B (fun xu => un3 (snd xu))).
  rewrite <- ks_mul_l. apply ks_ext. intros xu I. destruct (HB xu I) as [k E].
  assert (Nz := kp_neq0 _ k).
  assert (Q : (fst xu * (snd xu ((i * nb + j) * 3 + a)%Z - wt i * expand (un3 (snd xu)) (irs i) j a) == 0)%K).
  { transitivity (fst xu * snd xu ((i * nb + j) * 3 + a)%Z - wt i * (fst xu * expand (un3 (snd xu)) (irs i) j a))%K; [ring|].
    rewrite <- E by nia. rewrite mapp_ir by auto. rewrite (reduced_is_restricted K g n nir nb r irs cart mul inv HG HI) by auto.
    unfold restrict. rewrite (eig_expand true B HB xu I) by auto. ring. }
  apply (mul_neq0 K _ _ Nz) in Q. transitivity (snd xu ((i * nb + j) * 3 + a)%Z - wt i * expand (un3 (snd xu)) (irs i) j a + wt i * expand (un3 (snd xu)) (irs i) j a)%K; [ring|].
  rewrite Q. ring.
Qed.
(** the solutions *)
Variables (w w' : Z -> K) (v v' : Z -> Z -> K).
Hypothesis Dir : diagonalizes K (nir * nb * 3) cmat w v.
Hypothesis Dred : diagonalizes K (n * nb) omat w' v'.
Let e (w : Z -> K) (l : Z) : K := (if kp (w l) then 1 / w l else 0)%K.
Let Xi := get_X K nb gvi fsi wt.
Let Yi := solve_ir K (nir * nb * 3) v (e w) Xi.
Let Xr := get_X K nb gv fs (fun _ => n1 K).
Let Yr := solve_red K (n * nb) v' (e w') Xr.
Let X3 (q j a : Z) : K := (gv q j a * fs q j)%K.
Let F3 (q j a : Z) : K := Yr (q * nb + j) a.
Let yf (p : Z) : K := Sm (nir * nb * 3) (fun l => v p l * (e w l * Sm (nir * nb * 3) (fun m => v m l * Xi (m / 3)%Z (m mod 3))))%K.
Lemma Yi_flat : forall p a, Yi p a = yf (p * 3 + a). Proof. reflexivity. Qed.
Lemma at_nb : forall i j, 0 <= j < nb -> (i * nb + j) / nb = i /\ (i * nb + j) mod nb = j.
Proof.
  intros i j Hj. rewrite Z.div_add_l, (Z.div_small j), Z.add_0_r by lia.
  rewrite (Z.add_comm (i * nb)), Z.mod_add, Z.mod_small by lia. auto.
Qed.
Lemma Xr_val : forall q j a, 0 <= j < nb -> (Xr (q * nb + j)%Z a == X3 q j a)%K.
Proof. intros q j a Hj. unfold Xr, get_X, X3. destruct (at_nb q j Hj) as [-> ->]. ring. Qed.
Lemma Xi_val : forall i j a, 0 <= i < nir -> 0 <= j < nb -> 0 <= a < 3 -> (Xi (i * nb + j)%Z a == wt i * X3 (irs i) j a)%K.
Proof.
  intros i j a Hi Hj Ha. unfold Xi, get_X, X3. destruct (at_nb i j Hj) as [-> ->].
  rewrite (tf_gvi _ _ _ _ _ _ _ _ _ _ _ _ _ _ _ _ HT i j a Hi Hj Ha), (tf_fsi _ _ _ _ _ _ _ _ _ _ _ _ _ _ _ _ HT i j Hi Hj). ring.
Qed.
Lemma X3_cov : covariant K g n nb r cart X3.
Proof.
  intros l q j a Hl Hq Hj Ha. unfold X3. rewrite (tf_gv _ _ _ _ _ _ _ _ _ _ _ _ _ _ _ _ HT l q j a Hl Hq Hj Ha), (tf_fs _ _ _ _ _ _ _ _ _ _ _ _ _ _ _ _ HT l q j Hl Hq Hj).
  rewrite <- Sm_mul_r. apply Sm_ext. intros; ring.
Qed.
Lemma yf_truncated : truncated K kp (nir * nb * 3) cmat (fun m => Xi (m / 3) (m mod 3)) yf.
Proof. apply (diag_truncated K kp kp_neq0 _ _ w v); [exact Dir|]. intros p Hp. reflexivity. Qed.
Lemma Yr_truncated : forall a, truncated K kp (n * nb) omat (fld X3 a) (fun p => Yr p a).
Proof.
  intros a. apply (diag_truncated K kp kp_neq0 _ _ w' v'); [exact Dred|]. intros p Hp. unfold Yr, solve_red. apply Sm_ext. intros l Hl.
  apply K_mul; [reflexivity|]. fold (e w' l).
  assert (E : (Sm (n * nb) (fun m => v' m l * Xr m a) == Sm (n * nb) (fun m => v' m l * fld X3 a m))%K).
  { apply Sm_ext. intros m Hm. destruct (split_nb n m Hm) as [q [j [Hq [Hj ->]]]]. rewrite Xr_val, fld_at by auto. reflexivity. }
  rewrite E. ring.
Qed.
Lemma same_solution : forall q j a, 0 <= q < n -> 0 <= j < nb -> 0 <= a < 3 -> (F3 q j a == expand (un3 yf) q j a)%K.
Proof.
  intros q j a Hq Hj Ha. unfold F3.
  transitivity (fld (expand (un3 yf)) a (q * nb + j)%Z); [|rewrite fld_at by auto; reflexivity].
  assert (Hp : 0 <= q * nb + j < n * nb) by nia.
  apply (truncated_unique K kp kp_ext kp_neq0 (n * nb) omat (diag_symm K _ _ _ _ Dred) (fld X3 a) (fun p => Yr p a)); [apply Yr_truncated| |exact Hp].
  apply (transfer (fun m => Xi (m / 3) (m mod 3)) yf X3 a Ha X3_cov); [|apply yf_truncated].
  intros i j' c Hi Hj' Hc.
  replace (((i * nb + j') * 3 + c) / 3) with (i * nb + j') by (rewrite Z.div_add_l, (Z.div_small c) by lia; lia).
  replace (((i * nb + j') * 3 + c) mod 3) with c by (rewrite Z.add_comm, Z.mod_add, Z.mod_small; lia). now apply Xi_val.
Qed.
Lemma F3_cov : covariant K g n nb r cart F3.
Proof.
  intros l q j a Hl Hq Hj Ha. rewrite same_solution by auto. rewrite (expand_cov K g n nir nb r irs cart mul inv HG HI wt (un3 yf) l q j a Hl Hq Hj Ha).
  apply Sm_ext. intros b Hb. rewrite same_solution by auto. reflexivity.
Qed.
Lemma Yi_val : forall i j a, 0 <= i < nir -> 0 <= j < nb -> 0 <= a < 3 -> (Yi (i * nb + j)%Z a == wt i * F3 (irs i) j a)%K.
Proof.
  intros i j a Hi Hj Ha. rewrite Yi_flat. rewrite (own_restriction _ yf yf_truncated) by auto. rewrite same_solution by auto. reflexivity.
Qed.

Lemma f_vectors_equal : forall i j a, 0 <= i < nir -> 0 <= j < nb -> 0 <= a < 3 ->
  (f_vector K nb wt Yi (i * nb + j)%Z a == f_vector K nb (fun _ => n1 K) Yr (irs i * nb + j)%Z a)%K.
Proof.
  intros i j a Hi Hj Ha. unfold f_vector. rewrite Yi_val by auto. destruct (at_nb i j Hj) as [-> _]. fold (F3 (irs i) j a).
  pose proof (one_neq0 K) as A1. pose proof (wt_neq0 K g nir r irs wt dir_weight_sq i Hi) as A2. pose proof (two_neq0 K) as A3.
  field. auto.
Qed.

(** mode conductivities *)
Let h (q j a b : Z) : K := (X3 q j a * F3 q j b)%K.
Lemma Sm_count : forall x f, 0 <= x < n -> (Sm g (fun l => f (r l x)) == cnt x x * Sm n (fun q => if in_star g r x q then f q else 0))%K.
Proof.
  intros x f Hx. transitivity (Sm n (fun q => cnt x q * f q))%K.
  - transitivity (Sm n (fun q => Sm g (fun l => if q =? r l x then f q else 0)))%K.
    + rewrite Sm_swap. apply Sm_ext. intros l Hl. symmetry. apply Sm_single. auto.
    + apply Sm_ext. intros q Hq. unfold count. rewrite <- Sm_mul_r. apply Sm_ext. intros l Hl. rewrite Z.eqb_sym. destruct (r l x =? q); ring.
  - rewrite <- Sm_mul_l. apply Sm_ext. intros q Hq. rewrite (count_split K g n r cart mul inv HG x q Hx).
    destruct (in_star g r x q); ring.
Qed.
Lemma rot_ir : forall (Z3 : Z -> Z -> Z -> K) (Zi : Z -> Z -> K) i j l a, covariant K g n nb r cart Z3 ->
  (forall c, 0 <= c < 3 -> Zi (i * nb + j)%Z c == wt i * Z3 (irs i) j c)%K -> 0 <= i < nir -> 0 <= j < nb -> 0 <= l < g -> 0 <= a < 3 ->
  (rotv K cart l (Zi (i * nb + j)%Z) a == wt i * Z3 (r l (irs i)) j a)%K.
Proof.
  intros Z3 Zi i j l a C H Hi Hj Hl Ha. unfold rotv. rewrite (C l (irs i) j a Hl (Gin i Hi) Hj Ha), <- Sm_mul_l.
  apply Sm_ext. intros c Hc. rewrite (H c Hc). ring.
Qed.
Lemma rot_red : forall (Z3 : Z -> Z -> Z -> K) (Zr : Z -> Z -> K) q j l a, covariant K g n nb r cart Z3 ->
  (forall c, 0 <= c < 3 -> Zr (q * nb + j)%Z c == Z3 q j c)%K -> 0 <= q < n -> 0 <= j < nb -> 0 <= l < g -> 0 <= a < 3 ->
  (rotv K cart l (Zr (q * nb + j)%Z) a == Z3 (r l q) j a)%K.
Proof.
  intros Z3 Zi q j l a C H Hq Hj Hl Ha. unfold rotv. rewrite (C l q j a Hl Hq Hj Ha).
  apply Sm_ext. intros c Hc. rewrite (H c Hc). ring.
Qed.
Variable factor : K.
Definition star_sum (i : Z) (f : Z -> K) : K := Sm n (fun q => if in_star g r (irs i) q then f q else 0)%K.
Lemma mk_ir : forall i j a b, 0 <= i < nir -> 0 <= j < nb -> 0 <= a < 3 -> 0 <= b < 3 ->
  (mode_kappa K g nb cart factor Xi Yi i j a b ==
   if ((i =? 0) && (j <? 3))%bool then 0 else (star_sum i (fun q => h q j a b) + star_sum i (fun q => h q j b a)) * factor)%K.
Proof.
  intros i j a b Hi Hj Ha Hb. unfold mode_kappa. destruct ((i =? 0) && (j <? 3))%bool; [reflexivity|]. cbv zeta.
  assert (E : forall a b, 0 <= a < 3 -> 0 <= b < 3 ->
    (Sm g (fun l => rotv K cart l (Xi (i * nb + j)%Z) a * rotv K cart l (Yi (i * nb + j)%Z) b) == star_sum i (fun q => h q j a b))%K).
  { clear a b Ha Hb. intros a b Ha Hb.
    transitivity (wt i * wt i * Sm g (fun l => (fun q => h q j a b) (r l (irs i))))%K.
    - rewrite <- Sm_mul_l. apply Sm_ext. intros l Hl.
      rewrite (rot_ir X3 Xi i j l a X3_cov) by (auto; intros; now apply Xi_val).
      rewrite (rot_ir F3 Yi i j l b F3_cov) by (auto; intros; now apply Yi_val). unfold h. ring.
    - rewrite (Sm_count (irs i) (fun q => h q j a b)) by auto. fold (star_sum i (fun q => h q j a b)).
      transitivity (wt i * wt i * cnt (irs i) (irs i) * star_sum i (fun q => h q j a b))%K; [ring|]. rewrite dir_weight_sq by auto. ring. }
  rewrite !E by auto. reflexivity.
Qed.
Lemma star_r : forall i l q, 0 <= i < nir -> 0 <= l < g -> 0 <= q < n -> in_star g r (irs i) (r l q) = in_star g r (irs i) q.
Proof.
  intros i l q Hi Hl Hq. apply eq_true_iff_eq. rewrite !(in_star_spec g r). split.
  - intros [m [Hm E]]. exists (mul (inv l) m). pose proof (pg_inv_in _ _ _ _ _ _ _ HG l Hl) as Hv. split; [now apply (pg_mul_in _ _ _ _ _ _ _ HG)|].
    rewrite (pg_mul _ _ _ _ _ _ _ HG) by auto. rewrite E. now apply (pg_inv _ _ _ _ _ _ _ HG).
  - intros [m [Hm E]]. exists (mul l m). split; [now apply (pg_mul_in _ _ _ _ _ _ _ HG)|]. rewrite (pg_mul _ _ _ _ _ _ _ HG) by auto. now rewrite E.
Qed.
Lemma g_neq0 : ~ (of_nat K (Z.to_nat g) == 0)%K.
Proof. apply of_nat_neq0. pose proof (pg_pos _ _ _ _ _ _ _ HG). lia. Qed.
Lemma gamma_star : forall i q, 0 <= i < nir -> 0 <= q < n -> in_star g r (irs i) q = true -> (i =? 0) = (q =? 0).
Proof.
  intros i q Hi Hq S. apply (in_star_spec g r) in S. destruct S as [l [Hl E]]. destruct (tf_gamma _ _ _ _ _ _ _ _ _ _ _ _ _ _ _ _ HT) as [P [Z0 R0]].
  apply eq_true_iff_eq. rewrite !Z.eqb_eq. split.
  - intros ->. rewrite Z0, R0 in E by auto. auto.
  - intros ->. pose proof HI as [_ [_ I3]]. apply (I3 i 0 l l); auto; [lia|]. rewrite Z0, R0 by auto. exact E.
Qed.
Lemma mode_kappas_equal : forall i j a b, 0 <= i < nir -> 0 <= j < nb -> 0 <= a < 3 -> 0 <= b < 3 ->
  (mode_kappa K g nb cart factor Xi Yi i j a b == star_sum i (fun q => mode_kappa_red K g nb cart factor Xr Yr q j a b))%K.
Proof.
  intros i j a b Hi Hj Ha Hb. rewrite mk_ir by auto.
  assert (Ng := g_neq0).
  assert (E : forall a b, 0 <= a < 3 -> 0 <= b < 3 -> (star_sum i (fun q => Sm g (fun l => h (r l q) j a b)) == of_nat K (Z.to_nat g) * star_sum i (fun q => h q j a b))%K).
  { clear a b Ha Hb. intros a b Ha Hb. unfold star_sum.
    transitivity (Sm n (fun q => Sm g (fun l => (fun q => if in_star g r (irs i) q then h q j a b else 0) (r l q))))%K.
    - apply Sm_ext. intros q Hq. destruct (in_star g r (irs i) q) eqn:S.
      + apply Sm_ext. intros l Hl. cbv beta. rewrite star_r by auto. rewrite S. reflexivity.
      + symmetry. apply Sm_0. intros l Hl. cbv beta. rewrite star_r by auto. rewrite S. reflexivity.
    - rewrite Sm_swap. rewrite <- Sm_const. apply Sm_ext. intros l Hl. apply (Sm_r K g n r cart mul inv HG l (fun q => if in_star g r (irs i) q then h q j a b else 0%K)). exact Hl. }
  assert (R : forall q, 0 <= q < n -> (mode_kappa_red K g nb cart factor Xr Yr q j a b ==
    if ((q =? 0) && (j <? 3))%bool then 0 else (Sm g (fun l => h (r l q) j a b) + Sm g (fun l => h (r l q) j b a)) * factor / of_nat K (Z.to_nat g))%K).
  { intros q Hq. unfold mode_kappa_red, mode_kappa. destruct ((q =? 0) && (j <? 3))%bool; [field; exact Ng|]. cbv zeta.
    assert (G : forall a b, 0 <= a < 3 -> 0 <= b < 3 ->
      (Sm g (fun l => rotv K cart l (Xr (q * nb + j)%Z) a * rotv K cart l (Yr (q * nb + j)%Z) b) == Sm g (fun l => h (r l q) j a b))%K).
    { clear a b Ha Hb. intros a b Ha Hb. apply Sm_ext. intros l Hl.
      rewrite (rot_red X3 Xr q j l a X3_cov) by (auto; intros; now apply Xr_val).
      rewrite (rot_red F3 Yr q j l b F3_cov) by (auto; intros; reflexivity). reflexivity. }
    rewrite !G by auto. reflexivity. }
  destruct ((i =? 0) && (j <? 3))%bool eqn:Sk.
  - symmetry. apply Sm_0. intros q Hq. destruct (in_star g r (irs i) q) eqn:S; [|reflexivity]. rewrite R by auto. rewrite <- (gamma_star i q Hi Hq S), Sk. reflexivity.
  - transitivity (star_sum i (fun q => (Sm g (fun l => h (r l q) j a b) + Sm g (fun l => h (r l q) j b a)) * factor / of_nat K (Z.to_nat g)))%K.
    + transitivity ((star_sum i (fun q => Sm g (fun l => h (r l q) j a b)) + star_sum i (fun q => Sm g (fun l => h (r l q) j b a))) * factor / of_nat K (Z.to_nat g))%K.
      * rewrite !E by auto. field. exact Ng.
      * unfold star_sum. rewrite <- Sm_add, <- Sm_mul_r, <- Sm_div. apply Sm_ext. intros q Hq. destruct (in_star g r (irs i) q); [reflexivity|]. field. exact Ng.
    + apply Sm_ext. intros q Hq. destruct (in_star g r (irs i) q) eqn:S; [|reflexivity]. rewrite R by auto. rewrite <- (gamma_star i q Hi Hq S), Sk. reflexivity.
Qed.
Lemma kappas_equal : forall N a b, 0 <= a < 3 -> 0 <= b < 3 ->
  (kappa_ir K g nir nb cart factor N Xi Yi a b == kappa_red K g n nb cart factor N Xr Yr a b)%K.
Proof.
  intros N a b Ha Hb. unfold kappa_ir, kappa_red. apply K_div; [|reflexivity].
  transitivity (Sm nir (fun i => star_sum i (fun q => Sm nb (fun j => mode_kappa_red K g nb cart factor Xr Yr q j a b)))).
  - apply Sm_ext. intros i Hi. transitivity (Sm nb (fun j => star_sum i (fun q => mode_kappa_red K g nb cart factor Xr Yr q j a b))).
    + apply Sm_ext. intros j Hj. now apply mode_kappas_equal.
    + unfold star_sum. rewrite Sm_swap. apply Sm_ext. intros q Hq. destruct (in_star g r (irs i) q); [reflexivity|]. now apply Sm_0.
  - unfold star_sum. rewrite Sm_swap. apply Sm_ext. intros q Hq. pose proof HI as [_ [I2 I3]]. destruct (I2 q Hq) as [i [l [Hi [Hl E]]]].
    rewrite (Sm_one K nir i); [|exact Hi|].
    + replace (in_star g r (irs i) q) with true; [reflexivity|]. symmetry. apply (in_star_spec g r). eauto.
    + intros i' Hi' Ne. destruct (in_star g r (irs i') q) eqn:S; [|reflexivity]. exfalso. apply (in_star_spec g r) in S. destruct S as [l' [Hl' E']].
      apply Ne. apply (I3 i' i l' l); auto. congruence.
Qed.
(** the quadratic form of the conductivity *)
Hypothesis acoustic : forall j, 0 <= j < nb -> j < 3 -> (fs 0%Z j == 0)%K.
Lemma kappa_red_plain : forall N a b, 0 <= a < 3 -> 0 <= b < 3 ->
  (kappa_red K g n nb cart factor N Xr Yr a b == Sm n (fun q => Sm nb (fun j => h q j a b + h q j b a)) * factor / N)%K.
Proof.
  intros N a b Ha Hb. unfold kappa_red. apply K_div; [|reflexivity]. assert (Ng := g_neq0).
  transitivity (Sm n (fun q => Sm nb (fun j => Sm g (fun l => (h (r l q) j a b + h (r l q) j b a) * factor / of_nat K (Z.to_nat g)))))%K.
  - apply Sm_ext. intros q Hq. apply Sm_ext. intros j Hj. rewrite Sm_div, Sm_mul_r, Sm_add. unfold mode_kappa_red. apply K_div; [|reflexivity].
    assert (G : forall a b, 0 <= a < 3 -> 0 <= b < 3 ->
      (Sm g (fun l => rotv K cart l (Xr (q * nb + j)%Z) a * rotv K cart l (Yr (q * nb + j)%Z) b) == Sm g (fun l => h (r l q) j a b))%K).
    { clear a b Ha Hb. intros a b Ha Hb. apply Sm_ext. intros l Hl.
      rewrite (rot_red X3 Xr q j l a X3_cov) by (auto; intros; now apply Xr_val).
      rewrite (rot_red F3 Yr q j l b F3_cov) by (auto; intros; reflexivity). reflexivity. }
    unfold mode_kappa. destruct ((q =? 0) && (j <? 3))%bool eqn:Sk; cbv zeta; [|rewrite !G by auto; reflexivity].
    apply andb_true_iff in Sk. destruct Sk as [S1 S2]. apply Z.eqb_eq in S1. apply Z.ltb_lt in S2. subst q.
    assert (Z0 : forall a b, (Sm g (fun l => h (r l 0%Z) j a b) == 0)%K).
    { intros a' b'. apply Sm_0. intros l Hl. destruct (tf_gamma _ _ _ _ _ _ _ _ _ _ _ _ _ _ _ _ HT) as [_ [_ R0]]. rewrite R0 by auto.
      unfold h, X3. rewrite acoustic by auto. ring. }
    rewrite !Z0. ring.
  - transitivity (Sm g (fun l => Sm n (fun q => (fun q => Sm nb (fun j => (h q j a b + h q j b a) * factor / of_nat K (Z.to_nat g))) (r l q))))%K.
    { etransitivity; [apply Sm_ext; intros q _; apply Sm_swap|]. apply Sm_swap. }
    transitivity (Sm g (fun l => Sm n (fun q => Sm nb (fun j => (h q j a b + h q j b a) * factor / of_nat K (Z.to_nat g)))))%K.
    { apply Sm_ext. intros l Hl. apply (Sm_r K g n r cart mul inv HG l (fun q => Sm nb (fun j => (h q j a b + h q j b a) * factor / of_nat K (Z.to_nat g))%K)). exact Hl. }
    rewrite Sm_const. rewrite <- Sm_mul_l, <- Sm_mul_r. apply Sm_ext. intros q Hq. rewrite <- Sm_mul_l, <- Sm_mul_r. apply Sm_ext. intros j Hj. field. exact Ng.
Qed.
Local Notation quadratic := (quadratic K).
Lemma kappa_quadratic : forall N u,
  (quadratic u (kappa_red K g n nb cart factor N Xr Yr) ==
   Sm (n * nb) (fun l => let s := Sm (n * nb) (fun p => v' p l * Sm 3 (fun a => u a * Xr p a)) in (s * s) * e w' l) * ((1 + 1) * (factor / N)))%K.
Proof.
  intros N u. set (T := fun p => Sm 3 (fun a => u a * Xr p a)%K). set (G := fun p => Sm 3 (fun a => u a * Yr p a)%K).
  assert (EG : forall p, (G p == Sm (n * nb) (fun l => v' p l * (Sm (n * nb) (fun m => v' m l * T m) * e w' l)))%K).
  { intros p. unfold G, Yr, solve_red. transitivity (Sm 3 (fun a => Sm (n * nb) (fun l => u a * (v' p l * (Sm (n * nb) (fun m => v' m l * Xr m a) * e w' l)))))%K.
    { apply Sm_ext. intros a Ha. rewrite Sm_mul_l. reflexivity. }
    rewrite Sm_swap. apply Sm_ext. intros l Hl.
    transitivity (v' p l * (Sm 3 (fun a => u a * Sm (n * nb) (fun m => v' m l * Xr m a)) * e w' l))%K.
    { rewrite <- Sm_mul_r, <- Sm_mul_l. apply Sm_ext. intros; ring. }
    apply K_mul; [reflexivity|]. apply K_mul; [|reflexivity].
    transitivity (Sm 3 (fun a => Sm (n * nb) (fun m => u a * (v' m l * Xr m a))))%K; [apply Sm_ext; intros; now rewrite Sm_mul_l|].
    rewrite Sm_swap. apply Sm_ext. intros m Hm. unfold T. rewrite <- Sm_mul_l. apply Sm_ext. intros; ring. }
  transitivity (Sm (n * nb) (fun p => T p * G p) * ((1 + 1) * (factor / N)))%K.
  - unfold quadratic.
    transitivity (Sm 3 (fun a => Sm 3 (fun b => Sm (n * nb) (fun p => u a * (Xr p a * Yr p b + Xr p b * Yr p a) * u b) * (factor / N))))%K.
    + apply Sm_ext. intros a Ha. apply Sm_ext. intros b Hb. rewrite kappa_red_plain by auto.
      transitivity (u a * Sm (n * nb) (fun p => Xr p a * Yr p b + Xr p b * Yr p a) * u b * (factor / N))%K.
      * rewrite (Fdiv_def (n_field K)), (Fdiv_def (n_field K) factor).
        transitivity (u a * Sm n (fun q => Sm nb (fun j => h q j a b + h q j b a)) * u b * (factor * ninv K N))%K; [ring|].
        apply K_mul; [|reflexivity]. apply K_mul; [|reflexivity]. apply K_mul; [reflexivity|]. rewrite Sm_flat by lia.
        apply Sm_ext. intros q Hq. apply Sm_ext. intros j Hj. unfold h, F3. rewrite !Xr_val by auto. reflexivity.
      * apply K_mul; [|reflexivity]. rewrite Sm_mul_r, Sm_mul_l. reflexivity.
    + transitivity (Sm 3 (fun a => Sm 3 (fun b => Sm (n * nb) (fun p => u a * (Xr p a * Yr p b + Xr p b * Yr p a) * u b))) * (factor / N))%K.
      { rewrite <- Sm_mul_r. apply Sm_ext. intros a Ha. now rewrite <- Sm_mul_r. }
      transitivity (Sm (n * nb) (fun p => (1 + 1) * (T p * G p)) * (factor / N))%K; [|rewrite Sm_mul_l; ring].
      apply K_mul; [|reflexivity].
      transitivity (Sm (n * nb) (fun p => Sm 3 (fun a => Sm 3 (fun b => u a * (Xr p a * Yr p b + Xr p b * Yr p a) * u b))))%K.
      { etransitivity; [apply Sm_ext; intros a _; apply Sm_swap|]. apply Sm_swap. }
      apply Sm_ext. intros p Hp. unfold T, G, DirModel.Sm. change (zrange 3) with [0; 1; 2]. rewrite !ks_cons, !ks_nil. ring.
  - apply K_mul; [|reflexivity].
    transitivity (Sm (n * nb) (fun p => Sm (n * nb) (fun l => T p * (v' p l * (Sm (n * nb) (fun m => v' m l * T m) * e w' l)))))%K.
    { apply Sm_ext. intros p Hp. rewrite EG, Sm_mul_l. reflexivity. }
    rewrite Sm_swap. apply Sm_ext. intros l Hl. cbv zeta. fold T.
    transitivity (Sm (n * nb) (fun p => v' p l * T p * (Sm (n * nb) (fun m => v' m l * T m) * e w' l)))%K; [apply Sm_ext; intros; ring|].
    rewrite Sm_mul_r. change (fun p => (v' p l * Sm 3 (fun a => u a * Xr p a))%K) with (fun m => (v' m l * T m)%K). ring.
Qed.
End Main.
