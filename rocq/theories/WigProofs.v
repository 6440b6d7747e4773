(** Lemmas on the Wigner loops and on unitary mixings of bands *)
From Coq Require Import ZArith QArith Qfield Qabs List Bool Lia Lqa.
From Verif Require Import Base BaseProofs QMat Fc3Model Fc3Trans IseSpec IseProofs Cplx KapModel KapProofs KapTensor GruModel GruProofs GruProps WigModel.
Import ListNotations.
Open Scope Z_scope.

Lemma qltb_comp : forall a a' b b', (a == a')%Q -> (b == b')%Q -> qltb a b = qltb a' b'.
Proof.
  intros a a' b b' H K. destruct (qltb a' b') eqn:E.
  - apply qltb_lt in E. apply qltb_lt. rewrite H, K. exact E.
  - apply qltb_ge in E. apply qltb_ge. rewrite H, K. exact E.
Qed.

Section Loops.
  Variable nb : Z.
  Variable ev conv cutoff : Q.
  Variable freq g cv : Z -> Q.
  Variable v2 : Z -> Z -> Z -> cplx.
  Local Notation step := (wig_step ev conv cutoff freq g cv v2).
  Local Notation contr := (contribution_wig ev conv freq g cv v2).
  Definition both (a b : Z) : bool := qltb cutoff (freq a) && qltb cutoff (freq b).
  Definition near (a b : Z) : bool := qltb (Qabs (freq a - freq b)) (1 # 10000).
  Definition tP (a b c : Z) : Q := if both a b && near a b then contr a b c else 0%Q.
  Definition tC (a b c : Z) : Q := if both a b && negb (near a b) then contr a b c else 0%Q.
  Definition tI (a : Z) : Q := if qltb cutoff (freq a) then 0%Q else 1%Q.

  Lemma step_P : forall st a b x c, (ws_P (step st a b) x c == ws_P st x c + (delta x a + delta x b) * ((1 # 2) * tP a b c))%Q.
  Proof.
    intros st a b x c. unfold wig_step, tP, both, near, delta, add_row. destruct (qltb cutoff (freq a) && qltb cutoff (freq b)); cbn [andb].
    - destruct (qltb (Qabs (freq a - freq b)) (1 # 10000)); cbn [ws_P andb]; [|destruct (x =? a), (x =? b); ring].
      destruct (x =? a), (x =? b); ring.
    - destruct (a =? b); cbn [ws_P]; destruct (x =? a), (x =? b); ring.
  Qed.
  Lemma step_C : forall st a b x y c, (ws_C (step st a b) x y c == ws_C st x y c + delta x a * (delta y b * tC a b c))%Q.
  Proof.
    intros st a b x y c. unfold wig_step, tC, both, near, delta. destruct (qltb cutoff (freq a) && qltb cutoff (freq b)); cbn [andb].
    - destruct (qltb (Qabs (freq a - freq b)) (1 # 10000)); cbn [ws_C andb negb]; destruct (x =? a), (y =? b); cbn [andb]; ring.
    - destruct (a =? b); cbn [ws_C]; destruct (x =? a), (y =? b); ring.
  Qed.
  Lemma step_I : forall st a b, (inject_Z (ws_ignored (step st a b)) == inject_Z (ws_ignored st) + delta a b * tI a)%Q.
  Proof.
    intros st a b. unfold wig_step, tI, delta. destruct (a =? b) eqn:E.
    - apply Z.eqb_eq in E. subst b. destruct (qltb cutoff (freq a)); cbn [andb]; [destruct (qltb _ _); cbn [ws_ignored]; ring|]. cbn [ws_ignored]. rewrite inject_Z_plus. change (inject_Z 1) with 1%Q. ring.
    - destruct (qltb cutoff (freq a) && qltb cutoff (freq b)); [destruct (qltb _ _)|]; cbn [ws_ignored]; ring.
  Qed.
  (** an accumulation over two nested loops *)
  Lemma fold2 : forall (obs : wig_state -> Q) (t : Z -> Z -> Q), (forall st a b, (obs (step st a b) == obs st + t a b)%Q) -> forall l l' st,
    (obs (fold_left (fun st a => fold_left (fun st b => step st a b) l' st) l st) == obs st + qsum (map (fun a => qsum (map (t a) l')) l))%Q.
  Proof.
    intros obs t H l l'.
    assert (I : forall a k st, (obs (fold_left (fun st b => step st a b) k st) == obs st + qsum (map (t a) k))%Q).
    { intros a. induction k as [|b k IH]; intros st; [cbn; ring|]. cbn [fold_left map]. rewrite IH, H, qs_cons. ring. }
    induction l as [|a l IH]; intros st; [cbn; ring|]. cbn [fold_left map]. rewrite IH, I, qs_cons. ring.
  Qed.
  Local Notation modes st := (wig_modes nb ev conv cutoff freq g cv v2 st).
  Lemma delta_sym : forall a b, delta a b = delta b a.
  Proof. intros a b. unfold delta. rewrite Z.eqb_sym. reflexivity. Qed.
  Lemma modes_P : forall st x c, 0 <= x < nb ->
    (ws_P (modes st) x c == ws_P st x c + QS nb (fun b => (1 # 2) * (tP x b c + tP b x c)))%Q.
  Proof.
    intros st x c Hx. unfold wig_modes. rewrite (fold2 (fun st => ws_P st x c) (fun a b => (delta x a + delta x b) * ((1 # 2) * tP a b c))%Q) by (intros; apply step_P).
    apply Qplus_comp; [reflexivity|].
    transitivity (QS nb (fun a => delta x a * QS nb (fun b => (1 # 2) * tP a b c)) + QS nb (fun a => (1 # 2) * tP a x c))%Q.
    - rewrite <- qs_add. apply qs_ext. intros a Ha. rewrite <- (delta_sum nb x (fun b => (1 # 2) * tP a b c)%Q Hx), <- qs_scale, <- qs_add. apply qs_ext. intros b _. ring.
    - rewrite delta_sum by exact Hx. rewrite <- qs_add. apply qs_ext. intros b _. ring.
  Qed.
  Lemma modes_C : forall st x y c, 0 <= x < nb -> 0 <= y < nb -> (ws_C (modes st) x y c == ws_C st x y c + tC x y c)%Q.
  Proof.
    intros st x y c Hx Hy. unfold wig_modes. rewrite (fold2 (fun st => ws_C st x y c) (fun a b => delta x a * (delta y b * tC a b c))%Q) by (intros; apply step_C).
    apply Qplus_comp; [reflexivity|]. transitivity (QS nb (fun a => delta x a * tC a y c))%Q; [|exact (delta_sum nb x (fun a => tC a y c) Hx)].
    apply qs_ext. intros a _. rewrite qs_scale. rewrite (delta_sum nb y (fun b => tC a b c) Hy). reflexivity.
  Qed.
  Lemma modes_I : forall st, (inject_Z (ws_ignored (modes st)) == inject_Z (ws_ignored st) + QS nb tI)%Q.
  Proof.
    intros st. unfold wig_modes. rewrite (fold2 (fun st => inject_Z (ws_ignored st)) (fun a b => delta a b * tI a)%Q) by (intros; apply step_I).
    apply Qplus_comp; [reflexivity|]. apply qs_ext. intros a Ha. apply in_zrange in Ha. apply (delta_sum nb a (fun _ => tI a)). lia.
  Qed.
  Lemma near_sym : forall a b, near a b = near b a.
  Proof. intros a b. unfold near. rewrite Qabs_Qminus. reflexivity. Qed.
  Lemma both_sym : forall a b, both a b = both b a.
  Proof. intros a b. apply andb_comm. Qed.
End Loops.

(** ** mixing of bands *)
Definition cdelta (a b : Z) : cplx := if a =? b then c1 else c0.
Lemma cdelta_sum : forall n a (f : Z -> cplx), 0 <= a < n -> CSum n (fun b => cmul (cdelta a b) (f b)) =c= f a.
Proof.
  intros n a f Ha. unfold CSum. pose proof (fun h => delta_sum n a h Ha) as D.
  destruct (csum_parts (map (fun b => cmul (cdelta a b) (f b)) (zrange n))) as [Hr Hi]. split.
  - rewrite Hr, map_map. rewrite <- (D (fun b => re (f b))). apply qs_ext. intros b _. unfold cdelta, delta. destruct (a =? b); cbn; ring.
  - rewrite Hi, map_map. rewrite <- (D (fun b => im (f b))). apply qs_ext. intros b _. unfold cdelta, delta. destruct (a =? b); cbn; ring.
Qed.
Section Mix.
  Variable nb : Z.
  (** [U p s]: rows orthonormal *)
  Lemma mix1 : forall (U : Z -> Z -> cplx) (k : Z -> Q) (x y : Z -> cplx),
    (forall p p', 0 <= p < nb -> 0 <= p' < nb -> CSum nb (fun s => cmul (U p s) (conj (U p' s))) =c= cdelta p p') ->
    (forall p s, 0 <= p < nb -> 0 <= s < nb -> (k p == k s)%Q \/ U p s =c= c0) ->
    CSum nb (fun s => cscale (k s) (cmul (CSum nb (fun p => cmul (U p s) (x p))) (conj (CSum nb (fun p => cmul (U p s) (y p)))))) =c=
    CSum nb (fun p => cscale (k p) (cmul (x p) (conj (y p)))).
  Proof.
    intros U k x y HU Hk.
    transitivity (CSum nb (fun s => CSum nb (fun p => CSum nb (fun p' => cmul (cmul (C (k p) 0) (cmul (x p) (conj (y p')))) (cmul (U p s) (conj (U p' s))))))).
    { apply CSum_ext. intros s Hs. rewrite cscale_mul.
      transitivity (cmul (C (k s) 0) (CSum nb (fun p => cmul (cmul (U p s) (x p)) (CSum nb (fun p' => conj (cmul (U p' s) (y p'))))))).
      { apply cmul_proper; [reflexivity|]. unfold CSum at 2. rewrite csum_conj.
        set (Y := csum (map (fun p' => conj (cmul (U p' s) (y p'))) (zrange nb))).
        transitivity (cmul Y (CSum nb (fun p => cmul (U p s) (x p)))); [ring|]. rewrite <- CSum_scale. apply CSum_ext. intros p _.
        change (CSum nb (fun p' => conj (cmul (U p' s) (y p')))) with Y. ring. }
      rewrite <- CSum_scale. apply CSum_ext. intros p Hp.
      transitivity (cmul (cmul (C (k p) 0) (cmul (U p s) (x p))) (CSum nb (fun p' => conj (cmul (U p' s) (y p'))))).
      { destruct (Hk p s Hp Hs) as [E | E]; [|rewrite E; ring]. assert (E' : C (k p) 0 =c= C (k s) 0) by (split; [exact E|reflexivity]). rewrite E'. ring. }
      rewrite <- CSum_scale. apply CSum_ext. intros p' _. rewrite conj_mul. ring. }
    rewrite CSum_swap. apply CSum_ext. intros p Hp. rewrite CSum_swap.
    transitivity (CSum nb (fun p' => cmul (cdelta p p') (cmul (C (k p) 0) (cmul (x p) (conj (y p')))))).
    - apply CSum_ext. intros p' Hp'. rewrite CSum_scale, (HU p p' Hp Hp'). ring.
    - rewrite cdelta_sum by exact Hp. rewrite cscale_mul. reflexivity.
  Qed.
End Mix.
