From Coq Require Import ZArith List Bool Lia Setoid Morphisms Ring_theory Field_theory Ring Field Permutation.
From Verif Require Import Base BaseProofs Par Par2 DirModel DirSpec DirProofs.
Import ListNotations.
Open Scope Z_scope.

Section Spectral.
Variable K : numbers.
Declare Scope K_scope.
Delimit Scope K_scope with K.
Bind Scope K_scope with num.
Notation "0" := (n0 K) : K_scope.
Notation "1" := (n1 K) : K_scope.
Infix "+" := (nadd K) : K_scope.
Infix "*" := (nmul K) : K_scope.
Infix "-" := (nsub K) : K_scope.
Infix "/" := (ndiv K) : K_scope.
Notation "- x" := (nopp K x) : K_scope.
Infix "==" := (neq K) (at level 70, no associativity) : K_scope.
Add Field Kfield2 : (n_field K) (setoid (n_equiv K) (n_ext K)).
Local Notation ks := (ks K).
Local Notation Sm := (Sm K).

Variable kp : K -> bool.
Hypothesis kp_ext : forall x y, (x == y)%K -> kp x = kp y.
Hypothesis kp_neq0 : forall x, kp x = true -> ~ (x == 0)%K.

Section One.
Variables (N : Z) (A : Z -> Z -> K).
Definition mapp (u : Z -> K) (p : Z) : K := Sm N (fun m => A p m * u m)%K.
Definition dot (u v : Z -> K) : K := Sm N (fun p => u p * v p)%K.
Definition symm : Prop := forall p p', 0 <= p < N -> 0 <= p' < N -> (A p p' == A p' p)%K.
Definition eigs (b : bool) (B : list (K * (Z -> K))) : Prop := forall xu, In xu B ->
  kp (fst xu) = b /\ forall p, 0 <= p < N -> (mapp (snd xu) p == fst xu * snd xu p)%K.
Definition total (B : list (K * (Z -> K))) (p : Z) : K := ks B (fun xu => snd xu p).
(** Y is a sum of eigenvectors with kept eigenvalues, X - A Y one of eigenvectors with others *)
Definition truncated (X Y : Z -> K) : Prop := exists B D, eigs true B /\ eigs false D /\
  (forall p, 0 <= p < N -> (Y p == total B p)%K) /\
  (forall p, 0 <= p < N -> (X p - mapp Y p == total D p)%K).

Lemma mapp_ext : forall u v, (forall p, 0 <= p < N -> u p == v p)%K -> forall p, (mapp u p == mapp v p)%K.
Proof. intros u v H p. apply Sm_ext. intros m Hm. now rewrite (H m Hm). Qed.
Lemma dot_ext : forall u v u' v', (forall p, 0 <= p < N -> u p == u' p)%K -> (forall p, 0 <= p < N -> v p == v' p)%K ->
  (dot u v == dot u' v')%K.
Proof. intros u v u' v' H H'. apply Sm_ext. intros m Hm. now rewrite (H m Hm), (H' m Hm). Qed.
Lemma dot_comm : forall u v, (dot u v == dot v u)%K.
Proof. intros. apply Sm_ext. intros. ring. Qed.
Lemma dot_total : forall B v, (dot (total B) v == ks B (fun xu => dot (snd xu) v))%K.
Proof.
  intros B v. unfold dot, total, DirModel.Sm. rewrite <- ks_swap. apply ks_ext. intros p _. rewrite ks_mul_r. reflexivity.
Qed.
Lemma mapp_total : forall B p, (mapp (total B) p == ks B (fun xu => mapp (snd xu) p))%K.
Proof.
  intros B v. unfold mapp, total, DirModel.Sm. rewrite <- ks_swap. apply ks_ext. intros p _. rewrite ks_mul_l. reflexivity.
Qed.
Lemma mapp_sub : forall u v p, (mapp (fun m => u m - v m) p == mapp u p - mapp v p)%K.
Proof. intros u v p. unfold mapp. rewrite <- Sm_sub. apply Sm_ext. intros. ring. Qed.
Hypothesis Sy : symm.
Lemma mapp_dot : forall u v, (dot (mapp u) v == dot u (mapp v))%K.
Proof.
  intros u v. unfold dot, mapp.
  transitivity (Sm N (fun p => Sm N (fun m => A p m * u m * v p)))%K.
  { apply Sm_ext. intros p Hp. rewrite Sm_mul_r. reflexivity. }
  rewrite Sm_swap. apply Sm_ext. intros m Hm. rewrite <- Sm_mul_l. apply Sm_ext. intros p Hp.
  rewrite (Sy p m Hp Hm). ring.
Qed.
Lemma eig_orth : forall B D xu yv, eigs true B -> eigs false D -> In xu B -> In yv D -> (dot (snd xu) (snd yv) == 0)%K.
Proof.
  intros B D [x u] [y v] HB HD Ix Iy. cbn. destruct (HB _ Ix) as [kx ex]. destruct (HD _ Iy) as [ky ey]. cbn in *.
  assert (Nz : ~ (x - y == 0)%K).
  { intros E. assert (x == y)%K as Exy by (transitivity (x - y + y)%K; [ring|rewrite E; ring]). rewrite (kp_ext _ _ Exy) in kx. congruence. }
  apply (mul_neq0 K (x - y)%K); [exact Nz|].
  transitivity (dot (mapp u) v - dot u (mapp v))%K; [|rewrite mapp_dot; ring].
  rewrite (dot_ext (mapp u) v (fun p => x * u p)%K v ex) by reflexivity.
  rewrite (dot_ext u (mapp v) u (fun p => y * v p)%K ltac:(reflexivity) ey).
  unfold dot. rewrite <- (Sm_mul_l K N), <- (Sm_sub K N). apply Sm_ext. intros. ring.
Qed.
Lemma truncated_unique : forall X Y Y', truncated X Y -> truncated X Y' -> forall p, 0 <= p < N -> (Y p == Y' p)%K.
Proof.
  intros X Y Y' [B [D [HB [HD [EY ER]]]]] [B' [D' [HB' [HD' [EY' ER']]]]].
  set (d := fun p => (Y p - Y' p)%K).
  (* A d is orthogonal to itself *)
  assert (Z0 : (dot (mapp d) (mapp d) == 0)%K).
  { transitivity (dot (mapp d) (fun p => total D' p - total D p))%K.
    { apply dot_ext; [reflexivity|]. intros p Hp. unfold d. rewrite mapp_sub, <- (ER p Hp), <- (ER' p Hp). ring. }
    rewrite mapp_dot.
    assert (G : forall C, eigs true C -> forall E, eigs false E -> (dot (total C) (mapp (total E)) == 0)%K).
    { intros C HC E HE. rewrite <- mapp_dot. rewrite dot_comm, dot_total. apply ks_0. intros yv Iy. rewrite dot_comm.
      rewrite mapp_dot. rewrite dot_total. apply ks_0. intros xu Ix.
      rewrite (dot_ext (snd xu) (mapp (snd yv)) (snd xu) (fun p => fst yv * snd yv p)%K ltac:(reflexivity) (proj2 (HE _ Iy))).
      transitivity (fst yv * dot (snd xu) (snd yv))%K; [unfold dot; rewrite <- Sm_mul_l; apply Sm_ext; intros; ring|].
      rewrite (eig_orth C E xu yv HC HE Ix Iy). ring. }
    transitivity (dot (fun p => total B p - total B' p) (fun p => mapp (total D') p - mapp (total D) p))%K.
    { apply dot_ext; [intros p Hp; unfold d; now rewrite (EY p Hp), (EY' p Hp)|intros p _; apply mapp_sub]. }
    transitivity (dot (total B) (mapp (total D')) - dot (total B) (mapp (total D)) - dot (total B') (mapp (total D')) + dot (total B') (mapp (total D)))%K.
    { unfold dot. rewrite <- !Sm_sub, <- Sm_add. apply Sm_ext. intros. ring. }
    rewrite !G by assumption. ring. }
  assert (Z1 : forall p, 0 <= p < N -> (mapp d p == 0)%K) by (apply Sm_squares; exact Z0).
  assert (Z2 : forall C, eigs true C -> (dot (total C) d == 0)%K).
  { intros C HC. rewrite dot_total. apply ks_0. intros xu Ix. destruct (HC _ Ix) as [kx ex].
    apply (mul_neq0 K (fst xu)); [now apply kp_neq0|].
    transitivity (dot (mapp (snd xu)) d).
    { unfold dot. rewrite <- Sm_mul_l. apply Sm_ext. intros p Hp. rewrite (ex p Hp). ring. }
    rewrite mapp_dot. apply Sm_0. intros p Hp. rewrite (Z1 p Hp). ring. }
  assert (Z3 : (dot d d == 0)%K).
  { transitivity (dot (total B) d - dot (total B') d)%K; [|rewrite !Z2 by assumption; ring].
    unfold dot. rewrite <- Sm_sub. apply Sm_ext. intros p Hp. unfold d at 1. rewrite (EY p Hp), (EY' p Hp). ring. }
  intros p Hp. transitivity (d p + Y' p)%K; [unfold d; ring|]. rewrite (Sm_squares K N d Z3 p Hp). ring.
Qed.
End One.

(** the formula of the code is such a solution *)
Lemma diag_symm : forall N A w v, diagonalizes K N A w v -> symm N A.
Proof.
  intros N A w v [H _] p p' Hp Hp'. rewrite (H p p' Hp Hp'), (H p' p Hp' Hp). apply Sm_ext. intros. ring.
Qed.
Lemma diag_eig : forall N A w v l c p, diagonalizes K N A w v -> 0 <= l < N -> 0 <= p < N ->
  (mapp N A (fun m => v m l * c) p == w l * (v p l * c))%K.
Proof.
  intros N A w v l c p [H1 [H2 H3]] Hl Hp. unfold mapp.
  transitivity (Sm N (fun m => Sm N (fun l' => v p l' * w l' * c * (v m l' * v m l))))%K.
  { apply Sm_ext. intros m Hm. rewrite (H1 p m Hp Hm). rewrite <- Sm_mul_r. apply Sm_ext. intros. ring. }
  rewrite Sm_swap.
  transitivity (Sm N (fun l' => if l' =? l then v p l' * w l' * c else 0))%K.
  { apply Sm_ext. intros l' Hl'. rewrite Sm_mul_l, (H2 l' l Hl' Hl). destruct (l' =? l); ring. }
  rewrite (Sm_single K N l (fun l' => v p l' * w l' * c)%K Hl). ring.
Qed.
Lemma diag_truncated : forall N A w v X Y, diagonalizes K N A w v ->
  (forall p, 0 <= p < N -> Y p == Sm N (fun l => v p l * ((if kp (w l) then 1 / w l else 0) * Sm N (fun m => v m l * X m))))%K ->
  truncated N A X Y.
Proof.
  intros N A w v X Y D HY. pose proof D as [H1 [H2 H3]].
  set (c := fun l => Sm N (fun m => v m l * X m)%K).
  set (eg := fun (f : Z -> K) l => (w l, fun p => (v p l * f l)%K)).
  exists (map (eg (fun l => 1 / w l * c l)%K) (filter (fun l => kp (w l)) (zrange N))),
         (map (eg c) (filter (fun l => negb (kp (w l))) (zrange N))).
  assert (EY : forall p, 0 <= p < N -> (Y p == total (map (eg (fun l => 1 / w l * c l)%K) (filter (fun l => kp (w l)) (zrange N))) p)%K).
  { intros p Hp. rewrite (HY p Hp). unfold total. rewrite ks_map, ks_filter. apply ks_ext. intros l Hl. unfold c. cbn [eg snd].
    destruct (kp (w l)); ring. }
  split; [|split; [|split; [exact EY|]]].
  - intros xu I. apply in_map_iff in I. destruct I as [l [<- I]]. apply filter_In in I. destruct I as [I E]. apply in_zrange in I. split; [exact E|].
    intros p Hp. cbn [eg fst snd]. now apply diag_eig.
  - intros xu I. apply in_map_iff in I. destruct I as [l [<- I]]. apply filter_In in I. destruct I as [I E]. apply in_zrange in I. split; [now apply negb_true_iff|].
    intros p Hp. cbn [eg fst snd]. now apply diag_eig.
  - intros p Hp. rewrite (mapp_ext N A _ _ EY p), mapp_total. unfold total. rewrite !ks_map, !ks_filter.
    assert (EX : (X p == ks (zrange N) (fun l => v p l * c l))%K).
    { transitivity (Sm N (fun m => if m =? p then X m else 0)%K); [symmetry; now apply Sm_single|].
      transitivity (Sm N (fun m => Sm N (fun l => v p l * (v m l * X m))))%K.
      - apply Sm_ext. intros m Hm. transitivity ((if p =? m then 1 else 0) * X m)%K; [rewrite (Z.eqb_sym m p); destruct (p =? m); ring|].
        rewrite <- (H3 p m Hp Hm), <- Sm_mul_r. apply Sm_ext. intros. ring.
      - rewrite Sm_swap. apply Sm_ext. intros l Hl. unfold c. rewrite Sm_mul_l. reflexivity. }
    rewrite EX, <- ks_sub. apply ks_ext. intros l Hl. apply in_zrange in Hl.
    destruct (kp (w l)) eqn:Kl; cbn [negb eg snd]; [|ring].
    rewrite (diag_eig N A w v l _ p D Hl Hp). field. now apply kp_neq0.
Qed.
End Spectral.
