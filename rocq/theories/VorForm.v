(** Reduced bases are Selling forms: short translates and short vectors of a lattice *)
From Coq Require Import ZArith QArith Qabs Qfield List Bool Lia Lqa.
From Verif Require Import Base Mat3 QMat NigModel NigProps VorProofs.
Import ListNotations.
Open Scope Z_scope.

Definition pick (i a b c e : Z) : Z := if i =? 0 then a else if i =? 1 then b else if i =? 2 then c else e.
Record selling (f : Z -> Z -> Z -> Q) : Type := {
  s01 : Q; s02 : Q; s03 : Q; s12 : Q; s13 : Q; s23 : Q;
  i1 : Z; j1 : Z; i2 : Z; j2 : Z; i3 : Z; j3 : Z;
  n01 : (0 <= s01)%Q; n02 : (0 <= s02)%Q; n03 : (0 <= s03)%Q; n12 : (0 <= s12)%Q; n13 : (0 <= s13)%Q; n23 : (0 <= s23)%Q;
  s_form : forall a b c e, (f (pick i1 a b c e - pick j1 a b c e)%Z (pick i2 a b c e - pick j2 a b c e)%Z (pick i3 a b c e - pick j3 a b c e)%Z
    == Sp s01 s02 s03 s12 s13 s23 a b c e)%Q;
  s_onto : forall x y z, exists a b c e, pick i1 a b c e - pick j1 a b c e = x /\ pick i2 a b c e - pick j2 a b c e = y /\ pick i3 a b c e - pick j3 a b c e = z;
  s_inj : forall a b c e, pick i1 a b c e = pick j1 a b c e -> pick i2 a b c e = pick j2 a b c e -> pick i3 a b c e = pick j3 a b c e -> a = b /\ b = c /\ c = e }.

Lemma pick_shift : forall i d a b c e s0 s1 s2 s3, pick i (a - d * s0) (b - d * s1) (c - d * s2) (e - d * s3) = pick i a b c e - d * pick i s0 s1 s2 s3.
Proof. intros. unfold pick. destruct (i =? 0), (i =? 1), (i =? 2); reflexivity. Qed.
Lemma pick2 : forall i a b c e, pick i (2 * a) (2 * b) (2 * c) (2 * e) = 2 * pick i a b c e.
Proof. intros. unfold pick. destruct (i =? 0), (i =? 1), (i =? 2); reflexivity. Qed.
Lemma pick_spread : forall i j a b c e w, 0 <= w -> spread a b c e w -> Z.abs (pick i a b c e - pick j a b c e) <= w.
Proof.
  intros i j a b c e w Hw [H1 [H2 [H3 [H4 [H5 H6]]]]]. unfold pick.
  destruct (i =? 0), (i =? 1), (i =? 2), (j =? 0), (j =? 1), (j =? 2);
    first [assumption|rewrite <- Z.abs_opp, Z.opp_sub_distr, Z.add_comm; assumption|rewrite Z.sub_diag; exact Hw|idtac].
Qed.
Lemma pick_bit : forall i a b c e, bit a -> bit b -> bit c -> bit e -> bit (pick i a b c e).
Proof. intros i a b c e H1 H2 H3 H4. unfold pick. destruct (i =? 0), (i =? 1), (i =? 2); assumption. Qed.
Lemma shift_diff : forall p q d s t, p - d * s - (q - d * t) = p - q - d * (s - t). Proof. intros. ring. Qed.

Section Use.
  Variable f : Z -> Z -> Z -> Q.
  Variable S : selling f.
  Theorem near_translate : forall d x y z, 0 < d -> exists i j k,
    (f (x - d * i)%Z (y - d * j)%Z (z - d * k)%Z <= f x y z)%Q /\ 2 * Z.abs (x - d * i) <= 3 * d /\ 2 * Z.abs (y - d * j) <= 3 * d /\ 2 * Z.abs (z - d * k) <= 3 * d.
  Proof.
    intros d x y z Hd. destruct (s_onto f S x y z) as [a [b [c [e [<- [<- <-]]]]]].
    destruct (sell_reduce _ _ _ _ _ _ (n01 f S) (n02 f S) (n03 f S) (n12 f S) (n13 f S) (n23 f S) d a b c e Hd) as [k0 [k1 [k2 [k3 [H1 H2]]]]].
    rewrite <- !s_form in H1. rewrite !pick_shift, !shift_diff in H1.
    do 3 eexists. split; [exact H1|].
    assert (W : 0 <= 3 * d) by lia. clear H1.
    assert (K : forall i j, 2 * Z.abs (pick i a b c e - pick j a b c e - d * (pick i k0 k1 k2 k3 - pick j k0 k1 k2 k3)) <= 3 * d).
    { intros i j. pose proof (pick_spread i j _ _ _ _ _ W H2) as P. rewrite !pick2, !pick_shift in P. clear - P. rewrite <- shift_diff. lia. }
    split; [apply K|]. split; apply K.
  Qed.
  Theorem far_drop : forall d x y z, 0 < d -> 5 * d <= 2 * Z.abs x \/ 5 * d <= 2 * Z.abs y \/ 5 * d <= 2 * Z.abs z -> exists i j k,
    ~ (i = 0 /\ j = 0 /\ k = 0) /\ (3 * f (x - d * i)%Z (y - d * j)%Z (z - d * k)%Z + 2 * sq d * f i j k <= 3 * f x y z)%Q.
  Proof.
    intros d x y z Hd HF. destruct (s_onto f S x y z) as [a [b [c [e [<- [<- <-]]]]]].
    assert (NS : ~ spread (2 * a) (2 * b) (2 * c) (2 * e) (5 * d - 1)).
    { intros H. assert (W : 0 <= 5 * d - 1) by (clear - Hd; lia).
      pose proof (pick_spread (i1 f S) (j1 f S) _ _ _ _ _ W H) as Q1. pose proof (pick_spread (i2 f S) (j2 f S) _ _ _ _ _ W H) as Q2.
      pose proof (pick_spread (i3 f S) (j3 f S) _ _ _ _ _ W H) as Q3. rewrite !pick2 in Q1, Q2, Q3.
      destruct HF as [G|[G|G]]; [clear - G Q1|clear - G Q2|clear - G Q3]; lia. }
    destruct (sell_drop _ _ _ _ _ _ (n01 f S) (n02 f S) (n03 f S) (n12 f S) (n13 f S) (n23 f S) d a b c e Hd NS) as [k0 [k1 [k2 [k3 [B0 [B1 [B2 [B3 [NC H]]]]]]]]].
    rewrite <- !s_form in H. rewrite !pick_shift, !shift_diff in H. do 3 eexists. split; [|exact H].
    intros [E1 [E2 E3]].
    destruct (s_inj f S k0 k1 k2 k3 ltac:(clear - E1; lia) ltac:(clear - E2; lia) ltac:(clear - E3; lia)) as [<- [<- <-]].
    clear - B0 NC. unfold bit in B0. lia.
  Qed.
  Definition trit (x : Z) : Prop := x = -1 \/ x = 0 \/ x = 1.
  Lemma bits_trit : forall x y, bit x -> bit y -> trit (x - y).
  Proof. unfold bit, trit. intros. lia. Qed.
  Lemma cut_pick : forall a b c e i j, pick i a b c e - pick j a b c e <> 0 -> exists s0 s1 s2 s3,
    bit s0 /\ bit s1 /\ bit s2 /\ bit s3 /\ pick i s0 s1 s2 s3 - pick j s0 s1 s2 s3 <> 0 /\
    (Sp (s01 f S) (s02 f S) (s03 f S) (s12 f S) (s13 f S) (s23 f S) s0 s1 s2 s3 <= Sp (s01 f S) (s02 f S) (s03 f S) (s12 f S) (s13 f S) (s23 f S) a b c e)%Q.
  Proof.
    intros a b c e i j H.
    destruct (sell_cut _ _ _ _ _ _ (n01 f S) (n02 f S) (n03 f S) (n12 f S) (n13 f S) (n23 f S) a b c e (Z.min (pick i a b c e) (pick j a b c e)))
      as [s0 [s1 [s2 [s3 [D0 [D1 [D2 [D3 L]]]]]]]].
    exists s0, s1, s2, s3. set (m := Z.min _ _) in *.
    assert (P : forall l, pick l s0 s1 s2 s3 = 1 /\ m < pick l a b c e \/ pick l s0 s1 s2 s3 = 0 /\ pick l a b c e <= m).
    { intros l. unfold pick. destruct (l =? 0), (l =? 1), (l =? 2); assumption. }
    split; [clear - D0; unfold bit; lia|]. split; [clear - D1; unfold bit; lia|]. split; [clear - D2; unfold bit; lia|]. split; [clear - D3; unfold bit; lia|].
    split; [|exact L]. pose proof (P i) as Pi. pose proof (P j) as Pj. clear - Pi Pj H. subst m. lia.
  Qed.
  Theorem short_x : forall x y z, x <> 0 -> exists i j k, trit i /\ trit j /\ trit k /\ i <> 0 /\ (f i j k <= f x y z)%Q.
  Proof.
    intros x y z H. destruct (s_onto f S x y z) as [a [b [c [e [<- [<- <-]]]]]]. destruct (cut_pick _ _ _ _ _ _ H) as [s0 [s1 [s2 [s3 [B0 [B1 [B2 [B3 [N L]]]]]]]]].
    rewrite <- !s_form in L. do 3 eexists. split; [|split; [|split; [|split; [exact N|exact L]]]]; apply bits_trit; apply pick_bit; assumption.
  Qed.
  Theorem short_y : forall x y z, y <> 0 -> exists i j k, trit i /\ trit j /\ trit k /\ j <> 0 /\ (f i j k <= f x y z)%Q.
  Proof.
    intros x y z H. destruct (s_onto f S x y z) as [a [b [c [e [<- [<- <-]]]]]]. destruct (cut_pick _ _ _ _ _ _ H) as [s0 [s1 [s2 [s3 [B0 [B1 [B2 [B3 [N L]]]]]]]]].
    rewrite <- !s_form in L. do 3 eexists. split; [|split; [|split; [|split; [exact N|exact L]]]]; apply bits_trit; apply pick_bit; assumption.
  Qed.
  Theorem short_z : forall x y z, z <> 0 -> exists i j k, trit i /\ trit j /\ trit k /\ k <> 0 /\ (f i j k <= f x y z)%Q.
  Proof.
    intros x y z H. destruct (s_onto f S x y z) as [a [b [c [e [<- [<- <-]]]]]]. destruct (cut_pick _ _ _ _ _ _ H) as [s0 [s1 [s2 [s3 [B0 [B1 [B2 [B3 [N L]]]]]]]]].
    rewrite <- !s_form in L. do 3 eexists. split; [|split; [|split; [|split; [exact N|exact L]]]]; apply bits_trit; apply pick_bit; assumption.
  Qed.
End Use.

(** ** Reduced bases *)
(** Pairwise reduced with all angles acute (or right); or an obtuse superbase: a, b, c, -(a+b+c) pairwise at obtuse (or right) angles. *)
Definition acute_reduced (L : QM) : Prop :=
  (0 <= sxi L <= sB L)%Q /\ (sxi L <= sC L)%Q /\ (0 <= seta L <= sA L)%Q /\ (seta L <= sC L)%Q /\ (0 <= szeta L <= sA L)%Q /\ (szeta L <= sB L)%Q.
Definition obtuse_superbase (L : QM) : Prop :=
  (sxi L <= 0)%Q /\ (seta L <= 0)%Q /\ (szeta L <= 0)%Q /\
  (0 <= 2 * sA L + seta L + szeta L)%Q /\ (0 <= 2 * sB L + sxi L + szeta L)%Q /\ (0 <= 2 * sC L + sxi L + seta L)%Q.
Definition qf (L : QM) (x y z : Z) : Q :=
  (sA L * sq x + sB L * sq y + sC L * sq z + sxi L * qz (y * z) + seta L * qz (x * z) + szeta L * qz (x * y))%Q.

Ltac mk := unfold pick; cbn [Z.eqb Pos.eqb].
Lemma obtuse_selling : forall L, obtuse_superbase L -> selling (qf L).
Proof.
  intros L [H1 [H2 [H3 [H4 [H5 H6]]]]].
  apply (Build_selling (qf L) (sA L + (1 # 2) * (szeta L + seta L)) (sB L + (1 # 2) * (szeta L + sxi L)) (sC L + (1 # 2) * (sxi L + seta L))
    (- (1 # 2) * szeta L) (- (1 # 2) * seta L) (- (1 # 2) * sxi L) 1 0 2 0 3 0); try lra; mk.
  - intros a b c e. unfold qf, Sp, sq, qz, Z.sub. rewrite ?inject_Z_mult, ?inject_Z_plus, ?inject_Z_opp. ring.
  - intros x y z. exists 0, x, y, z. lia.
  - intros. lia.
Qed.
Lemma acute_eta : forall L, acute_reduced L -> (seta L <= sxi L)%Q -> (seta L <= szeta L)%Q -> selling (qf L).
Proof.
  intros L [[H1 H2] [H3 [[H4 H5] [H6 [[H7 H8] H9]]]]] M1 M2.
  apply (Build_selling (qf L) ((1 # 2) * seta L) (sA L - (1 # 2) * szeta L) ((1 # 2) * (szeta L - seta L)) ((1 # 2) * (sxi L - seta L)) (sC L - (1 # 2) * sxi L)
    (sB L - (1 # 2) * (szeta L + sxi L - seta L)) 2 0 3 2 1 3); try lra; mk.
  - intros a b c e. unfold qf, Sp, sq, qz, Z.sub. rewrite ?inject_Z_mult, ?inject_Z_plus, ?inject_Z_opp. ring.
  - intros x y z. exists (- x - y), z, (- y), 0. lia.
  - intros. lia.
Qed.
Lemma acute_xi : forall L, acute_reduced L -> (sxi L <= seta L)%Q -> (sxi L <= szeta L)%Q -> selling (qf L).
Proof.
  intros L [[H1 H2] [H3 [[H4 H5] [H6 [[H7 H8] H9]]]]] M1 M2.
  apply (Build_selling (qf L) ((1 # 2) * sxi L) (sB L - (1 # 2) * szeta L) ((1 # 2) * (szeta L - sxi L)) ((1 # 2) * (seta L - sxi L)) (sC L - (1 # 2) * seta L)
    (sA L - (1 # 2) * (szeta L + seta L - sxi L)) 3 2 2 0 1 3); try lra; mk.
  - intros a b c e. unfold qf, Sp, sq, qz, Z.sub. rewrite ?inject_Z_mult, ?inject_Z_plus, ?inject_Z_opp. ring.
  - intros x y z. exists (- x - y), z, (- x), 0. lia.
  - intros. lia.
Qed.
Lemma acute_zeta : forall L, acute_reduced L -> (szeta L <= sxi L)%Q -> (szeta L <= seta L)%Q -> selling (qf L).
Proof.
  intros L [[H1 H2] [H3 [[H4 H5] [H6 [[H7 H8] H9]]]]] M1 M2.
  apply (Build_selling (qf L) ((1 # 2) * szeta L) (sA L - (1 # 2) * seta L) ((1 # 2) * (seta L - szeta L)) ((1 # 2) * (sxi L - szeta L)) (sB L - (1 # 2) * sxi L)
    (sC L - (1 # 2) * (seta L + sxi L - szeta L)) 2 0 1 3 3 2); try lra; mk.
  - intros a b c e. unfold qf, Sp, sq, qz, Z.sub. rewrite ?inject_Z_mult, ?inject_Z_plus, ?inject_Z_opp. ring.
  - intros x y z. exists (- x - z), y, (- z), 0. lia.
  - intros. lia.
Qed.
Lemma acute_selling : forall L, acute_reduced L -> selling (qf L).
Proof.
  intros L H. destruct (Qlt_le_dec (sxi L) (seta L)) as [K|K].
  - destruct (Qlt_le_dec (sxi L) (szeta L)) as [K'|K']; [apply acute_xi; trivial; apply Qlt_le_weak; assumption|].
    apply acute_zeta; trivial. eapply Qle_trans; [exact K'|apply Qlt_le_weak; exact K].
  - destruct (Qlt_le_dec (seta L) (szeta L)) as [K'|K']; [apply acute_eta; trivial; apply Qlt_le_weak; assumption|].
    apply acute_zeta; trivial. eapply Qle_trans; [exact K'|exact K].
Qed.
