(** Linear algebra behind the relaxation of the internal coordinates (C100) *)
From Coq Require Import ZArith QArith List Bool Lia Lqa Qfield.
From Verif Require Import Base BaseProofs QMat Cplx Fc3Trans IseSpec IseProofs IseProps KapProofs KkProps GruModel.
Import ListNotations.
Open Scope Z_scope.

Definition delta (a b : Z) : Q := if a =? b then 1%Q else 0%Q.
Lemma delta_sum : forall n a (f : Z -> Q), 0 <= a < n -> (QS n (fun b => delta a b * f b) == f a)%Q.
Proof.
  intros n a f H. rewrite <- (qs_single n a (f a) H). apply qs_ext. intros b _. unfold delta. rewrite (Z.eqb_sym a b). destruct (b =? a) eqn:E; [apply Z.eqb_eq in E; subst; ring|ring].
Qed.
Lemma qs_scale_r : forall X (c : Q) (f : X -> Q) l, (qsum (map (fun x => f x * c) l) == qsum (map f l) * c)%Q.
Proof. intros. rewrite (Qmult_comm (qsum _)), <- qs_scale. apply qs_ext. intros; ring. Qed.
Lemma qs_flat : forall n m (f : Z -> Q), 0 <= n -> 0 <= m -> (QS (n * m) f == QS n (fun k => QS m (fun l => f (k * m + l)%Z)))%Q.
Proof. exact Sum_flat. Qed.
Lemma qs_3 : forall f : Z -> Q, (QS 3 f == f 0%Z + f 1%Z + f 2%Z)%Q.
Proof. intros f. change (zrange 3) with [0; 1; 2]. cbn [map]. rewrite !qs_cons, qs_nil. ring. Qed.

(** a matrix with A A^T = M has A^T A = M *)
Lemma gram3 : forall (A : Z -> Z -> Q) M, ~ (M == 0)%Q ->
  (forall c d, 0 <= c < 3 -> 0 <= d < 3 -> (QS 3 (fun s => A c s * A d s) == M * delta c d)%Q) ->
  forall s t, 0 <= s < 3 -> 0 <= t < 3 -> (QS 3 (fun c => A c s * A c t) == M * delta s t)%Q.
Proof.
  intros A M HM H.
  assert (K : forall c d, 0 <= c < 3 -> 0 <= d < 3 -> (A c 0%Z * A d 0%Z + A c 1%Z * A d 1%Z + A c 2%Z * A d 2%Z == M * delta c d)%Q).
  { intros c d Hc Hd. rewrite <- (H c d Hc Hd), qs_3. reflexivity. }
  pose proof (K 0 0 ltac:(lia) ltac:(lia)) as K00. pose proof (K 0 1 ltac:(lia) ltac:(lia)) as K01. pose proof (K 0 2 ltac:(lia) ltac:(lia)) as K02.
  pose proof (K 1 1 ltac:(lia) ltac:(lia)) as K11. pose proof (K 1 2 ltac:(lia) ltac:(lia)) as K12. pose proof (K 2 2 ltac:(lia) ltac:(lia)) as K22. clear K H.
  unfold delta in *. cbn [Z.eqb Pos.eqb] in K00, K01, K02, K11, K12, K22.
  revert K00 K01 K02 K11 K12 K22.
  set (a := A 0 0). set (b := A 0 1). set (c := A 0 2). set (d := A 1 0). set (e := A 1 1). set (f := A 1 2). set (g := A 2 0). set (h := A 2 1). set (i := A 2 2). intros K00 K01 K02 K11 K12 K22.
  (* the determinant squared is M^3 *)
  set (D := (a * (e * i - f * h) - b * (d * i - f * g) + c * (d * h - e * g))%Q).
  assert (HD : (D * D == M * M * M)%Q).
  { transitivity ((a*a+b*b+c*c) * ((d*d+e*e+f*f)*(g*g+h*h+i*i) - (d*g+e*h+f*i)*(d*g+e*h+f*i)) - (a*d+b*e+c*f) * ((a*d+b*e+c*f)*(g*g+h*h+i*i) - (d*g+e*h+f*i)*(a*g+b*h+c*i)) + (a*g+b*h+c*i) * ((a*d+b*e+c*f)*(d*g+e*h+f*i) - (d*d+e*e+f*f)*(a*g+b*h+c*i)))%Q; [unfold D; ring|].
    rewrite K00, K01, K02, K11, K12, K22. ring. }
  assert (D0 : ~ (D == 0)%Q). { intros E. rewrite E in HD. apply HM. assert (H0 : (M * M * M == 0)%Q) by (rewrite <- HD; ring). destruct (Qmult_integral _ _ H0) as [H1|H1]; [destruct (Qmult_integral _ _ H1); assumption|assumption]. }
  (* cofactors: D A^{-T} = M A up to the factor: row c of the cofactor matrix times M equals D times row c of A *)
  assert (C0 : (M * (e*i-f*h) == D * a /\ M * (f*g-d*i) == D * b /\ M * (d*h-e*g) == D * c)%Q).
  { split; [|split].
    - transitivity ((a*a+b*b+c*c)*(e*i-f*h) + (a*d+b*e+c*f)*(h*c-b*i) + (a*g+b*h+c*i)*(b*f-c*e))%Q; [rewrite K00, K01, K02; ring|unfold D; ring].
    - transitivity ((a*a+b*b+c*c)*(f*g-d*i) + (a*d+b*e+c*f)*(a*i-c*g) + (a*g+b*h+c*i)*(c*d-a*f))%Q; [rewrite K00, K01, K02; ring|unfold D; ring].
    - transitivity ((a*a+b*b+c*c)*(d*h-e*g) + (a*d+b*e+c*f)*(b*g-a*h) + (a*g+b*h+c*i)*(a*e-b*d))%Q; [rewrite K00, K01, K02; ring|unfold D; ring]. }
  assert (C1 : (M * (h*c-b*i) == D * d /\ M * (a*i-c*g) == D * e /\ M * (b*g-a*h) == D * f)%Q).
  { split; [|split].
    - transitivity ((a*d+b*e+c*f)*(e*i-f*h) + (d*d+e*e+f*f)*(h*c-b*i) + (d*g+e*h+f*i)*(b*f-c*e))%Q; [rewrite K01, K11, K12; ring|unfold D; ring].
    - transitivity ((a*d+b*e+c*f)*(f*g-d*i) + (d*d+e*e+f*f)*(a*i-c*g) + (d*g+e*h+f*i)*(c*d-a*f))%Q; [rewrite K01, K11, K12; ring|unfold D; ring].
    - transitivity ((a*d+b*e+c*f)*(d*h-e*g) + (d*d+e*e+f*f)*(b*g-a*h) + (d*g+e*h+f*i)*(a*e-b*d))%Q; [rewrite K01, K11, K12; ring|unfold D; ring]. }
  assert (C2 : (M * (b*f-c*e) == D * g /\ M * (c*d-a*f) == D * h /\ M * (a*e-b*d) == D * i)%Q).
  { split; [|split].
    - transitivity ((a*g+b*h+c*i)*(e*i-f*h) + (d*g+e*h+f*i)*(h*c-b*i) + (g*g+h*h+i*i)*(b*f-c*e))%Q; [rewrite K02, K12, K22; ring|unfold D; ring].
    - transitivity ((a*g+b*h+c*i)*(f*g-d*i) + (d*g+e*h+f*i)*(a*i-c*g) + (g*g+h*h+i*i)*(c*d-a*f))%Q; [rewrite K02, K12, K22; ring|unfold D; ring].
    - transitivity ((a*g+b*h+c*i)*(d*h-e*g) + (d*g+e*h+f*i)*(b*g-a*h) + (g*g+h*h+i*i)*(a*e-b*d))%Q; [rewrite K02, K12, K22; ring|unfold D; ring]. }
  destruct C0 as (Ca & Cb & Cc), C1 as (Cd & Ce & Cf), C2 as (Cg & Ch & Ci).
  assert (P : forall x y, (D * x == D * y -> x == y)%Q). { intros x y E. apply (Qmult_inj_l _ _ D D0). exact E. }
  assert (T : forall s, 0 <= s < 3 -> s = 0 \/ s = 1 \/ s = 2) by (intros; lia).
  intros s t Hs Ht. rewrite qs_3. unfold delta. apply P.
  destruct (T s Hs) as [-> | [-> | ->]]; destruct (T t Ht) as [-> | [-> | ->]]; cbn [Z.eqb Pos.eqb];
    fold a b c d e f g h i;
    match goal with |- (_ * (?x0 * ?y0 + ?x1 * ?y1 + ?x2 * ?y2) == _)%Q => transitivity ((D * x0) * y0 + (D * x1) * y1 + (D * x2) * y2)%Q; [ring|] end;
    rewrite <- ?Ca, <- ?Cb, <- ?Cc, <- ?Cd, <- ?Ce, <- ?Cf, <- ?Cg, <- ?Ch, <- ?Ci; unfold D; ring.
Qed.

Section Eig.
Variable n : Z.
Hypothesis n3 : 3 <= n.
Variable D v : Z -> Z -> Q.
Variable lam : Z -> Q.
Hypothesis eig : forall a s, 0 <= a < n -> 0 <= s < n -> (QS n (fun b => D a b * v b s) == lam s * v a s)%Q.
Hypothesis complete : forall a b, 0 <= a < n -> 0 <= b < n -> (QS n (fun s => v a s * v b s) == delta a b)%Q.
Hypothesis ortho : forall s t, 0 <= s < n -> 0 <= t < n -> (QS n (fun a => v a s * v a t) == delta s t)%Q.
Hypothesis opt : forall s, 3 <= s < n -> ~ (lam s == 0)%Q.

Lemma split3 : forall f : Z -> Q, (QS n f == QS 3 f + QS (n - 3) (fun s => f (3 + s)%Z))%Q.
Proof. intros f. rewrite <- qs_shift by lia. replace (3 + (n - 3)) with n by ring. reflexivity. Qed.
Lemma expand : forall f a, 0 <= a < n -> (f a == QS n (fun s => v a s * QS n (fun b => v b s * f b)))%Q.
Proof.
  intros f a Ha. rewrite <- (delta_sum n a f Ha).
  rewrite (qs_ext _ (fun s => v a s * QS n (fun b => v b s * f b))%Q (fun s => QS n (fun b => v a s * v b s * f b))%Q).
  2:{ intros s _. rewrite <- qs_scale. apply qs_ext. intros; ring. }
  rewrite qs_swap. apply qs_ext. intros b Hb. apply in_zrange in Hb. rewrite qs_scale_r, complete by assumption. reflexivity.
Qed.
Lemma pseudo_inverse : forall f a, 0 <= a < n ->
  (QS n (fun b' => D a b' * QS n (fun b => QS (n - 3) (fun s => v b' (3 + s)%Z * v b (3 + s)%Z / lam (3 + s)%Z) * f b)) == f a - QS 3 (fun s => v a s * QS n (fun b => v b s * f b)))%Q.
Proof.
  intros f a Ha.
  transitivity (QS (n - 3) (fun s => v a (3 + s)%Z * QS n (fun b => v b (3 + s)%Z * f b)))%Q.
  2:{ pose proof (expand f a Ha) as E. rewrite split3 in E. rewrite E. ring. }
  rewrite (qs_ext _ _ (fun b' => QS (n - 3) (fun s => D a b' * v b' (3 + s)%Z * (QS n (fun b => v b (3 + s)%Z * f b) / lam (3 + s)%Z)))%Q).
  - rewrite qs_swap. apply qs_ext. intros s Hs. apply in_zrange in Hs. rewrite qs_scale_r, eig by lia. field. apply opt. lia.
  - intros b' _. rewrite <- qs_scale.
    rewrite (qs_ext _ _ (fun b => QS (n - 3) (fun s => D a b' * v b' (3 + s)%Z / lam (3 + s)%Z * (v b (3 + s)%Z * f b)))%Q).
    + rewrite qs_swap. apply qs_ext. intros s Hs. apply in_zrange in Hs. rewrite qs_scale. field. apply opt. lia.
    + intros b _. rewrite <- qs_scale_r, <- qs_scale. apply qs_ext. intros s Hs. apply in_zrange in Hs. field. apply opt. lia.
Qed.

Variable t : Z -> Z -> Q.
Variable M : Q.
Hypothesis M0 : ~ (M == 0)%Q.
Hypothesis null : forall c a, 0 <= c < 3 -> 0 <= a < n -> (QS n (fun b => D a b * t c b) == 0)%Q.
Hypothesis tt : forall c d, 0 <= c < 3 -> 0 <= d < 3 -> (QS n (fun a => t c a * t d a) == M * delta c d)%Q.

Lemma t_orth : forall c s, 0 <= c < 3 -> 3 <= s < n -> (QS n (fun b => v b s * t c b) == 0)%Q.
Proof.
  intros c s Hc Hs.
  assert (E : (lam s * QS n (fun b => v b s * t c b) == 0)%Q).
  { (* 0 = sum_a v_a (D t)_a = sum_s' lam_s' <v_s', t> <v_s, v_s'> *)
    transitivity (QS n (fun a => v a s * QS n (fun b => D a b * t c b)))%Q.
    2:{ apply qs_zero. intros a Ha. apply in_zrange in Ha. rewrite null by assumption. ring. }
    rewrite (qs_ext _ (fun a => v a s * QS n (fun b => D a b * t c b))%Q (fun a => QS n (fun s' => v a s * v a s' * (lam s' * QS n (fun b' => v b' s' * t c b'))))%Q).
    - rewrite qs_swap. symmetry. transitivity (QS n (fun s' => delta s s' * (lam s' * QS n (fun b' => v b' s' * t c b'))))%Q.
      + apply qs_ext. intros s' Hs'. apply in_zrange in Hs'. rewrite qs_scale_r, ortho by lia. reflexivity.
      + rewrite (delta_sum n s (fun s' => lam s' * QS n (fun b' => v b' s' * t c b'))%Q) by lia. reflexivity.
    - intros a Ha. apply in_zrange in Ha.
      rewrite (qs_ext _ (fun b => D a b * t c b)%Q (fun b => QS n (fun s' => D a b * v b s' * QS n (fun b' => v b' s' * t c b')))%Q).
      + rewrite qs_swap, <- qs_scale. apply qs_ext. intros s' Hs'. apply in_zrange in Hs'. rewrite qs_scale_r, eig by lia. ring.
      + intros b Hb. apply in_zrange in Hb. rewrite (expand (t c) b Hb) at 1. rewrite <- qs_scale. apply qs_ext. intros; ring. }
  destruct (Qmult_integral _ _ E) as [K|K]; [exfalso; exact (opt s Hs K)|exact K].
Qed.
Lemma acoustic : forall a b, 0 <= a < n -> 0 <= b < n -> (QS 3 (fun s => v a s * v b s) == QS 3 (fun c => t c a * t c b) / M)%Q.
Proof.
  intros a b Ha Hb.
  pose (A := fun c s => QS n (fun b => v b s * t c b)%Q).
  assert (X : forall c a, 0 <= c < 3 -> 0 <= a < n -> (t c a == QS 3 (fun s => v a s * A c s))%Q).
  { intros c x Hc Hx. rewrite (expand (t c) x Hx), split3. rewrite (qs_zero _ (fun s => v x (3 + s)%Z * _)%Q).
    - unfold A. ring.
    - intros s Hs. apply in_zrange in Hs. rewrite t_orth by lia. ring. }
  assert (G : forall c d, 0 <= c < 3 -> 0 <= d < 3 -> (QS 3 (fun s => A c s * A d s) == M * delta c d)%Q).
  { intros c d Hc Hd. rewrite <- tt by assumption.
    rewrite (qs_ext _ (fun a => t c a * t d a)%Q (fun a => QS 3 (fun s => A c s * (v a s * t d a)))%Q).
    - rewrite qs_swap. apply qs_ext. intros s Hs. apply in_zrange in Hs. rewrite qs_scale. reflexivity.
    - intros x Hx. apply in_zrange in Hx. rewrite (X c x Hc Hx), <- qs_scale_r. apply qs_ext. intros; ring. }
  pose proof (gram3 A M M0 G) as G'.
  assert (Y : (QS 3 (fun c => t c a * t c b) == M * QS 3 (fun s => v a s * v b s))%Q).
  { rewrite (qs_ext _ (fun c => t c a * t c b)%Q (fun c => QS 3 (fun s => QS 3 (fun u => A c s * A c u * (v a s * v b u))))%Q).
    - rewrite qs_swap. rewrite <- qs_scale. apply qs_ext. intros s Hs. apply in_zrange in Hs. rewrite qs_swap.
      rewrite (qs_ext _ _ (fun u => delta s u * (M * (v a s * v b u)))%Q).
      + rewrite (delta_sum 3 s (fun u => M * (v a s * v b u))%Q Hs). reflexivity.
      + intros u Hu. apply in_zrange in Hu. rewrite qs_scale_r, G' by assumption. ring.
    - intros c Hc. apply in_zrange in Hc. rewrite (X c a Hc Ha), (X c b Hc Hb). rewrite <- qs_scale_r. apply qs_ext. intros s _. rewrite <- qs_scale. apply qs_ext. intros; ring. }
  rewrite Y. field. exact M0.
Qed.
End Eig.
