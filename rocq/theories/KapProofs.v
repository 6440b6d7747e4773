(** Sums over the stars of grid points, and sums of rotated tensors *)
From Coq Require Import ZArith QArith Qfield List Bool Lia Lqa Permutation.
From Verif Require Import Base BaseProofs Mat3 GridSpec GridModel Orbit GridProofs Fc3Model Fc3Trans QMat IseSpec IseProofs KapModel.
Import ListNotations.
Open Scope Z_scope.

Lemma qs_count : forall X (p : X -> bool) v l, (qsum (map (fun x => if p x then v else 0) l) == inject_Z (zcount p l) * v)%Q.
Proof.
  intros X p v. induction l as [|x l IH]; [vm_compute; reflexivity|]. cbn [map]. rewrite qs_cons, IH, zcount_cons, inject_Z_plus.
  destruct (p x); change (inject_Z 1) with 1%Q; change (inject_Z 0) with 0%Q; ring.
Qed.
Lemma qs_filter : forall X (p : X -> bool) (f : X -> Q) l, (qsum (map f (filter p l)) == qsum (map (fun x => if p x then f x else 0) l))%Q.
Proof. intros X p f. induction l as [|x l IH]; [reflexivity|]. cbn [filter map]. rewrite qs_cons. destruct (p x); cbn [map]; rewrite ?qs_cons, IH; [reflexivity|ring]. Qed.
Lemma qs_div : forall X (c : Q) (f : X -> Q) l, (qsum (map (fun x => f x / c)%Q l) == qsum (map f l) / c)%Q.
Proof. intros X c f l. unfold Qdiv. rewrite Qmult_comm, <- qs_scale. apply qs_ext. intros; ring. Qed.

Section Star.
  Variables (D PS : V3) (rots : list M3) (init : Z -> Z).
  Hypothesis HD : pos_mesh D.
  Hypothesis HG : good_group D PS rots.
  Hypothesis ND : NoDup rots.
  Local Notation n := (mesh_size D).
  Local Notation act := (fun R gp => rotate_grid_index gp R D PS).
  Local Notation mp := (get_ir_grid_map rots D PS init).

  (** every point of the star is reached by equally many operations *)
  Lemma star_coset : forall x y, 0 <= x < n -> 0 <= y < n -> 
    zcount (fun R => act R x =? y) rots = if mp y =? mp x then zcount (fun R => act R x =? x) rots else 0.
  Proof.
    intros x y Hx Hy. destruct (Z.eqb_spec (mp y) (mp x)) as [E|E].
    - symmetry in E. apply (w_eq_iff D PS rots init HD HG x y Hx Hy) in E.
      refine (coset_count M3 mulMM I3 rots act n _ _ _ _ ND x y Hx E).
      + exact (gr_act_e D PS HD).
      + exact (gr_closed D PS rots HG).
      + exact (gr_act D PS rots HD HG).
      + exact (gr_inv D PS rots HG).
    - destruct (Z.eq_dec (zcount (fun R => act R x =? y) rots) 0) as [|Hne]; [assumption|]. exfalso.
      assert (Hp : 0 < zcount (fun R => act R x =? y) rots) by (pose proof (zcount_nonneg _ (fun R => act R x =? y) rots); lia).
      apply zcount_pos in Hp. destruct Hp as [R [HR ER]]. apply Z.eqb_eq in ER. apply E. symmetry. apply (w_eq_iff D PS rots init HD HG); eauto.
  Qed.
  Lemma star_sum : forall F x, 0 <= x < n ->
    (qsum (map (fun R => F (act R x)) rots) == inject_Z (zcount (fun R => act R x =? x) rots) * qsum (map F (filter (fun y => mp y =? mp x) (zrange n))))%Q.
  Proof.
    intros F x Hx.
    rewrite (qs_ext _ (fun R => F (act R x)) (fun R => qsum (map (fun y => if act R x =? y then F y else 0%Q) (zrange n)))).
    2: { intros R HR. rewrite (qs_ext _ (fun y => if act R x =? y then F y else 0%Q) (fun y => if y =? act R x then F y else 0%Q)) by (intros; rewrite Z.eqb_sym; reflexivity).
      symmetry. apply (Sum_delta n (act R x) F). apply rotate_range; assumption. }
    rewrite qs_swap, qs_filter, <- qs_scale. apply qs_ext. intros y Hy. apply in_zrange in Hy.
    rewrite (qs_count _ (fun R => act R x =? y) (F y)), star_coset by assumption. destruct (mp y =? mp x); [reflexivity|]. change (inject_Z 0) with 0%Q. ring.
  Qed.
  Lemma stars_sum : forall F, (qsum (map (fun g => qsum (map F (filter (fun y => mp y =? g) (zrange n)))) (ir_grid_points mp n)) == qsum (map F (zrange n)))%Q.
  Proof.
    intros F. rewrite (qs_ext _ _ (fun g => qsum (map (fun y => if mp y =? g then F y else 0%Q) (zrange n)))) by (intros; apply qs_filter).
    rewrite qs_swap. apply qs_ext. intros y Hy. apply in_zrange in Hy.
    rewrite (ir_points_eq D PS rots init HD HG), qs_filter.
    assert (R : 0 <= mp y < n) by (apply (w_range D PS rots init HD HG); assumption).
    rewrite (qs_ext _ _ (fun g => if g =? mp y then F y else 0%Q)).
    - apply (Sum_delta n (mp y) (fun _ => F y) R).
    - intros g _. destruct (Z.eqb_spec (mp y) g) as [<-|Hne].
      + rewrite Z.eqb_refl. rewrite (w_idem D PS rots init HD HG) by assumption. rewrite Z.eqb_refl. reflexivity.
      + destruct (Z.eqb_spec g (mp y)); [congruence|]. destruct (mp g =? g); reflexivity.
  Qed.
  Lemma stab_pos : forall x, 0 <= x < n -> 0 < zcount (fun R => act R x =? x) rots.
  Proof.
    intros x Hx. apply zcount_pos. exists I3. split; [apply HG|]. apply Z.eqb_eq. apply rotate_I3; assumption.
  Qed.
End Star.
