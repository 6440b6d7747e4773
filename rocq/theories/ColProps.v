(** Collision matrix: theorems. *)
From Coq Require Import ZArith QArith List Lia Lqa Bool.
From Verif Require Import Base BaseProofs Mat3 QMat GridSpec GridModel Orbit GridProofs GridProps
  BzModel BzSpec BzProofs BzProps TripletSpec TripletModel TripletProofs TripletProps Par Par2 Fc3Trans
  IseModel IseSpec IseProofs ColSpec ColModel ColProofs.
Import ListNotations.
Open Scope Z_scope.

(* ------------------------------------------------------------------ C33 *)
Definition col_hyp (B : BzIn) (ty : Z) (init o : BzOut) (Qg : M3) (rl : QM) (gp : Z) (tr : bool) (rots : list M3) (sw : bool)
    (t : list (Z * Z * Z)) (w : list Z) (mt mq : Z -> Z) : Prop :=
  bz_hyp B ty init o gp /\ is_group rots /\ (forall R, In R rots -> compat (bD B) R) /\
  get_triplets_at_q B o ty Qg rl gp tr rots sw = Some (t, w, mt, mq).
Definition tab (t : list (Z * Z * Z)) (i : Z) : tp3 := nth (Z.to_nat i) t (0, 0, 0).

(** The triplet found for grid point x is the image of (q0, x, -q0-x) under one operation keeping q0,
    its last two points exchanged exactly when the flag is set. *)
Theorem C33_lookup : forall B ty init o Qg rl gp tr rots sw t w mt mq ini x x3,
  col_hyp B ty init o Qg rl gp tr rots sw t w mt mq ->
  let D := bD B in let n := mesh_size D in let adr x := get_grid_address_from_index x D in let a0 := adr (o_b2g o gp) in
  0 <= x < n -> 0 <= x3 < n -> vcong D (adr x3) (vsub (vneg a0) (adr x)) ->
  let ti := create_gp2tp_map mt n ini (mt x) in
  let row := tab t ti in
  let s := swapped mt mq x in
  0 <= ti < Z.of_nat (length t) /\ tp_rows B o (o_b2g o gp) (mt x) row /\ (s = true -> sw = true) /\
  exists R, keeps D rots tr a0 R /\
    vcong D (adr (o_b2g o (tp_at row (if s then 2 else 1)))) (mulMV R (adr x)) /\
    vcong D (adr (o_b2g o (third_of row s))) (mulMV R (adr x3)).
Proof.
  intros B ty init o Qg rl gp tr rots sw t w mt mq ini x x3 [Hbz [HG [HC Hget]]] D n adr a0 Hx Hx3 Hc ti row s.
  destruct (tab_m B ty init o Qg rl gp tr rots sw t w mt mq Hbz HG HC Hget x Hx) as [M1 [M2 _]].
  assert (Et : ti = zcount (fixp mt) (zrange (mt x))) by (apply gp2tp_spec; auto).
  destruct (tab_row B ty init o Qg rl gp tr rots sw t w mt mq Hbz HG HC Hget x Hx) as [T1 [_ T3]].
  destruct (tab_rep B ty init o Qg rl gp tr rots sw t w mt mq Hbz HG HC Hget x x3 Hx Hx3 Hc) as [R [K TT]].
  unfold row, tab. rewrite Et. split; [exact T1|]. split; [exact T3|]. cbv zeta in TT. fold s in TT. destruct TT as [_ [_ [V TT]]].
  destruct s.
  - split; [tauto|]. exists R. split; [exact K|]. split; [apply TT|exact V].
  - split; [discriminate|]. exists R. split; [exact K|]. split; [|exact V].
    destruct (nth _ t _) as [[b0 b1] b2]. cbn [tp_rows] in T3. cbn [tp_at Z.eqb Pos.eqb]. rewrite (proj2 (proj1 (proj2 T3))). exact TT.
Qed.
Print Assumptions C33_lookup.

(** Python: the assertions never fail and the table agrees with the C lookup. *)
Theorem C33_python_lookup : forall B ty init o Qg rl gp tr rots sw t w mt mq ini,
  col_hyp B ty init o Qg rl gp tr rots sw t w mt mq ->
  let n := mesh_size (bD B) in
  exists g2 t2 s2 c, py_gp2tp_map mt mq (o_b2g o) (tab t) n = Some (g2, t2, s2, c) /\ c = Z.of_nat (length t) /\
    forall x, 0 <= x < n -> let ti := create_gp2tp_map mt n ini (mt x) in
      g2 x = ti /\ s2 x = swapped mt mq x /\ t2 x = third_of (tab t ti) (swapped mt mq x).
Proof.
  intros B ty init o Qg rl gp tr rots sw t w mt mq ini [Hbz [HG [HC Hget]]] n.
  assert (0 < n) as Hn by (apply mesh_size_pos, Hbz).
  destruct (py_inv B ty init o Qg rl gp tr rots sw t w mt mq Hbz HG HC Hget n) as [g2 [t2 [s2 [E [I _]]]]]; [lia|unfold n; lia|].
  exists g2, t2, s2, (zcount (fixp mt) (zrange n)). split; [exact E|]. split.
  { destruct (tab_ops B ty init o Qg rl gp tr rots sw t w mt mq Hbz HG HC Hget) as [l [c [_ [_ [_ [_ F]]]]]].
    rewrite <- (F2_length _ _ _ _ _ F). reflexivity. }
  intros x Hx. cbv zeta. destruct (tab_m B ty init o Qg rl gp tr rots sw t w mt mq Hbz HG HC Hget x Hx) as [M1 [M2 _]].
  rewrite (gp2tp_spec mt n ini (mt x)) by auto. destruct (I x Hx) as [I1 [I2 I3]]. auto.
Qed.
Print Assumptions C33_python_lookup.

(** hypotheses on the arrays *)
Definition sym_arrays (B : BzIn) (o : BzOut) (gp : Z) (tr : bool) (rots : list M3) (sw : bool) (mt : Z -> Z) (nb0 nb : Z)
    (S G : Z -> Z -> Z -> Z -> Q) (F : Z -> Z -> Q) (pp g freq : Z -> Q) (ish : Q -> Q -> Q) (T : Q) : Prop :=
  triplet_symmetric (bD B) rots tr sw (o_b2g o gp) S /\ triplet_symmetric (bD B) rots tr sw (o_b2g o gp) G /\
  point_symmetric (bD B) rots tr (o_b2g o gp) F /\
  holds_triplets nb0 nb (filter (fun x => mt x =? x) (zrange (mesh_size (bD B)))) S G pp g /\
  holds_frequencies nb (o_size o) (o_b2g o) F freq /\
  (forall f f', Qeq f f' -> Qeq (ish f T) (ish f' T)).

Lemma elem_full : forall B ty init o Qg rl gp tr rots sw t w mt mq nb0 nb S G F pp g freq ish T unit cutoff ini x x3 j k,
  col_hyp B ty init o Qg rl gp tr rots sw t w mt mq ->
  sym_arrays B o gp tr rots sw mt nb0 nb S G F pp g freq ish T ->
  let D := bD B in let n := mesh_size D in let adr x := get_grid_address_from_index x D in
  0 <= x < n -> 0 <= x3 < n -> vcong D (adr x3) (vsub (vneg (adr (o_b2g o gp))) (adr x)) -> 0 <= j < nb0 -> 0 <= k < nb ->
  Qeq (elem ish nb0 nb (Z.of_nat (length t)) pp freq g (tab t) mt mq T unit cutoff (create_gp2tp_map mt n ini) x j k)
      (full_collision ish nb S G F T unit cutoff x x3 j k).
Proof.
  intros B ty init o Qg rl gp tr rots sw t w mt mq nb0 nb S G F pp g freq ish T unit cutoff ini x x3 j k
    [Hbz [HG [HC Hget]]] [SS [SG [SF [HT [HF Hish]]]]] D n adr Hx Hx3 Hc Hj Hk.
  destruct (tab_m B ty init o Qg rl gp tr rots sw t w mt mq Hbz HG HC Hget x Hx) as [M1 [M2 _]].
  destruct (tab_row B ty init o Qg rl gp tr rots sw t w mt mq Hbz HG HC Hget x Hx) as [T1 [T2 T3]].
  destruct (tab_rep B ty init o Qg rl gp tr rots sw t w mt mq Hbz HG HC Hget x x3 Hx Hx3 Hc) as [R [K TT]]. cbv zeta in TT.
  unfold elem. rewrite (gp2tp_spec mt n ini (mt x)) by auto.
  set (ti := zcount (fixp mt) (zrange (mt x))) in *. fold D in T2. fold n in T2. set (irs := filter (fixp mt) (zrange n)) in *.
  fold (tab t ti) in TT, T3. set (th := third_of (tab t ti) (swapped mt mq x)) in *. destruct TT as [B1 [B2 [B3 B4]]].
  assert (L : Z.of_nat (length t) = Z.of_nat (length irs)).
  { destruct (tab_ops B ty init o Qg rl gp tr rots sw t w mt mq Hbz HG HC Hget) as [l [c [_ [_ [_ [_ FF]]]]]].
    rewrite <- (F2_length _ _ _ _ _ FF). reflexivity. }
  assert (V : forall j k l, 0 <= j < nb0 -> 0 <= k < nb -> 0 <= l < nb ->
     Qeq (arr4 nb0 nb nb pp ti j k l) (S (mt x) j k l) /\ Qeq (arr5 (Z.of_nat (length t)) nb0 nb nb g 2 ti j k l) (G (mt x) j k l)).
  { intros j' k' l' J1 J2 J3. rewrite L. rewrite <- T2. apply HT; auto. change (0 <= ti < Z.of_nat (length irs)). rewrite <- L. exact T1. }
  unfold arr4, arr5 in V.
  assert (IS : forall i, 0 <= i < nb -> Qeq (inv_sinh ish nb freq T cutoff th i) (if qltb cutoff (F x3 i) then ish (F x3 i) T else 0)%Q).
  { intros i Hi. unfold inv_sinh.
    assert (Ef : Qeq (freq (th * nb + i)) (F x3 i)).
    { rewrite (HF th i B1 Hi). apply (SF x3 (o_b2g o th) R); auto. }
    rewrite (qltb_cong cutoff _ _ Ef). destruct (qltb cutoff (F x3 i)); [apply Hish, Ef|reflexivity]. }
  rewrite collision_sum. unfold full_collision. apply Sum_ext. intros l Hl. rewrite (IS l Hl).
  destruct (swapped mt mq x).
  - destruct B4 as [Esw [B4 _]]. destruct (V j l k) as [V1 V2]; auto. rewrite V1, V2.
    assert (Hm : forall A, triplet_symmetric D rots tr sw (o_b2g o gp) A -> Qeq (A (mt x) j l k) (A x j k l)).
    { intros A HA. rewrite <- B4. rewrite (proj1 (HA x3 (o_b2g o th) Hx3 B2) R K B3 j l k).
      apply (proj2 (HA x x3 Hx Hx3) Esw Hc). }
    rewrite (Hm S SS), (Hm G SG). reflexivity.
  - destruct (V j k l) as [V1 V2]; auto. rewrite V1, V2.
    assert (Hm : forall A, triplet_symmetric D rots tr sw (o_b2g o gp) A -> Qeq (A (mt x) j k l) (A x j k l)).
    { intros A HA. apply (proj1 (HA x (mt x) Hx M1) R K B4). }
    rewrite (Hm S SS), (Hm G SG). reflexivity.
Qed.

(** The reducible collision matrix computed by the parallel loop from the irreducible triplets: for
    every schedule, every element is increased by the sum for the full triplet, no other memory cell
    is written. *)
Theorem C33_reducible_matrix : forall B ty init o Qg rl gp tr rots sw t w mt mq nb0 nb S G F pp g freq ish T unit cutoff ini m m',
  col_hyp B ty init o Qg rl gp tr rots sw t w mt mq ->
  sym_arrays B o gp tr rots sw mt nb0 nb S G F pp g freq ish T ->
  let D := bD B in let n := mesh_size D in let adr x := get_grid_address_from_index x D in
  finishes Z.eq_dec (reducible_iterations ish nb0 nb (Z.of_nat (length t)) pp freq g (tab t) mt mq T unit cutoff n (create_gp2tp_map mt n ini)) m m' ->
  (forall j x x3 k, 0 <= j < nb0 -> 0 <= x < n -> 0 <= x3 < n -> 0 <= k < nb ->
    vcong D (adr x3) (vsub (vneg (adr (o_b2g o gp))) (adr x)) ->
    Qeq (m' ((j * n + x) * nb + k)) (m ((j * n + x) * nb + k)%Z + full_collision ish nb S G F T unit cutoff x x3 j k)) /\
  (forall a, (forall j x k, 0 <= j < nb0 -> 0 <= x < n -> 0 <= k < nb -> a <> (j * n + x) * nb + k) -> m' a = m a).
Proof.
  intros B ty init o Qg rl gp tr rots sw t w mt mq nb0 nb S G F pp g freq ish T unit cutoff ini m m' HH HA D n adr Fin.
  destruct (reducible_result _ _ _ _ _ _ _ _ _ _ _ _ _ _ _ _ _ Fin) as [R1 R2]. split; [|exact R2].
  intros j x x3 k Hj Hx Hx3 Hk Hc. rewrite (R1 j x k Hj Hx Hk).
  apply Qplus_comp; [reflexivity|]. eapply elem_full; eauto.
Qed.
Print Assumptions C33_reducible_matrix.

(** The same for the irreducible layout: the element of irreducible point i and Cartesian components
    (a, b) is the sum over the operations of the full element at the rotated point times the rotation matrix. *)
Theorem C33_irreducible_matrix : forall B ty init o Qg rl gp tr rots sw t w mt mq nb0 nb S G F pp g freq ish T unit cutoff ini nir nrot rot cart third m m',
  col_hyp B ty init o Qg rl gp tr rots sw t w mt mq ->
  sym_arrays B o gp tr rots sw mt nb0 nb S G F pp g freq ish T ->
  let D := bD B in let n := mesh_size D in let adr x := get_grid_address_from_index x D in
  (forall a, 0 <= a < nir * nrot -> 0 <= rot a < n) ->
  (forall x, 0 <= x < n -> 0 <= third x < n /\ vcong D (adr (third x)) (vsub (vneg (adr (o_b2g o gp))) (adr x))) ->
  finishes Z.eq_dec (irreducible_iterations ish nb0 nb (Z.of_nat (length t)) pp freq g (tab t) mt mq T unit cutoff nir nrot rot cart (create_gp2tp_map mt n ini)) m m' ->
  (forall j a i k b, 0 <= j < nb0 -> 0 <= a < 3 -> 0 <= i < nir -> 0 <= k < nb -> 0 <= b < 3 ->
    Qeq (m' ((((j * 3 + a) * nir + i) * nb + k) * 3 + b))
        (m ((((j * 3 + a) * nir + i) * nb + k) * 3 + b)%Z +
         Sum nrot (fun r => full_collision ish nb S G F T unit cutoff (rot (i * nrot + r)%Z) (third (rot (i * nrot + r)%Z)) j k * cart (r * 9 + a * 3 + b)%Z)%Q)) /\
  (forall ad, (forall j a i k b, 0 <= j < nb0 -> 0 <= a < 3 -> 0 <= i < nir -> 0 <= k < nb -> 0 <= b < 3 ->
     ad <> (((j * 3 + a) * nir + i) * nb + k) * 3 + b) -> m' ad = m ad).
Proof.
  intros B ty init o Qg rl gp tr rots sw t w mt mq nb0 nb S G F pp g freq ish T unit cutoff ini nir nrot rot cart third m m' HH HA D n adr Hrot Hth Fin.
  destruct (irreducible_result _ _ _ _ _ _ _ _ _ _ _ _ _ _ _ _ _ _ _ _ Fin) as [R1 R2]. split; [|exact R2].
  intros j a i k b Hj Ha Hi Hk Hb. rewrite (R1 j a i k b Hj Ha Hi Hk Hb).
  apply Qplus_comp; [reflexivity|]. apply Sum_ext. intros r Hr. apply Qmult_comp; [|reflexivity].
  assert (Hx : 0 <= rot (i * nrot + r) < n) by (apply Hrot, flat_range; auto). destruct (Hth _ Hx) as [H1 H2].
  eapply elem_full; eauto.
Qed.
Print Assumptions C33_irreducible_matrix.

(** The Python fallback computes the same numbers as the C loops. [sinh_] is the function inverted. *)
Lemma py_collision_elem : forall B ty init o Qg rl gp tr rots sw t w mt mq nb0 nb pp g freq ish sinh_ T unit cutoff ini g2 t2 s2 c x j k,
  col_hyp B ty init o Qg rl gp tr rots sw t w mt mq ->
  (forall f, Qlt cutoff f -> Qlt 0 (sinh_ f T) /\ Qeq (ish f T) (1 / sinh_ f T)) ->
  let n := mesh_size (bD B) in
  py_gp2tp_map mt mq (o_b2g o) (tab t) n = Some (g2, t2, s2, c) -> 0 <= x < n ->
  Qeq (py_collision sinh_ nb0 nb (Z.of_nat (length t)) pp freq g T unit cutoff (g2, t2, s2, c) x j k)
      (elem ish nb0 nb (Z.of_nat (length t)) pp freq g (tab t) mt mq T unit cutoff (create_gp2tp_map mt n ini) x j k).
Proof.
  intros B ty init o Qg rl gp tr rots sw t w mt mq nb0 nb pp g freq ish sinh_ T unit cutoff ini g2 t2 s2 c x j k HH Hs n E Hx.
  destruct (C33_python_lookup B ty init o Qg rl gp tr rots sw t w mt mq ini HH) as [g2' [t2' [s2' [c' [E' [_ I]]]]]].
  fold n in E', I. rewrite E in E'. assert (g2' = g2 /\ t2' = t2 /\ s2' = s2) as [-> [-> ->]] by (repeat split; congruence).
  destruct (I x Hx) as [I1 [I2 I3]]. unfold elem. rewrite collision_sum. unfold py_collision. rewrite I1, I2, I3.
  set (ti := create_gp2tp_map mt n ini (mt x)). set (s := swapped mt mq x). set (b := third_of (tab t ti) s).
  rewrite fold_qsum, Qplus_0_l. rewrite Qmult_comm. rewrite <- qs_scale. apply Sum_ext. intros l Hl.
  assert (V : Qeq (py_inv_sinh sinh_ nb freq T cutoff b l) (inv_sinh ish nb freq T cutoff b l)).
  { unfold py_inv_sinh, inv_sinh. destruct (qltb cutoff (freq (b * nb + l))) eqn:Ec; [|reflexivity].
    apply qltb_lt in Ec. destruct (Hs _ Ec) as [S1 S2]. apply qltb_lt in S1. rewrite S1, S2. reflexivity. }
  rewrite V. destruct s.
  - replace (2 * (Z.of_nat (length t) * nb0 * nb * nb) + (((ti * nb0 + j) * nb + l) * nb + k)) with ((((2 * Z.of_nat (length t) + ti) * nb0 + j) * nb + l) * nb + k) by ring. ring.
  - replace (2 * (Z.of_nat (length t) * nb0 * nb * nb) + (((ti * nb0 + j) * nb + k) * nb + l)) with ((((2 * Z.of_nat (length t) + ti) * nb0 + j) * nb + k) * nb + l) by ring. ring.
Qed.
Theorem C33_python_matrices : forall B ty init o Qg rl gp tr rots sw t w mt mq nb0 nb pp g freq ish sinh_ T unit cutoff ini m,
  col_hyp B ty init o Qg rl gp tr rots sw t w mt mq ->
  (forall f, Qlt cutoff f -> Qlt 0 (sinh_ f T) /\ Qeq (ish f T) (1 / sinh_ f T)) ->
  let n := mesh_size (bD B) in let g2tp := create_gp2tp_map mt n ini in
  exists st, py_gp2tp_map mt mq (o_b2g o) (tab t) n = Some st /\
    (forall m', finishes Z.eq_dec (reducible_iterations ish nb0 nb (Z.of_nat (length t)) pp freq g (tab t) mt mq T unit cutoff n g2tp) m m' ->
      forall j x k, 0 <= j < nb0 -> 0 <= x < n -> 0 <= k < nb -> let a := (j * n + x) * nb + k in
      Qeq (py_reducible sinh_ nb0 nb (Z.of_nat (length t)) pp freq g T unit cutoff st n m a) (m' a)) /\
    (forall nir nrot rot cart m', (forall a, 0 <= a < nir * nrot -> 0 <= rot a < n) ->
      finishes Z.eq_dec (irreducible_iterations ish nb0 nb (Z.of_nat (length t)) pp freq g (tab t) mt mq T unit cutoff nir nrot rot cart g2tp) m m' ->
      forall j a i k b, 0 <= j < nb0 -> 0 <= a < 3 -> 0 <= i < nir -> 0 <= k < nb -> 0 <= b < 3 -> let ad := (((j * 3 + a) * nir + i) * nb + k) * 3 + b in
      Qeq (py_irreducible sinh_ nb0 nb (Z.of_nat (length t)) pp freq g T unit cutoff st nir nrot rot cart m ad) (m' ad)).
Proof.
  intros B ty init o Qg rl gp tr rots sw t w mt mq nb0 nb pp g freq ish sinh_ T unit cutoff ini m HH Hs n g2tp.
  destruct (C33_python_lookup B ty init o Qg rl gp tr rots sw t w mt mq ini HH) as [g2 [t2 [s2 [c [E _]]]]]. fold n in E.
  exists (g2, t2, s2, c). split; [exact E|].
  pose proof (fun x j k => py_collision_elem B ty init o Qg rl gp tr rots sw t w mt mq nb0 nb pp g freq ish sinh_ T unit cutoff ini g2 t2 s2 c x j k HH Hs E) as PC.
  set (st := (g2, t2, s2, c)) in *. fold n in PC. fold g2tp in PC.
  split.
  - intros m' Fin j x k Hj Hx Hk a. etransitivity; [|symmetry; apply (proj1 (reducible_result _ _ _ _ _ _ _ _ _ _ _ _ _ _ _ _ _ Fin) j x k Hj Hx Hk)].
    set (v := fun x j k => py_collision sinh_ nb0 nb (Z.of_nat (length t)) pp freq g T unit cutoff st x j k).
    set (d := fun x z => Sum nb0 (fun j => Sum nb (fun k => if (j * n + x) * nb + k =? z then v x j k else 0%Q))).
    unfold py_reducible.
    assert (A : addsf (fun m => fold_left (fun m gp1 => fold_left (fun m j => fold_left (fun m k =>
        upd m ((j * n + gp1) * nb + k) (m ((j * n + gp1) * nb + k)%Z + v gp1 j k)%Q) (zrange nb) m) (zrange nb0) m) (zrange n) m)
      (fun z => Sum n (fun x => d x z))).
    { apply (addsf_for _ (zrange n) (fun m gp1 => fold_left (fun m j => fold_left (fun m k =>
        upd m ((j * n + gp1) * nb + k) (m ((j * n + gp1) * nb + k)%Z + v gp1 j k)%Q) (zrange nb) m) (zrange nb0) m) d). intros x' _.
      apply (addsf_for _ (zrange nb0) (fun m j => fold_left (fun m k =>
        upd m ((j * n + x') * nb + k) (m ((j * n + x') * nb + k)%Z + v x' j k)%Q) (zrange nb) m)
        (fun j z => Sum nb (fun k => if (j * n + x') * nb + k =? z then v x' j k else 0%Q))). intros j' _.
      apply (addsf_for _ (zrange nb) (fun m k => upd m ((j' * n + x') * nb + k) (m ((j' * n + x') * nb + k)%Z + v x' j' k)%Q)
        (fun k z => if (j' * n + x') * nb + k =? z then v x' j' k else 0%Q)). intros k' _. apply addsf_one. }
    etransitivity; [apply A|]. apply Qplus_comp; [reflexivity|]. unfold d.
    assert (Z0 : forall x' j' k', 0 <= x' < n -> 0 <= j' < nb0 -> 0 <= k' < nb -> ~ (x' = x /\ j' = j /\ k' = k) ->
      (if (j' * n + x') * nb + k' =? a then v x' j' k' else 0%Q) = 0%Q).
    { intros x' j' k' H1 H2 H3 Hn. unfold a. destruct (Z.eqb_spec ((j' * n + x') * nb + k') ((j * n + x) * nb + k)) as [K|]; [|reflexivity].
      apply inj3 in K; auto. tauto. }
    rewrite (Sum_only n x), (Sum_only nb0 j), (Sum_only nb k); auto.
    + unfold a. rewrite Z.eqb_refl. unfold v. apply PC. exact Hx.
    + intros k' Hk' Hn. rewrite Z0; [reflexivity|auto..]. tauto.
    + intros j' Hj' Hn. apply Sum_zero. intros k' Hk'. rewrite Z0; [reflexivity|auto..]. tauto.
    + intros x' Hx' Hn. apply Sum_zero. intros j' Hj'. apply Sum_zero. intros k' Hk'. rewrite Z0; [reflexivity|auto..]. tauto.
  - intros nir nrot rot cart m' Hrot Fin j a i k b Hj Ha Hi Hk Hb ad.
    etransitivity; [|symmetry; apply (proj1 (irreducible_result _ _ _ _ _ _ _ _ _ _ _ _ _ _ _ _ _ _ _ _ Fin) j a i k b Hj Ha Hi Hk Hb)].
    set (v := fun i r j k a b => (py_collision sinh_ nb0 nb (Z.of_nat (length t)) pp freq g T unit cutoff st (rot (i * nrot + r)%Z) j k * cart (r * 9 + a * 3 + b)%Z)%Q).
    set (adr := fun i j k a b => (((j * 3 + a) * nir + i) * nb + k) * 3 + b).
    set (d := fun i r z => Sum nb0 (fun j => Sum nb (fun k => Sum 3 (fun a => Sum 3 (fun b => if adr i j k a b =? z then v i r j k a b else 0%Q))))).
    unfold py_irreducible.
    assert (A : addsf (fun m => fold_left (fun m i => fold_left (fun m r => fold_left (fun m j => fold_left (fun m k =>
        fold_left (fun m a => fold_left (fun m b => upd m (adr i j k a b) (m (adr i j k a b) + v i r j k a b)%Q)
          (zrange 3) m) (zrange 3) m) (zrange nb) m) (zrange nb0) m) (zrange nrot) m) (zrange nir) m)
      (fun z => Sum nir (fun i => Sum nrot (fun r => d i r z)))).
    { apply (addsf_for _ (zrange nir) (fun m i => fold_left (fun m r => fold_left (fun m j => fold_left (fun m k =>
        fold_left (fun m a => fold_left (fun m b => upd m (adr i j k a b) (m (adr i j k a b) + v i r j k a b)%Q)
          (zrange 3) m) (zrange 3) m) (zrange nb) m) (zrange nb0) m) (zrange nrot) m) (fun i z => Sum nrot (fun r => d i r z))). intros i' _.
      apply (addsf_for _ (zrange nrot) (fun m r => fold_left (fun m j => fold_left (fun m k =>
        fold_left (fun m a => fold_left (fun m b => upd m (adr i' j k a b) (m (adr i' j k a b) + v i' r j k a b)%Q)
          (zrange 3) m) (zrange 3) m) (zrange nb) m) (zrange nb0) m) (fun r z => d i' r z)). intros r' _. unfold d.
      apply (addsf_for _ (zrange nb0) (fun m j => fold_left (fun m k =>
        fold_left (fun m a => fold_left (fun m b => upd m (adr i' j k a b) (m (adr i' j k a b) + v i' r' j k a b)%Q)
          (zrange 3) m) (zrange 3) m) (zrange nb) m)
        (fun j z => Sum nb (fun k => Sum 3 (fun a => Sum 3 (fun b => if adr i' j k a b =? z then v i' r' j k a b else 0%Q))))). intros j' _.
      apply (addsf_for _ (zrange nb) (fun m k =>
        fold_left (fun m a => fold_left (fun m b => upd m (adr i' j' k a b) (m (adr i' j' k a b) + v i' r' j' k a b)%Q)
          (zrange 3) m) (zrange 3) m)
        (fun k z => Sum 3 (fun a => Sum 3 (fun b => if adr i' j' k a b =? z then v i' r' j' k a b else 0%Q)))). intros k' _.
      apply (addsf_for _ (zrange 3) (fun m a => fold_left (fun m b => upd m (adr i' j' k' a b) (m (adr i' j' k' a b) + v i' r' j' k' a b)%Q)
          (zrange 3) m) (fun a z => Sum 3 (fun b => if adr i' j' k' a b =? z then v i' r' j' k' a b else 0%Q))). intros a' _.
      apply (addsf_for _ (zrange 3) (fun m b => upd m (adr i' j' k' a' b) (m (adr i' j' k' a' b) + v i' r' j' k' a' b)%Q)
        (fun b z => if adr i' j' k' a' b =? z then v i' r' j' k' a' b else 0%Q)). intros b' _. apply addsf_one. }
    etransitivity; [apply A|]. apply Qplus_comp; [reflexivity|].
    assert (Z0 : forall i' r' j' k' a' b', 0 <= i' < nir -> 0 <= j' < nb0 -> 0 <= k' < nb -> 0 <= a' < 3 -> 0 <= b' < 3 ->
      ~ (i' = i /\ j' = j /\ k' = k /\ a' = a /\ b' = b) -> (if adr i' j' k' a' b' =? ad then v i' r' j' k' a' b' else 0%Q) = 0%Q).
    { intros i' r' j' k' a' b' H1 H2 H3 H4 H5 Hn. unfold ad, adr.
      destruct (Z.eqb_spec ((((j' * 3 + a') * nir + i') * nb + k') * 3 + b') ((((j * 3 + a) * nir + i) * nb + k) * 3 + b)) as [K|]; [|reflexivity].
      apply inj5 in K; auto. tauto. }
    etransitivity; [apply (Sum_only nir i); [exact Hi|]|].
    + intros i' Hi' Hn. apply Sum_zero. intros r' _. unfold d. apply Sum_zero. intros j' Hj'. apply Sum_zero. intros k' Hk'.
      apply Sum_zero. intros a' Ha'. apply Sum_zero. intros b' Hb'. rewrite Z0; [reflexivity|auto..]. tauto.
    + cbv beta. apply Sum_ext. intros r' Hr'. unfold d.
      rewrite (Sum_only nb0 j), (Sum_only nb k), (Sum_only 3 a), (Sum_only 3 b); auto.
      * unfold ad, adr. rewrite Z.eqb_refl. unfold v. apply Qmult_comp; [|reflexivity]. apply PC. apply Hrot, flat_range; auto.
      * intros b' Hb' Hn. rewrite Z0; [reflexivity|auto..]. tauto.
      * intros a' Ha' Hn. apply Sum_zero. intros b' Hb'. rewrite Z0; [reflexivity|auto..]. tauto.
      * intros k' Hk' Hn. apply Sum_zero. intros a' Ha'. apply Sum_zero. intros b' Hb'. rewrite Z0; [reflexivity|auto..]. tauto.
      * intros j' Hj' Hn. apply Sum_zero. intros k' Hk'. apply Sum_zero. intros a' Ha'. apply Sum_zero. intros b' Hb'. rewrite Z0; [reflexivity|auto..]. tauto.
Qed.
Print Assumptions C33_python_matrices.

(** Example: rod of two points, q0 the zone boundary: the pair (0, 1) is stored once and read with the
    last two members exchanged for x = 1. *)
Definition c_S (x j k l : Z) : Q := if x =? 0 then inject_Z (1 + j + 2 * k + 5 * l) else inject_Z (1 + j + 2 * l + 5 * k).
Definition c_F (x i : Z) : Q := inject_Z (3 + 2 * x + 7 * i).
Definition c_ish (f _ : Q) : Q := (1 / f)%Q.
Definition c_pp (a : Z) : Q := c_S 0 (a / 4) (a / 2 mod 2) (a mod 2).
Definition c_g (a : Z) : Q := c_pp (a - 16).
Example C33_ex : exists o t w mt mq, get_bz_grid_addresses rod 2 zero_out = Some o /\
  col_hyp rod 2 zero_out o I3 (bL rod) 2 true rods true t w mt mq /\
  let freq := fun b => c_F (o_b2g o (b / 2)) (b mod 2) in
  sym_arrays rod o 2 true rods true mt 2 2 c_S c_S c_F c_pp c_g freq c_ish 300 /\
  map (swapped mt mq) (zrange 2) = [false; true] /\
  map (fun a => Qred (full_collision c_ish 2 c_S c_S c_F 300 1 (1#10) (a / 2) (1 - a / 2) 0 (a mod 2))) (zrange 4) = [16 # 5; 107 # 15; 37 # 30; 92 # 5].
Proof.
  destruct (get_bz_grid_addresses rod 2 zero_out) as [o|] eqn:E; [|vm_compute in E; discriminate]. exists o.
  pose proof C15_ex_hyp as Hh. rewrite E in Hh.
  assert (HC : forall R, In R rods -> compat (bD rod) R).
  { intros R HR. apply compatb_sound; [cbn; lia|]. revert R HR. apply forallb_forall. vm_compute. reflexivity. }
  assert (HG : is_group rods) by (apply is_groupb_sound; vm_compute; reflexivity).
  assert (K : option_map (fun o => (o_size o, map (o_b2g o) [0; 1; 2], option_map (fun r => let '(t, _, mt, mq) := r in (t, map mt [0; 1], map mq [0; 1]))
      (get_triplets_at_q rod o 2 I3 (bL rod) 2 true rods true))) (get_bz_grid_addresses rod 2 zero_out)
    = Some (3, [0; 1; 1], Some ([(1, 0, 2)], [0; 0], [0; 1]))) by (vm_compute; reflexivity).
  rewrite E in K. cbn [option_map] in K.
  destruct (get_triplets_at_q rod o 2 I3 (bL rod) 2 true rods true) as [[[[t w] mt] mq]|] eqn:Et; cbn [option_map] in K; [|congruence].
  assert (Em : t = [(1, 0, 2)] /\ map mt [0; 1] = [0; 0] /\ map mq [0; 1] = [0; 1]) by (repeat split; congruence).
  assert (Eb : map (o_b2g o) [0; 1; 2] = [0; 1; 1] /\ o_size o = 3) by (split; congruence). clear K.
  exists t, w, mt, mq. split; [reflexivity|]. split; [split; [exact Hh|]; split; [exact HG|]; split; [exact HC|exact Et]|].
  destruct Em as [-> [Em Eq]]. cbn [map] in Em, Eq.
  injection Em as M0 M1. injection Eq as Q0 Q1.
  destruct Eb as [Eb Es]. cbn [map] in Eb. injection Eb as B0 B1 B2.
  assert (forall x, 0 <= x < 2 -> x = 0 \/ x = 1) as C2 by lia. intros freq.
  assert (Ts : triplet_symmetric (bD rod) rods true true (o_b2g o 2) c_S).
  { intros x y Hx Hy. change (mesh_size (bD rod)) with 2 in Hx, Hy. rewrite B2. split.
    - intros R [HR _] Hc j k l. assert (y = x) as ->; [|reflexivity].
      assert (R = I3 \/ R = mneg I3) as HRc.
      { destruct HR as [HR|[_ HR]]; cbn in HR; destruct HR as [HR|[HR|[]]]; auto.
        - right. destruct R. cbn in HR. unfold I3 in *. cbn. injection HR as ?????????. f_equal; lia.
        - left. destruct R. cbn in HR. unfold I3 in *. injection HR as ?????????. f_equal; lia. }
      apply grid_index_eq_iff in Hc; [|cbn; lia].
      destruct HRc as [-> | ->]; destruct (C2 x Hx) as [-> | ->]; destruct (C2 y Hy) as [-> | ->]; vm_compute in Hc; congruence.
    - intros _ Hc j k l. apply grid_index_eq_iff in Hc; [|cbn; lia].
      destruct (C2 x Hx) as [-> | ->]; destruct (C2 y Hy) as [-> | ->]; vm_compute in Hc; try discriminate Hc; unfold c_S; cbn [Z.eqb]; reflexivity. }
  split.
  - split; [exact Ts|]. split; [exact Ts|]. split; [|split; [|split]].
    + intros x y R Hx Hy [HR _] Hc i. change (mesh_size (bD rod)) with 2 in Hx, Hy.
      assert (y = x) as ->; [|reflexivity].
      assert (R = I3 \/ R = mneg I3) as HRc.
      { destruct HR as [HR|[_ HR]]; cbn in HR; destruct HR as [HR|[HR|[]]]; auto.
        - right. destruct R. cbn in HR. unfold I3 in *. cbn. injection HR as ?????????. f_equal; lia.
        - left. destruct R. cbn in HR. unfold I3 in *. injection HR as ?????????. f_equal; lia. }
      apply grid_index_eq_iff in Hc; [|cbn; lia].
      destruct HRc as [-> | ->]; destruct (C2 x Hx) as [-> | ->]; destruct (C2 y Hy) as [-> | ->]; vm_compute in Hc; congruence.
    + change (mesh_size (bD rod)) with 2. change (zrange 2) with [0; 1]. cbn [filter]. rewrite M0, M1. cbn [Z.eqb filter].
      intros i j k l Hi Hj Hk Hl. cbn [length] in Hi. assert (i = 0) as -> by lia. cbn [Z.to_nat nth].
      destruct (C2 j Hj) as [-> | ->]; destruct (C2 k Hk) as [-> | ->]; destruct (C2 l Hl) as [-> | ->]; vm_compute; split; reflexivity.
    + intros b i Hb Hi. unfold freq. rewrite <- (Z.div_unique (b * 2 + i) 2 b i), <- (Z.mod_unique (b * 2 + i) 2 b i) by lia. reflexivity.
    + intros f f' Ef. unfold c_ish. rewrite Ef. reflexivity.
  - split; [unfold swapped; change (zrange 2) with [0; 1]; cbn [map]; rewrite M0, M1, Q0, Q1; reflexivity|].
    vm_compute. reflexivity.
Qed.
