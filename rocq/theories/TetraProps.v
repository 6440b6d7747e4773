(** Theorems C20, C21, C23, C24 (tetrahedron method). *)
From Coq Require Import ZArith QArith Qabs List Bool Lia Lqa Setoid Morphisms Permutation.
From Verif Require Import Base Mat3 QMat TetraModel TetraSpec TetraProofs.
Import ListNotations.
Open Scope Q_scope.

(* ------------------------------------------------------------------ C20 *)
Theorem C20_sort_omegas : forall a b c d x0 x1 x2 x3 ci,
  sort_omegas (t4 a b c d) = (t4 x0 x1 x2 x3, ci) ->
  (x0 <= x1 /\ x1 <= x2 /\ x2 <= x3) /\
  Permutation [a; b; c; d] [x0; x1; x2; x3] /\
  (0 <= ci <= 3)%Z /\ nth_error [x0; x1; x2; x3] (Z.to_nat ci) = Some a /\
  Permutation [b; c; d] (firstn (Z.to_nat ci) [x0; x1; x2; x3] ++ skipn (S (Z.to_nat ci)) [x0; x1; x2; x3]).
Proof.
  intros a b c d x0 x1 x2 x3 ci H. pose proof (sort_spec a b c d) as S. pose proof (sort_perm a b c d) as P.
  rewrite H in S, P. destruct S as [S1 S2]. split; [exact S1|]. split; [exact P|].
  unfold perm3 in S2.
  repeat match type of S2 with _ \/ _ => destruct S2 as [S2|S2] end;
  repeat match goal with H : _ /\ _ |- _ => destruct H end;
  repeat match goal with H : _ \/ _ |- _ => destruct H end;
  repeat match goal with H : _ /\ _ |- _ => destruct H end; subst;
  (split; [lia|]); (split; [reflexivity|]);
  match goal with |- Permutation _ ?l => let l' := eval cbv in l in change l with l' end; perm_tac.
Qed.
Print Assumptions C20_sort_omegas.
Example C20_ex : sort_omegas (t4 3 1 3 2) = (t4 1 2 3 3, 2%Z).
Proof. vm_compute. reflexivity. Qed.

(* ------------------------------------------------------------------ C21 *)
Definition t4eq (x y : T4) : Prop :=
  let '(t4 a b c d) := x in let '(t4 a' b' c' d') := y in a == a' /\ b == b' /\ c == c' /\ d == d'.
Ltac ext_tac := match goal with |- forall w (x y : T4), _ => intros w [x0 x1 x2 x3] [y0 y1 y2 y3] end.
Lemma PD_ext : forall w x y, t4eq x y -> PD w x == PD w y.
Proof. ext_tac. intros [H0 [H1 [H2 H3]]]. cbn [PD]. rewrite H0, H1, H2, H3. reflexivity. Qed.
Lemma PN_ext : forall w x y i, t4eq x y -> PN w x i == PN w y i.
Proof.
  intros w [x0 x1 x2 x3] [y0 y1 y2 y3] i [H0 [H1 [H2 H3]]]. unfold PN.
  destruct i as [|p|p]; try reflexivity. do 4 (try destruct p as [p|p|]; try reflexivity); rewrite ?H0, ?H1, ?H2, ?H3; reflexivity.
Qed.
Lemma PJ_ext : forall w x y i k, t4eq x y -> In i [0; 1; 2; 3; 4]%Z -> In k [0; 1; 2; 3]%Z -> PJ w x i k == PJ w y i k.
Proof.
  intros w [x0 x1 x2 x3] [y0 y1 y2 y3] i k [H0 [H1 [H2 H3]]] Hi Hk.
  each_k Hi; each_k Hk; cbn [PJ]; rewrite ?H0, ?H1, ?H2, ?H3; reflexivity.
Qed.
Lemma PI_ext : forall w x y i k, t4eq x y -> In i [0; 1; 2; 3; 4]%Z -> In k [0; 1; 2; 3]%Z -> PI w x i k == PI w y i k.
Proof.
  intros w x y i k E Hi Hk. pose proof (PD_ext w x y E) as D. revert E D.
  destruct x as [x0 x1 x2 x3], y as [y0 y1 y2 y3]. intros [H0 [H1 [H2 H3]]] D.
  each_k Hi; each_k Hk; cbn [PI]; rewrite ?D; rewrite ?H0, ?H1, ?H2, ?H3; reflexivity.
Qed.

(** [x] lists the values a,b,c,d in ascending order and [k] is a position of [a]. *)
Definition arranged (x : T4) (k : Z) (a b c d : Q) : Prop :=
  sorted4 x /\ (let '(t4 x0 x1 x2 x3) := x in Permutation [a; b; c; d] [x0; x1; x2; x3]) /\
  In k [0; 1; 2; 3]%Z /\ t4z x k == a.

Lemma gap_gapx : forall eps w x k a b c d i, arranged x k a b c d -> gap_ok eps w a b c d ->
  in_region w x i -> gapx eps x i.
Proof.
  intros eps w [x0 x1 x2 x3] k a b c d i [_ [P _]] G R.
  assert (G' : forall x y, In x [x0; x1; x2; x3] -> In y [x0; x1; x2; x3] -> x < w -> w < y -> eps <= y - x).
  { intros x y Hx Hy. apply G; (eapply Permutation_in; [apply Permutation_sym; exact P|auto]). }
  unfold gapx. destruct i as [|p|p]; auto.
  destruct p as [[p|p|]|[p|p|]|]; auto; cbn [in_region rlo rhi] in *; apply G'; cbn; auto; lra.
Qed.
Lemma arranged_off : forall w x k a b c d, arranged x k a b c d -> off_vertices w a b c d ->
  exists i, In i [0; 1; 2; 3; 4]%Z /\ in_region w x i /\ region w x = Some i.
Proof.
  intros w x k a b c d [S [P _]] [O1 [O2 [O3 O4]]]. pose proof (region_spec w x S) as R.
  destruct (region w x) as [i|]; [exists i; tauto|]. exfalso. destruct x as [x0 x1 x2 x3].
  assert (O : forall y, In y [x0; x1; x2; x3] -> ~ w == y).
  { intros y Hy. apply (Permutation_in y (Permutation_sym P)) in Hy. cbn in Hy. intuition (subst; auto). }
  destruct R as [R|[R|[R|R]]]; apply (O _) in R; cbn; auto.
Qed.
Lemma arranged_sort : forall a b c d, let '(x, ci) := sort_omegas (t4 a b c d) in arranged x ci a b c d.
Proof.
  intros a b c d. pose proof (sort_spec a b c d) as S. pose proof (sort_perm a b c d) as P.
  destruct (sort_omegas (t4 a b c d)) as [[x0 x1 x2 x3] ci]. destruct S as [S1 S2].
  unfold arranged. split; [exact S1|]. split; [exact P|].
  destruct S2 as [[-> [-> _]]|[[-> [-> _]]|[[-> [-> _]]|[-> [-> _]]]]]; cbn; split; auto; reflexivity.
Qed.

Lemma term_value : forall eps w a b c d x k i, 0 <= eps -> off_vertices w a b c d -> gap_ok eps w a b c d ->
  arranged x k a b c d -> in_region w x i -> In i [0; 1; 2; 3; 4]%Z ->
  tetra_term eps false w (t4 a b c d) == JT eps w x i k /\
  tetra_term eps true w (t4 a b c d) == IT eps w x i k.
Proof.
  intros eps w a b c d x k i He O G A R Hi. pose proof (arranged_sort a b c d) as A'.
  unfold tetra_term. destruct (sort_omegas (t4 a b c d)) as [y ci].
  destruct (arranged_off w y ci a b c d A' O) as [j [Hj [Rj ->]]].
  pose proof (gap_gapx eps w y ci a b c d j A' G Rj) as Gy.
  destruct A as [Sx [Px [Hk Ek]]]. destruct A' as [Sy [Py [Hci Eci]]].
  assert (t4eq y x) as E.
  { destruct x as [x0 x1 x2 x3], y as [y0 y1 y2 y3]. apply sorted_unique; auto.
    eapply perm_trans; [apply Permutation_sym; exact Py|exact Px]. }
  assert (in_region w y i) as Ri.
  { destruct x as [x0 x1 x2 x3], y as [y0 y1 y2 y3]. destruct E as [E0 [E1 [E2 E3]]].
    each_k Hi; cbn [in_region] in *; lra. }
  assert (j = i) as -> by (eapply in_region_unique; eauto).
  assert (t4z y ci == t4z y k) as Et.
  { rewrite Eci, <- Ek. destruct x as [x0 x1 x2 x3], y as [y0 y1 y2 y3]. destruct E as [E0 [E1 [E2 E3]]].
    each_k Hk; cbn [t4z]; lra. }
  destruct (J_ideal eps w y i ci He Sy Hi Hci (in_closed _ _ _ Ri) Gy) as [EJ _].
  destruct (I_ideal eps w y i ci He Sy Hi Hci (in_closed _ _ _ Ri) Gy) as [EI _].
  rewrite EJ, EI. split.
  - unfold JT. rewrite (PN_ext w y x i E). destruct (_ && _); [reflexivity|].
    rewrite (PJ_tie w y i ci k) by auto. apply PJ_ext; auto.
  - unfold IT. rewrite (PD_ext w y x E). destruct (_ && _); [reflexivity|].
    rewrite (PI_tie w y i ci k) by auto. apply PI_ext; auto.
Qed.

Lemma JT_bounds : forall eps w x i k, sorted4 x -> In i [0; 1; 2; 3; 4]%Z -> In k [0; 1; 2; 3]%Z -> in_region w x i ->
  0 <= JT eps w x i k <= (1 # 4) /\ 0 <= IT eps w x i k.
Proof.
  intros eps w x i k S Hi Hk R. pose proof (PJ_bounds w x i k S Hi Hk R). pose proof (PI_bounds w x i k S Hi Hk R).
  unfold JT, IT. destruct (_ && _), ((i =? 2)%Z && _); split; try tauto; try lra.
Qed.

(** Order of the arguments for which each vertex comes first. *)
Lemma arranged_all : forall a b c d, exists x ka kb kc kd,
  arranged x ka a b c d /\ arranged x kb b a c d /\ arranged x kc c a b d /\ arranged x kd d a b c /\
  Permutation [0; 1; 2; 3]%Z [ka; kb; kc; kd].
Proof.
  intros a b c d. pose proof (sort_spec a b c d) as S. pose proof (sort_perm a b c d) as P.
  destruct (sort_omegas (t4 a b c d)) as [[x0 x1 x2 x3] ci]. destruct S as [S1 S2]. exists (t4 x0 x1 x2 x3).
  unfold perm3 in S2.
  assert (PA : Permutation [b; a; c; d] [x0; x1; x2; x3]) by (eapply perm_trans; [apply perm_swap|exact P]).
  assert (PB : Permutation [c; a; b; d] [x0; x1; x2; x3]) by (eapply perm_trans; [|exact P]; perm_tac).
  assert (PC : Permutation [d; a; b; c] [x0; x1; x2; x3]) by (eapply perm_trans; [|exact P]; perm_tac).
  assert (K : exists ka kb kc kd, Permutation [0; 1; 2; 3]%Z [ka; kb; kc; kd] /\
    t4z (t4 x0 x1 x2 x3) ka = a /\ t4z (t4 x0 x1 x2 x3) kb = b /\ t4z (t4 x0 x1 x2 x3) kc = c /\ t4z (t4 x0 x1 x2 x3) kd = d).
  { clear - S2.
    destruct S2 as [[_ [Ha S2]]|[[_ [Ha S2]]|[[_ [Ha S2]]|[_ [Ha S2]]]]];
    destruct S2 as [[E1 [E2 E3]]|[[E1 [E2 E3]]|[[E1 [E2 E3]]|[[E1 [E2 E3]]|[[E1 [E2 E3]]|[E1 [E2 E3]]]]]]]; subst.
    - exists 0%Z, 1%Z, 2%Z, 3%Z. repeat split. perm_tac.
    - exists 0%Z, 1%Z, 3%Z, 2%Z. repeat split. perm_tac.
    - exists 0%Z, 2%Z, 1%Z, 3%Z. repeat split. perm_tac.
    - exists 0%Z, 3%Z, 1%Z, 2%Z. repeat split. perm_tac.
    - exists 0%Z, 2%Z, 3%Z, 1%Z. repeat split. perm_tac.
    - exists 0%Z, 3%Z, 2%Z, 1%Z. repeat split. perm_tac.
    - exists 1%Z, 0%Z, 2%Z, 3%Z. repeat split. perm_tac.
    - exists 1%Z, 0%Z, 3%Z, 2%Z. repeat split. perm_tac.
    - exists 1%Z, 2%Z, 0%Z, 3%Z. repeat split. perm_tac.
    - exists 1%Z, 3%Z, 0%Z, 2%Z. repeat split. perm_tac.
    - exists 1%Z, 2%Z, 3%Z, 0%Z. repeat split. perm_tac.
    - exists 1%Z, 3%Z, 2%Z, 0%Z. repeat split. perm_tac.
    - exists 2%Z, 0%Z, 1%Z, 3%Z. repeat split. perm_tac.
    - exists 2%Z, 0%Z, 3%Z, 1%Z. repeat split. perm_tac.
    - exists 2%Z, 1%Z, 0%Z, 3%Z. repeat split. perm_tac.
    - exists 2%Z, 3%Z, 0%Z, 1%Z. repeat split. perm_tac.
    - exists 2%Z, 1%Z, 3%Z, 0%Z. repeat split. perm_tac.
    - exists 2%Z, 3%Z, 1%Z, 0%Z. repeat split. perm_tac.
    - exists 3%Z, 0%Z, 1%Z, 2%Z. repeat split. perm_tac.
    - exists 3%Z, 0%Z, 2%Z, 1%Z. repeat split. perm_tac.
    - exists 3%Z, 1%Z, 0%Z, 2%Z. repeat split. perm_tac.
    - exists 3%Z, 2%Z, 0%Z, 1%Z. repeat split. perm_tac.
    - exists 3%Z, 1%Z, 2%Z, 0%Z. repeat split. perm_tac.
    - exists 3%Z, 2%Z, 1%Z, 0%Z. repeat split. perm_tac. }
  destruct K as [ka [kb [kc [kd [PK [Ka [Kb [Kc Kd]]]]]]]]. exists ka, kb, kc, kd.
  assert (IK : forall k, In k [ka; kb; kc; kd] -> In k [0; 1; 2; 3]%Z).
  { intros k. apply Permutation_in. apply Permutation_sym. exact PK. }
  unfold arranged. repeat split; auto; try apply S1; try (apply IK; cbn; tauto).
  - rewrite Ka. reflexivity. - rewrite Kb. reflexivity. - rewrite Kc. reflexivity. - rewrite Kd. reflexivity.
Qed.

Lemma dd_12 : forall x b c d, dd x b c d == dd x c b d.
Proof. intros. unfold dd. apply Qinv_comp. ring. Qed.
Lemma dd_23 : forall x b c d, dd x b c d == dd x b d c.
Proof. intros. unfold dd. apply Qinv_comp. ring. Qed.
Lemma sb_12 : forall w a b c d, states_below w a b c d == states_below w b a c d.
Proof. intros. unfold states_below. rewrite (dd_12 c a b d), (dd_12 d a b c). ring. Qed.
Lemma sb_23 : forall w a b c d, states_below w a b c d == states_below w a c b d.
Proof. intros. unfold states_below. rewrite (dd_12 a b c d), (dd_23 d a b c). ring. Qed.
Lemma sb_34 : forall w a b c d, states_below w a b c d == states_below w a b d c.
Proof. intros. unfold states_below. rewrite (dd_23 a b c d), (dd_23 b a c d). ring. Qed.
Lemma sa_12 : forall w a b c d, states_at w a b c d == states_at w b a c d.
Proof. intros. unfold states_at. rewrite (dd_12 c a b d), (dd_12 d a b c). ring. Qed.
Lemma sa_23 : forall w a b c d, states_at w a b c d == states_at w a c b d.
Proof. intros. unfold states_at. rewrite (dd_12 a b c d), (dd_23 d a b c). ring. Qed.
Lemma sa_34 : forall w a b c d, states_at w a b c d == states_at w a b d c.
Proof. intros. unfold states_at. rewrite (dd_23 a b c d), (dd_23 b a c d). ring. Qed.
Lemma vb_23 : forall w a b c d, vertex_below w a b c d == vertex_below w a c b d.
Proof. intros. unfold vertex_below. rewrite (dd_12 a b c d), (dd_23 d a b c). unfold Qdiv. ring. Qed.
Lemma vb_34 : forall w a b c d, vertex_below w a b c d == vertex_below w a b d c.
Proof. intros. unfold vertex_below. rewrite (dd_23 a b c d), (dd_23 b a c d). unfold Qdiv. ring. Qed.
Lemma va_23 : forall w a b c d, vertex_at w a b c d == vertex_at w a c b d.
Proof. intros. unfold vertex_at. rewrite (dd_12 a b c d), (dd_23 d a b c). unfold Qdiv. ring. Qed.
Lemma va_34 : forall w a b c d, vertex_at w a b c d == vertex_at w a b d c.
Proof. intros. unfold vertex_at. rewrite (dd_23 a b c d), (dd_23 b a c d). unfold Qdiv. ring. Qed.

Lemma perm3_sym : forall (F : Q -> Q -> Q -> Q), (forall b c d, F b c d == F c b d) -> (forall b c d, F b c d == F b d c) ->
  forall b c d x y z, perm3 b c d x y z -> F x y z == F b c d.
Proof.
  intros F S1 S2 b c d x y z H. unfold perm3 in H.
  destruct H as [[-> [-> ->]]|[[-> [-> ->]]|[[-> [-> ->]]|[[-> [-> ->]]|[[-> [-> ->]]|[-> [-> ->]]]]]]].
  - reflexivity. - apply S2. - apply S1. - rewrite S2. apply S1. - rewrite S1. apply S2. - rewrite S1, S2. apply S1.
Qed.
Lemma sb_perm : forall w a b c d x y z, perm3 b c d x y z -> states_below w a x y z == states_below w a b c d.
Proof. intros w a. apply perm3_sym; intros. - apply sb_23. - apply sb_34. Qed.
Lemma sa_perm : forall w a b c d x y z, perm3 b c d x y z -> states_at w a x y z == states_at w a b c d.
Proof. intros w a. apply perm3_sym; intros. - apply sa_23. - apply sa_34. Qed.
Lemma vb_perm : forall w a b c d x y z, perm3 b c d x y z -> vertex_below w a x y z == vertex_below w a b c d.
Proof. intros w a. apply perm3_sym; intros. - apply vb_23. - apply vb_34. Qed.
Lemma va_perm : forall w a b c d x y z, perm3 b c d x y z -> vertex_at w a x y z == vertex_at w a b c d.
Proof. intros w a. apply perm3_sym; intros. - apply va_23. - apply va_34. Qed.

Lemma perm3_in : forall b c d x y z u, perm3 b c d x y z -> In u [x; y; z] -> In u [b; c; d].
Proof.
  intros b c d x y z u H. unfold perm3 in H.
  destruct H as [[-> [-> ->]]|[[-> [-> ->]]|[[-> [-> ->]]|[[-> [-> ->]]|[[-> [-> ->]]|[-> [-> ->]]]]]]]; cbn; tauto.
Qed.

(** Sorted form of four distinct values, and what the spec says in terms of it. *)
Lemma sorted_form : forall w a b c d, distinct4 a b c d -> exists x0 x1 x2 x3 k,
  arranged (t4 x0 x1 x2 x3) k a b c d /\ x0 < x1 /\ x1 < x2 /\ x2 < x3 /\
  (let '(p, q, r) := others (t4 x0 x1 x2 x3) k in
   vertex_below w (t4z (t4 x0 x1 x2 x3) k) p q r == vertex_below w a b c d /\
   vertex_at w (t4z (t4 x0 x1 x2 x3) k) p q r == vertex_at w a b c d) /\
  states_below w x0 x1 x2 x3 == states_below w a b c d /\ states_at w x0 x1 x2 x3 == states_at w a b c d.
Proof.
  intros w a b c d D. pose proof (sort_spec a b c d) as S. pose proof (arranged_sort a b c d) as A.
  destruct (sort_omegas (t4 a b c d)) as [[x0 x1 x2 x3] ci]. destruct S as [[S1 [S2 S3]] P].
  exists x0, x1, x2, x3, ci. split; [exact A|].
  assert (N : ~ x0 == x1 /\ ~ x1 == x2 /\ ~ x2 == x3).
  { destruct D as [D1 [D2 [D3 [D4 [D5 D6]]]]]. clear - P D1 D2 D3 D4 D5 D6. unfold perm3 in P.
    repeat match goal with
      | H : _ \/ _ |- _ => destruct H
      | H : _ /\ _ |- _ => destruct H end; subst; repeat split; intros E; (lra || (symmetry in E; lra) || auto);
    first [apply D1; rewrite E; reflexivity | apply D2; rewrite E; reflexivity | apply D3; rewrite E; reflexivity
          |apply D4; rewrite E; reflexivity | apply D5; rewrite E; reflexivity | apply D6; rewrite E; reflexivity]. }
  destruct N as [N1 [N2 N3]].
  split; [apply Qle_lteq in S1; destruct S1; auto; contradiction|].
  split; [apply Qle_lteq in S2; destruct S2; auto; contradiction|].
  split; [apply Qle_lteq in S3; destruct S3; auto; contradiction|].
  destruct P as [[-> [-> P]]|[[-> [-> P]]|[[-> [-> P]]|[-> [-> P]]]]]; cbn [others t4z];
  (split; [split; [apply vb_perm|apply va_perm]; exact P|]).
  - split; [apply sb_perm|apply sa_perm]; exact P.
  - split; [rewrite sb_12; apply sb_perm|rewrite sa_12; apply sa_perm]; exact P.
  - split; [rewrite sb_23, sb_12; apply sb_perm|rewrite sa_23, sa_12; apply sa_perm]; exact P.
  - split; [rewrite sb_34, sb_23, sb_12; apply sb_perm|rewrite sa_34, sa_23, sa_12; apply sa_perm]; exact P.
Qed.

Theorem C21_exact_integrated : forall eps w a b c d, 0 <= eps -> distinct4 a b c d -> off_vertices w a b c d ->
  gap_ok eps w a b c d ->
  tetra_term eps false w (t4 a b c d) == vertex_below w a b c d \/
  (states_below w a b c d < eps /\ tetra_term eps false w (t4 a b c d) == 0).
Proof.
  intros eps w a b c d He D O G.
  destruct (sorted_form w a b c d D) as [x0 [x1 [x2 [x3 [k [A [L1 [L2 [L3 [V [Sb Sa]]]]]]]]]]].
  destruct (arranged_off w _ k a b c d A O) as [i [Hi [R _]]].
  destruct (term_value eps w a b c d _ k i He O G A R Hi) as [TJ _].
  assert (In k [0; 1; 2; 3]%Z) as Hk by apply A.
  pose proof (PJ_exact w x0 x1 x2 x3 i k L1 L2 L3 Hi Hk R) as E.
  destruct (PN_exact w x0 x1 x2 x3 i L1 L2 L3 Hi R) as [EN _].
  destruct (others (t4 x0 x1 x2 x3) k) as [[p q] r]. destruct V as [V _]. destruct E as [E _].
  rewrite TJ. unfold JT. destruct (_ && _) eqn:T.
  - right. split; [|reflexivity]. apply andb_prop in T. destruct T as [_ T]. apply qltb_lt in T. rewrite EN, Sb in T. exact T.
  - left. rewrite E. exact V.
Qed.
Print Assumptions C21_exact_integrated.

Theorem C21_exact_differential : forall eps w a b c d, 0 <= eps -> distinct4 a b c d -> off_vertices w a b c d ->
  gap_ok eps w a b c d ->
  tetra_term eps true w (t4 a b c d) == vertex_at w a b c d \/
  ((forall x y, In x [a; b; c; d] -> In y [a; b; c; d] -> states_at w a b c d * (y - x) < 3 * eps) /\
   tetra_term eps true w (t4 a b c d) == 0).
Proof.
  intros eps w a b c d He D O G.
  destruct (sorted_form w a b c d D) as [x0 [x1 [x2 [x3 [k [A [L1 [L2 [L3 [V [Sb Sa]]]]]]]]]]].
  destruct (arranged_off w _ k a b c d A O) as [i [Hi [R _]]].
  destruct (term_value eps w a b c d _ k i He O G A R Hi) as [_ TJ].
  assert (In k [0; 1; 2; 3]%Z) as Hk by apply A.
  pose proof (PJ_exact w x0 x1 x2 x3 i k L1 L2 L3 Hi Hk R) as E.
  destruct (PN_exact w x0 x1 x2 x3 i L1 L2 L3 Hi R) as [_ EN].
  destruct (others (t4 x0 x1 x2 x3) k) as [[p q] r]. destruct V as [_ V]. destruct E as [_ E].
  rewrite TJ. unfold IT. destruct (_ && _) eqn:T.
  - right. split; [|reflexivity]. apply andb_prop in T. destruct T as [T1 T]. apply qltb_lt in T.
    apply Z.eqb_eq in T1. subst i.
    assert (0 <= PD w (t4 x0 x1 x2 x3)) as P0 by (apply (PI_bounds w _ 2 k (proj1 A) Hi Hk R); reflexivity).
    intros x y Hx Hy. rewrite <- Sa, <- EN. unfold PG.
    destruct A as [_ [P _]]. apply (Permutation_in _ P) in Hx, Hy.
    assert (y - x <= x3 - x0) as Hl.
    { cbn in Hx, Hy. repeat match goal with H : _ \/ _ |- _ => destruct H end; subst; try contradiction; lra. }
    assert (3 * PD w (t4 x0 x1 x2 x3) / (x3 - x0) * (x3 - x0) == 3 * PD w (t4 x0 x1 x2 x3)) as Ec by (field; lra).
    assert (0 <= 3 * PD w (t4 x0 x1 x2 x3) / (x3 - x0)) as Hp by (apply div_nn; lra).
    set (g := 3 * PD w (t4 x0 x1 x2 x3) / (x3 - x0)) in *.
    assert (0 <= g * ((x3 - x0) - (y - x))) by (apply mul_nn; lra). lra.
  - left. rewrite E. exact V.
Qed.
Print Assumptions C21_exact_differential.

(** ties between the vertices are allowed *)
Theorem C21_partition : forall eps w a b c d, 0 <= eps -> off_vertices w a b c d -> gap_ok eps w a b c d ->
  let J := tetra_term eps false w in
  let s := J (t4 a b c d) + J (t4 b a c d) + J (t4 c a b d) + J (t4 d a b c) in
  (0 <= J (t4 a b c d) <= (1 # 4)) /\ 0 <= tetra_term eps true w (t4 a b c d) /\ 0 <= s <= 1 /\
  (w < a -> w < b -> w < c -> w < d -> s == 0) /\ (a < w -> b < w -> c < w -> d < w -> s == 1) /\
  (distinct4 a b c d -> s == states_below w a b c d \/ (states_below w a b c d < eps /\ s == 0)).
Proof.
  intros eps w a b c d He O G J s.
  destruct (arranged_all a b c d) as [x [ka [kb [kc [kd [Aa [Ab [Ac [Ad PK]]]]]]]]].
  destruct (arranged_off w x ka a b c d Aa O) as [i [Hi [R _]]].
  assert (Ob : off_vertices w b a c d) by (unfold off_vertices in *; tauto).
  assert (Oc : off_vertices w c a b d) by (unfold off_vertices in *; tauto).
  assert (Od : off_vertices w d a b c) by (unfold off_vertices in *; tauto).
  assert (Gb : gap_ok eps w b a c d) by (intros u v Hu Hv; apply G; cbn in *; tauto).
  assert (Gc : gap_ok eps w c a b d) by (intros u v Hu Hv; apply G; cbn in *; tauto).
  assert (Gd : gap_ok eps w d a b c) by (intros u v Hu Hv; apply G; cbn in *; tauto).
  destruct (term_value eps w a b c d x ka i He O G Aa R Hi) as [Ta Ta'].
  destruct (term_value eps w b a c d x kb i He Ob Gb Ab R Hi) as [Tb _].
  destruct (term_value eps w c a b d x kc i He Oc Gc Ac R Hi) as [Tc _].
  destruct (term_value eps w d a b c x kd i He Od Gd Ad R Hi) as [Td _].
  assert (Es : s == JT eps w x i 0 + JT eps w x i 1 + JT eps w x i 2 + JT eps w x i 3).
  { unfold s, J. rewrite Ta, Tb, Tc, Td.
    assert (FP : forall l l', Permutation l l' ->
      fold_right (fun k acc => JT eps w x i k + acc) 0 l == fold_right (fun k acc => JT eps w x i k + acc) 0 l').
    { induction 1; cbn [fold_right]; [reflexivity|rewrite IHPermutation; reflexivity|ring|etransitivity; eauto]. }
    specialize (FP _ _ PK). cbn [fold_right] in FP. lra. }
  pose proof (proj1 Aa) as S.
  assert (B : forall k, In k [0; 1; 2; 3]%Z -> 0 <= JT eps w x i k <= (1 # 4)) by (intros k Hk; apply JT_bounds; auto).
  pose proof (B 0%Z ltac:(cbn; tauto)). pose proof (B 1%Z ltac:(cbn; tauto)).
  pose proof (B 2%Z ltac:(cbn; tauto)). pose proof (B 3%Z ltac:(cbn; tauto)).
  assert (In ka [0; 1; 2; 3]%Z) as Hka by apply Aa.
  split; [unfold J; rewrite Ta; auto|].
  split; [rewrite Ta'; apply JT_bounds; auto|].
  split; [rewrite Es; lra|].
  assert (Mn : forall y, In y [a; b; c; d] <-> let '(t4 x0 x1 x2 x3) := x in In y [x0; x1; x2; x3]).
  { intros y. destruct Aa as [_ [P _]]. destruct x as [x0 x1 x2 x3]. split; apply Permutation_in; auto using Permutation_sym. }
  assert (Val : forall P : Q -> Prop, P a -> P b -> P c -> P d -> let '(t4 x0 x1 x2 x3) := x in P x0 /\ P x1 /\ P x2 /\ P x3).
  { intros P Pa Pb Pc Pd. destruct x as [x0 x1 x2 x3].
    assert (K : forall y, In y [x0; x1; x2; x3] -> P y).
    { intros y Hy. apply Mn in Hy. cbn in Hy. intuition (subst; auto). }
    repeat split; apply K; cbn; auto. }
  split.
  { intros Wa Wb Wc Wd. specialize (Val (fun y => w < y) Wa Wb Wc Wd). cbn beta in Val. rewrite Es.
    assert (i = 0%Z) as -> by (destruct x as [x0 x1 x2 x3]; each_k Hi; cbn [in_region] in R; (reflexivity || (exfalso; lra))).
    destruct x. unfold JT. cbn. lra. }
  split.
  { intros Wa Wb Wc Wd. specialize (Val (fun y => y < w) Wa Wb Wc Wd). cbn beta in Val. rewrite Es.
    assert (i = 4%Z) as -> by (destruct x as [x0 x1 x2 x3]; each_k Hi; cbn [in_region] in R; (reflexivity || (exfalso; lra))).
    destruct x. unfold JT. cbn. lra. }
  intros D. destruct (sorted_form w a b c d D) as [x0 [x1 [x2 [x3 [k [A [L1 [L2 [L3 [_ [Sb _]]]]]]]]]]].
  assert (t4eq x (t4 x0 x1 x2 x3)) as E.
  { destruct x as [y0 y1 y2 y3]. apply sorted_unique; [exact S|exact (proj1 A)|].
    eapply perm_trans; [apply Permutation_sym; exact (proj1 (proj2 Aa))|exact (proj1 (proj2 A))]. }
  assert (in_region w (t4 x0 x1 x2 x3) i) as R'.
  { destruct x as [y0 y1 y2 y3]. destruct E as [E0 [E1 [E2 E3]]]. each_k Hi; cbn [in_region] in *; lra. }
  destruct (PN_exact w x0 x1 x2 x3 i L1 L2 L3 Hi R') as [EN _].
  rewrite Es. unfold JT. destruct (_ && _) eqn:T.
  - right. split; [|lra]. apply andb_prop in T. destruct T as [_ T]. apply qltb_lt in T.
    rewrite (PN_ext _ _ _ _ E), EN, Sb in T. exact T.
  - left. rewrite PJ_sum by exact Hi. rewrite (PN_ext _ _ _ _ E), EN. exact Sb.
Qed.
Print Assumptions C21_partition.

(** non-trivial instance, ties and the four regions *)
Example C21_ex : gap_ok (1 # 10000000000) (3 # 2) 3 1 0 2 /\ off_vertices (3 # 2) 3 1 0 2 /\ distinct4 3 1 0 2 /\
  tetra_term (1 # 10000000000) false (3 # 2) (t4 3 1 0 2) == vertex_below (3 # 2) 3 1 0 2 /\
  vertex_below (3 # 2) 3 1 0 2 == (17 # 256).
Proof.
  split.
  { intros x y Hx Hy H1 H2. cbn in Hx, Hy.
    repeat match goal with H : _ \/ _ |- _ => destruct H end; subst; try contradiction; lra. }
  split; [unfold off_vertices; repeat split; intros H; vm_compute in H; discriminate|].
  split; [unfold distinct4; repeat split; intros H; vm_compute in H; discriminate|].
  split; vm_compute; reflexivity.
Qed.
(** the gap hypothesis is needed: two pairs of vertices closer than THM_EPSILON enclosing the energy *)
Example C21_gap_needed :
  tetra_term (1 # 10000000000) false (5 # 1000000000000) (t4 0 0 (1 # 100000000000) (1 # 100000000000)) == 0 /\
  tetra_term 0 false (5 # 1000000000000) (t4 0 0 (1 # 100000000000) (1 # 100000000000)) == (11 # 64).
Proof. split; vm_compute; reflexivity. Qed.

Lemma PJ_le_PN : forall w x i k, (forall k, In k [0; 1; 2; 3]%Z -> 0 <= PJ w x i k) -> In i [0; 1; 2; 3; 4]%Z ->
  In k [0; 1; 2; 3]%Z -> PJ w x i k <= PN w x i.
Proof.
  intros w x i k B Hi Hk. pose proof (PJ_sum w x i Hi).
  pose proof (B 0%Z ltac:(cbn; tauto)). pose proof (B 1%Z ltac:(cbn; tauto)).
  pose proof (B 2%Z ltac:(cbn; tauto)). pose proof (B 3%Z ltac:(cbn; tauto)). each_k Hk; lra.
Qed.

(** At an energy equal to a vertex value the formulas of the two adjacent regions agree
    (up to the cut at [eps], exactly when it is switched off). *)
Theorem C21_regions_agree : forall eps x0 x1 x2 x3 j k, 0 <= eps <= 1 -> eps <= x1 - x0 -> eps <= x2 - x1 -> eps <= x3 - x2 ->
  x0 < x1 -> x1 < x2 -> x2 < x3 -> In j [0; 1; 2; 3]%Z -> In k [0; 1; 2; 3]%Z ->
  let x := t4 x0 x1 x2 x3 in
  let w := t4z x j in
  Qabs (J_ eps w x j k * n_ eps w x j - J_ eps w x (j + 1) k * n_ eps w x (j + 1)) <= eps.
Proof.
  intros eps x0 x1 x2 x3 j k [He He1] G1 G2 G3 L1 L2 L3 Hj Hk x w.
  assert (S : sorted4 x) by (cbn; lra).
  assert (C : closed_region w x j /\ closed_region w x (j + 1) /\ gapx eps x j /\ gapx eps x (j + 1)).
  { unfold w, x. each_k Hj; cbn; lra. }
  destruct C as [C1 [C2 [Y1 Y2]]].
  assert (Hi : In j [0; 1; 2; 3; 4]%Z) by (each_k Hj; cbn; tauto).
  assert (Hi' : In (j + 1)%Z [0; 1; 2; 3; 4]%Z) by (each_k Hj; cbn; tauto).
  destruct (J_ideal eps w x j k He S Hi Hk C1 Y1) as [-> _].
  destruct (J_ideal eps w x (j + 1) k He S Hi' Hk C2 Y2) as [-> _].
  assert (B : forall i, In i [0; 1; 2; 3; 4]%Z -> closed_region w x i -> forall k, In k [0; 1; 2; 3]%Z -> 0 <= PJ w x i k).
  { intros i Hii Ci k' Hk'. each_k Hii; try (unfold x; cbn [PJ]; lra).
    all: destruct Ci as [Ca [Cb Cc]]; apply PJ_low; auto; cbn; tauto. }
  assert (E : forall k, In k [0; 1; 2; 3]%Z -> PJ w x j k == PJ w x (j + 1) k).
  { intros k' Hk'. unfold w, x. each_k Hj; cbn [t4z Z.add Pos.add Pos.succ].
    - each_k Hk'; cbn [PJ]; unfold p10; rewrite ?(phi_lo x0 x0 x1), ?(phi_lo x0 x0 x2), ?(phi_lo x0 x0 x3) by lra; vm_compute; reflexivity.
    - apply PJ_1_2; auto; lra.
    - apply PJ_2_3; auto; lra.
    - each_k Hk'; cbn [PJ]; rewrite ?(phi_hi x3 x0 x3), ?(phi_hi x3 x1 x3), ?(phi_hi x3 x2 x3) by lra; vm_compute; reflexivity. }
  assert (EN : PN w x j == PN w x (j + 1)).
  { rewrite <- (PJ_sum w x j Hi), <- (PJ_sum w x (j + 1) Hi'). rewrite !E by (cbn; tauto). reflexivity. }
  assert (D : forall i, In i [0; 1; 2; 3; 4]%Z -> closed_region w x i -> JT eps w x i k == PJ w x i k \/ (JT eps w x i k == 0 /\ 0 <= PJ w x i k /\ PJ w x i k <= eps)).
  { intros i Hii Ci. unfold JT. destruct (_ && _) eqn:T; [right|left; reflexivity].
    apply andb_prop in T. destruct T as [_ T]. apply qltb_lt in T.
    pose proof (PJ_le_PN w x i k (B i Hii Ci) Hii Hk). pose proof (B i Hii Ci k Hk). split; [reflexivity|]. lra. }
  pose proof (E k Hk) as Ek.
  destruct (D j Hi C1) as [Da|[Da [Db Dc]]]; destruct (D (j + 1)%Z Hi' C2) as [Ea|[Ea [Eb Ec]]]; rewrite Da, Ea;
  apply Qabs_Qle_condition; lra.
Qed.
Print Assumptions C21_regions_agree.
Example C21_agree_ex : let x := t4 0 1 2 3 in
  J_ 0 2 x 2 1 * n_ 0 2 x 2 == J_ 0 2 x 3 1 * n_ 0 2 x 3 /\
  J_ 0 2 x 2 1 * n_ 0 2 x 2 == (11 # 48).
Proof. split; vm_compute; reflexivity. Qed.

(* ------------------------------------------------------------------ C23 *)
(** Proved for energies that are no vertex values and are not enclosed by two vertices closer than
    [eps]; up to [eps] per tetrahedron, which is exact when the cut is switched off. The full claim is
    refuted below. *)
Lemma C23_term : forall eps w w' a b c d, 0 <= eps -> w <= w' ->
  off_vertices w a b c d -> off_vertices w' a b c d -> gap_ok eps w a b c d -> gap_ok eps w' a b c d ->
  tetra_term eps false w (t4 a b c d) <= tetra_term eps false w' (t4 a b c d) + eps.
Proof.
  intros eps w w' a b c d He Hw O O' G G'. pose proof (arranged_sort a b c d) as A.
  destruct (sort_omegas (t4 a b c d)) as [x k].
  destruct (arranged_off w x k a b c d A O) as [i [Hi [R _]]].
  destruct (arranged_off w' x k a b c d A O') as [j [Hj [R' _]]].
  destruct (term_value eps w a b c d x k i He O G A R Hi) as [-> _].
  destruct (term_value eps w' a b c d x k j He O' G' A R' Hj) as [-> _].
  assert (In k [0; 1; 2; 3]%Z) as Hk by apply A. pose proof (proj1 A) as S.
  pose proof (PJ_mono w w' x i j k S Hi Hj Hk R R' Hw) as M.
  pose proof (proj1 (JT_bounds eps w' x j k S Hj Hk R')) as B'.
  pose proof (PJ_bounds w x i k S Hi Hk R) as B.
  assert (JT eps w x i k <= PJ w x i k) by (unfold JT; destruct (_ && _); lra).
  unfold JT at 2. destruct (_ && _) eqn:T; [|lra].
  apply andb_prop in T. destruct T as [_ T]. apply qltb_lt in T.
  pose proof (PJ_le_PN w' x j k (fun k Hk => proj1 (PJ_bounds w' x j k S Hj Hk R')) Hj Hk). lra.
Qed.
Definition t4p (P : Q -> Q -> Q -> Q -> Prop) (t : T4) : Prop := let '(t4 a b c d) := t in P a b c d.
Lemma fold_sum : forall (f : T4 -> Q) l s, fold_left (fun sum t => sum + f t) l s == s + fold_right (fun t acc => f t + acc) 0 l.
Proof. intros f. induction l as [|t l IH]; intros s; cbn [fold_left fold_right]; [ring|]. rewrite IH. ring. Qed.

Theorem C23_monotone_partial : forall eps w w' ts, 0 <= eps -> w <= w' ->
  Forall (t4p (off_vertices w)) ts -> Forall (t4p (off_vertices w')) ts ->
  Forall (t4p (gap_ok eps w)) ts -> Forall (t4p (gap_ok eps w')) ts ->
  thm_get_integration_weight eps w ts false <= thm_get_integration_weight eps w' ts false + inject_Z (Z.of_nat (length ts)) * eps / 6.
Proof.
  intros eps w w' ts He Hw O O' G G'. unfold thm_get_integration_weight. rewrite !fold_sum.
  cut (fold_right (fun t acc => tetra_term eps false w t + acc) 0 ts <=
       fold_right (fun t acc => tetra_term eps false w' t + acc) 0 ts + inject_Z (Z.of_nat (length ts)) * eps).
  { intros H. unfold Qdiv. set (A := fold_right _ _ _) in *. set (B := fold_right _ _ _) in *. set (N := inject_Z _ * eps) in *.
    change (/ 6) with (1 # 6). lra. }
  induction ts as [|[a b c d] ts IH]; cbn [fold_right length].
  - change (inject_Z (Z.of_nat 0)) with 0. lra.
  - inversion_clear O; inversion_clear O'; inversion_clear G; inversion_clear G'.
    assert (inject_Z (Z.of_nat (S (length ts))) == inject_Z (Z.of_nat (length ts)) + 1) as ->.
    { rewrite Nat2Z.inj_succ. unfold Z.succ. rewrite inject_Z_plus. reflexivity. }
    pose proof (C23_term eps w w' a b c d He Hw ltac:(assumption) ltac:(assumption) ltac:(assumption) ltac:(assumption)) as K1.
    pose proof (IH ltac:(assumption) ltac:(assumption) ltac:(assumption) ltac:(assumption)) as K2.
    set (A := fold_right _ _ _) in *. set (B := fold_right _ _ _) in *. set (N := inject_Z _) in *. lra.
Qed.
Print Assumptions C23_monotone_partial.
Example C23_ex : Forall (t4p (gap_ok 0 (1 # 2))) [t4 0 1 1 3; t4 0 3 2 2] /\ Forall (t4p (off_vertices (1 # 2))) [t4 0 1 1 3; t4 0 3 2 2] /\
  Forall (t4p (gap_ok 0 (5 # 2))) [t4 0 1 1 3; t4 0 3 2 2] /\ Forall (t4p (off_vertices (5 # 2))) [t4 0 1 1 3; t4 0 3 2 2] /\
  thm_get_integration_weight 0 (1 # 2) [t4 0 1 1 3; t4 0 3 2 2] false < thm_get_integration_weight 0 (5 # 2) [t4 0 1 1 3; t4 0 3 2 2] false.
Proof.
  assert (O : forall w, w = (1 # 2) \/ w = (5 # 2) -> Forall (t4p (off_vertices w)) [t4 0 1 1 3; t4 0 3 2 2]).
  { intros w [-> | ->]; repeat constructor; intros H; vm_compute in H; discriminate. }
  assert (G : forall w, Forall (t4p (gap_ok 0 w)) [t4 0 1 1 3; t4 0 3 2 2]).
  { intros w. repeat constructor; intros x y _ _ H1 H2; lra. }
  split; [apply G|]. split; [apply O; auto|]. split; [apply G|]. split; [apply O; auto|]. vm_compute. reflexivity.
Qed.

(** At an energy equal to a vertex value no case of the cascade applies and the contribution is
    dropped, so the weight is neither monotone nor the limit value. *)
Theorem C23_vertex_refuted : exists eps w w' ts, 0 <= eps /\ length ts = 1%nat /\ w < w' /\
  Forall (t4p distinct4) ts /\ Forall (t4p (gap_ok eps w)) ts /\ Forall (t4p (gap_ok eps w')) ts /\
  thm_get_integration_weight eps w' ts false == 0 /\ (3 # 100) < thm_get_integration_weight eps w ts false.
Proof.
  exists (1 # 10000000000), (5 # 2), 3, [t4 0 1 2 3].
  split; [lra|]. split; [reflexivity|]. split; [reflexivity|].
  split. { constructor; [|constructor]. repeat split; intros H; vm_compute in H; discriminate. }
  split. { constructor; [|constructor]. intros x y Hx Hy H1 H2. cbn in Hx, Hy.
    repeat match goal with H : _ \/ _ |- _ => destruct H end; subst; try contradiction; lra. }
  split. { constructor; [|constructor]. intros x y Hx Hy H1 H2. cbn in Hx, Hy.
    repeat match goal with H : _ \/ _ |- _ => destruct H end; subst; try contradiction; lra. }
  split; vm_compute; reflexivity.
Qed.
Print Assumptions C23_vertex_refuted.

(** The cut at THM_EPSILON also drops the contribution at an energy strictly between two vertex
    values closer than it, so the gap hypothesis is needed. *)
Theorem C23_close_vertices_refuted : exists eps w w' ts, 0 < eps /\ w < w' /\
  Forall (t4p (off_vertices w)) ts /\ Forall (t4p (off_vertices w')) ts /\ Forall (t4p (gap_ok eps w)) ts /\
  thm_get_integration_weight eps w' ts false + inject_Z (Z.of_nat (length ts)) * eps / 6 < thm_get_integration_weight eps w ts false.
Proof.
  exists (1 # 10000000000), (9 # 10), (200000000001 # 200000000000), [t4 0 1 (100000000001 # 100000000000) 2].
  split; [reflexivity|]. split; [reflexivity|].
  split; [repeat constructor; intros H; vm_compute in H; discriminate|].
  split; [repeat constructor; intros H; vm_compute in H; discriminate|].
  split. { constructor; [|constructor]. intros x y Hx Hy H1 H2. cbn in Hx, Hy.
    repeat match goal with H : _ \/ _ |- _ => destruct H end; subst; try contradiction; lra. }
  vm_compute. reflexivity.
Qed.
Print Assumptions C23_close_vertices_refuted.
