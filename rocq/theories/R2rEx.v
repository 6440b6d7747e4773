(** fc3 in reciprocal space: examples and refutations for C80-C87 *)
From Coq Require Import ZArith QArith Qabs List Bool Lia Lqa Setoid Permutation.
From Verif Require Import Base BaseProofs QMat Par Par2 IseSpec IseProofs Cplx DynModel DynProofs DynProps R2nProps Fc3Spec R2rModel R2rProofs R2rShort R2rProps R2rProps2 R2rSym.
Import ListNotations.
Open Scope Z_scope.

Ltac three s := let E := fresh in assert (E : s = 0 \/ s = 1 \/ s = 2) by lia; destruct E as [-> | [-> | ->]].
Lemma qcis_proper : proper_cis qcis. Proof. exact (proj1 qcis_even_odd). Qed.
Lemma quarter_unit : forall z, quarters z -> (cnorm2 (qcis z) == 1)%Q.
Proof.
  intros z [n Hn]. rewrite (qcis_quarter _ _ Hn). rewrite (quarter_eq n (n mod 4)) by (rewrite Z.mod_mod; lia). pose proof (Z.mod_pos_bound n 4 ltac:(lia)) as B.
  assert (E : n mod 4 = 0 \/ n mod 4 = 1 \/ n mod 4 = 2 \/ n mod 4 = 3) by lia. destruct E as [-> | [-> | [-> | ->]]]; reflexivity.
Qed.
Lemma quarters_check : forall z, Qden (Qred (4 * z)) = 1%positive -> quarters z.
Proof. intros z H. exists (Qnum (Qred (4 * z))). rewrite <- (Qred_correct (4 * z)) at 1. destruct (Qred (4 * z)) as [a b]. cbn in *. subst b. reflexivity. Qed.
(** ** a chain of three cells with one atom each; the cell is repeated three times along the first axis *)
Definition xc (s c : Z) : Q := if c =? 0 then (if s =? 0 then 0 else if s =? 1 then 1 else (-1))%Q else 0%Q.
Definition Mc (a c : Z) : Z := if a =? c then (if a =? 0 then 3 else 1) else 0.
Definition len2 (v : Z -> Q) : Q := (v 0%Z * v 0%Z + v 1%Z * v 1%Z + v 2%Z * v 2%Z)%Q.
Definition mu3 (s : Z) : Z * Z := (1, s).
Definition shift3 (t s : Z) : Z := (s + t) mod 3.
Definition home3 (s : Z) : Z := (- s) mod 3.
Definition zero (_ : Z) : Z := 0.
Definition xz (s : Z) : Z := if s =? 0 then 0 else if s =? 1 then 1 else -1.
Lemma xc_z : forall s c, 0 <= s < 3 -> xc s c = inject_Z (if c =? 0 then xz s else 0).
Proof. intros s c Hs. unfold xc, xz. destruct (c =? 0); [|reflexivity]. three s; reflexivity. Qed.
Lemma image_z : forall a b v, 0 <= a < 3 -> 0 <= b < 3 -> image xc Mc a b v <-> exists n0 n1 n2 : Z, (v 0%Z == inject_Z (xz b - xz a + 3 * n0) /\ v 1%Z == inject_Z n1 /\ v 2%Z == inject_Z n2)%Q.
Proof.
  intros a b v Ha Hb. unfold image. split.
  - intros [n H]. exists (n 0), (n 1), (n 2). pose proof (H 0 ltac:(lia)) as H0. pose proof (H 1 ltac:(lia)) as H1. pose proof (H 2 ltac:(lia)) as H2. rewrite !xc_z in H0, H1, H2 by assumption. cbn [Z.eqb Pos.eqb] in *. cbn [Mc Z.eqb Pos.eqb] in *.
    unfold Mc in *. cbn [Z.eqb Pos.eqb] in *. rewrite H0, H1, H2. repeat split; unfold Zminus, Qminus; rewrite <- ?inject_Z_opp, <- ?inject_Z_plus; apply inject_Z_injective; lia.
  - intros [n0 [n1 [n2 [H0 [H1 H2]]]]]. exists (w3 n0 n1 n2). intros c Hc. rewrite !xc_z by assumption. unfold Mc, w3. three c; cbn [Z.eqb Pos.eqb]; [rewrite H0|rewrite H1|rewrite H2]; unfold Zminus, Qminus; rewrite <- ?inject_Z_opp, <- ?inject_Z_plus; apply inject_Z_injective; lia.
Qed.
Lemma len2_z : forall v a b c, (v 0%Z == inject_Z a)%Q -> (v 1%Z == inject_Z b)%Q -> (v 2%Z == inject_Z c)%Q -> (len2 v == inject_Z (a * a + b * b + c * c))%Q.
Proof. intros v a b c H0 H1 H2. unfold len2. rewrite H0, H1, H2, !inject_Z_plus, !inject_Z_mult. reflexivity. Qed.
Lemma xz_bound : forall s, 0 <= s < 3 -> -1 <= xz s <= 1. Proof. intros s Hs. three s; unfold xz; cbn; lia. Qed.
Lemma chain_lattice : lattice_tables zero (fun s => zero (zero s)) home3 shift3 3 1 3.
Proof.
  assert (X : forall a b, a mod 3 = b -> a mod 3 = b) by auto. constructor; unfold zero, home3, shift3; intros; try (apply Z.mod_pos_bound; lia); try lia; try reflexivity.
  - exists ((t + t') mod 3). split; [apply Z.mod_pos_bound; lia|]. intros s Hs. rewrite Z.add_mod_idemp_r, Z.add_mod_idemp_l by lia. f_equal. lia.
  - exists ((- t) mod 3). split; [apply Z.mod_pos_bound; lia|]. intros s Hs. rewrite Z.add_mod_idemp_r, Z.add_mod_idemp_l by lia. replace (s + t + - t) with s by lia. apply Z.mod_small. lia.
  - assert (t = 0) as ->; [|rewrite Z.add_0_r; apply Z.mod_small; lia]. three t; three s; cbn in H1; (reflexivity || discriminate).
  - rewrite Z.add_mod_idemp_r by lia. replace (s + - s) with 0 by lia. reflexivity.
Qed.
Lemma chain_crystal : crystal xc Mc len2 (1 # 10) 1 3 3 shift3 xc mu3 zero zero zero home3.
Proof.
  constructor; [lia|reflexivity|split|intros t Ht|intros p s Hp Hs|exact chain_lattice|reflexivity].
  - intros v w H. unfold len2. rewrite (H 0), (H 1), (H 2) by lia. reflexivity.
  - intros v. unfold len2, vneg. ring.
  - exists (w3 t 0 0). intros s Hs. apply image_z; [exact Hs|apply Z.mod_pos_bound; lia|].
    assert (E : exists n0, t = xz (shift3 t s) - xz s + 3 * n0). { three t; three s; cbn; [exists 0|exists 0|exists 0|exists 0|exists 1|exists 0|exists 1|exists 1|exists 0]; reflexivity. }
    destruct E as [n0 E]. exists n0, 0, 0. repeat split. rewrite <- E. reflexivity.
  - assert (p = 0) as -> by lia. cbv zeta. unfold tab_mult, tab_vec. replace (s * 1 + 0) with s by lia. cbn [mu3 fst snd]. pose proof (xz_bound s Hs) as B.
    assert (Im : image xc Mc (zero 0) s (xc s)). { apply image_z; [unfold zero; lia|exact Hs|]. exists 0, 0, 0. repeat split; try reflexivity. rewrite xc_z by exact Hs. cbn [Z.eqb]. apply inject_Z_injective. unfold zero, xz at 3. cbn. lia. }
    assert (Ls : (len2 (xc s) == inject_Z (xz s * xz s))%Q). { rewrite (len2_z _ (xz s) 0 0); try (rewrite xc_z by exact Hs; reflexivity). apply inject_Z_injective. lia. }
    assert (Mn : forall w, image xc Mc (zero 0) s w -> (len2 (xc s) <= len2 w)%Q).
    { intros w Hw. apply image_z in Hw; [|unfold zero; lia|exact Hs]. destruct Hw as [n0 [n1 [n2 [H0 [H1 H2]]]]]. rewrite Ls, (len2_z _ _ _ _ H0 H1 H2). rewrite <- Zle_Qle. change (xz (zero 0)) with 0. rewrite Z.sub_0_r. assert (n0 = 0 \/ n0 <= -1 \/ 1 <= n0) by lia. nia. }
    assert (V : forall a, 0 <= a < 1 -> xc (s + a) = xc s) by (intros a Ha; replace (s + a) with s by lia; reflexivity).
    split; [lia|]. split; [intros a Ha; rewrite V by exact Ha; split; [exact Im|]; exists (xc s); split; [exact Im|]; split; [exact Mn|lra]|]. split; [|intros; lia].
    intros w [Hw [m [Hm [Hmin Hlt]]]]. exists 0. split; [lia|]. rewrite V by lia. pose proof (Hmin _ Im) as Hm1. apply image_z in Hw; [|unfold zero; lia|exact Hs]. destruct Hw as [n0 [n1 [n2 [H0 [H1 H2]]]]]. change (xz (zero 0)) with 0 in H0. rewrite Z.sub_0_r in H0.
    assert (Lw := len2_z _ _ _ _ H0 H1 H2). assert (Lt : (inject_Z ((xz s + 3 * n0) * (xz s + 3 * n0) + n1 * n1 + n2 * n2) < inject_Z (xz s * xz s + 1))%Q). { rewrite <- Lw, inject_Z_plus, <- Ls. change (inject_Z 1) with 1%Q. lra. }
    rewrite <- Zlt_Qlt in Lt. assert (N0 : n0 = 0) by (assert (n0 = 0 \/ n0 <= -1 \/ 1 <= n0) by lia; nia). subst n0. assert (N1 : n1 = 0) by nia. assert (N2 : n2 = 0) by nia. subst n1 n2.
    intros c Hc. rewrite xc_z by exact Hs. three c; cbn [Z.eqb Pos.eqb]; [rewrite H0|exact H1|exact H2]. apply inject_Z_injective. lia.
Qed.
(** fc3 of the chain: a bond pattern times a tensor *)
Definition pattern (A B C D : Q) (a b c : Z) : Q :=
  let u := (b - a) mod 3 in let v := (c - a) mod 3 in
  if u =? v then (if u =? 0 then A else if u =? 1 then C else B)
  else if (u =? 0) || (v =? 0) then (if u + v =? 1 then B else C) else D.
Definition tensor (l m n : Z) : Q :=
  let k i := (if l =? i then 1 else 0) + (if m =? i then 1 else 0) + (if n =? i then 1 else 0) in
  if k 0 =? 3 then 1%Q else if (k 0 =? 1) && ((k 1 =? 2) || (k 2 =? 2)) then 2%Q else 0%Q.
Definition F3 (A B C D : Q) (x y z : Z * Z) : Q := (pattern A B C D (fst x) (fst y) (fst z) * tensor (snd x) (snd y) (snd z))%Q.
(** as a compact array *)
Definition fc (A B C D : Q) (r : Z) : Q := F3 A B C D (0, r / 9 mod 3) (r / 81 mod 3, r / 3 mod 3) (r / 27 mod 3, r mod 3).
Lemma fc_represents : forall A B C D, represents 1 3 zero true (fc A B C D) (F3 A B C D).
Proof.
  intros A B C D i s t l m n Hi Hs Ht Hl Hm Hn. assert (i = 0) as -> by lia. unfold fc3_at, fc. replace ((((0 * 3 + s) * 3 + t) * 27) + (l * 9 + m * 3 + n)) with ((((s * 3 + t) * 3 + l) * 3 + m) * 3 + n) by lia.
  assert (D1 : forall x y, 0 <= y < 3 -> (x * 3 + y) / 3 = x) by (intros x y Hy; symmetry; apply (Z.div_unique_pos _ _ _ y); lia). assert (D2 : forall x y, 0 <= y < 3 -> (x * 3 + y) mod 3 = y) by (intros x y Hy; symmetry; apply (Z.mod_unique_pos _ _ x y); lia).
  change 9 with (3 * 3). change 27 with (3 * 3 * 3). change 81 with (3 * 3 * 3 * 3). rewrite <- !Z.div_div by lia. rewrite !D1, !D2 by assumption. replace (s mod 3) with s by (symmetry; apply Z.mod_small; lia). reflexivity.
Qed.
Lemma pattern_move : forall A B C D u a b c, pattern A B C D (shift3 u a) (shift3 u b) (shift3 u c) = pattern A B C D a b c.
Proof.
  intros. unfold pattern, shift3. rewrite <- !Zminus_mod. replace (b + u - (a + u)) with (b - a) by lia. replace (c + u - (a + u)) with (c - a) by lia. reflexivity.
Qed.
Lemma F3_invariant : forall A B C D, invariant3 3 3 shift3 (F3 A B C D).
Proof. intros A B C D u a b c l m n _ _ _ _ _ _ _. unfold F3. cbn [fst snd]. rewrite pattern_move. reflexivity. Qed.
Lemma F3_symmetric : forall A B C D, symmetric3 3 (F3 A B C D).
Proof.
  intros A B C D [a l] [b m] [c n] [Ha Hl] [Hb Hm] [Hc Hn]. cbn [fst snd] in *. unfold F3. cbn [fst snd].
  assert (P : pattern A B C D a b c = pattern A B C D b a c /\ pattern A B C D a b c = pattern A B C D a c b) by (three a; three b; three c; split; reflexivity).
  assert (T : tensor l m n = tensor m l n /\ tensor l m n = tensor l n m) by (three l; three m; three n; split; reflexivity). destruct P as [P1 P2], T as [T1 T2]. rewrite <- P1, <- P2, <- T1, <- T2. split; reflexivity.
Qed.
(** the operation that turns the first axis round and exchanges the others *)
Definition Wc (a c : Z) : Z := if a =? 0 then (if c =? 0 then -1 else 0) else if c =? 3 - a then 1 else 0.
Definition Rc (a c : Z) : Q := inject_Z (Wc a c).
Definition idz (i : Z) : Z := i.
Lemma chain_operation : operation xc Mc len2 1 3 (fun s => zero (zero s)) Wc Wc Rc home3 home3 idz idz.
Proof.
  assert (Ap : forall v c, mapply Wc v c = (inject_Z (Wc c 0) * v 0%Z + inject_Z (Wc c 1) * v 1%Z + inject_Z (Wc c 2) * v 2%Z)%Q) by reflexivity.
  assert (E0 : forall v, (mapply Wc v 0%Z == - v 0%Z)%Q) by (intros; rewrite Ap; unfold Wc; cbn [Z.eqb Z.sub Z.opp Z.add Z.pos_sub Pos.eqb Pos.pred_double]; change (inject_Z (-1)) with (-1)%Q; change (inject_Z 0) with 0%Q; ring).
  assert (E1 : forall v, (mapply Wc v 1%Z == v 2%Z)%Q) by (intros; rewrite Ap; change (Wc 1 0) with 0; change (Wc 1 1) with 0; change (Wc 1 2) with 1; change (inject_Z 1) with 1%Q; change (inject_Z 0) with 0%Q; ring).
  assert (E2 : forall v, (mapply Wc v 2%Z == v 1%Z)%Q) by (intros; rewrite Ap; change (Wc 2 0) with 0; change (Wc 2 1) with 1; change (Wc 2 2) with 0; change (inject_Z 1) with 1%Q; change (inject_Z 0) with 0%Q; ring).
  assert (I : forall v, veq (mapply Wc (mapply Wc v)) v) by (intros v c Hc; three c; [rewrite E0, E0; ring|rewrite E1, E2; reflexivity|rewrite E2, E1; reflexivity]).
  assert (Hm : forall s, 0 <= s < 3 -> 0 <= home3 s < 3 /\ home3 (home3 s) = s /\ xz (home3 s) = - xz s) by (intros s Hs; three s; cbn; repeat split; lia).
  constructor.
  - intros v. split; apply I.
  - intros v. unfold len2. rewrite E0, E1, E2. ring.
  - intros s Hs. destruct (Hm s Hs) as [H1 [H2 _]]. auto.
  - intros i Hi. unfold idz. auto.
  - reflexivity.
  - intros a b v Ha Hb. destruct (Hm a Ha) as [A1 [_ A2]]. destruct (Hm b Hb) as [B1 [_ B2]]. rewrite !image_z by assumption. rewrite A2, B2. split; intros [n0 [n1 [n2 [H0 [H1 H2]]]]]; exists (- n0), n2, n1.
    + rewrite E0, E1, E2, H0. repeat split; try assumption. rewrite <- inject_Z_opp. apply inject_Z_injective. lia.
    + rewrite E0 in H0. rewrite E1 in H1. rewrite E2 in H2. repeat split; try assumption. rewrite <- (Qopp_opp (v 0)), H0, <- inject_Z_opp. apply inject_Z_injective. lia.
  - intros a b Ha Hb. three a; three b; reflexivity.
Qed.
(** bonds are odd under it *)
Lemma F3_covariant : forall B, covariant3 3 Rc home3 (F3 0 B (- B) 0).
Proof.
  intros B a b c l m n Ha Hb Hc Hl Hm Hn. unfold F3. cbn [fst snd]. assert (P : (pattern 0 B (- B) 0 (home3 a) (home3 b) (home3 c) == - pattern 0 B (- B) 0 a b c)%Q) by (three a; three b; three c; cbn; ring). rewrite P.
  assert (T : (Rturn3 Rc tensor l m n == - tensor l m n)%Q) by (three l; three m; three n; reflexivity). set (p := pattern 0 B (- B) 0 a b c).
  transitivity (p * Rturn3 Rc tensor l m n)%Q; [rewrite T; ring|]. unfold Rturn3. rewrite !Sum3. ring.
Qed.
(** a triplet with a reciprocal lattice vector, and the turned one *)
Definition q3 (a : Z) : Z -> Q := match a with 0 => v3 (1 # 4) (1 # 4) 0 | 1 => v3 (1 # 4) 0 0 | _ => v3 (1 # 2) (-1 # 4) 0 end.
Definition q3' (a : Z) : Z -> Q := match a with 0 => v3 (-1 # 4) 0 (1 # 4) | 1 => v3 (-1 # 4) 0 0 | _ => v3 (-1 # 2) 0 (-1 # 4) end.
Lemma q3_good : good_triplet quarters 1 3 xc mu3 q3 /\ good_triplet quarters 1 3 xc mu3 q3'.
Proof.
  assert (X : forall q : Z -> Z -> Q, (forall a s, 0 <= a < 3 -> 0 <= s < 3 -> quarters (vdot (q a) (xc s))) -> forall a p s b, 0 <= a < 3 -> 0 <= p < 1 -> 0 <= s < 3 -> 0 <= b < tab_mult 1 mu3 p s -> quarters (vdot (q a) (tab_vec 1 xc mu3 p s b))).
  { intros q H a p s b Ha Hp Hs Hb. unfold tab_mult, tab_vec in *. cbn [mu3 fst snd] in *. replace (s * 1 + p + b) with s by lia. now apply H. }
  split; (split; [apply X; intros a s Ha Hs; three a; three s; apply quarters_check; reflexivity|]); [exists (w3 1 0 0)|exists (w3 (-1) 0 0)]; intros c Hc; three c; reflexivity.
Qed.
Lemma q3_rotated : rotated_q Wc q3 q3'.
Proof. intros a v Ha. unfold vdot, mapply. change (Wc 0 0) with (-1); change (Wc 0 1) with 0; change (Wc 0 2) with 0; change (Wc 1 0) with 0; change (Wc 1 1) with 0; change (Wc 1 2) with 1; change (Wc 2 0) with 0; change (Wc 2 1) with 1; change (Wc 2 2) with 0. change (inject_Z 1) with 1%Q. change (inject_Z 0) with 0%Q. change (inject_Z (-1)) with (-1)%Q. three a; cbn [q3 q3' v3]; ring. Qed.
(** executions: one after the other *)
Definition exec_legacy np ns f svecs multi p2s s2p comp sh q (M : Z -> cplx) : Z -> cplx := run_seq Z.eq_dec (map (legacy_iteration qcis np ns f svecs multi p2s s2p comp sh q) (zrange (np * np * np))) (zeroed np M).
Definition exec_average np ns f svecs multi p2s s2p comp sh q (M : Z -> cplx) : Z -> cplx := third np (run_seq Z.eq_dec (map (average_iteration qcis np ns f svecs multi p2s s2p comp sh q) (zrange (np * np * np))) (zeroed np M)).
Lemma exec_legacy_ok : forall np ns f svecs multi p2s s2p comp sh q M, real_to_reciprocal qcis np ns f svecs multi p2s s2p comp sh false q M (exec_legacy np ns f svecs multi p2s s2p comp sh q M).
Proof. intros. unfold real_to_reciprocal. apply seq_finishes. Qed.
Lemma exec_average_ok : forall np ns f svecs multi p2s s2p comp sh q M, real_to_reciprocal qcis np ns f svecs multi p2s s2p comp sh true q M (exec_average np ns f svecs multi p2s s2p comp sh q M).
Proof. intros. unfold real_to_reciprocal. eexists. split; [apply seq_finishes|reflexivity]. Qed.
Definition garbage (_ : Z) : cplx := C 7 7.
Definition none (_ : Z) : bool := false.
Definition leg3 (f : Z -> Q) (sh : Z -> bool) q := exec_legacy 1 3 f xc mu3 zero zero true sh q garbage.
Definition avg3 (f : Z -> Q) (sh : Z -> bool) q := exec_average 1 3 f xc mu3 zero zero true sh q garbage.
Definition at3 (M : Z -> cplx) (l m n : Z) : Q * Q := show (rec_at 1 M 0 l 0 m 0 n).
Definition kit (i z : Z) : cplx := if (i =? 0) && (z =? 0) then c1 else c0.
Definition one1 (_ : Z) : Q := 1%Q.
Definition st3 (M : Z -> cplx) : Q := strength one1 (1 * 3) 0 (cube_of (1 * 3) M) one1 one1 one1 kit kit kit 0 0 0.
Definition f1 := fc 1 (-1) 0 1.
Definition f2 := fc 0 1 (-1) 0.
Definition q4 (a : Z) : Z -> Q := q3 (2 - a).
Definition qneg (a c : Z) : Q := (- q3 a c)%Q.
(** the acoustic sum rule holds for both *)
Lemma f_sums : last_sum_zero 1 3 (fc3_at 3 zero true f1) /\ last_sum_zero 1 3 (fc3_at 3 zero true f2).
Proof. split; intros i s l m n Hi Hs Hl Hm Hn; assert (i = 0) as -> by lia; three s; three l; three m; three n; reflexivity. Qed.
Lemma f1_last_two : last_two 1 3 (fc3_at 3 zero true f1).
Proof. intros i s t l m n Hi Hs Ht Hl Hm Hn. assert (i = 0) as -> by lia. pose proof (fc_represents 1 (-1) 0 1) as H. unfold represents in H. unfold f1. rewrite (H 0 s t l m n), (H 0 t s l n m) by lia. apply (F3_symmetric 1 (-1) 0 1); split; unfold zero; cbn [fst snd]; lia. Qed.

Print Assumptions C80_legacy. Print Assumptions C80_average. Print Assumptions C80_compact.
Example C80_ex : proper_cis qcis /\ real_to_reciprocal qcis 1 3 f1 xc mu3 zero zero true none false q3 garbage (leg3 f1 none q3) /\ real_to_reciprocal qcis 1 3 f1 xc mu3 zero zero true none true q3 garbage (avg3 f1 none q3) /\
  at3 (leg3 f1 none q3) 0 0 0 = (2, -2)%Q /\ at3 (avg3 f1 none q3) 0 0 0 = (8 # 3, -2)%Q.
Proof. split; [exact qcis_proper|]. split; [apply exec_legacy_ok|]. split; [apply exec_average_ok|]. vm_compute. auto. Qed.

Definition sh3 (a : Z) : bool := is_shortest len2 1 xc mu3 zero zero zero 3 shift3 (1 # 10) (Z.quot a (3 * 3)) (Z.rem (Z.quot a 3) 3) (Z.rem a 3).
Lemma sh3_ok : get_all_shortest len2 1 3 xc mu3 zero zero zero 3 shift3 (1 # 10) = Some sh3.
Proof. unfold get_all_shortest. match goal with |- (if ?b then _ else _) = _ => replace b with true by (vm_compute; reflexivity) end. reflexivity. Qed.
Print Assumptions C82_shortcut. Print Assumptions C82_assert.
(** some triplets of the chain close, some do not, and the averages agree *)
Example C82_ex : exists sh, crystal xc Mc len2 (1 # 10) 1 3 3 shift3 xc mu3 zero zero zero home3 /\ turns quarters qcis /\ good_triplet quarters 1 3 xc mu3 q3 /\ represents 1 3 zero true f1 (F3 1 (-1) 0 1) /\ symmetric3 3 (F3 1 (-1) 0 1) /\ invariant3 3 3 shift3 (F3 1 (-1) 0 1) /\
  get_all_shortest len2 1 3 xc mu3 zero zero zero 3 shift3 (1 # 10) = Some sh /\ map sh (zrange 9) = [true; true; true; true; true; false; true; false; true] /\ real_to_reciprocal qcis 1 3 f1 xc mu3 zero zero true sh true q3 garbage (avg3 f1 sh q3) /\ at3 (avg3 f1 sh q3) 0 0 0 = (8 # 3, -2)%Q.
Proof.
  exists sh3. split; [exact chain_crystal|]. split; [exact qcis_turns|]. split; [apply q3_good|]. split; [apply fc_represents|]. split; [apply F3_symmetric|]. split; [apply F3_invariant|]. split; [exact sh3_ok|]. split; [vm_compute; reflexivity|]. split; [apply exec_average_ok|vm_compute; reflexivity].
Qed.
(** without the symmetry of fc3 under exchange of atoms the shortcut is not the average *)
Definition odd_fc (r : Z) : Q := if r =? 27 then 1%Q else 0%Q.
Theorem C82_asymmetric_refuted : exists sh, crystal xc Mc len2 (1 # 10) 1 3 3 shift3 xc mu3 zero zero zero home3 /\ turns quarters qcis /\ good_triplet quarters 1 3 xc mu3 q3 /\ get_all_shortest len2 1 3 xc mu3 zero zero zero 3 shift3 (1 # 10) = Some sh /\
  real_to_reciprocal qcis 1 3 odd_fc xc mu3 zero zero true sh true q3 garbage (avg3 odd_fc sh q3) /\ ~ rec_at 1 (avg3 odd_fc sh q3) 0 0 0 0 0 0 =c= r0_average qcis 1 3 xc mu3 zero zero (fc3_at 3 zero true odd_fc) q3 0 0 0 0 0 0.
Proof.
  exists sh3. split; [exact chain_crystal|]. split; [exact qcis_turns|]. split; [apply q3_good|]. split; [exact sh3_ok|]. split; [apply exec_average_ok|]. intros [H _]. vm_compute in H. discriminate.
Qed.
Print Assumptions C82_asymmetric_refuted.

Print Assumptions C83_exchange. Print Assumptions C83_shortcut. Print Assumptions C83_legacy_partial.
Example C83_ex : last_two 1 3 (fc3_at 3 zero true f1) /\ real_to_reciprocal qcis 1 3 f1 xc mu3 zero zero true none true q4 garbage (avg3 f1 none q4) /\ real_to_reciprocal qcis 1 3 f1 xc mu3 zero zero true none true (swap01 q4) garbage (avg3 f1 none (swap01 q4)) /\
  real_to_reciprocal qcis 1 3 f1 xc mu3 zero zero true none true (swap12 q4) garbage (avg3 f1 none (swap12 q4)) /\ (st3 (avg3 f1 none q4) == 100 # 9)%Q /\ (st3 (avg3 f1 none (swap01 q4)) == 100 # 9)%Q.
Proof. split; [exact f1_last_two|]. split; [apply exec_average_ok|]. split; [apply exec_average_ok|]. split; [apply exec_average_ok|]. split; vm_compute; reflexivity. Qed.
(** without the average, the strength changes when the first two phonons are exchanged *)
Theorem C83_legacy_refuted : exists M M', crystal xc Mc len2 (1 # 10) 1 3 3 shift3 xc mu3 zero zero zero home3 /\ represents 1 3 zero true f1 (F3 1 (-1) 0 1) /\ symmetric3 3 (F3 1 (-1) 0 1) /\ invariant3 3 3 shift3 (F3 1 (-1) 0 1) /\ last_sum_zero 1 3 (fc3_at 3 zero true f1) /\
  real_to_reciprocal qcis 1 3 f1 xc mu3 zero zero true none false q4 garbage M /\ real_to_reciprocal qcis 1 3 f1 xc mu3 zero zero true none false (swap01 q4) garbage M' /\ ~ (st3 M == st3 M')%Q.
Proof.
  exists (leg3 f1 none q4), (leg3 f1 none (swap01 q4)). split; [exact chain_crystal|]. split; [apply fc_represents|]. split; [apply F3_symmetric|]. split; [apply F3_invariant|]. split; [apply f_sums|]. split; [apply exec_legacy_ok|]. split; [apply exec_legacy_ok|]. intros H. vm_compute in H. discriminate.
Qed.
Print Assumptions C83_legacy_refuted.

(** a triplet with a phonon at Gamma *)
Definition qg (a : Z) : Z -> Q := match a with 0 => v3 (1 # 4) 0 0 | 1 => v3 (-1 # 4) 0 0 | _ => v3 0 0 0 end.
Definition uni (_ : Z) : cplx := c1.
Print Assumptions C85_partial.
Example C85_ex : last_sum_zero 1 3 (fc3_at 3 zero true f1) /\ (forall c, 0 <= c < 3 -> (qg 2%Z c == 0)%Q) /\ (forall y, (y == 0)%Q -> qcis y =c= c1) /\ (forall p s, 0 <= p < 1 -> 0 <= s < 3 -> 0 < tab_mult 1 mu3 p s) /\ (forall s, 0 <= s < 3 -> exists k, 0 <= k < 1 /\ zero s = zero k) /\
  real_to_reciprocal qcis 1 3 f1 xc mu3 zero zero true none false qg garbage (leg3 f1 none qg) /\ amplitude 3 uni uni uni (cube_of 3 (leg3 f1 none qg)) =c= c0.
Proof.
  split; [apply f_sums|]. split; [intros c Hc; three c; reflexivity|]. split; [intros y H; rewrite (qcis_proper _ _ H); reflexivity|]. split; [intros; reflexivity|]. split; [intros; exists 0; split; [lia|reflexivity]|]. split; [apply exec_legacy_ok|]. split; vm_compute; reflexivity.
Qed.
(** with the average, an acoustic mode at Gamma interacts; and without it, one at the first place does *)
Theorem C85_refuted : exists M M', crystal xc Mc len2 (1 # 10) 1 3 3 shift3 xc mu3 zero zero zero home3 /\ represents 1 3 zero true f1 (F3 1 (-1) 0 1) /\ symmetric3 3 (F3 1 (-1) 0 1) /\ invariant3 3 3 shift3 (F3 1 (-1) 0 1) /\ last_sum_zero 1 3 (fc3_at 3 zero true f1) /\
  real_to_reciprocal qcis 1 3 f1 xc mu3 zero zero true none true qg garbage M /\ ~ amplitude 3 uni uni uni (cube_of 3 M) =c= c0 /\
  real_to_reciprocal qcis 1 3 f1 xc mu3 zero zero true none false (fun a => qg (2 - a)) garbage M' /\ ~ amplitude 3 uni uni uni (cube_of 3 M') =c= c0.
Proof.
  exists (avg3 f1 none qg), (leg3 f1 none (fun a => qg (2 - a))). split; [exact chain_crystal|]. split; [apply fc_represents|]. split; [apply F3_symmetric|]. split; [apply F3_invariant|]. split; [apply f_sums|]. split; [apply exec_average_ok|]. split; [intros [H _]; vm_compute in H; discriminate|]. split; [apply exec_legacy_ok|]. intros [H _]. vm_compute in H. discriminate.
Qed.
Print Assumptions C85_refuted.

Print Assumptions C86_reverse. Print Assumptions C86_strength.
Example C86_ex : even_odd qcis /\ (forall a c, 0 <= a < 3 -> 0 <= c < 3 -> (qneg a c == - q3 a c)%Q) /\ real_to_reciprocal qcis 1 3 f2 xc mu3 zero zero true none false q3 garbage (leg3 f2 none q3) /\ real_to_reciprocal qcis 1 3 f2 xc mu3 zero zero true none false qneg garbage (leg3 f2 none qneg) /\
  at3 (leg3 f2 none q3) 0 1 1 = (0, 8)%Q /\ at3 (leg3 f2 none qneg) 0 1 1 = (0, -8)%Q.
Proof. split; [exact qcis_even_odd|]. split; [reflexivity|]. split; [apply exec_legacy_ok|]. split; [apply exec_legacy_ok|]. vm_compute. auto. Qed.

Print Assumptions C87_legacy. Print Assumptions C87_average. Print Assumptions C87_shortcut. Print Assumptions C87_strength.
Example C87_ex : crystal xc Mc len2 (1 # 10) 1 3 3 shift3 xc mu3 zero zero zero home3 /\ operation xc Mc len2 1 3 (fun s => zero (zero s)) Wc Wc Rc home3 home3 idz idz /\ represents 1 3 zero true f2 (F3 0 1 (-1) 0) /\ invariant3 3 3 shift3 (F3 0 1 (-1) 0) /\ covariant3 3 Rc home3 (F3 0 1 (-1) 0) /\ rotated_q Wc q3 q3' /\
  good_triplet quarters 1 3 xc mu3 q3 /\ good_triplet quarters 1 3 xc mu3 q3' /\ (forall z, quarters z -> (cnorm2 (qcis z) == 1)%Q) /\ real_to_reciprocal qcis 1 3 f2 xc mu3 zero zero true none false q3 garbage (leg3 f2 none q3) /\ real_to_reciprocal qcis 1 3 f2 xc mu3 zero zero true none false q3' garbage (leg3 f2 none q3') /\
  at3 (leg3 f2 none q3) 0 1 1 = (0, 8)%Q /\ at3 (leg3 f2 none q3') 0 2 2 = (0, -8)%Q.
Proof.
  split; [exact chain_crystal|]. split; [exact chain_operation|]. split; [apply fc_represents|]. split; [apply F3_invariant|]. split; [exact (F3_covariant 1)|]. split; [exact q3_rotated|]. split; [apply q3_good|]. split; [apply q3_good|]. split; [exact quarter_unit|]. split; [apply exec_legacy_ok|]. split; [apply exec_legacy_ok|]. vm_compute. auto.
Qed.

(** ** two atoms at 0 and a/2 *)
Definition x2 (s c : Z) : Q := if (c =? 0) && (s =? 1) then (1 # 2)%Q else 0%Q.
Definition mu22 (r : Z) : Z * Z := match r with 0 => (1, 0) | 1 => (2, 1) | 2 => (2, 1) | _ => (1, 0) end.
Definition sv22 (a : Z) : Z -> Q := match a with 0 => v3 0 0 0 | 1 => v3 (1 # 2) 0 0 | _ => v3 (-1 # 2) 0 0 end.
Definition fc22 (r : Z) : Q := if r mod 27 =? 0 then (if Z.even (r / 27 mod 2 + r / 54 mod 2 + r / 108 mod 2) then 1 else -1)%Q else 0%Q.
Definition leg2 q := exec_legacy 2 2 fc22 sv22 mu22 id2 id2 false none q garbage.
Definition both (i z : Z) : cplx := if (i mod 3 =? 0) && (z =? 0) then c1 else c0.
Definition st2 (phi : Z -> Z -> Z -> cplx) : Q := strength one1 6 0 phi one1 one1 one1 both both both 0 0 0.
Definition at2 (M : Z -> cplx) (i j k : Z) : Q * Q := show (rec_at 2 M i 0 j 0 k 0).
Definition mesh2 : Z -> Z := w3 4 1 1.
Definition py2 (adr : Z -> Z -> Z) (a b c : Z) := py_real_to_reciprocal qcis 2 2 fc22 sv22 mu22 id2 id2 mesh2 x2 adr (a / 3) (b / 3) (c / 3) (a mod 3) (b mod 3) (c mod 3).
Print Assumptions C84_partial.
Definition adr_ok (a : Z) : Z -> Z := match a with 0 => w3 (-2) 0 0 | 1 => w3 2 0 0 | _ => w3 4 0 0 end.
Definition sum_ok (c : Z) : Q := (wave mesh2 adr_ok 0%Z c + wave mesh2 adr_ok 1%Z c + wave mesh2 adr_ok 2%Z c)%Q.
Example C84_ex : turns quarters qcis /\ (forall c, 0 <= c < 3 -> 0 < mesh2 c) /\ (forall c, 0 <= c < 3 -> (adr_ok 0 c <> 0 /\ adr_ok 1 c <> 0 /\ adr_ok 2 c <> 0) \/ adr_ok 0 c + adr_ok 1 c + adr_ok 2 c = 0) /\
  (forall i, 0 <= i < 2 -> quarters (vdot sum_ok (tab_vec 2 sv22 mu22 0 (id2 i) 0)) /\ exists n, (vdot sum_ok (x2 i) == vdot sum_ok (x2 0) + vdot sum_ok (tab_vec 2 sv22 mu22 0 (id2 i) 0) + inject_Z n)%Q) /\ quarters (vdot sum_ok (x2 0)) /\
  real_to_reciprocal qcis 2 2 fc22 sv22 mu22 id2 id2 false none false (wave mesh2 adr_ok) garbage (leg2 (wave mesh2 adr_ok)) /\ at2 (leg2 (wave mesh2 adr_ok)) 1 0 0 = show (py2 adr_ok 3 0 0) /\ at2 (leg2 (wave mesh2 adr_ok)) 1 1 1 = (1, 0)%Q /\ show (py2 adr_ok 3 3 3) = (1, 0)%Q.
Proof.
  split; [exact qcis_turns|]. split; [intros c Hc; three c; reflexivity|]. split; [intros c Hc; three c; [left; cbn; repeat split; lia|right; reflexivity|right; reflexivity]|]. split.
  { intros i Hi. assert (E : i = 0 \/ i = 1) by lia. destruct E as [-> | ->]; (split; [apply quarters_check; reflexivity|exists 0; reflexivity]). }
  split; [apply quarters_check; reflexivity|]. split; [apply exec_legacy_ok|]. split; [|split]; vm_compute; reflexivity.
Qed.
(** addresses 0, 2 and 2 of a mesh of 4: the Python version forgets the reciprocal lattice vector *)
Definition adr2 (a : Z) : Z -> Z := match a with 0 => w3 0 0 0 | _ => w3 2 0 0 end.
Theorem C84_refuted : exists M', (forall c, 0 <= c < 3 -> (adr2 0 c + adr2 1 c + adr2 2 c) mod mesh2 c = 0) /\ (forall i c, 0 <= i < 2 -> 0 <= c < 3 -> (sv22 (snd (mu22 (i * 2))) c == x2 i c)%Q) /\
  real_to_reciprocal qcis 2 2 fc22 sv22 mu22 id2 id2 false none false (wave mesh2 adr2) garbage M' /\ ~ (st2 (cube_of 6 M') == st2 (py2 adr2))%Q.
Proof.
  exists (leg2 (wave mesh2 adr2)). split; [intros c Hc; three c; reflexivity|]. split; [intros i c Hi Hc; assert (E : i = 0 \/ i = 1) by lia; destruct E as [-> | ->]; three c; reflexivity|]. split; [apply exec_legacy_ok|]. intros H. vm_compute in H. discriminate.
Qed.
Print Assumptions C84_refuted.

(** adding a reciprocal lattice vector to the second wave vector, and taking it from the third *)
Definition q2 (a : Z) : Z -> Q := match a with 0 => v3 0 0 0 | 1 => v3 (1 # 2) 0 0 | _ => v3 (-1 # 2) 0 0 end.
Definition q2' (a : Z) : Z -> Q := match a with 0 => v3 0 0 0 | 1 => v3 (3 # 2) 0 0 | _ => v3 (-1 # 2) 0 0 end.
Definition g2 (a : Z) : Z -> Z := match a with 1 => w3 1 0 0 | _ => w3 0 0 0 end.
Print Assumptions C81_shift. Print Assumptions C81_strength.
Example C81_ex : turns quarters qcis /\ (forall a c, 0 <= a < 3 -> 0 <= c < 3 -> (q2' a c == q2 a c + inject_Z (g2 a c))%Q) /\
  (forall a p s j b, 0 <= a < 3 -> 0 <= p < 2 -> 0 <= s < 2 -> 0 <= j < 2 -> id2 s = id2 j -> 0 <= b < tab_mult 2 mu22 p s -> quarters (vdot (q2 a) (tab_vec 2 sv22 mu22 p s b)) /\ exists n : Z -> Z, forall c, 0 <= c < 3 -> (tab_vec 2 sv22 mu22 p s b c == x2 j c - x2 p c + inject_Z (n c))%Q) /\
  (forall a i j, 0 <= a < 3 -> 0 <= i < 2 -> 0 <= j < 2 -> quarters (vdot (lift (g2 a)) (from_to x2 i j))) /\
  real_to_reciprocal qcis 2 2 fc22 sv22 mu22 id2 id2 false none false q2 garbage (leg2 q2) /\ real_to_reciprocal qcis 2 2 fc22 sv22 mu22 id2 id2 false none false q2' garbage (leg2 q2') /\
  at2 (leg2 q2) 0 0 0 = (1, 0)%Q /\ at2 (leg2 q2') 0 0 0 = (1, 0)%Q /\ at2 (leg2 q2) 1 1 1 = (-1, 0)%Q /\ at2 (leg2 q2') 1 1 1 = (1, 0)%Q.
Proof.
  split; [exact qcis_turns|]. split; [intros a c Ha Hc; three a; three c; reflexivity|]. split.
  - intros a p s j b Ha Hp Hs Hj Ej Hb. unfold id2 in Ej. subst j. assert (E : p = 0 \/ p = 1) by lia. assert (E' : s = 0 \/ s = 1) by lia. unfold tab_mult in Hb.
    split; [|exists (fun c => Qnum (Qred (tab_vec 2 sv22 mu22 p s b c - (x2 s c - x2 p c)))); intros c Hc]; destruct E as [-> | ->], E' as [-> | ->]; cbn in Hb; (assert (Eb : b = 0 \/ b = 1) by lia; destruct Eb as [-> | ->]; try lia); try (three a; apply quarters_check; reflexivity); three c; vm_compute; reflexivity.
  - split; [|split; [apply exec_legacy_ok|split; [apply exec_legacy_ok|vm_compute; auto]]]. intros a i j Ha Hi Hj. assert (E : i = 0 \/ i = 1) by lia. assert (E' : j = 0 \/ j = 1) by lia. destruct E as [-> | ->], E' as [-> | ->]; three a; apply quarters_check; reflexivity.
Qed.
