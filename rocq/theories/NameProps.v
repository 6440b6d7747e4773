From Coq Require Import ZArith QArith Qround Qabs String Ascii DecimalN List Bool Lia Lqa.
From Verif Require Import Base BaseProofs NameModel.
Import ListNotations.
Open Scope Z_scope.

(** ** Splitting texts *)
Definition isdig (c : ascii) : Prop := (48 <= nat_of_ascii c <= 57)%nat.
Definition isnum (c : ascii) : Prop := isdig c \/ c = "."%char.
Definition stops (P : ascii -> Prop) (r : text) : Prop := match r with [] => True | c :: _ => ~ P c end.
Lemma split_at : forall (P : ascii -> Prop) a b r s, Forall P a -> Forall P b -> stops P r -> stops P s -> a ++ r = b ++ s -> a = b /\ r = s.
Proof.
  intros P. induction a as [|x a IH]; intros [|y b] r s Ha Hb Hr Hs E; [auto|..].
  - cbn in E. subst r. exfalso. apply Hr. now inversion Hb.
  - cbn in E. subst s. exfalso. apply Hs. now inversion Ha.
  - cbn in E. injection E as E1 E2. inversion Ha; inversion Hb; subst. destruct (IH b r s) as [-> ->]; auto.
Qed.
Lemma utext_inj : forall a b, utext a = utext b -> a = b.
Proof. induction a; intros b H; destruct b; cbn in H; try discriminate H; try reflexivity; injection H as H; f_equal; auto. Qed.
Lemma udec_inj : forall m n, udec m = udec n -> m = n.
Proof. intros m n H. apply utext_inj in H. exact (DecimalN.Unsigned.to_uint_inj _ _ H). Qed.
Lemma utext_dig : forall d, Forall isdig (utext d).
Proof. induction d; cbn; constructor; auto; unfold isdig; cbn; lia. Qed.
Lemma udec_dig : forall n, Forall isdig (udec n).
Proof. intros. apply utext_dig. Qed.
Lemma dec_pos : forall z, 0 <= z -> dec z = udec (Z.to_N z).
Proof. intros z H. unfold dec. destruct (Z.ltb_spec z 0); [lia|reflexivity]. Qed.
Lemma dec_dig : forall z, 0 <= z -> Forall isdig (dec z).
Proof. intros z H. rewrite dec_pos by exact H. apply udec_dig. Qed.
Lemma dec_inj : forall a b, 0 <= a -> 0 <= b -> dec a = dec b -> a = b.
Proof. intros a b Ha Hb E. rewrite !dec_pos in E by assumption. apply udec_inj in E. lia. Qed.
Lemma digit_code : forall d, 0 <= d < 10 -> nat_of_ascii (digit d) = (48 + Z.to_nat d)%nat.
Proof. intros d H. unfold digit. apply nat_ascii_embedding. lia. Qed.
Lemma digit_inj : forall a b, 0 <= a < 10 -> 0 <= b < 10 -> digit a = digit b -> a = b.
Proof. intros a b Ha Hb E. apply (f_equal nat_of_ascii) in E. rewrite !digit_code in E by assumption. lia. Qed.
Lemma digit_dig : forall d, 0 <= d < 10 -> isdig (digit d).
Proof. intros d H. unfold isdig. rewrite digit_code by exact H. lia. Qed.
Lemma mod10 : forall m, 0 <= m mod 10 < 10. Proof. intros. apply Z.mod_pos_bound. lia. Qed.
Lemma padded_dig : forall w m, Forall isdig (padded w m).
Proof. induction w as [|w IH]; intros m; [constructor|]. cbn [padded]. apply Forall_app. split; [apply IH|]. constructor; [apply digit_dig, mod10|constructor]. Qed.
Lemma padded_length : forall w m, length (padded w m) = w.
Proof. induction w as [|w IH]; intros m; [reflexivity|]. cbn [padded]. rewrite app_length, IH. cbn. lia. Qed.
Lemma padded_inj : forall w m n, 0 <= m < 10 ^ Z.of_nat w -> 0 <= n < 10 ^ Z.of_nat w -> padded w m = padded w n -> m = n.
Proof.
  induction w as [|w IH]; intros m n Hm Hn E; [cbn in Hm, Hn; lia|]. cbn [padded] in E. apply app_inj_tail in E. destruct E as [E1 E2]. apply digit_inj in E2; [|apply mod10..].
  rewrite Nat2Z.inj_succ, Z.pow_succ_r in Hm, Hn by lia. apply IH in E1; [|split; [apply Z.div_pos; lia|apply Z.div_lt_upper_bound; lia]..].
  rewrite (Z.div_mod m 10), (Z.div_mod n 10) by lia. congruence.
Qed.
(** ** rstrip *)
Lemma rstrip_all : forall p s, Forall (fun c => p c = true) s -> rstrip p s = [].
Proof. intros p. induction s as [|c s IH]; intros H; [reflexivity|]. inversion H; subst. cbn. now rewrite IH, H2. Qed.
Lemma rstrip_split : forall p s, exists u, s = rstrip p s ++ u /\ Forall (fun c => p c = true) u.
Proof.
  intros p. induction s as [|c s [u [E H]]]; [exists []; split; [reflexivity|constructor]|]. cbn [rstrip]. destruct (rstrip p s) as [|x r] eqn:R.
  - cbn in E. subst u. destruct (p c) eqn:P; [exists (c :: s)|exists s]; split; auto.
  - exists u. split; [cbn; cbn in E; congruence|exact H].
Qed.
Lemma rstrip_last : forall p s c, p c = false -> rstrip p (s ++ [c]) = s ++ [c].
Proof.
  intros p s c H. induction s as [|x s IH]; [cbn; now rewrite H|]. cbn [app rstrip]. rewrite IH. destruct (s ++ [c]) eqn:E; [destruct s; discriminate E|reflexivity].
Qed.
Lemma rstrip_app : forall p a c b, p c = false -> rstrip p (a ++ c :: b) = a ++ c :: rstrip p b.
Proof.
  intros p a c b H. induction a as [|x a IH].
  - cbn. rewrite H. destruct (rstrip p b); reflexivity.
  - cbn [app rstrip]. rewrite IH. destruct (a ++ c :: rstrip p b) eqn:E; [destruct a; discriminate E|reflexivity].
Qed.
Lemma rstrip_nil_or : forall p s, rstrip p s = [] \/ exists a c, rstrip p s = a ++ [c] /\ p c = false /\ In c s.
Proof.
  intros p. induction s as [|c s IH]; [left; reflexivity|]. cbn [rstrip]. destruct IH as [E|[a [d [E [H Hi]]]]].
  - rewrite E. destruct (p c) eqn:P; [left; reflexivity|]. right. exists [], c. repeat split; auto. now left.
  - right. rewrite E. exists (c :: a), d. split; [destruct a; reflexivity|]. split; [exact H|now right].
Qed.
Definition zerob (c : ascii) : bool := (c =? "0")%char.
Lemma all_zero : forall u, Forall (fun c => zerob c = true) u -> u = repeat "0"%char (length u).
Proof. induction u as [|c u IH]; intros H; [reflexivity|]. inversion H; subst. cbn. rewrite <- IH by assumption. f_equal. apply Ascii.eqb_eq. assumption. Qed.
Lemma rstrip_zeros_inj : forall a b, length a = length b -> rstrip zerob a = rstrip zerob b -> a = b.
Proof.
  intros a b L E. destruct (rstrip_split zerob a) as [u [Ea Hu]]. destruct (rstrip_split zerob b) as [v [Eb Hv]]. rewrite Ea, Eb, E. f_equal. rewrite (all_zero u Hu), (all_zero v Hv). f_equal.
  apply (f_equal (@length ascii)) in Ea. apply (f_equal (@length ascii)) in Eb. rewrite app_length in Ea, Eb. rewrite E in Ea. lia.
Qed.
(** ** Numbers *)
(** the number in the name, in units of 1e-6 *)
Definition micro (q : Q) : Z := round_even (q * 1000000).
Lemma round_even_nonneg : forall q, (0 <= q)%Q -> 0 <= round_even q.
Proof.
  intros q H. unfold round_even. assert (0 <= Qfloor q) by (change 0 with (Qfloor 0); apply Qfloor_resp_le, H). destruct (_ ?= _)%Q; [destruct (Z.even _)|..]; lia.
Qed.
Lemma round_even_comp : forall p q, (p == q)%Q -> round_even p = round_even q.
Proof. intros p q E. unfold round_even. rewrite (Qfloor_comp p q E). 
  assert (X : ((p - inject_Z (Qfloor q)) == (q - inject_Z (Qfloor q)))%Q) by (rewrite E; reflexivity). rewrite X. reflexivity. Qed.
Definition frac (n : Z) : text := match rstrip zerob (padded 6 (n mod 1000000)) with [] => [] | l => "."%char :: l end.
Lemma isdig_not_dot : forall c, isdig c -> ((c =? "\") || (c =? "."))%char = false.
Proof. intros c [H1 H2]. destruct (Ascii.eqb_spec c "\"); [subst c; cbn in H1, H2; lia|]. destruct (Ascii.eqb_spec c "."); [subst c; cbn in H1, H2; lia|reflexivity]. Qed.
Lemma del_zeros_form : forall q, (0 <= q)%Q -> del_zeros q = udec (Z.to_N (micro q / 1000000)) ++ frac (micro q).
Proof.
  intros q H. unfold del_zeros, fmt_f. assert (S : match (q ?= 0)%Q with Lt => ["-"%char] | _ => [] end = []). { destruct (Qcompare_spec q 0) as [E|E|E]; [reflexivity| |reflexivity]. exfalso. apply (Qlt_not_le _ _ E H). }
  rewrite S. cbn [app]. assert (E : round_even (Qabs q * 1000000) = micro q) by (apply round_even_comp; rewrite Qabs_pos by exact H; reflexivity). rewrite E. clear S E.
  rewrite (rstrip_app _ _ "."%char) by reflexivity. unfold frac. fold zerob. set (l := padded 6 (micro q mod 1000000)). assert (D : Forall isdig l) by apply padded_dig.
  set (u := udec _). assert (Du : Forall isdig u) by apply udec_dig. clearbody u.
  destruct (rstrip_nil_or zerob l) as [E|[a [c [E [Hc Hi]]]]].
  - change (rstrip (fun c => (c =? "0")%char) l) with (rstrip zerob l). rewrite E. rewrite app_nil_r. 
    destruct (rev u) as [|c r] eqn:R.
    + apply (f_equal (@rev ascii)) in R. rewrite rev_involutive in R. cbn in R. subst u. reflexivity.
    + apply (f_equal (@rev ascii)) in R. rewrite rev_involutive in R. cbn in R. rewrite R in *. apply Forall_app in Du. destruct Du as [_ Dc]. inversion Dc; subst.
      rewrite <- app_assoc. cbn [app]. rewrite rstrip_app by (apply isdig_not_dot; assumption). reflexivity.
  - change (rstrip (fun c => (c =? "0")%char) l) with (rstrip zerob l). rewrite E. replace (u ++ "."%char :: a ++ [c]) with ((u ++ "."%char :: a) ++ [c]) by (rewrite <- app_assoc; reflexivity).
    rewrite rstrip_last; [|apply isdig_not_dot; rewrite Forall_forall in D; apply D, Hi]. rewrite <- app_assoc. destruct (a ++ [c]) eqn:Z; [destruct a; discriminate Z|]. cbn [app]. rewrite Z. reflexivity.
Qed.
Lemma num_text : forall q, (0 <= q)%Q -> Forall isnum (del_zeros q).
Proof.
  intros q H. rewrite del_zeros_form by exact H. apply Forall_app. split; [eapply Forall_impl; [|apply udec_dig]; intros c h; now left|]. unfold frac.
  destruct (rstrip_split zerob (padded 6 (micro q mod 1000000))) as [u [E _]]. pose proof (padded_dig 6 (micro q mod 1000000)) as D. rewrite E in D. apply Forall_app in D. destruct D as [D _].
  destruct (rstrip zerob _) as [|x r]; [constructor|]. constructor; [now right|]. eapply Forall_impl; [|exact D]. intros c h. now left.
Qed.
Lemma del_zeros_inj : forall p q, (0 <= p)%Q -> (0 <= q)%Q -> del_zeros p = del_zeros q -> micro p = micro q.
Proof.
  intros p q Hp Hq E. rewrite !del_zeros_form in E by assumption. assert (P : 0 <= micro p) by (apply round_even_nonneg; apply Qmult_le_0_compat; [exact Hp|discriminate]).
  assert (P2 : 0 <= micro q) by (apply round_even_nonneg; apply Qmult_le_0_compat; [exact Hq|discriminate]).
  assert (S : forall n, stops isdig (frac n)) by (intros n; unfold frac; destruct (rstrip zerob _); cbn; [exact I|unfold isdig; cbn; lia]).
  apply (split_at isdig) in E; [|apply udec_dig|apply udec_dig|apply S|apply S]. destruct E as [E1 E2]. apply udec_inj in E1. assert (D : micro p / 1000000 = micro q / 1000000) by (apply Z2N.inj in E1; [exact E1|apply Z.div_pos; lia|apply Z.div_pos; lia]).
  assert (M : micro p mod 1000000 = micro q mod 1000000).
  { apply (padded_inj 6); [apply (Z.mod_pos_bound _ 1000000); lia|apply (Z.mod_pos_bound _ 1000000); lia|]. apply rstrip_zeros_inj; [now rewrite !padded_length|]. unfold frac in E2.
    destruct (rstrip zerob (padded 6 (micro p mod 1000000))), (rstrip zerob (padded 6 (micro q mod 1000000))); try discriminate E2; [reflexivity|]. injection E2 as E2 E3; congruence. }
  rewrite (Z.div_mod (micro p) 1000000), (Z.div_mod (micro q) 1000000) by lia. congruence.
Qed.
(** ** Fields *)
Definition fT (o : option Q) : text := match o with Some x => t "-t" ++ del_zeros x | None => [] end.
Definition fC (o : option Q) : text := match o with Some c => t "-sd" ++ del_zeros c | None => [] end.
Definition fS (o c : option Q) : text := match o with Some s => t "-s" ++ del_zeros s ++ fC c | None => [] end.
Definition bs (l : list Z) : text := flat_map (fun bi => "b"%char :: dec (bi + 1)) l.
Definition fB (o : option (list Z)) : text := match o with Some l => t "-" ++ bs l | None => [] end.
Definition fG (o : option Z) : text := match o with Some g => t "-g" ++ dec g | None => [] end.
Definition qpos (o : option Q) : Prop := match o with Some q => (0 <= q)%Q | None => True end.
Lemma fT_stop : forall o, stops isnum (fT o). Proof. intros [x|]; cbn; [|exact I]. unfold isnum, isdig. cbn. intros [H|H]; [lia|discriminate H]. Qed.
Lemma fC_stop : forall o x, stops isnum (fC o ++ fT x). Proof. intros [c|] x; [|apply fT_stop]. cbn. unfold isnum, isdig. cbn. intros [H|H]; [lia|discriminate H]. Qed.
Lemma fT_inj : forall a b, qpos a -> qpos b -> fT a = fT b -> option_map micro a = option_map micro b.
Proof. intros [a|] [b|] Ha Hb E; cbn in E; try discriminate E; [|reflexivity]. injection E as E. cbn. f_equal. now apply del_zeros_inj. Qed.
Lemma fC_inj : forall a b x y, qpos a -> qpos b -> fC a ++ fT x = fC b ++ fT y -> option_map micro a = option_map micro b /\ fT x = fT y.
Proof.
  intros [a|] [b|] x y Ha Hb E.
  - cbn in E. injection E as E. apply (split_at isnum) in E; [|now apply num_text|now apply num_text|apply fT_stop|apply fT_stop]. destruct E as [E1 E2]. split; [|exact E2]. cbn. f_equal. now apply del_zeros_inj.
  - destruct y; cbn in E; discriminate E.
  - destruct x; cbn in E; discriminate E.
  - auto.
Qed.
Lemma fS_inj : forall a b c d x y, qpos a -> qpos b -> qpos c -> qpos d -> fS a c ++ fT x = fS b d ++ fT y ->
  option_map micro a = option_map micro b /\ (a <> None -> option_map micro c = option_map micro d) /\ fT x = fT y.
Proof.
  intros [a|] [b|] c d x y Ha Hb Hc Hd E.
  - cbn in E. injection E as E. rewrite <- !app_assoc in E. apply (split_at isnum) in E; [|now apply num_text|now apply num_text|apply fC_stop|apply fC_stop]. destruct E as [E1 E2].
    apply fC_inj in E2; [|assumption..]. destruct E2 as [E2 E3]. split; [cbn; f_equal; now apply del_zeros_inj|]. auto.
  - destruct y; cbn in E; discriminate E.
  - destruct x; cbn in E; discriminate E.
  - cbn in E. split; [reflexivity|]. split; [intros X; congruence|exact E].
Qed.
Definition tailS (r : text) : Prop := r = [] \/ exists c r', r = "-"%char :: c :: r' /\ (c = "s"%char \/ c = "t"%char).
Lemma tailS_ST : forall a c x, tailS (fS a c ++ fT x).
Proof. intros [a|] c [x|]; cbn; unfold tailS; eauto 10. Qed.
Lemma dash_stop : forall r, r = [] \/ (exists r', r = "-"%char :: r') \/ (exists r', r = "b"%char :: r') -> stops isdig r.
Proof. intros r [-> | [[r' ->] | [r' ->]]]; cbn; [exact I| |]; unfold isdig; cbn; lia. Qed.
Lemma bs_inj : forall l m r s, (forall b, In b l -> 0 <= b) -> (forall b, In b m -> 0 <= b) -> tailS r -> tailS s -> bs l ++ r = bs m ++ s -> l = m /\ r = s.
Proof.
  assert (St : forall l r, tailS r -> stops isdig (bs l ++ r)).
  { intros [|b l] r Hr; apply dash_stop; [|right; right; cbn; eauto]. destruct Hr as [-> | [c [r' [-> _]]]]; cbn; eauto. }
  induction l as [|b l IH]; intros [|d m] r s Hl Hm Hr Hs E; [auto|..].
  - cbn in E. destruct Hr as [-> | [c [r' [-> _]]]]; discriminate E.
  - cbn in E. destruct Hs as [-> | [c [r' [-> _]]]]; discriminate E.
  - cbn [bs flat_map app] in E. injection E as E. rewrite <- !app_assoc in E. fold (bs l) in E. fold (bs m) in E.
    assert (0 <= b) by (apply Hl; now left). assert (0 <= d) by (apply Hm; now left).
    apply (split_at isdig) in E; [|apply dec_dig; lia|apply dec_dig; lia|apply St, Hr|apply St, Hs]. destruct E as [E1 E2]. apply dec_inj in E1; [|lia..]. assert (b = d) by lia. subst d.
    destruct (IH m r s) as [-> ->]; auto; intros x h; [apply Hl|apply Hm]; now right.
Qed.
Definition bpos (o : option (list Z)) : Prop := match o with Some l => forall b, In b l -> 0 <= b | None => True end.
Lemma fB_inj : forall a b r s, bpos a -> bpos b -> tailS r -> tailS s -> fB a ++ r = fB b ++ s -> a = b /\ r = s.
Proof.
  assert (N : forall l r s, tailS r -> tailS s -> r = "-"%char :: bs l ++ s -> False).
  { intros l r s [-> | [c [r' [-> Hc]]]] Hs E; [discriminate E|]. injection E as E. destruct l as [|b l]; cbn in E.
    - destruct Hs as [-> | [d [s' [-> _]]]]; [discriminate E|]. injection E as E1 E2. subst c. destruct Hc as [X|X]; discriminate X.
    - injection E as E1 E2. subst c. destruct Hc as [X|X]; discriminate X. }
  intros [l|] [m|] r s Ha Hb Hr Hs E; cbn in E.
  - injection E as E. apply bs_inj in E; [|assumption..]. destruct E as [-> ->]. auto.
  - exfalso. apply (N l s r Hs Hr). now symmetry.
  - exfalso. apply (N m r s Hr Hs). exact E.
  - auto.
Qed.
Definition gpos (o : option Z) : Prop := match o with Some g => 0 <= g | None => True end.
Lemma fB_head : forall b r, tailS r -> fB b ++ r = [] \/ (exists r', fB b ++ r = "-"%char :: r' /\ (r' = [] \/ exists c r2, r' = c :: r2 /\ c <> "g"%char)).
Proof.
  intros [l|] r Hr; cbn.
  - right. exists (bs l ++ r). split; [reflexivity|]. destruct l as [|b l]; cbn; [|right; eexists; eexists; split; [reflexivity|discriminate]]. destruct Hr as [-> | [c [r' [-> _]]]]; [now left|right; eexists; eexists; split; [reflexivity|discriminate]].
  - destruct Hr as [-> | [c [r' [-> Hc]]]]; [now left|]. right. eexists. split; [reflexivity|]. right. exists c, r'. split; [reflexivity|]. intros ->. destruct Hc as [X|X]; discriminate X.
Qed.
Lemma fG_inj : forall a b l m r s, gpos a -> gpos b -> bpos l -> bpos m -> tailS r -> tailS s -> fG a ++ fB l ++ r = fG b ++ fB m ++ s -> a = b /\ fB l ++ r = fB m ++ s.
Proof.
  assert (St : forall b r, tailS r -> stops isdig (fB b ++ r)) by (intros b r Hr; apply dash_stop; destruct (fB_head b r Hr) as [-> | [r' [-> _]]]; eauto).
  assert (N : forall g b r x, tailS r -> fB b ++ r = "-"%char :: "g"%char :: dec g ++ x -> False).
  { intros g b r x Hr E. destruct (fB_head b r Hr) as [X|[r' [X [Y|[c [r2 [Y Z]]]]]]]; rewrite X in E; try discriminate E; subst r'; try discriminate E. injection E as E _. congruence. }
  intros [g|] [h|] l m r s Ha Hb Hl Hm Hr Hs E; cbn in E.
  - injection E as E. apply (split_at isdig) in E; [|now apply dec_dig|now apply dec_dig|now apply St|now apply St]. destruct E as [E1 E2]. split; [f_equal; now apply dec_inj|exact E2].
  - exfalso. symmetry in E. exact (N _ _ _ _ Hs E).
  - exfalso. exact (N _ _ _ _ Hr E).
  - auto.
Qed.
(** ** C43 *)
(** Parameters of a real calculation *)
Definition ok (p : params) : Prop :=
  let '(m0, m1, m2) := p_mesh p in 0 <= m0 /\ 0 <= m1 /\ 0 <= m2 /\ gpos (p_gp p) /\ bpos (p_bands p) /\ qpos (p_sigma p) /\ qpos (p_cutoff p) /\ qpos (p_temp p).
Definition mesh_digits (m : Z * Z * Z) : text := let '(m0, m1, m2) := m in dec m0 ++ dec m1 ++ dec m2.
(** With the same extra output name, the suffix determines grid point, bands, and sigma, cutoff, temperature to
    within 1e-6, and the digits of the mesh numbers written without separator. Missing: the mesh itself, finer
    differences and different output names (refuted below). *)
Theorem C43_name_partial : forall p q, ok p -> ok q -> p_file p = p_file q -> suffix p = suffix q ->
  mesh_digits (p_mesh p) = mesh_digits (p_mesh q) /\ p_gp p = p_gp q /\ p_bands p = p_bands q /\
  option_map micro (p_sigma p) = option_map micro (p_sigma q) /\ (p_sigma p <> None -> option_map micro (p_cutoff p) = option_map micro (p_cutoff q)) /\
  option_map micro (p_temp p) = option_map micro (p_temp q).
Proof.
  intros p q Hp Hq Hf E. unfold suffix, ok in *. destruct (p_mesh p) as [[m0 m1] m2]. destruct (p_mesh q) as [[n0 n1] n2]. destruct Hp as [P0 [P1 [P2 [Pg [Pb [Ps [Pc Pt]]]]]]]. destruct Hq as [Q0 [Q1 [Q2 [Qg [Qb [Qs [Qc Qt]]]]]]].
  rewrite Hf in E. set (F := match p_file q with Some f => "."%char :: f | None => [] end) in E. clearbody F. fold (fT (p_temp p)) in E. fold (fT (p_temp q)) in E. fold (fC (p_cutoff p)) in E. fold (fC (p_cutoff q)) in E.
  fold (fS (p_sigma p) (p_cutoff p)) in E. fold (fS (p_sigma q) (p_cutoff q)) in E. change (flat_map (fun bi => "b"%char :: dec (bi + 1))) with bs in E. fold (fB (p_bands p)) in E. fold (fB (p_bands q)) in E. fold (fG (p_gp p)) in E. fold (fG (p_gp q)) in E.
  cbn [t list_ascii_of_string app] in E. injection E as E. rewrite !app_assoc in E. apply app_inv_tail in E. rewrite <- !app_assoc in E.
  assert (E2 : mesh_digits (m0, m1, m2) ++ fG (p_gp p) ++ fB (p_bands p) ++ fS (p_sigma p) (p_cutoff p) ++ fT (p_temp p) = mesh_digits (n0, n1, n2) ++ fG (p_gp q) ++ fB (p_bands q) ++ fS (p_sigma q) (p_cutoff q) ++ fT (p_temp q)).
  { unfold mesh_digits. rewrite <- !app_assoc. exact E. }
  clear E. assert (St : forall g b r, tailS r -> stops isdig (fG g ++ fB b ++ r)).
  { intros [g|] b r Hr; apply dash_stop; [right; left; cbn; eauto|]. cbn [fG app]. destruct (fB_head b r Hr) as [-> | [r' [-> _]]]; eauto. }
  assert (Md : forall a b c, 0 <= a -> 0 <= b -> 0 <= c -> Forall isdig (mesh_digits (a, b, c))) by (intros; unfold mesh_digits; rewrite !Forall_app; repeat split; now apply dec_dig).
  apply (split_at isdig) in E2; [|now apply Md|now apply Md|apply St, tailS_ST|apply St, tailS_ST]. destruct E2 as [E1 E2]. split; [exact E1|].
  apply fG_inj in E2; [|assumption..|apply tailS_ST|apply tailS_ST]. destruct E2 as [E2 E3]. split; [exact E2|].
  apply fB_inj in E3; [|assumption..|apply tailS_ST|apply tailS_ST]. destruct E3 as [E3 E4]. split; [exact E3|].
  apply fS_inj in E4; [|assumption..]. destruct E4 as [E4 [E5 E6]]. split; [exact E4|]. split; [exact E5|]. now apply fT_inj.
Qed.
Print Assumptions C43_name_partial.
(** Meshes whose numbers have as many digits are told apart. *)
Theorem C43_mesh_partial : forall p q, ok p -> ok q -> p_file p = p_file q -> suffix p = suffix q ->
  (let '(m0, m1, m2) := p_mesh p in let '(n0, n1, n2) := p_mesh q in length (dec m0) = length (dec n0) /\ length (dec m1) = length (dec n1)) ->
  p_mesh p = p_mesh q.
Proof.
  intros p q Hp Hq Hf E L. destruct (C43_name_partial p q Hp Hq Hf E) as [D _]. unfold ok in *. destruct (p_mesh p) as [[m0 m1] m2]. destruct (p_mesh q) as [[n0 n1] n2]. destruct L as [L0 L1]. cbn [mesh_digits] in D.
  assert (A : forall (a b c d : text), length a = length b -> a ++ c = b ++ d -> a = b /\ c = d).
  { induction a as [|x a IH]; intros [|y b] c d L E2; try discriminate L; [auto|]. cbn in E2. injection E2 as X Y. injection L as L. destruct (IH b c d L Y) as [-> ->]. subst y. auto. }
  apply A in D; [|exact L0]. destruct D as [D0 D]. apply A in D; [|exact L1]. destruct D as [D1 D2]. f_equal; [f_equal|]; apply dec_inj; tauto.
Qed.
Print Assumptions C43_mesh_partial.
(** [micro] is within half a unit: names that agree mean values closer than 1e-6. *)
Lemma round_even_near : forall q, (Qabs (inject_Z (round_even q) - q) <= 1 # 2)%Q.
Proof.
  intros q. unfold round_even. pose proof (Qfloor_le q) as L. pose proof (Qlt_floor q) as U. set (f := Qfloor q) in *. rewrite inject_Z_plus in U. change (inject_Z 1) with 1%Q in U.
  destruct (Qcompare_spec (q - inject_Z f) (1 # 2)) as [E|E|E]; [destruct (Z.even f)|..]; apply Qabs_Qle_condition; rewrite ?inject_Z_plus; change (inject_Z 1) with 1%Q; split; lra.
Qed.
Theorem C43_numbers : forall a b, micro a = micro b -> (Qabs (a - b) <= 1 # 1000000)%Q.
Proof.
  intros a b E. unfold micro in E. pose proof (round_even_near (a * 1000000)) as A. pose proof (round_even_near (b * 1000000)) as B. rewrite E in A. apply Qabs_Qle_condition in A. apply Qabs_Qle_condition in B. apply Qabs_Qle_condition. split; lra.
Qed.
Print Assumptions C43_numbers.
Definition pm (m : Z * Z * Z) (s : option Q) (f : option text) : params := Params m (Some 5) (Some [0; 2]) s None (Some (300 # 1)) f.
Example C43_ex : ok (Params (11, 11, 11) (Some 5) (Some [0; 2]) (Some (1 # 10)) (Some (3 # 1)) (Some (300 # 1)) None) /\
  suffix (Params (11, 11, 11) (Some 5) (Some [0; 2]) (Some (1 # 10)) (Some (3 # 1)) (Some (300 # 1)) None) = t "-m111111-g5-b1b3-s0.1-sd3-t300".
Proof. split; [cbn; repeat split; try lia; try discriminate; intros b [<-|[<-|[]]]; lia|reflexivity]. Qed.
(** Different meshes, close sigmas, and output names can collide. *)
Theorem C43_names_refuted : 
  (exists p q, ok p /\ ok q /\ p_mesh p <> p_mesh q /\ suffix p = suffix q) /\
  (exists p q a b, ok p /\ ok q /\ p_sigma p = Some a /\ p_sigma q = Some b /\ ~ (a == b)%Q /\ suffix p = suffix q) /\
  (exists p q a b, ok p /\ ok q /\ p_sigma p = Some a /\ p_sigma q = Some b /\ (a < 3)%Q /\ (b + (1 # 3) < a)%Q /\ suffix p = suffix q).
Proof.
  split; [|split].
  - exists (pm (1, 11, 1) None None), (pm (11, 1, 1) None None). split; [|split; [|split; [discriminate|reflexivity]]]; cbn; repeat split; try lia; try discriminate; intros b [<-|[<-|[]]]; lia.
  - exists (pm (9, 9, 9) (Some (1 # 10)) None), (pm (9, 9, 9) (Some (1000004 # 10000000)) None). do 2 eexists. split; [|split; [|split; [reflexivity|split; [reflexivity|split; [discriminate|reflexivity]]]]]; cbn; repeat split; try lia; try discriminate; intros b [<-|[<-|[]]]; lia.
  - exists (Params (9, 9, 9) None None (Some (5 # 2)) None None None), (Params (9, 9, 9) None None (Some (2 # 1)) None None (Some (t "5"))). do 2 eexists. split; [|split; [|split; [reflexivity|split; [reflexivity|split; [reflexivity|split; reflexivity]]]]]; cbn; repeat split; try lia; try discriminate.
Qed.
Print Assumptions C43_names_refuted.

(** ** C54 *)
Lemma text_eqb_spec : forall a b, reflect (a = b) (text_eqb a b).
Proof. intros. unfold text_eqb. destruct (list_eq_dec ascii_dec a b); constructor; assumption. Qed.
Lemma lookup_write : forall X (d : dir X) n x m, lookup (write d n x) m = if text_eqb n m then Some x else lookup d m.
Proof. intros. unfold lookup, write. cbn [find fst]. destruct (text_eqb n m); reflexivity. Qed.
(** Without temperatures, and with a single temperature, the result is stored under its name and nothing else
    changes. Missing: more than one temperature (refuted below). *)
Theorem C54_one_temperature_partial : forall X (d : dir X) gp mesh (j : X) sigma temp filename sym m,
  lookup (fst (write_joint_dos d gp mesh [j] sigma (option_map (fun x => [x]) temp) filename sym)) m =
  (if text_eqb (jdos_name gp mesh sigma temp filename sym) m then Some j else lookup d m) /\
  snd (write_joint_dos d gp mesh [j] sigma (option_map (fun x => [x]) temp) filename sym) = Some (jdos_name gp mesh sigma temp filename sym).
Proof. intros. destruct temp; cbn -[jdos_name lookup write]; split; try apply lookup_write; reflexivity. Qed.
Print Assumptions C54_one_temperature_partial.
(** In general only the file of the first temperature is touched. *)
Theorem C54_only_first_temperature : forall X (d : dir X) gp mesh (j : X) js sigma x xs filename sym m,
  m <> jdos_name gp mesh sigma (Some x) filename sym ->
  lookup (fst (write_joint_dos d gp mesh (j :: js) sigma (Some (x :: xs)) filename sym)) m = lookup d m.
Proof. intros. unfold write_joint_dos. cbn [combine fst]. rewrite lookup_write. destruct (text_eqb_spec (jdos_name gp mesh sigma (Some x) filename sym) m) as [E|E]; [congruence|reflexivity]. Qed.
Print Assumptions C54_only_first_temperature.
(** The files of two temperatures more than 1e-6 apart have different names (so they could both be kept). *)
Theorem C54_distinct_names : forall gp mesh sigma x y filename sym, (0 <= x)%Q -> (0 <= y)%Q -> ((1 # 1000000) < Qabs (x - y))%Q ->
  jdos_name gp mesh sigma (Some x) filename sym <> jdos_name gp mesh sigma (Some y) filename sym.
Proof.
  intros gp mesh sigma x y filename sym Hx Hy D E. unfold jdos_name in E. do 2 apply app_inv_head in E. rewrite <- !app_assoc in E. apply app_inv_head in E. rewrite !app_assoc in E. do 3 apply app_inv_tail in E. 
  apply del_zeros_inj in E; [|assumption..]. apply C43_numbers in E. apply (Qlt_not_le _ _ D E).
Qed.
Print Assumptions C54_distinct_names.
Theorem C54_all_temperatures_refuted : exists (jdos : list Z) temps, length jdos = length temps /\
  exists j x, In (j, x) (combine jdos temps) /\
    lookup (fst (write_joint_dos [] (Some 1) (9, 9, 9) jdos None (Some temps) None true)) (jdos_name (Some 1) (9, 9, 9) None (Some x) None true) = None.
Proof. exists [7; 8], [300 # 1; 400 # 1]%Q. split; [reflexivity|]. exists 8, (400 # 1)%Q. split; [right; left; reflexivity|]. vm_compute. reflexivity. Qed.
Print Assumptions C54_all_temperatures_refuted.
Example C54_ex : jdos_name (Some 1) (9, 9, 9) None (Some (300 # 1)) None true = t "jdos-m999-g1-t300.dat" /\
  snd (write_joint_dos [] (Some 1) (9, 9, 9) [7] (Some (1 # 10)) (Some [(601 # 2)%Q]) None false) = Some (t "jdos-m999-g1-s0.1-t300.5.nosym.dat").
Proof. split; reflexivity. Qed.
