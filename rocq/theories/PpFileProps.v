From Coq Require Import ZArith QArith List Bool Lia.
From Verif Require Import Base BaseProofs PpFileModel.
Import ListNotations.
Open Scope Z_scope.

Lemma bit01 : forall x, bit x = 0 \/ bit x = 1. Proof. intros. unfold bit. destruct (x =? 0); auto. Qed.
Lemma unpack_byte8 : forall a b c d e f g h, unpack1 (fold_left (fun x y => 2 * x + bit y) [a; b; c; d; e; f; g; h] 0) = map bit [a; b; c; d; e; f; g; h].
Proof.
  intros. cbn [fold_left map].
  destruct (bit01 a) as [-> | ->]; destruct (bit01 b) as [-> | ->]; destruct (bit01 c) as [-> | ->]; destruct (bit01 d) as [-> | ->];
  destruct (bit01 e) as [-> | ->]; destruct (bit01 f) as [-> | ->]; destruct (bit01 g) as [-> | ->]; destruct (bit01 h) as [-> | ->]; reflexivity.
Qed.
Lemma eight : forall l : list Z, (length l = 8)%nat -> exists a b c d e f g h, l = [a; b; c; d; e; f; g; h].
Proof. intros l H. do 8 (destruct l as [|? l]; [discriminate H|]). destruct l; [repeat eexists|discriminate H]. Qed.
Lemma unpack_byte : forall l, unpack1 (byte l) = map bit (firstn 8 (l ++ repeat 0 8)).
Proof.
  intros l. unfold byte. assert (H : length (firstn 8 (l ++ repeat 0 8)) = 8%nat) by (rewrite firstn_length, app_length, repeat_length; lia).
  destruct (eight _ H) as [a [b [c [d [e [f [g [h E]]]]]]]]. rewrite E. apply unpack_byte8.
Qed.
Lemma unpack_pack : forall k l fuel, (length l = 8 * k)%nat -> (k <= fuel)%nat -> unpackbits (packbits fuel l) = map bit l.
Proof.
  induction k as [|k IH]; intros l fuel H F; [destruct l; [destruct fuel; reflexivity|cbn in H; lia]|]. destruct fuel as [|fuel]; [lia|]. destruct l as [|x l]; [cbn in H; lia|].
  cbn [packbits]. set (m := x :: l) in *. clearbody m. change (unpackbits (byte m :: packbits fuel (skipn 8 m))) with (unpack1 (byte m) ++ unpackbits (packbits fuel (skipn 8 m))).
  rewrite IH; [|rewrite skipn_length; lia|lia]. rewrite unpack_byte, firstn_app. replace (8 - length m)%nat with 0%nat by lia. rewrite app_nil_r, <- map_app, firstn_skipn. reflexivity.
Qed.
Lemma unpack_rem : forall l, (1 <= length l <= 8)%nat -> firstn (length l) (unpackbits (packbits (length l) l)) = map bit l.
Proof.
  intros l H. destruct l as [|x l]; [cbn in H; lia|]. set (m := x :: l) in *. assert (E : packbits (length m) m = [byte m]).
  { unfold m. cbn [length packbits]. f_equal. fold m. rewrite skipn_all2 by lia. destruct (length l); reflexivity. }
  rewrite E. cbn [unpackbits flat_map]. rewrite app_nil_r, unpack_byte, firstn_map, firstn_firstn, Nat.min_l by lia. rewrite firstn_app, firstn_all, Nat.sub_diag, app_nil_r. reflexivity.
Qed.
Lemma select_fill : forall (x : list Z) (pp : list Q), length x = length pp ->
  exists v, select (map (fun a => a =? 0) x) pp = Some v /\ length v = count (map (fun a => a =? 0) x) /\
    fill (map (fun a => a =? 0) x) (repeat 0%Q (length pp)) v = map (fun e => if fst e =? 0 then snd e else 0%Q) (combine x pp).
Proof.
  induction x as [|a x IH]; intros [|p pp] H; try discriminate H; [exists []; repeat split|]. injection H as H. destruct (IH pp H) as [v [E1 [E2 E3]]]. cbn [map select]. rewrite E1. cbn [option_map combine length repeat fill fst snd].
  unfold count. cbn [filter map]. cbn [fst snd]. destruct (a =? 0); eexists; split; try reflexivity; (split; [cbn [length]; unfold count in E2; congruence|]); rewrite E3; reflexivity.
Qed.
(** ** C42: what is read is the array with zeros where the mask is set, and the mask as 0/1. *)
Theorem C42_round_trip : forall shape pp mask, prod shape = Z.of_nat (length pp) -> length mask = length pp ->
  exists f, write_pp shape pp (Some mask) = Some f /\
    read_pp f = Some (map (fun e => if fst e =? 0 then snd e else 0%Q) (combine mask pp), Some (map (fun x => if x =? 0 then 0 else 1) mask)).
Proof.
  intros shape pp mask Hs Hm. destruct (select_fill mask pp Hm) as [v [E1 [E2 E3]]]. unfold write_pp. rewrite E1. eexists. split; [reflexivity|].
  unfold read_pp. cbn [h_nonzero h_shape h_bits h_rem]. rewrite Hs, Nat2Z.id, <- Hm. set (n := length mask). set (k := Nat.div n 8). assert (D : n = (8 * k + n mod 8)%nat) by (apply Nat.div_mod; lia). pose proof (Nat.mod_upper_bound n 8 ltac:(lia)) as M.
  assert (L1 : length (firstn (k * 8) mask) = (8 * k)%nat) by (rewrite firstn_length; fold n; lia). assert (L2 : length (skipn (k * 8) mask) = (n mod 8)%nat) by (rewrite skipn_length; fold n; lia).
  rewrite (unpack_pack k) by lia. unfold set_head. rewrite firstn_length, repeat_length, map_length, L1. replace (Nat.min (k * 8) n) with (8 * k)%nat by lia. rewrite Nat.eqb_refl. cbn [bind].
  assert (B : match (if (n mod 8 =? 0)%nat then None else Some (let r := skipn (k * 8) mask in packbits (length r) r)) with
    | Some z_rem => let remlen := (n - k * 8)%nat in if (remlen =? 0)%nat then Some (map bit (firstn (k * 8) mask) ++ skipn (k * 8) (repeat 0 n)) else
        set_tail (map bit (firstn (k * 8) mask) ++ skipn (k * 8) (repeat 0 n)) remlen (firstn remlen (unpackbits z_rem))
    | None => Some (map bit (firstn (k * 8) mask) ++ skipn (k * 8) (repeat 0 n)) end = Some (map bit mask)).
  { assert (LS : length (skipn (k * 8) (repeat 0 n)) = (n mod 8)%nat) by (rewrite skipn_length, repeat_length; lia).
    destruct (Nat.eqb_spec (n mod 8) 0) as [Z|Z].
    - rewrite Z in LS, L2. apply length_zero_iff_nil in LS. apply length_zero_iff_nil in L2. rewrite LS, app_nil_r. rewrite <- (firstn_skipn (k * 8) mask) at 2. rewrite L2, app_nil_r. reflexivity.
    - cbv zeta. replace (n - k * 8)%nat with (n mod 8)%nat by lia. destruct (Nat.eqb_spec (n mod 8) 0) as [Z2|_]; [congruence|]. rewrite <- L2 at 2. rewrite unpack_rem by lia.
      unfold set_tail. rewrite app_length, map_length, L1, LS. replace (8 * k + n mod 8 - n mod 8)%nat with (8 * k)%nat by lia.
      rewrite skipn_app, map_length, L1, Nat.sub_diag. rewrite skipn_all2 by (rewrite map_length; lia). cbn [app skipn]. rewrite LS, map_length, L2, Nat.eqb_refl. f_equal.
      rewrite firstn_app, map_length, L1, Nat.sub_diag. rewrite firstn_all2 by (rewrite map_length; lia). cbn [firstn]. rewrite app_nil_r, <- map_app, firstn_skipn. reflexivity. }
  match goal with |- bind ?x _ = _ => replace x with (Some (map bit mask)) by (symmetry; exact B) end. cbn [bind]. assert (C : map (fun v0 => v0 =? 0) (map bit mask) = map (fun a => a =? 0) mask) by (rewrite map_map; apply map_ext; intros a; unfold bit; destruct (a =? 0); reflexivity). rewrite C.
  unfold assign. rewrite map_length, repeat_length. fold n. rewrite Nat.eqb_refl. cbn [negb]. rewrite E2, Nat.eqb_refl. unfold n. rewrite Hm, E3. cbn [bind]. reflexivity.
Qed.
Print Assumptions C42_round_trip.
(** Entries that the mask declares zero are the only information lost: an array that is zero there and a 0/1 mask come
    back unchanged. *)
Theorem C42_lossless : forall shape pp mask, prod shape = Z.of_nat (length pp) -> length mask = length pp ->
  (forall x, In x mask -> x = 0 \/ x = 1) -> (forall k x v, nth_error mask k = Some x -> nth_error pp k = Some v -> x <> 0 -> v = 0%Q) ->
  exists f, write_pp shape pp (Some mask) = Some f /\ read_pp f = Some (pp, Some mask).
Proof.
  intros shape pp mask Hs Hm H01 Hz. destruct (C42_round_trip shape pp mask Hs Hm) as [f [E1 E2]]. exists f. split; [exact E1|]. rewrite E2. f_equal. f_equal; [|f_equal].
  - clear Hs E1 E2 H01. revert pp Hm Hz. induction mask as [|x mask IH]; intros [|v pp] Hm Hz; try discriminate Hm; [reflexivity|]. cbn [combine map fst snd]. f_equal.
    + destruct (Z.eqb_spec x 0) as [E|E]; [reflexivity|]. symmetry. apply (Hz 0%nat x v); auto.
    + apply IH; [now injection Hm|]. intros k y w A B. apply (Hz (S k) y w); auto.
  - rewrite <- (map_id mask) at 2. apply map_ext_in. intros x Hx. destruct (H01 x Hx) as [-> | ->]; reflexivity.
Qed.
Print Assumptions C42_lossless.
Theorem C42_plain : forall shape pp, exists f, write_pp shape pp None = Some f /\ read_pp f = Some (pp, None).
Proof. intros. exists (PpFile shape (Some pp) None [] None). split; reflexivity. Qed.
Print Assumptions C42_plain.
Definition ex_pp : list Q := map (fun k => if Z.even k then 0%Q else inject_Z k) (zrange 18).
Definition ex_mask : list Z := map (fun k => if Z.even k then 1 else 0) (zrange 18).
Example C42_ex : prod [1; 2; 3; 3] = 18 /\
  match write_pp [1; 2; 3; 3] ex_pp (Some ex_mask) with
  | Some f => h_bits f = [170; 170] /\ h_rem f = Some [128] /\ read_pp f = Some (ex_pp, Some ex_mask)
  | None => False end.
Proof. split; [reflexivity|]. vm_compute. repeat split; reflexivity. Qed.
