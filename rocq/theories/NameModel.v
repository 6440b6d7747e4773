(** Names of result files and writing of joint density of states. *)
From Coq Require Import ZArith QArith Qround Qabs String Ascii DecimalN List Bool.
From Verif Require Import Base.
Import ListNotations.
Open Scope Z_scope.

Definition text := list ascii.
Definition t (s : string) : text := list_ascii_of_string s.
(** "%d" of an integer, decimal digits most significant first *)
Fixpoint utext (d : Decimal.uint) : text :=
  match d with
  | Decimal.Nil => []
  | Decimal.D0 d => "0"%char :: utext d | Decimal.D1 d => "1"%char :: utext d | Decimal.D2 d => "2"%char :: utext d
  | Decimal.D3 d => "3"%char :: utext d | Decimal.D4 d => "4"%char :: utext d | Decimal.D5 d => "5"%char :: utext d
  | Decimal.D6 d => "6"%char :: utext d | Decimal.D7 d => "7"%char :: utext d | Decimal.D8 d => "8"%char :: utext d
  | Decimal.D9 d => "9"%char :: utext d
  end.
Definition udec (n : N) : text := utext (N.to_uint n).
Definition dec (z : Z) : text := if z <? 0 then "-"%char :: udec (Z.to_N (- z)) else udec (Z.to_N z).
(** "%f" % val: rounded to 6 decimals, ties to even (printf rounds the exact value of the double). *)
Definition round_even (q : Q) : Z :=
  let f := Qfloor q in
  match (q - inject_Z f ?= 1 # 2)%Q with Lt => f | Gt => f + 1 | Eq => if Z.even f then f else f + 1 end.
Definition digit (d : Z) : ascii := ascii_of_nat (48 + Z.to_nat d).
Fixpoint padded (w : nat) (m : Z) : text := match w with O => [] | S w => padded w (m / 10) ++ [digit (m mod 10)] end.
Definition fmt_f (q : Q) : text :=
  let n := round_even (Qabs q * 1000000) in
  (match (q ?= 0)%Q with Lt => ["-"%char] | _ => [] end) ++ udec (Z.to_N (n / 1000000)) ++ "."%char :: padded 6 (n mod 1000000).
(** str.rstrip(chars) *)
Fixpoint rstrip (p : ascii -> bool) (s : text) : text :=
  match s with
  | [] => []
  | c :: s => match rstrip p s with [] => if p c then [] else [c] | s => c :: s end
  end.
(** file_IO.py: _del_zeros 1736-1738. The second rstrip strips the characters backslash and dot. *)
Definition del_zeros (q : Q) : text := rstrip (fun c => (c =? "\")%char || (c =? ".")%char) (rstrip (fun c => (c =? "0")%char) (fmt_f q)).

Record params := Params { p_mesh : Z * Z * Z; p_gp : option Z; p_bands : option (list Z); p_sigma : option Q; p_cutoff : option Q; p_temp : option Q; p_file : option text }.
(** file_IO.py: _get_filename_suffix 1703-1733. *)
Definition suffix (p : params) : text :=
  let '(m0, m1, m2) := p_mesh p in
  t "-m" ++ dec m0 ++ dec m1 ++ dec m2
  ++ (match p_gp p with Some g => t "-g" ++ dec g | None => [] end)
  ++ (match p_bands p with Some l => t "-" ++ flat_map (fun bi => "b"%char :: dec (bi + 1)) l | None => [] end)
  ++ (match p_sigma p with
      | Some s => t "-s" ++ del_zeros s ++ (match p_cutoff p with Some c => t "-sd" ++ del_zeros c | None => [] end)
      | None => [] end)
  ++ (match p_temp p with Some x => t "-t" ++ del_zeros x | None => [] end)
  ++ (match p_file p with Some f => "."%char :: f | None => [] end).

(** The directory: file name to content, the last write to a name wins. *)
Definition dir (X : Type) := list (text * X).
Definition text_eqb (a b : text) : bool := if list_eq_dec ascii_dec a b then true else false.
Definition lookup {X} (d : dir X) (n : text) : option X := option_map snd (find (fun e => text_eqb (fst e) n) d).
Definition write {X} (d : dir X) (n : text) (x : X) : dir X := (n, x) :: d.
(** file_IO.py: _write_joint_dos_at_t 538-566: the name. The content is what is passed (printing not modelled). *)
Definition jdos_name (gp : option Z) (mesh : Z * Z * Z) (sigma temp : option Q) (filename : option text) (sym : bool) : text :=
  t "jdos" ++ suffix (Params mesh gp None sigma None None filename)
  ++ (match temp with Some x => t "-t" ++ del_zeros x | None => [] end)
  ++ (if sym then [] else t ".nosym")
  ++ (match filename with Some f => "."%char :: f | None => [] end) ++ t ".dat".
(** file_IO.py: write_joint_dos 503-535. Result: the directory and the returned name (None: Python's None;
    jdos[0] of an empty array would raise, not modelled: the directory is unchanged). *)
Definition write_joint_dos {X} (d : dir X) (gp : option Z) (mesh : Z * Z * Z) (jdos : list X) (sigma : option Q)
    (temps : option (list Q)) (filename : option text) (sym : bool) : dir X * option text :=
  match temps with
  | None => match jdos with
            | [] => (d, None)
            | j :: _ => let n := jdos_name gp mesh sigma None filename sym in (write d n j, Some n) end
  | Some ts =>
      match combine jdos ts with
      | [] => (d, None)
      | (j, x) :: _ => let n := jdos_name gp mesh sigma (Some x) filename sym in (write d n j, Some n) (* return in the first round *)
      end
  end.
