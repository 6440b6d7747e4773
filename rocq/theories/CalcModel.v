(** Strings that choose the force constants calculators and their options: interface/fc_calculator.py and cui/create_force_constants.py. *)
From Coq Require Import String Ascii.
From Coq Require Import ZArith List Bool.
From Verif Require Import Base.
Import ListNotations.
Open Scope Z_scope.

Definition text := list ascii.
Definition str (s : string) : text := list_ascii_of_string s.
Definition bar : ascii := "|"%char.
Definition teqb (a b : text) : bool := if list_eq_dec ascii_dec a b then true else false.
(** str.split("|"): never empty *)
Fixpoint split_bar (s : text) : list text :=
  match s with
  | [] => [[]]
  | c :: s => if (c =? bar)%char then [] :: split_bar s
              else match split_bar s with h :: r => (c :: h) :: r | [] => [[c]] end
  end.
(** "|".join *)
Fixpoint join_bar (l : list text) : text := match l with [] => [] | [a] => a | a :: r => a ++ bar :: join_bar r end.
(** "|" in s *)
Definition has_bar (s : text) : bool := existsb (fun c => (c =? bar)%char) s.
(** str.strip() for ASCII white space *)
Definition is_space (c : ascii) : bool := let n := Z.of_nat (nat_of_ascii c) in (n =? 32) || ((9 <=? n) && (n <=? 13)) || ((28 <=? n) && (n <=? 31)).
Fixpoint lstrip (s : text) : text := match s with [] => [] | c :: r => if is_space c then lstrip r else s end.
Definition strip (s : text) : text := rev (lstrip (rev (lstrip s))).
(** str.lower() for ASCII *)
Definition lower (s : text) : text := map (fun c => let n := Z.of_nat (nat_of_ascii c) in if (65 <=? n) && (n <=? 90) then ascii_of_nat (Z.to_nat (n + 32)) else c) s.
(** w in s *)
Fixpoint prefix (w s : text) : bool := match w, s with [], _ => true | a :: w, b :: s => (a =? b)%char && prefix w s | _, [] => false end.
Fixpoint within (w s : text) : bool := prefix w s || match s with [] => false | _ :: r => within w r end.

(** a string or a dictionary; [D] the other items, with the value of the key cutoff *)
Inductive option_arg (D V : Type) := Str (s : text) | Dict (d : D) (cutoff : option V).
Arguments Str {D V}. Arguments Dict {D V}.

(** fc_calculator.py 108-134 (extract_fc2_fc3_calculators), [order] 2 or 3. Two parts at least when there is a "|" *)
Definition extract_str (s : text) (order : nat) : option text :=
  if has_bar s then match nth (order - 2) (split_bar s) [] with [] => None | p => Some p end
  else match strip s with [] => None | _ => Some s end.
Definition extract {D V} (o : option (option_arg D V)) (order : nat) : option (option_arg D V) :=
  match o with Some (Str s) => option_map Str (extract_str s order) | _ => o end.
(** fc_calculator.py 137-163 (update_cutoff_fc_calculator_options); the distance as a value and as Python prints it. A dictionary is
    changed in place *)
Definition update_cutoff {D V} (o : option (option_arg D V)) (cutoff : option (V * text)) : option (option_arg D V) :=
  match cutoff with
  | None => o
  | Some (v, printed) =>
      match o with
      | Some (Dict d None) => Some (Dict d (Some v))
      | Some (Dict d (Some w)) => o
      | Some (Str s) => if within (str "cutoff") s then o else Some (Str (s ++ str ", cutoff = " ++ printed))
      | None => Some (Str (str "cutoff = " ++ printed))
      end
  end.
(** load.py 458-464 (compute_force_constants_from_datasets): the options passed to produce_fc3, those passed to produce_fc2 and the
    argument afterwards. [extract] returns a dictionary itself, so that the second extraction sees the change of the first *)
Definition options_of_orders {D V} (o : option (option_arg D V)) (cutoff : option (V * text)) : option (option_arg D V) * option (option_arg D V) * option (option_arg D V) :=
  let o3 := update_cutoff (extract o 3) cutoff in
  let after := match o with Some (Dict _ _) => o3 | _ => o end in
  (o3, extract after 2, after).
(** create_force_constants.py 341-365 (_set_cutoff_in_fc_calculator_options) *)
Definition set_cutoff (o : option text) (cutoff_str : text) : text :=
  let appended := str "cutoff=" ++ cutoff_str in
  let o := match o with None => [bar] | Some o => o end in
  let '(o2, o3) := if has_bar o then match map strip (split_bar o) with a :: b :: _ => (a, b) | _ => ([], []) end else (o, o) in
  let o3 := match o3 with
            | [] => appended
            | _ => if within (str "cutoff") o3 then o3 else o3 ++ str ", " ++ appended
            end in
  o2 ++ bar :: o3.
(** create_force_constants.py 310-338 (get_fc_calculator_params). [known] is membership in phonopy's fc_calculator_names, [cutoff] is
    settings.cutoff_pair_distance as printed (0 counts as not given) *)
Definition calculator_list (known : text -> bool) (calc : option text) : list text :=
  match calc with
  | None => []
  | Some s => flat_map (fun w => match w with [] => [[]] | _ => if known (lower w) then [lower w] else [] end) (split_bar s)
  end.
Definition calculator_params (known : text -> bool) (calc options : option text) (cutoff : option text) : option text * option text :=
  let l := calculator_list known calc in
  (match l with [] => None | _ => Some (join_bar l) end,
   match cutoff, rev l with
   | Some c, last :: _ =>
       if teqb last (str "alm") then Some (set_cutoff options (str "-1 " ++ c))
       else if teqb last (str "symfc") then Some (set_cutoff options c) else options
   | _, _ => options
   end).
