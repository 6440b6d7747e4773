(** Interaction strengths in hdf5 files, compressed by the mask of zeros. *)
From Coq Require Import ZArith QArith List Bool.
From Verif Require Import Base.
Import ListNotations.
Open Scope Z_scope.

Definition bind {X Y} (o : option X) (f : X -> option Y) : option Y := match o with Some x => f x | None => None end.
(** np.packbits: eight values (non-zero is 1) to a byte, first value in the highest bit, zeros appended at the end.
    np.unpackbits: the reverse, always eight values per byte. *)
Definition bit (x : Z) : Z := if x =? 0 then 0 else 1.
Definition byte (l : list Z) : Z := fold_left (fun a x => 2 * a + bit x) (firstn 8 (l ++ repeat 0 8)) 0.
Fixpoint packbits (fuel : nat) (l : list Z) : list Z :=
  match fuel, l with
  | S fuel, _ :: _ => byte l :: packbits fuel (skipn 8 l)
  | _, _ => []
  end.
Definition unpack1 (b : Z) : list Z := map (fun k => (b / 2 ^ k) mod 2) [7; 6; 5; 4; 3; 2; 1; 0].
Definition unpackbits (l : list Z) : list Z := flat_map unpack1 l.
Definition prod (l : list Z) : Z := fold_left Z.mul l 1.

(** The datasets in the file: either the plain array or the compressed one. *)
Record ppfile := PpFile { h_shape : list Z; h_plain : option (list Q); h_nonzero : option (list Q); h_bits : list Z; h_rem : option (list Z) }.
(** boolean mask selection: IndexError (None) if the lengths differ *)
Fixpoint select (m : list bool) (a : list Q) : option (list Q) :=
  match m, a with
  | [], [] => Some []
  | b :: m, x :: a => option_map (fun r => if b then x :: r else r) (select m a)
  | _, _ => None
  end.
(** boolean mask assignment a[m] = v; a value list of another length is an error (None), except that numpy broadcasts
    a single value. *)
Definition count (m : list bool) : nat := length (filter (fun b => b) m).
Fixpoint fill (m : list bool) (a v : list Q) : list Q :=
  match m, a with
  | b :: m, x :: a => if b then match v with y :: v => y :: fill m a v | [] => x :: fill m a [] end else x :: fill m a v
  | _, _ => a
  end.
Definition assign (m : list bool) (a v : list Q) : option (list Q) :=
  if negb (Nat.eqb (length m) (length a)) then None else
  if Nat.eqb (count m) (length v) then Some (fill m a v)
  else match v with [y] => Some (fill m a (repeat y (count m))) | _ => None end.
(** file_IO.py: write_pp_to_hdf5 1225-1262: the file written for an array pp of the given shape (raveled). *)
Definition write_pp (shape : list Z) (pp : list Q) (g_zero : option (list Z)) : option ppfile :=
  match g_zero with
  | None => Some (PpFile shape (Some pp) None [] None)
  | Some x =>
      match select (map (fun v => v =? 0) x) pp with
      | None => None
      | Some nonzero =>
          let bytelen := Nat.div (length x) 8 in
          let remlen := Nat.modulo (length x) 8 in
          let y := firstn (bytelen * 8) x in
          Some (PpFile shape None (Some nonzero) (packbits (length y) y)
                       (if Nat.eqb remlen 0 then None else Some (let r := skipn (bytelen * 8) x in packbits (length r) r)))
      end
  end.
(** slice assignments b[:n] = v and b[-n:] = v; ValueError (None) for another length *)
Definition set_head (b : list Z) (n : nat) (v : list Z) : option (list Z) :=
  if Nat.eqb (length (firstn n b)) (length v) then Some (v ++ skipn n b) else None.
Definition set_tail (b : list Z) (n : nat) (v : list Z) : option (list Z) :=
  let k := (length b - n)%nat in if Nat.eqb (length (skipn k b)) (length v) then Some (firstn k b ++ v) else None.
(** file_IO.py: read_pp_from_hdf5 1308-1347: (pp, g_zero) *)
Definition read_pp (f : ppfile) : option (list Q * option (list Z)) :=
  match h_nonzero f with
  | Some nonzero =>
      let n := Z.to_nat (prod (h_shape f)) in
      let bytelen := Nat.div n 8 in
      let bits := unpackbits (h_bits f) in
      bind (set_head (repeat 0 n) (bytelen * 8) bits) (fun b =>
      bind (match h_rem f with
            | Some z_rem => let remlen := (n - bytelen * 8)%nat in
                            if Nat.eqb remlen 0 then Some b else set_tail b remlen (firstn remlen (unpackbits z_rem))
            | None => Some b end) (fun b =>
      bind (assign (map (fun v => v =? 0) b) (repeat 0%Q n) nonzero) (fun pp => Some (pp, Some b))))
  | None => option_map (fun pp => (pp, None)) (h_plain f)
  end.
