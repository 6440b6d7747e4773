(** Shared vocabulary: integer ranges, total-function arrays, list sums.
    Nothing here models code of /repo; these are the data types the models use. *)
From Coq Require Import ZArith QArith List Lia Bool.
Import ListNotations.
Open Scope Z_scope.

(** [zrange n] is 0,1,...,n-1: the iteration space of [for (i = 0; i < n; i++)]. *)
Definition zrange (n : Z) : list Z := map Z.of_nat (seq 0 (Z.to_nat n)).

(** [zseq a b] is a,a+1,...,b-1: [for (i = a; i < b; i++)]. *)
Definition zseq (a b : Z) : list Z := map (fun k => a + k) (zrange (b - a)).

(** Mutable C array as a total function with functional update. *)
Definition upd {V : Type} (m : Z -> V) (i : Z) (v : V) : Z -> V :=
  fun j => if j =? i then v else m j.

Definition zsum (l : list Z) : Z := fold_right Z.add 0 l.
Definition qsum (l : list Q) : Q := fold_right Qplus 0%Q l.

(** Number of elements satisfying a test, as Z. *)
Definition zcount {A : Type} (f : A -> bool) (l : list A) : Z :=
  Z.of_nat (length (filter f l)).

(** First element satisfying a test. *)
Fixpoint find_first {A : Type} (f : A -> bool) (l : list A) : option A :=
  match l with
  | [] => None
  | x :: t => if f x then Some x else find_first f t
  end.
