(** Specification of the linear tetrahedron weights, independent of the case formulas
    of the code: truncated powers (divided differences) of the vertex values. *)
From Coq Require Import ZArith QArith List.
From Verif Require Import Base Mat3 QMat.
Import ListNotations.
Open Scope Q_scope.

(** max(x,0)^n *)
Definition tpow (n : positive) (x : Q) : Q := if Qle_bool x 0 then 0 else Qpower_positive x n.

(** 1 / ((b-x)(c-x)(d-x)) *)
Definition dd (x b c d : Q) : Q := / ((b - x) * (c - x) * (d - x)).

(** Fraction of the tetrahedron's volume where the linear interpolation is below [w]. *)
Definition states_below (w a b c d : Q) : Q :=
  tpow 3 (w - a) * dd a b c d + tpow 3 (w - b) * dd b a c d +
  tpow 3 (w - c) * dd c a b d + tpow 3 (w - d) * dd d a b c.

(** Its derivative in [w]. *)
Definition states_at (w a b c d : Q) : Q :=
  3 * (tpow 2 (w - a) * dd a b c d + tpow 2 (w - b) * dd b a c d +
       tpow 2 (w - c) * dd c a b d + tpow 2 (w - d) * dd d a b c).

(** Integral of the barycentric coordinate of vertex [a] over the same part: minus the
    derivative in [a] of (1/4) * sum_x tpow 4 (w - x) * dd x. *)
Definition vertex_below (w a b c d : Q) : Q :=
  tpow 3 (w - a) * dd a b c d
  - tpow 4 (w - a) * dd a b c d * (/ (b - a) + / (c - a) + / (d - a)) / 4
  + (tpow 4 (w - b) * dd b a c d / (a - b) + tpow 4 (w - c) * dd c a b d / (a - c) +
     tpow 4 (w - d) * dd d a b c / (a - d)) / 4.

(** Its derivative in [w]. *)
Definition vertex_at (w a b c d : Q) : Q :=
  3 * tpow 2 (w - a) * dd a b c d
  - tpow 3 (w - a) * dd a b c d * (/ (b - a) + / (c - a) + / (d - a))
  + (tpow 3 (w - b) * dd b a c d / (a - b) + tpow 3 (w - c) * dd c a b d / (a - c) +
     tpow 3 (w - d) * dd d a b c / (a - d)).

Definition distinct4 (a b c d : Q) : Prop :=
  ~ a == b /\ ~ a == c /\ ~ a == d /\ ~ b == c /\ ~ b == d /\ ~ c == d.
Definition off_vertices (w a b c d : Q) : Prop := ~ w == a /\ ~ w == b /\ ~ w == c /\ ~ w == d.

(** No two vertex values closer than [eps] enclose [w]. *)
Definition gap_ok (eps w a b c d : Q) : Prop :=
  forall x y, In x [a; b; c; d] -> In y [a; b; c; d] -> x < w -> w < y -> eps <= y - x.
