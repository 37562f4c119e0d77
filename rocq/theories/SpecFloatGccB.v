(* Error bounds for version B of the samplers with rounded arithmetic. *)
From mathcomp Require Import all_ssreflect all_algebra.
From Verif Require Import SpecFloat SpecFloatSub.
Set Implicit Arguments.
Unset Strict Implicit.
Unset Printing Implicit Defensive.
Import GRing.Theory Num.Theory.
Local Open Scope ring_scope.

(* what a search on the right side returns: a position between a value <= v and
   a value > v (for a list that need not be sorted) *)
Definition right_search (F : numFieldType) (search : F -> seq F -> nat) : Prop :=
  forall v l, let i := search v l in
  [/\ (i <= size l)%N, (0 < i)%N -> l`_i.-1 <= v & (i < size l)%N -> v < l`_i].

Section Bounds.
Variable F : numFieldType.

(* choice among m entries with a random number of resolution 1 / N *)
Definition choice_error (u : F) (N m : nat) : F := ((1 + u) ^+ (9 * m + 4) - 1) + N%:R^-1.

(* square of a permanent with l + 1 particles, for a matrix whose entries are at
   most eps away from those of a unitary matrix *)
Definition square_roundings (m : nat) (s : seq nat) (l : nat) : nat :=
  (2 * sub_roundings m l (code_number s) + 2 * m + 10)%N.
Definition square_error (u eps : F) (m : nat) (s : seq nat) (l : nat) : F :=
  ((1 + u) ^+ square_roundings m s l - 1) *
    (l.+1%:R * (ryser_sub_scale l (code_number s) (1 + eps) * (1 + eps))) ^+ 2
  + ((1 + eps) ^+ (2 * l.+1) - 1) * l.+1`!%:R ^+ 2.

(* l particles of the input s *)
Definition gccb_error (u eps : F) (N m : nat) (s : seq nat) (l : nat) : F :=
  \sum_(i < l) m%:R ^+ i * (2%:R * m%:R *
     (square_error u eps m s i + choice_error u N m * (m%:R * i.+1`!%:R ^+ 2))).

(* uniform losses: the number of particles left is drawn first *)
Definition left_error (u : F) (N n : nat) : F := ((1 + u) ^+ (3 * n + 4) - 1) + N%:R^-1.
Definition ugccb_error (u eps : F) (N m : nat) (s : seq nat) : F :=
  2%:R * (sumn s).+1%:R * left_error u N (sumn s) + gccb_error u eps N m s (sumn s).

End Bounds.
