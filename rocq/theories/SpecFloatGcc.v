(* Error bounds for the samplers with rounded arithmetic. *)
From mathcomp Require Import all_ssreflect all_algebra.
From Verif Require Import SpecFloat.
Set Implicit Arguments.
Unset Strict Implicit.
Unset Printing Implicit Defensive.
Import GRing.Theory Num.Theory.
Local Open Scope ring_scope.

Section Bounds.
Variable F : numFieldType.

(* a sum of the list l accumulates at most size l roundings *)
Definition accurate_sum (u : F) (f_sum : seq F -> F) : Prop :=
  forall l, `|f_sum l - \sum_(x <- l) x| <= ((1 + u) ^+ size l - 1) * \sum_(x <- l) `|x|.

(* selection among m entries with a random number of resolution 1 / N *)
Definition sel_error (u : F) (N m : nat) : F := 5%:R * ((1 + u) ^+ m.+1 - 1) + N%:R^-1.

(* probability of an outcome of the first l particles, for a matrix whose
   entries are at most eps away from those of a unitary matrix *)
Definition layer_roundings (m : nat) (s : seq nat) (l : nat) : nat :=
  (2 * any_roundings m l + 7 * m + 3 * code_number s + 10)%N.
Definition entry_error (u eps : F) (m : nat) (s : seq nat) (l : nat) : F :=
  ((1 + u) ^+ layer_roundings m s l - 1) * any_scale l (1 + eps) ^+ 2
  + ((1 + eps) ^+ (2 * l) - 1) * l`!%:R.

(* one sample *)
Definition gcc_error (u eps : F) (N m : nat) (s : seq nat) : F :=
  \sum_(i < sumn s) 2%:R * m%:R ^+ i.+1 * entry_error u eps m s i.+1
  + (sumn s)%:R * (2%:R * m%:R * sel_error u N m).

End Bounds.
