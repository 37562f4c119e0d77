(* Independent vocabulary for the statements about states. *)
From mathcomp Require Import all_ssreflect.
Set Implicit Arguments.
Unset Strict Implicit.
Unset Printing Implicit Defensive.

(* a state of m modes with n particles *)
Definition is_state (m n : nat) (s : seq nat) : bool := (size s == m) && (sumn s == n).

(* t arises from s by losing particles *)
Definition substate (t s : seq nat) : bool :=
  (size t == size s) && all (fun i => nth 0 t i <= nth 0 s i) (iota 0 (size s)).

(* strict descending lexicographic order: the first difference decides *)
Fixpoint lexgt (a b : seq nat) : bool :=
  match a, b with
  | _ :: _, [::] => true
  | x :: a', y :: b' => (y < x) || ((x == y) && lexgt a' b')
  | [::], _ => false
  end.

(* occupation vector of an assignment *)
Definition occupation (m : nat) (a : seq nat) : seq nat :=
  [seq count_mem i a | i <- iota 0 m].

(* product of factorials *)
Definition factprod (s : seq nat) : nat := \prod_(x <- s) x`!.
