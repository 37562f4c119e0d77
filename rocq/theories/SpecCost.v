(* Counting the random numbers a program draws. *)
From mathcomp Require Import all_ssreflect all_algebra.
From Verif Require Import Base SpecProb.
Set Implicit Arguments.
Unset Strict Implicit.
Unset Printing Implicit Defensive.
Import GRing.Theory Num.Theory.
Local Open Scope ring_scope.

(* P a u i holds for every value a the program can return, when it was returned
   after u real and i integer random numbers; counting starts at u0 and i0 *)
Fixpoint counted (R : realFieldType) (A : Type) (P : A -> nat -> nat -> Prop) (u0 i0 : nat) (p : rprog R (res A)) : Prop :=
  match p with
  | Ret x => if x is Ok a then P a u0 i0 else True
  | Unif k => forall u, 0 <= u < 1 -> counted P u0.+1 i0 (k u)
  | Int n k => forall i, (i < n)%N -> counted P u0 i0.+1 (k i)
  end.
