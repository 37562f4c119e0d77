(* Property theorems: C81 (cost: random numbers drawn, passes of the loops).  Only statements; proofs elsewhere. *)
From mathcomp Require Import all_ssreflect all_algebra complex.
From Verif Require Import Base SpecStates SpecPerm SpecProb SpecCost ModelStates ModelPerm ModelDist SpecGcc ModelGcc ModelGccB LemCost.
Set Implicit Arguments.
Unset Strict Implicit.
Unset Printing Implicit Defensive.
Import GRing.Theory Num.Theory.
Local Open Scope ring_scope.
Local Open Scope py_scope.

(* C81: k samples of n particles take exactly k n real random numbers in version A and in its mode assignment variant, and no others, for every object, matrix and run that returns samples *)
Theorem C81_draws_A :
  forall (R : rcfType) (gray : nat -> seq nat) (fuel : nat) (s : seq nat) (k : nat) (g : gcc R),
  counted (fun x u i => u = (k * sumn s)%N /\ i = 0%N) 0 0 (gcc_simulate gray fuel s k g) /\
  counted (fun x u i => u = (k * sumn s)%N /\ i = 0%N) 0 0 (ma_simulate gray fuel s k g).
Proof. exact C81_draws_A_lemma. Qed.
Print Assumptions C81_draws_A.

Example C81_example (R : rcfType) (g : gcc R) : (* three samples of two particles *)
  counted (fun x u i => u = 6%N /\ i = 0%N) 0 0 (gcc_simulate reflected_gray 9 [:: 1; 1]%N 3 g).
Proof. exact: (C81_draws_A reflected_gray 9 [:: 1; 1]%N 3 g).1. Qed.

(* C81: version B takes exactly k n integer and k n real random numbers *)
Theorem C81_draws_B :
  forall (R : rcfType) (fuel : nat) (s : seq nat) (k : nat) (b : gccb R),
  counted (fun x u i => u = (k * sumn s)%N /\ i = (k * sumn s)%N) 0 0 (gccb_simulate fuel s k b).
Proof. exact C81_draws_B_lemma. Qed.
Print Assumptions C81_draws_B.

(* C81: with uniform losses version A takes one real random number for every particle and one more for every particle left; version B one for every sample and, for every particle left, an integer and a real one *)
Theorem C81_draws_uniform_losses :
  forall (R : rcfType) (gray : nat -> seq nat) (fuel : nat) (s : seq nat) (k : nat) (x : ugcc R) (v : ugccb R),
  counted (fun y u i => u = (k * sumn s + sumn (map sumn y.1))%N /\ i = 0%N) 0 0 (ugcc_simulate gray fuel s k x) /\
  counted (fun y u i => u = (k + sumn (map sumn y.1))%N /\ i = sumn (map sumn y.1)) 0 0 (ugccb_simulate fuel s k v).
Proof. exact C81_draws_uniform_losses_lemma. Qed.
Print Assumptions C81_draws_uniform_losses.

(* C81: the loop of the Ryser and Chin-Huh calculators makes exactly prod (s_i + 1) passes: fewer do not suffice, more change nothing *)
Theorem C81_passes :
  forall (F : numFieldType) (m : nat) (M : seq (seq F)) (s t : seq nat) (fuel : nat) (k : guan_kind) (c : calc F),
  is_square m M -> size t = size s -> (size s <= m)%N -> s != [::] ->
  c_matrix c = M -> c_input c = s -> c_output c = t ->
  ((fuel < \prod_(x <- s) x.+1)%N -> compute_permanent fuel k c = Err OutOfFuel) /\
  ((\prod_(x <- s) x.+1 <= fuel)%N -> exists c', compute_permanent fuel k c = Ok c' /\ compute_permanent (\prod_(x <- s) x.+1) k c = Ok c').
Proof. exact C81_passes_lemma. Qed.
Print Assumptions C81_passes.

(* C81: the same for the sub-matrix calculators with at least two particles; with one there is no loop *)
Theorem C81_sub_passes :
  forall (F : numFieldType) (m : nat) (M : seq (seq F)) (s t : seq nat) (fuel : nat) (k : guan_kind) (c : subcalc F),
  is_square m M -> size t = size s -> (size s <= m)%N -> sumn s = (sumn t).+1 ->
  sc_matrix c = M -> sc_input c = s -> sc_output c = t ->
  ((0 < sumn t)%N -> (fuel < \prod_(x <- s) x.+1)%N -> compute_permanents fuel k c = Err OutOfFuel) /\
  ((0 < sumn t)%N -> (\prod_(x <- s) x.+1 <= fuel)%N ->
     exists r, compute_permanents fuel k c = Ok r /\ compute_permanents (\prod_(x <- s) x.+1) k c = Ok r) /\
  (sumn t = 0%N -> compute_permanents fuel k c = compute_permanents 0 k c).
Proof. exact C81_sub_passes_lemma. Qed.
Print Assumptions C81_sub_passes.
