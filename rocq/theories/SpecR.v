(* What the R function bosonSampler is assumed to do, and what the wrapper is
   expected to make of it. *)
From mathcomp Require Import all_ssreflect all_algebra complex.
From Verif Require Import Base SpecStates Combi SpecPerm SpecBS SpecProb ModelR.
Set Implicit Arguments.
Unset Strict Implicit.
Unset Printing Implicit Defensive.
Import Order.TTheory GRing.Theory Num.Theory.
Local Open Scope ring_scope.

(* a rectangular r x c array *)
Definition is_rect (T : Type) (r c : nat) (A : seq (seq T)) : bool := (size A == r) && all (fun row => size row == c) A.

(* one particle in each of the first n of m modes *)
Definition first_modes (m n : nat) : seq nat := nseq n 1%N ++ nseq (m - n) 0%N.

(* the k samples of n modes, counted from 1, as occupations of m modes *)
Definition r_samples (m n k : nat) (V : seq int) : seq (seq nat) :=
  [seq occupation m [seq `|x|%N.-1 | x : int <- p] | p <- reshape (nseq k n) V].

Section RSpec.
Variable R : rcfType.
Notation CF := (ComplexField.complex_numFieldType R).
Notation mat := (seq (seq CF)).
Notation prog A := (rprog R (res A)).

(* the rows of an R matrix *)
Definition r_rows (A : rmatrix R) : mat :=
  [seq [seq rm_get A i j | j <- iota 0 (rm_cols A)] | i <- iota 0 (rm_rows A)].
Definition r_prob (A : rmatrix R) : seq nat -> R := bs_prob (r_rows A) (nseq (rm_cols A) 1%N).

(* for a matrix with orthonormal columns: k independent samples from the
   boson-sampling distribution for one particle in each column, as modes counted
   from 1; with perm also their probabilities *)
Definition r_sampler_ok (boson_sampler : rmatrix R -> nat -> bool -> prog (seq int * seq R * seq R)) : Prop :=
  forall (A : rmatrix R) (k : nat) (perm : bool),
  (0 < rm_cols A)%N -> (0 < k)%N ->
  (forall j j' : nat, (j < rm_cols A)%N -> (j' < rm_cols A)%N -> ortho_cols (rm_rows A) (r_rows A) j j') ->
  always (fun y => exists V p q, [/\ y = Ok (V, p, q), size V = (k * rm_cols A)%N,
      all (fun x : int => 1 <= x <= Posz (rm_rows A)) V
    & perm -> q = [seq r_prob A t | t <- r_samples (rm_rows A) (rm_cols A) k V]]) (boson_sampler A k perm) /\
  forall f, has_exp (on_ok (fun r => f (r_samples (rm_rows A) (rm_cols A) k r.1.1))) (boson_sampler A k perm)
    (iid_exp (comps (rm_rows A) (rm_cols A)) (r_prob A) k f).

End RSpec.
