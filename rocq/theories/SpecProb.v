(* Randomised programs as trees of draws, and their expectations.

   [Unif k]  : a draw u of the uniform distribution on [0,1), continuing with k u
   [Int n k] : a draw i of the uniform distribution on 0..n-1, continuing with k i

   [has_exp p f v]: the expectation of f over the results of p is v.  Every
   program of the models consults a uniform draw only through comparisons, so
   the expectation after a draw is a step function of it and its integral is
   the sum of value times length over the steps.  The finitely many ends of the
   steps do not matter. *)
From mathcomp Require Import all_ssreflect all_algebra.
From Verif Require Import Base.
Set Implicit Arguments.
Unset Strict Implicit.
Unset Printing Implicit Defensive.
Import GRing.Theory Num.Theory.
Local Open Scope ring_scope.

Section Prob.
Variable R : realFieldType.

Inductive rprog (A : Type) : Type :=
  | Ret of A
  | Unif of (R -> rprog A)
  | Int of nat & (nat -> rprog A).

Fixpoint pbind (A B : Type) (p : rprog A) (g : A -> rprog B) : rprog B :=
  match p with
  | Ret a => g a
  | Unif k => Unif (fun u => pbind (k u) g)
  | Int n k => Int n (fun i => pbind (k i) g)
  end.

(* programs whose result may be an exception *)
Definition rpbind (A B : Type) (p : rprog (res A)) (g : A -> rprog (res B)) : rprog (res B) :=
  pbind p (fun x => match x with Ok a => g a | Err e => Ret (Err e) end).

(* the weights w cut [0,1) into consecutive intervals; u lies in the i-th *)
Definition in_step (w : seq R) (i : nat) (u : R) : bool :=
  (\sum_(j < i) w`_j <= u) && (u < \sum_(j < i.+1) w`_j).

(* ... and is not an end of it *)
Definition inside_step (w : seq R) (i : nat) (u : R) : bool :=
  (\sum_(j < i) w`_j < u) && (u < \sum_(j < i.+1) w`_j).

Definition is_distr (w : seq R) : Prop := all (fun x => 0 <= x) w /\ \sum_(x <- w) x = 1.

Inductive has_exp (A : Type) (f : A -> R) : rprog A -> R -> Prop :=
  | ExpRet a : has_exp f (Ret a) (f a)
  | ExpUnif k w v :
      is_distr w ->
      (forall i u, (i < size w)%N -> inside_step w i u -> has_exp f (k u) (v i)) ->
      has_exp f (Unif k) (\sum_(i < size w) w`_i * v i)
  | ExpInt n k v :
      (0 < n)%N ->
      (forall i, (i < n)%N -> has_exp f (k i) (v i)) ->
      has_exp f (Int n k) ((\sum_(i < n) v i) / n%:R).

(* every possible result satisfies P *)
Fixpoint always (A : Type) (P : A -> Prop) (p : rprog A) : Prop :=
  match p with
  | Ret a => P a
  | Unif k => forall u, 0 <= u < 1 -> always P (k u)
  | Int n k => forall i, (i < n)%N -> always P (k i)
  end.

(* the same draws give related results *)
Fixpoint same_run (A B : Type) (P : A -> B -> Prop) (p : rprog A) (q : rprog B) : Prop :=
  match p, q with
  | Ret a, Ret b => P a b
  | Unif k, Unif k' => forall u, 0 <= u < 1 -> same_run P (k u) (k' u)
  | Int n k, Int n' k' => n = n' /\ forall i, (i < n)%N -> same_run P (k i) (k' i)
  | _, _ => False
  end.

(* a raised exception counts 0 *)
Definition on_ok (A : Type) (f : A -> R) (x : res A) : R := if x is Ok a then f a else 0.

(* expectation of g over k independent draws, in order, from the
   distribution with values in S and probabilities P *)
Fixpoint iid_exp (T : Type) (S : seq T) (P : T -> R) (k : nat) (g : seq T -> R) : R :=
  if k is k'.+1 then \sum_(t <- S) P t * iid_exp S P k' (fun L => g (t :: L)) else g [::].

End Prob.

Arguments Ret {R A}.
Notation "'draw!' x := e1 'in' e2" := (rpbind e1 (fun x => e2))
  (at level 200, x name, e1 at level 100, e2 at level 200) : py_scope.
