(* Floating point in the counting functions of
   theboss/boson_sampling_utilities/boson_sampling_utilities.py:
   bosonic_space_dimension (206-237) rounds scipy's binom, a float64;
   compute_number_of_states_of_given_type (444-475) divides scipy's factorial,
   a float64 (exact = False is the default), with // .  And get_prime_factors of
   theboss/quantum_computations_utilities.py (130-144), which divides with / . *)
From mathcomp Require Import all_ssreflect all_algebra.
From Verif Require Import Base ModelQC.
Set Implicit Arguments.
Unset Strict Implicit.
Unset Printing Implicit Defensive.
Import GRing.Theory Num.Theory.
Local Open Scope ring_scope.
Local Open Scope py_scope.

Section Count.
Variable R : rcfType.

(* the finite numbers of float64 *)
Definition float64 (x : R) : Prop :=
  exists (a e : int), [/\ `|a| < 2 ^+ 53, -1074 <= e <= 971 & x = a%:~R * 2%:R ^ e].

(* bosonic_space_dimension: round(binom(..)) *)
Definition fl_bosonic_space_dimension (binom : nat -> nat -> R) (round : R -> int)
    (n m : nat) (losses : bool) : int :=
  let dimension := round (binom (n + m - 1)%N n) in
  if ~~ losses then dimension
  else foldl (fun d k => d + round (binom (k + m - 1)%N k)) dimension (iota 0 n).

(* round returns a nearest integer *)
Definition rounds (round : R -> int) : Prop := forall x, `|x - (round x)%:~R| <= 2%:R^-1.

(* compute_number_of_states_of_given_type; None stands for infinity and NaN, and
   inf // x is NaN *)
Definition fl_states_of_given_type (factorial : nat -> option R) (floordiv : R -> R -> option R)
    (vals t : seq nat) : option R :=
  let counts := [seq count_mem v t | v <- vals] in
  foldl (fun x c => if x is Some a then (if factorial c is Some b then floordiv a b else Some 0) else None)
    (factorial (size t)) counts.

(* scipy's factorial: float64 numbers, n! if that is one, infinity from 2^1024 on *)
Definition float_factorial (factorial : nat -> option R) : Prop :=
  [/\ forall n x, factorial n = Some x -> float64 x,
      forall n, float64 n`!%:R -> factorial n = Some n`!%:R
    & forall n, (2 ^ 1024 <= n`!)%N -> factorial n = None].

(* a // b: a float64 number, the quotient where that is an integer among them *)
Definition float_floordiv (floordiv : R -> R -> option R) : Prop :=
  (forall x y z, floordiv x y = Some z -> float64 z) /\
  (forall k l : nat, (0 < l)%N -> float64 (k * l)%:R -> float64 l%:R -> float64 k%:R ->
     floordiv (k * l)%:R l%:R = Some k%:R).

End Count.

(* get_prime_factors: after the first division the number is a float64, here
   always an integer; isq n is int(sqrt(n)) *)
Section Primes.
Variables (fdiv : nat -> nat -> nat) (isq : nat -> nat).
Fixpoint fl_divide_out (fuel i n : nat) (fs : seq nat) : res (nat * seq nat) :=
  if fuel is fuel'.+1 then
    if (n %% i == 0)%N then fl_divide_out fuel' i (fdiv n i) (rcons fs i) else Ok (n, fs)
  else Err OutOfFuel.
Definition fl_prime_factors (fuel n : nat) : res (seq nat) :=
  let! nf := fl_divide_out fuel 2 n [::] in
  let! nf' := rfoldl (fun nf i => fl_divide_out fuel i nf.1 nf.2) nf (odds_from_3 (isq nf.1).+1) in
  Ok (rcons nf'.2 nf'.1).
End Primes.

(* n / i, for i dividing n, rounded to 53 binary digits; the rounded square root *)
Definition float_div (fdiv : nat -> nat -> nat) : Prop :=
  forall n i, (0 < i)%N -> (i %| n)%N ->
  ((n %/ i < 2 ^ 53)%N -> fdiv n i = (n %/ i)%N) /\
  ((2 ^ 53 <= n %/ i)%N -> (2 ^ 53 <= fdiv n i)%N /\ exists b k, (b < 2 ^ 53)%N /\ fdiv n i = (b * 2 ^ k)%N).
Definition float_sqrt (isq : nat -> nat) : Prop := forall n, (n < 2 ^ 52)%N -> isq n = isqrt n.
