(* Independent vocabulary for the distributions estimated from samples. *)
From mathcomp Require Import all_ssreflect all_algebra complex.
From Verif Require Import Base SpecStates SpecProb ModelQC.
Set Implicit Arguments.
Unset Strict Implicit.
Unset Printing Implicit Defensive.
Import GRing.Theory Num.Theory.
Local Open Scope ring_scope.

Section Sample.
Variable R : rcfType.

(* of k samples L the fraction which is the j-th outcome and none before it *)
Definition frequencies (k : nat) (outs L : seq (seq nat)) : seq R :=
  [seq (count (fun t => index t outs == j) L)%:R / k%:R | j <- iota 0 (size outs)].

(* a call which never raises, and returns samples satisfying Q *)
Definition samples_ok (G : Type) (p : rprog R (res (seq (seq nat) * G))) (Q : seq (seq nat) -> Prop) : Prop :=
  always (fun y => exists L g, y = Ok (L, g) /\ Q L) p.

(* k independent samples from the distribution P on S: the expectation of every
   function of the samples *)
Definition samples_law (G : Type) (p : rprog R (res (seq (seq nat) * G))) (k : nat) (S : seq (seq nat)) (P : seq nat -> R) : Prop :=
  forall f, has_exp (on_ok (fun y => f y.1)) p (iid_exp S P k f).

(* the event that a calculation raises, or returns a list with a NaN, of another
   length than d, or at total variation distance at least b from d *)
Definition far_from (X : Type) (d : seq R) (b : R) (r : res (seq (option R) * X)) : R :=
  if r is Ok y then if tvd_lists (pmap id y.1) d is Ok x then (if b <= x then 1 else 0) else 1 else 1.

(* numpy's comparison of two rows: with one entry, it is compared with every entry
   of the other *)
Definition comparable (t o : seq nat) : bool := [|| size t == size o, size t == 1%N | size o == 1%N].
Definition matches (t o : seq nat) : bool :=
  if size t == size o then t == o else if size t == 1%N then all (pred1 (head 0%N t)) o else all (pred1 (head 0%N o)) t.

(* every outcome has m entries *)
Definition modes_of (m : nat) (outs : seq (seq nat)) : bool := all (fun t => size t == m) outs.

End Sample.
