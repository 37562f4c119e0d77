(* Independent specification of permanents and boson-sampling amplitudes. *)
From mathcomp Require Import all_ssreflect all_fingroup all_algebra.
From Verif Require Import SpecStates.
Set Implicit Arguments.
Unset Strict Implicit.
Unset Printing Implicit Defensive.
Local Open Scope ring_scope.

Section Perm.
Variable R : comRingType.

(* the permanent of a square matrix *)
Definition permanent n (A : 'M[R]_n) : R := \sum_(p : 'S_n) \prod_(i < n) A i (p i).

(* entry of a matrix given by its rows *)
Definition ent (U : seq (seq R)) (j i : nat) : R := nth 0 (nth [::] U j) i.

(* a m x m matrix given by its rows *)
Definition is_square (m : nat) (U : seq (seq R)) : bool :=
  (size U == m) && all (fun row => size row == m) U.

End Perm.

(* the mode of each particle, in order *)
Definition particle_modes (s : seq nat) : seq nat :=
  flatten [seq nseq (nth 0%N s i) i | i <- iota 0 (size s)].

(* the matrix with row a given by the mode of the a-th output particle and
   column b given by the mode of the b-th input particle *)
Definition scattering (R : comRingType) (U : seq (seq R)) (s t : seq nat) : 'M[R]_(sumn t) :=
  \matrix_(a, b) ent U (nth 0%N (particle_modes t) a) (nth 0%N (particle_modes s) b).

(* the boson-sampling amplitude (without normalisation), for equal particle numbers *)
Definition bs_permanent (R : comRingType) (U : seq (seq R)) (s t : seq nat) : R :=
  permanent (scattering U s t).

(* Gray codes: the bit vectors met when flipping the listed positions one
   after another, and the condition that every vector is met exactly once *)
Definition flip (v : seq bool) (i : nat) : seq bool := set_nth false v i (~~ nth false v i).
Definition gray_visits (v : seq bool) (idx : seq nat) : seq (seq bool) := v :: scanl flip v idx.
Definition is_gray_code (n : nat) (idx : seq nat) : bool :=
  [&& all (fun i => (i < n)%N) idx, uniq (gray_visits (nseq n false) idx)
    & ((size idx).+1 == 2 ^ n)%N].

(* the reflected binary Gray code *)
Fixpoint reflected_gray (n : nat) : seq nat :=
  if n is n'.+1 then reflected_gray n' ++ n' :: reflected_gray n' else [::].

(* r' differs from r by one in exactly one position *)
Definition unit_step (r r' : seq nat) : Prop :=
  exists i, [/\ (i < size r)%N, size r' = size r,
    forall j : nat, j != i -> nth 0%N r' j = nth 0%N r j
    & nth 0%N r' i = (nth 0%N r i).+1 \/ nth 0%N r i = (nth 0%N r' i).+1].

Fixpoint unit_steps (l : seq (seq nat)) : Prop :=
  match l with
  | r :: ((r' :: _) as l') => unit_step r r' /\ unit_steps l'
  | _ => True
  end.

(* s with one particle less in mode i *)
Definition one_less (s : seq nat) (i : nat) : seq nat := set_nth 0%N s i (nth 0%N s i).-1.

(* all permanents with one input particle removed, 0 for empty modes *)
Definition sub_permanents (R : comRingType) (U : seq (seq R)) (s t : seq nat) : seq R :=
  [seq if nth 0%N s i == 0%N then 0 else bs_permanent U (one_less s i) t | i <- iota 0 (size s)].
