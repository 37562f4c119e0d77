(* Changes of a network that do not change, or change in a known way, what
   is measured: other labels of the modes, phases in front of and behind the
   network, reversal, composition, two networks side by side. *)
From mathcomp Require Import all_ssreflect all_algebra complex.
From Verif Require Import SpecStates Combi SpecPerm SpecBS.
Set Implicit Arguments.
Unset Strict Implicit.
Unset Printing Implicit Defensive.
Local Open Scope ring_scope.

(* the new mode i is the old mode sigma_i *)
Definition relabel (sigma s : seq nat) : seq nat := [seq nth 0%N s i | i <- sigma].

Section Sym.
Variable F : comRingType.

(* the outputs in the order tau, the inputs in the order sigma *)
Definition relabel_mx (tau sigma : seq nat) (U : seq (seq F)) : seq (seq F) :=
  [seq [seq ent U i j | j <- sigma] | i <- tau].

(* a diagonal matrix behind and one in front of the network *)
Definition phased m (x y : nat -> F) (U : seq (seq F)) : seq (seq F) :=
  mkseq (fun i => mkseq (fun j => x i * ent U i j * y j) m) m.

Definition transposed m (U : seq (seq F)) : seq (seq F) :=
  mkseq (fun i => mkseq (fun j => ent U j i) m) m.

(* first V, then U *)
Definition product m (U V : seq (seq F)) : seq (seq F) :=
  mkseq (fun i => mkseq (fun j => \sum_(k < m) ent U i k * ent V k j) m) m.

(* A on the first m1 modes, B on the m2 modes after them *)
Definition side_by_side m1 m2 (A B : seq (seq F)) : seq (seq F) :=
  mkseq (fun i => mkseq (fun j =>
    if (i < m1)%N && (j < m1)%N then ent A i j
    else if (m1 <= i)%N && (m1 <= j)%N then ent B (i - m1) (j - m1) else 0) (m1 + m2)) (m1 + m2).

End Sym.

Definition reversed (R : rcfType) m (U : seq (seq R[i])) : seq (seq R[i]) :=
  mkseq (fun i => mkseq (fun j => conjc (ent U j i)) m) m.

Section After.
Variable R : rcfType.

(* all but sumn t of the n particles of an outcome drawn from P are lost,
   every choice of the particles being as likely as every other *)
Definition fixed_after (m n : nat) (P : seq nat -> R) (t : seq nat) : R :=
  (\sum_(t' <- comps m n) (ways t' t)%:R * P t') / 'C(n, sumn t)%:R.

(* every particle of an outcome of at most n particles drawn from P is kept
   with probability eta, independently *)
Definition uniform_after (m n : nat) (eta : R) (P : seq nat -> R) (t : seq nat) : R :=
  \sum_(l < n.+1) \sum_(t' <- comps m l)
    (ways t' t)%:R * eta ^+ sumn t * (1 - eta) ^+ (l - sumn t) * P t'.

End After.
