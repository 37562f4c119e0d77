(* Final forms of the lemmas behind the property theorems: C81 (cost: random numbers drawn, passes of the loops). *)
From mathcomp Require Import all_ssreflect all_algebra complex.
From Verif Require Import Base SpecStates SpecPerm SpecProb SpecCost ModelStates ModelPerm ModelDist SpecGcc ModelGcc ModelGccB LemPerm ProofCost1 ProofCost2.
Set Implicit Arguments.
Unset Strict Implicit.
Unset Printing Implicit Defensive.
Import GRing.Theory Num.Theory.
Local Open Scope ring_scope.
Local Open Scope py_scope.

Lemma C81_draws_A_lemma :
  forall (R : rcfType) (gray : nat -> seq nat) (fuel : nat) (s : seq nat) (k : nat) (g : gcc R),
  counted (fun x u i => u = (k * sumn s)%N /\ i = 0%N) 0 0 (gcc_simulate gray fuel s k g) /\
  counted (fun x u i => u = (k * sumn s)%N /\ i = 0%N) 0 0 (ma_simulate gray fuel s k g).
Proof.
by move=> R gray fuel s k g; split; [exact: gcc_counted|exact: ma_counted].
Qed.

Lemma C81_draws_B_lemma :
  forall (R : rcfType) (fuel : nat) (s : seq nat) (k : nat) (b : gccb R),
  counted (fun x u i => u = (k * sumn s)%N /\ i = (k * sumn s)%N) 0 0 (gccb_simulate fuel s k b).
Proof.
move=> R fuel s k b; exact: gccb_counted.
Qed.

Lemma C81_draws_uniform_losses_lemma :
  forall (R : rcfType) (gray : nat -> seq nat) (fuel : nat) (s : seq nat) (k : nat) (x : ugcc R) (v : ugccb R),
  counted (fun y u i => u = (k * sumn s + sumn (map sumn y.1))%N /\ i = 0%N) 0 0 (ugcc_simulate gray fuel s k x) /\
  counted (fun y u i => u = (k + sumn (map sumn y.1))%N /\ i = sumn (map sumn y.1)) 0 0 (ugccb_simulate fuel s k v).
Proof.
by move=> R gray fuel s k x v; split; [exact: ugcc_counted|exact: ugccb_counted].
Qed.

Lemma C81_passes_lemma :
  forall (F : numFieldType) (m : nat) (M : seq (seq F)) (s t : seq nat) (fuel : nat) (k : guan_kind) (c : calc F),
  is_square m M -> size t = size s -> (size s <= m)%N -> s != [::] ->
  c_matrix c = M -> c_input c = s -> c_output c = t ->
  ((fuel < \prod_(x <- s) x.+1)%N -> compute_permanent fuel k c = Err OutOfFuel) /\
  ((\prod_(x <- s) x.+1 <= fuel)%N -> exists c', compute_permanent fuel k c = Ok c' /\ compute_permanent (\prod_(x <- s) x.+1) k c = Ok c').
Proof.
move=> F m M s t fuel k c sq st sm s0 E1 E2 E3; split=> fu; first exact: (compute_short (M := M) k sq st sm s0 E1 E2 E3 fu).
have [d [r [i [l E]]]] := ProofPerm2.computeE k sq st sm s0 E1 E2 E3 (leqnn (\prod_(x <- s) x.+1)).
by rewrite E (compute_mono fu E); eexists.
Qed.

Lemma C81_sub_passes_lemma :
  forall (F : numFieldType) (m : nat) (M : seq (seq F)) (s t : seq nat) (fuel : nat) (k : guan_kind) (c : subcalc F),
  is_square m M -> size t = size s -> (size s <= m)%N -> sumn s = (sumn t).+1 ->
  sc_matrix c = M -> sc_input c = s -> sc_output c = t ->
  ((0 < sumn t)%N -> (fuel < \prod_(x <- s) x.+1)%N -> compute_permanents fuel k c = Err OutOfFuel) /\
  ((0 < sumn t)%N -> (\prod_(x <- s) x.+1 <= fuel)%N ->
     exists r, compute_permanents fuel k c = Ok r /\ compute_permanents (\prod_(x <- s) x.+1) k c = Ok r) /\
  (sumn t = 0%N -> compute_permanents fuel k c = compute_permanents 0 k c).
Proof.
move=> F m M s t fuel k c sq st sm ss E1 E2 E3; split=> [t0 fu|]; first exact: (subs_short k sq st sm ss t0 E1 E2 E3 fu).
split=> [t0 fu|t0]; last by rewrite /compute_permanents E2 ss t0.
have [c' [E _ _ _]] := ProofPerm5.compute_subE k sq st sm ss t0 E1 E2 E3 (leqnn (\prod_(x <- s) x.+1)).
by rewrite E (subs_mono fu E); eexists.
Qed.
