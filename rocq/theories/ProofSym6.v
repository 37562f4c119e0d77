(* Unitarity of the changed networks; expectation of a sum over samples. *)
From mathcomp Require Import all_ssreflect all_algebra complex.
From mathcomp Require Import ring zify.
From Verif Require Import Base SpecStates Combi SpecPerm PermMath SpecBS BsMath BsComb BsNorm SpecProb ProbMath SpecSym BsSym.
From Verif Require Import ProofSym1 ProofSample1.
Set Implicit Arguments.
Unset Strict Implicit.
Unset Printing Implicit Defensive.
Import GRing.Theory Num.Theory.
Local Open Scope ring_scope.

Lemma square_mk (F : comRingType) m (f : nat -> nat -> F) : is_square m (mkseq (fun i => mkseq (f i) m) m).
Proof. by rewrite /is_square size_mkseq eqxx; apply/allP=> r /mapP[i _ ->]; rewrite size_mkseq. Qed.

Lemma square_relabel (F : comRingType) m tau sigma (U : seq (seq F)) : size tau = m -> size sigma = m ->
  is_square m (relabel_mx tau sigma U).
Proof. by move=> <- z; rewrite /is_square size_map eqxx; apply/allP=> r /mapP[i _ ->]; rewrite size_map z. Qed.

Section Unit.
Variable R : rcfType.
Notation C := R[i].
Implicit Types (U : seq (seq C)) (s t : seq nat).

Lemma unitary_on_phased m x y U s : phases m x -> phases m y -> size s = m -> unitary_on m U s -> unitary_on m (phased m x y U) s.
Proof.
move=> px py zs [sq H]; split=> [|i i' ip ip']; first exact: square_mk.
have il : (i < m)%N by rewrite -zs nth_pos_lt.
have il' : (i' < m)%N by rewrite -zs nth_pos_lt.
rewrite /ortho_cols (eq_bigr (fun j : 'I_m => conjc (y i) * y i' * (conjc (ent U j i) * ent U j i'))) => [|j _].
  rewrite -mulr_sumr H //; case: eqP => [->|_]; last by rewrite mulr0.
  by rewrite -nsqE py // mulr1.
rewrite !ent_mk //; have e1 : conjc (x j) * x j = 1 by rewrite -nsqE px.
have e2 : conjc (x j * ent U j i * y i) = conjc (x j) * conjc (ent U j i) * conjc (y i).
  by rewrite !(rmorphM (conjc_rmorphism R)).
rewrite e2; transitivity (conjc (x j) * x j * (conjc (y i) * y i' * (conjc (ent U j i) * ent U j i'))); last by rewrite e1 mul1r.
by move: (conjc _) (conjc _) (conjc _) => a b c; ring.
Qed.

Lemma unitary_on_relabel m tau sigma U s : perm_eq tau (iota 0 m) -> perm_eq sigma (iota 0 m) -> size s = m ->
  unitary_on m U s -> unitary_on m (relabel_mx tau sigma U) (relabel sigma s).
Proof.
move=> pt ps zs [sq H]; split=> [|i i' ip ip']; first by apply: square_relabel; [exact: (sigma_size pt)|exact: (sigma_size ps)].
have il := nth_pos_lt ip; have il' := nth_pos_lt ip'; rewrite size_relabel in il il'.
move: ip ip'; rewrite !(nth_map 0%N) // => ip ip'.
rewrite /ortho_cols (eq_bigr (fun j : 'I_m => conjc (ent U (nth 0%N tau j) (nth 0%N sigma i)) * ent U (nth 0%N tau j) (nth 0%N sigma i'))) => [|j _].
  rewrite -(big_mkord xpredT (fun j => conjc (ent U (nth 0%N tau j) (nth 0%N sigma i)) * ent U (nth 0%N tau j) (nth 0%N sigma i'))) -{1}(sigma_size pt).
  rewrite -(big_nth 0%N xpredT (fun j => conjc (ent U j (nth 0%N sigma i)) * ent U j (nth 0%N sigma i'))) (perm_big _ pt) /=.
  rewrite -{1}[m]subn0 -/(index_iota 0 m) big_mkord H // nth_uniq //; exact: (sigma_uniq ps).
have jl : (j < size tau)%N by rewrite (sigma_size pt).
by rewrite /ent /relabel_mx (nth_map 0%N) // !(nth_map 0%N).
Qed.

End Unit.

Lemma iid_exp_sum (R : realFieldType) (T : Type) (S : seq T) (P : T -> R) k (h : T -> R) : \sum_(t <- S) P t = 1 ->
  iid_exp S P k (fun L => \sum_(t <- L) h t) = k%:R * \sum_(t <- S) h t * P t.
Proof.
move=> P1; elim: k => [|k IH] /=; first by rewrite mul0r big_nil.
rewrite (eq_bigr (fun t => h t * P t + P t * (k%:R * \sum_(t <- S) h t * P t))) => [|t _].
  by rewrite big_split /= -mulr_suml P1 mul1r -[in RHS]addn1 natrD mulrDl mul1r addrC.
rewrite (iid_exp_ext _ _ _ (g' := fun L => h t + 1 * \sum_(t <- L) h t)) => [|L]; last by rewrite mul1r big_cons.
rewrite (iid_exp_lin _ _ _ (fun=> h t) (fun L => \sum_(t <- L) h t)) iid_exp_const // IH mul1r mulrDr.
by rewrite mulrC.
Qed.
