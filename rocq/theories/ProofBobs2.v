(* Losses in front of the network: the draws of the numbers of particles. *)
From mathcomp Require Import all_ssreflect all_algebra complex.
From mathcomp Require Import ring zify.
From Verif Require Import Base SpecStates Combi SpecPerm PermMath SpecBS BsMath BsComb BsNorm.
From Verif Require Import ModelStates ModelPerm ModelDist SpecProb ProbMath ModelGcc ModelGccB ProofSel SpecGcc ModelNet SpecNet.
From Verif Require Import ProofGccB2 ModelBobs.
Set Implicit Arguments.
Unset Strict Implicit.
Unset Printing Implicit Defensive.
Import Order.TTheory GRing.Theory Num.Theory.
Local Open Scope ring_scope.
Local Open Scope py_scope.

Section Draws.
Variable R : rcfType.

Lemma choice_search (u acc : R) a (w : seq R) : let i := cum_search u acc 0 w in
  (i < size w)%N -> choice_loop u acc (iota a (size w)) w = Some (a + i)%N.
Proof.
have sh i l b : cum_search u b i l = (i + cum_search u b 0 l)%N.
  elim: l b i => [|p l IH] b i /=; rewrite ?addn0 //; case: ifP => _; rewrite ?addn0 //.
  by rewrite IH [in RHS]IH addnA addn1.
move=> /=; elim: w acc a => [|p w IH] acc a //=; case: ifP => _; first by rewrite addn0.
by rewrite sh add1n ltnS => /(IH _ a.+1) ->; rewrite addSnnS.
Qed.

Lemma own_choice_exp f (w : seq R) : is_distr w ->
  has_exp (on_ok f) (own_choice (iota 0 (size w)) w) (\sum_(i < size w) w`_i * f (Some (i : nat))).
Proof.
move=> dw; rewrite /own_choice size_iota eqxx.
apply: (@has_exp_select1 _ _ _ _ _ (fun i => f (Some i)) dw) => i u il _ u01 e.
rewrite choice_search ?e // add0n; exact: ExpRet.
Qed.

Lemma own_choice_always (w : seq R) : is_distr w ->
  always (fun x => exists i, x = Ok (Some i) /\ (i < size w)%N) (own_choice (iota 0 (size w)) w).
Proof.
move=> dw; rewrite /own_choice size_iota eqxx /= => u u01.
have [lt _] := search_pos1 dw u01; exists (cum_search u 0 0 w); split=> //.
by rewrite choice_search.
Qed.

Variable l : R.
Hypothesis l01 : 0 <= l <= 1.
Let eta := 1 - l.
Lemma eta01 : 0 <= eta <= 1.
Proof. by move/andP: l01 => [h1 h2]; rewrite subr_ge0 h2 ler_subl_addr ler_addl. Qed.

Lemma dget_tab (T : Type) (g : nat -> T) (L : seq nat) n : uniq L -> n \in L ->
  dget [seq (k, g k) | k <- L] n = Some (g n).
Proof.
rewrite /dget; elim: L => [//|k L IH] /= /andP[kL uL].
by rewrite inE eq_sym; case: (eqVneq k n) => [->|ne] //= /(IH uL).
Qed.

Lemma own_weightsE mx n : (0 < n)%N -> (n <= mx)%N ->
  dget_res (own_binomial_weights l mx) n = Ok [seq binomial_weight n eta k | k <- iota 0 n.+1].
Proof.
move=> n0 le; rewrite /dget_res /own_binomial_weights (dget_tab (fun n => [seq _ | l0 <- iota 0 n.+1])) ?iota_uniq //; last by rewrite mem_iota n0 /= add1n ltnS.
congr Ok; apply: eq_map => k.
by rewrite /binomial_weight [_ ^+ k * _]mulrC.
Qed.

Definition thin_weight (s K : seq nat) : R := (ways s K)%:R * eta ^+ sumn K * l ^+ (sumn s - sumn K).

Lemma big_subs_cons (V : zmodType) n s (F : seq nat -> V) :
  \sum_(K <- subs (n :: s)) F K = \sum_(k < n.+1) \sum_(K <- subs s) F (val k :: K).
Proof.
rewrite subs_cons big_flatten big_map -[X in iota _ X](subn0 n.+1) -/(index_iota _ _) big_mkord.
by apply: eq_bigr => k _; rewrite big_map.
Qed.

Lemma thin_weight_cons n s k K : (k <= n)%N -> substate K s ->
  thin_weight (n :: s) (k :: K) = binomial_weight n eta k * thin_weight s K.
Proof.
move=> kn sub; rewrite /thin_weight ways_cons /binomial_weight /= natrM exprD.
have -> : (n + sumn s - (k + sumn K) = (n - k) + (sumn s - sumn K))%N by have := substate_sumn sub; lia.
rewrite exprD /eta opprB addrCA subrr addr0 -/eta.
by move: (eta ^+ _) (eta ^+ _) (l ^+ _) (l ^+ _) (_%:R) (_%:R) => a b c d e g; ring.
Qed.

Lemma draw_always mx n : (n <= mx)%N ->
  always (fun x => exists k, x = Ok (Some k) /\ (k <= n)%N)
    (if n == 0%N then Ret (Ok (Some 0%N)) else
     draw! w := Ret (dget_res (own_binomial_weights l mx) n) in own_choice (iota 0 n.+1) w).
Proof.
case: (posnP n) => [->|n0] le; first by exists 0%N.
have dw := bw_distr eta01 n.
rewrite own_weightsE //; have -> w : (draw! x := Ret (Ok w) in own_choice (iota 0 n.+1) x) = own_choice (iota 0 n.+1) w by [].
have sw : size [seq binomial_weight n eta k | k <- iota 0 n.+1] = n.+1 by rewrite size_map size_iota.
move: dw sw; set w := map _ _ => dw sw; rewrite -sw.
by apply: always_impl (own_choice_always dw) => _ [k [-> kl]]; exists k; rewrite sw ltnS in kl.
Qed.

Lemma draw_exp mx n f : (n <= mx)%N ->
  has_exp (on_ok f) (if n == 0%N then Ret (Ok (Some 0%N)) else
     draw! w := Ret (dget_res (own_binomial_weights l mx) n) in own_choice (iota 0 n.+1) w)
    (\sum_(k < n.+1) binomial_weight n eta k * f (Some (k : nat))).
Proof.
case: (posnP n) => [->|n0] le.
  by apply: has_exp_eq (@ExpRet _ _ _ _) _; rewrite big_ord1 /binomial_weight bin0 !expr0 !mul1r.
have dw := bw_distr eta01 n.
rewrite own_weightsE //; have -> w : (draw! x := Ret (Ok w) in own_choice (iota 0 n.+1) x) = own_choice (iota 0 n.+1) w by [].
have sw : size [seq binomial_weight n eta k | k <- iota 0 n.+1] = n.+1 by rewrite size_map size_iota.
have nw k : (k < n.+1)%N -> [seq binomial_weight n eta k | k <- iota 0 n.+1]`_k = binomial_weight n eta k.
  by move=> kl; rewrite (nth_map 0%N) ?size_iota // nth_iota // add0n.
move: dw sw nw; set w := map _ _ => dw sw nw; rewrite -sw.
apply: has_exp_eq (own_choice_exp f dw) _; rewrite sw; apply: eq_bigr => k _.
by rewrite nw.
Qed.

Lemma lossy_modes_always mx s : all (fun n => n <= mx)%N s ->
  always (fun x => exists K, x = Ok (map Some K) /\ substate K s) (lossy_modes (own_binomial_weights l mx) s).
Proof.
elim: s => [|n s IH] /=; first by exists [::].
move=> /andP[nm /IH{}IH]; apply: always_rbind; apply: always_impl (draw_always nm) => _ [k [-> kn]].
apply: always_rbind; apply: always_impl IH => _ [K [-> sub]].
by exists (k :: K); rewrite substate_cons kn.
Qed.

Lemma lossy_modes_exp mx s f : all (fun n => n <= mx)%N s ->
  has_exp (on_ok f) (lossy_modes (own_binomial_weights l mx) s)
    (\sum_(K <- subs s) thin_weight s K * f (map Some K)).
Proof.
elim: s f => [|n s IH] f.
  move=> _; apply: has_exp_eq (@ExpRet _ _ _ _) _.
  by rewrite big_seq1 /thin_weight /ways big_ord0 !expr0 !mul1r.
move=> /= /andP[nm al].
apply: has_exp_eq (has_exp_rbind (draw_exp (fun o => \sum_(K <- subs s) thin_weight s K * f (o :: map Some K)) nm) _) _.
  apply: always_impl (draw_always nm) => _ [k [-> kn]].
  apply: has_exp_rbind (IH (fun L => f (Some k :: L)) al) _.
  apply: always_impl (lossy_modes_always al) => _ [K [-> sub]]; exact: ExpRet.
rewrite big_subs_cons; apply: eq_bigr => k _; rewrite mulr_sumr; apply: eq_big_seq => K.
rewrite mem_subs => sub; have kn : (k <= n)%N by have := ltn_ord k.
by rewrite (thin_weight_cons kn sub) mulrA.
Qed.
End Draws.
