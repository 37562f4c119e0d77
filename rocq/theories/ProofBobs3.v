(* The networks drawn by the approximate sampler. *)
From mathcomp Require Import all_ssreflect all_algebra complex.
From mathcomp Require Import ring zify.
From Verif Require Import Base SpecStates Combi SpecPerm PermMath SpecBS BsMath BsComb BsNorm.
From Verif Require Import ModelStates ModelPerm ModelDist SpecProb ProbMath ModelGcc ModelGccB ProofSel SpecGcc ModelNet SpecNet.
From Verif Require Import ProofNet1 ProofNet7 ProofBobs1 ModelBobs SpecBobs.
Set Implicit Arguments.
Unset Strict Implicit.
Unset Printing Implicit Defensive.
Import Order.TTheory GRing.Theory Num.Theory.
Local Open Scope ring_scope.
Local Open Scope py_scope.

Section Networks.
Variable R : rcfType.
Notation C := (ComplexField.complex_numFieldType R).
Notation mat := (seq (seq C)).
Variable cis : R -> C.
Hypothesis ok : cis_ok cis.
Variables (m k : nat).
Hypotheses (m0 : (0 < m)%N) (km : (k <= m)%N).

Definition approx_calc (N : mat) (d : seq R) : res mat :=
  let! Q := qft_matrix_first cis k m in
  let! P := phases_matrix_first cis k m d in
  let! A := np_matmul N P in
  np_matmul A Q.

Lemma approx_ent (N : mat) d i j : (i < m)%N -> (j < m)%N ->
  ent (approx_net cis m N k d) i j = \sum_(a < m) ent N i a * phase_of cis k d a * fourier_of cis k a j.
Proof. by move=> il jl; rewrite ent_tab. Qed.

Lemma fourierE : exists Q, [/\ qft_matrix_first cis k m = Ok Q, is_square m Q, unitary m Q
  & forall i j : nat, (i < m)%N -> (j < m)%N -> ent Q i j = fourier_of cis k i j].
Proof.
have [Q [eQ sQ hQ]] := qft_firstE cis km.
have [Q' [eQ' uQ]] := qft_first_unitary ok km; move: eQ'; rewrite eQ => -[eQ']; rewrite -{}eQ' in uQ.
exists Q; split=> // i j il jl; rewrite hQ // /fourier_of; case: ifP => // /andP[ik jk].
by rewrite (qft_ent ok _ ik jk) //; apply: leq_ltn_trans ik.
Qed.

Lemma approx_calcE (N : mat) d : is_square m N -> exists A, [/\ approx_calc N d = Ok A, is_square m A
  & forall i j : nat, (i < m)%N -> (j < m)%N -> ent A i j = ent (approx_net cis m N k d) i j].
Proof.
move=> sN; have [Q [eQ sQ _ hQ]] := fourierE; have [P [eP sP hP]] := phasesE cis km d.
have [X [eX rX mX]] := matmul_ok sN sP m0; have [Y [eY rY mY]] := matmul_ok rX sQ m0.
exists Y; rewrite /approx_calc eQ eP /= eX /= eY; split=> // i j il jl.
have := congr1 (fun A : 'M_m => A (Ordinal il) (Ordinal jl)) mY; rewrite !mxE /= => ->.
rewrite approx_ent //; apply: eq_bigr => a _; rewrite mX !mxE hQ //; congr (_ * _).
rewrite (bigD1 a) //= big1 ?addr0 => [|b ne]; rewrite !mxE hP //.
  by rewrite eqxx.
by rewrite -[_ == _ :> nat]/(b == a) (negPf ne) mulr0.
Qed.

Lemma phase_nsq d i : nsq (phase_of cis k d i) = 1.
Proof. by rewrite /phase_of; case: ifP => _; rewrite ?nsq1 //; case: ok. Qed.

Lemma approx_norm (N : mat) d (v : nat -> C) : (forall w, image_norm m N w <= vec_norm m w) ->
  image_norm m (approx_net cis m N k d) v <= vec_norm m v.
Proof.
move=> H; have [Q [_ _ uQ hQ]] := fourierE; rewrite -(unitary_norm v uQ).
apply: le_trans (_ : vec_norm m (fun a => phase_of cis k d a * \sum_(j < m) ent Q a j * v j) <= _); last first.
  by apply: ler_sum => a _; rewrite nsqM phase_nsq mul1r.
apply: le_trans (H _); rewrite le_eqVlt; apply/orP; left; apply/eqP; apply: eq_bigr => i _; congr nsq.
transitivity (\sum_(j < m) \sum_(a < m) ent N i a * phase_of cis k d a * fourier_of cis k a j * v j).
  by apply: eq_bigr => j _; rewrite approx_ent // mulr_suml.
rewrite exchange_big; apply: eq_bigr => a _; rewrite !mulr_sumr; apply: eq_bigr => j _.
by rewrite hQ // !mulrA.
Qed.

Lemma approx_sub (N A : mat) d : is_square m A ->
  (forall i j : nat, (i < m)%N -> (j < m)%N -> ent A i j = ent (approx_net cis m N k d) i j) ->
  (forall w, image_norm m N w <= vec_norm m w) -> subunitary m A.
Proof.
move=> sA hA H; split=> // v; apply: le_trans (approx_norm d v H); rewrite le_eqVlt; apply/orP; left; apply/eqP.
by apply: eq_bigr => i _; congr nsq; apply: eq_bigr => j _; rewrite hA.
Qed.

Lemma approx_scale (M N : mat) x d :
  (forall i j : nat, (i < m)%N -> (j < m)%N -> ent M i j = x * ent N i j) ->
  forall i j : nat, (i < m)%N -> (j < m)%N ->
  ent (approx_net cis m M k d) i j = x * ent (approx_net cis m N k d) i j.
Proof.
move=> h i j il jl; rewrite !approx_ent // mulr_sumr; apply: eq_bigr => a _.
by rewrite h // !mulrA.
Qed.
End Networks.

Lemma sumn_set (u : seq nat) j p : (j < size u)%N -> (sumn (set_nth 0 u j p) + nth 0 u j = sumn u + p)%N.
Proof.
elim: u j => [|x u IH] [|j] //=; first by move=> _; lia.
by rewrite ltnS => /IH h; lia.
Qed.

Section Inputs.
Variables (m k p : nat) (s : seq nat).
Hypotheses (ss : size s = m) (km : (k <= m)%N).

Lemma approx_inputs_size s' : s' \in approx_inputs k p s -> size s' = m.
Proof.
rewrite /approx_inputs; case: eqP => [_|k0]; first by rewrite inE => /eqP ->.
move=> /mapP[j]; rewrite mem_iota add0n => /= jl ->; rewrite size_set_nth size_cat size_nseq size_drop ss subnKC //.
by apply/maxn_idPr; apply: leq_trans jl km.
Qed.

Lemma approx_inputs_sumn s' : s' \in approx_inputs k p s -> sumn s' = approx_total k p s.
Proof.
rewrite /approx_inputs /approx_total; case: eqP => [_|k0]; first by rewrite inE => /eqP ->.
move=> /mapP[j]; rewrite mem_iota add0n => /= jl ->.
have : (j < size (nseq k 0%N ++ drop k s))%N by rewrite size_cat size_nseq ltn_addr.
move/(sumn_set p); rewrite nth_cat size_nseq jl nth_nseq jl addn0 sumn_cat sumn_nseq mul0n add0n => ->.
exact: addnC.
Qed.

Lemma approx_inputs_le s' x : s' \in approx_inputs k p s -> x \in s' -> (x <= maxn (\max_(y <- s) y) p)%N.
Proof.
have H y : y \in s -> (y <= maxn (\max_(y <- s) y) p)%N.
  by move=> ys; apply: leq_trans (leq_maxl _ _); rewrite (big_rem y) //= leq_maxl.
rewrite /approx_inputs; case: eqP => [_|k0]; first by rewrite inE => /eqP ->; exact: H.
move=> /mapP[j]; rewrite mem_iota add0n => /= jl -> xs.
have [i _ <-] := nthP 0%N xs; rewrite nth_set_nth /=; case: eqP => _; first exact: leq_maxr.
rewrite nth_cat nth_nseq size_nseq; case: ltnP => // ik; rewrite nth_drop subnKC //.
case: (ltnP i (size s)) => il; last by rewrite nth_default.
by apply: H; exact: mem_nth.
Qed.
End Inputs.
