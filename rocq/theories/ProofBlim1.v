(* Particles in one mode behind a network which spreads it over k modes, with
   random phases. *)
From mathcomp Require Import all_ssreflect all_algebra complex.
From mathcomp Require Import ring zify.
From Verif Require Import Base SpecProb ProbMath SpecStates Combi SpecPerm PermMath SpecBS BsMath BsComb BsNorm BsSym SpecNet ProofNet4 ProofSym4 SpecLim ModelGcc ModelBobs ProofLim1 ProofLim2 ProofLim3.
Set Implicit Arguments.
Unset Strict Implicit.
Unset Printing Implicit Defensive.
Import Order.TTheory GRing.Theory Num.Theory.
Local Open Scope ring_scope.
Local Open Scope py_scope.

(* p particles in mode j of k *)
Definition spike (k j p : nat) : seq nat := [seq (if i == j then p else 0)%N | i <- iota 0 k].

Lemma size_spike k j p : size (spike k j p) = k. Proof. by rewrite size_map size_iota. Qed.
Lemma nth_spike k j p i : (j < k)%N -> nth 0%N (spike k j p) i = if i == j then p else 0%N.
Proof.
move=> jk; case: (ltnP i k) => ik; first by rewrite (nth_map 0%N) ?size_iota // nth_iota // add0n.
by rewrite nth_default ?size_spike //; case: eqP => // e; rewrite -e ltnNge ik in jk.
Qed.
Lemma decr_spike k j p : (j < k)%N -> decr (spike k j p) j = spike k j p.-1.
Proof.
move=> jk; apply: (@eq_from_nth _ 0%N); rewrite ?size_decr ?size_spike // => i _.
by rewrite nth_decr !nth_spike // eqxx; case: eqP.
Qed.
Lemma set_nth_spike k j p r : (j < k)%N -> set_nth 0%N (nseq k 0%N ++ r) j p = spike k j p ++ r.
Proof.
move=> jk; have lt : (j < k + size r)%N by rewrite ltn_addr.
apply: (@eq_from_nth _ 0%N); rewrite size_set_nth !size_cat size_nseq ?size_spike; first exact/maxn_idPr.
move=> i _; rewrite nth_set_nth /= nth_cat [RHS]nth_cat size_nseq size_spike nth_spike // nth_nseq.
by case: (ltnP i k) => ik; case: (eqVneq i j) => // ij; rewrite -ij ltnNge ik in jk.
Qed.
Lemma factprod_spike k j p : (j < k)%N -> factprod (spike k j p) = p`!%N.
Proof.
move=> jk; rewrite /factprod (big_nth 0%N) size_spike big_mkord (bigD1 (Ordinal jk)) //= nth_spike // eqxx.
rewrite big1 ?muln1 // => i ne; rewrite nth_spike //; case: eqP => // e; by case/eqP: ne; apply: val_inj.
Qed.

Section Spread.
Variable F : numFieldType.
Variables (k : nat) (c : nat -> F) (j : nat).
Hypothesis jk : (j < k)%N.

Lemma PerO_spread (u u' : nat -> nat -> F) x p r : (size x = p + sumn r)%N ->
  {in x, forall y, u' y j = \sum_(b < k) u y b * c b} ->
  {in x, forall y (i : nat), (k <= i < k + size r)%N -> u' y i = u y i} ->
  PerO u' x (spike k j p ++ r) =
  \sum_(a <- comps k p) p`!%:R / (factprod a)%:R * mono k c a * PerO u x (a ++ r).
Proof.
elim: x p r => [|y x IH] p r e h1 h2.
  have -> : p = 0%N by case: p e => //=.
  rewrite comps_zero big_seq1 /= /factprod big1_seq => [|z /andP[_ /nseqP[-> _]] //].
  by rewrite fact0 divr1 !mul1r mulr1 /mono big1 // => i _; rewrite nth_nseq if_same.
have h1' : {in x, forall y, u' y j = \sum_(b < k) u y b * c b} by move=> z zx; apply: h1; rewrite inE zx orbT.
have h2' : {in x, forall y (i : nat), (k <= i < k + size r)%N -> u' y i = u y i} by move=> z zx; apply: h2; rewrite inE zx orbT.
rewrite PerO_cons size_cat size_spike big_split_ord [LHS]/=.
have -> : \sum_(i < k) (nth 0%N (spike k j p ++ r) i)%:R * u' y i * PerO u' x (decr (spike k j p ++ r) i) =
    p%:R * u' y j * PerO u' x (spike k j p.-1 ++ r).
  rewrite (bigD1 (Ordinal jk)) //= nth_cat size_spike jk nth_spike // eqxx decr_catl ?size_spike // decr_spike // big1 ?addr0 // => i ne.
  rewrite nth_cat size_spike ltn_ord nth_spike //; case: eqP => [e0|_]; last by rewrite !mul0r.
  by case/eqP: ne; apply: val_inj.
have -> : \sum_(i < size r) (nth 0%N (spike k j p ++ r) (k + i))%:R * u' y (k + i)%N * PerO u' x (decr (spike k j p ++ r) (k + i)) =
    \sum_(i < size r) (nth 0%N r i)%:R * u y (k + i)%N * PerO u' x (spike k j p ++ decr r i).
  apply: eq_bigr => i _; rewrite nth_cat size_spike ltnNge leq_addr /= addKn h2 ?mem_head ?leq_addr ?ltn_add2l ?ltn_ord //.
  have := decr_catr (spike k j p) (ltn_ord i); by rewrite size_spike => ->.
have -> : \sum_(a <- comps k p) p`!%:R / (factprod a)%:R * mono k c a * PerO u (y :: x) (a ++ r) =
   \sum_(a <- comps k p) \sum_(b < k) p`!%:R / (factprod a)%:R * mono k c a * ((nth 0%N a b)%:R * u y b * PerO u x (decr a b ++ r)) +
   \sum_(i < size r) (nth 0%N r i)%:R * u y (k + i)%N * (\sum_(a <- comps k p) p`!%:R / (factprod a)%:R * mono k c a * PerO u x (a ++ decr r i)).
  under [X in _ + X]eq_bigr => i _ do rewrite mulr_sumr.
  rewrite [X in _ + X]exchange_big -big_split /=; apply: eq_big_seq => a; rewrite mem_comps => /andP[/eqP sa _].
  rewrite size_cat sa big_split_ord /= mulrDr; congr (_ + _).
    rewrite mulr_sumr; apply: eq_bigr => b _; rewrite nth_cat sa ltn_ord; congr (_ * (_ * _)).
    by rewrite decr_catl ?sa.
  rewrite mulr_sumr; apply: eq_bigr => i _; rewrite nth_cat sa ltnNge leq_addr /= addKn.
  have -> : decr (a ++ r) (k + i) = a ++ decr r i by have := decr_catr a (ltn_ord i); rewrite sa.
  by rewrite mulrCA.
congr (_ + _); last first.
  apply: eq_bigr => i _; case: (posnP (nth 0%N r i)) => [->|r0]; first by rewrite !mul0r.
  congr (_ * _); apply: IH => //; last by rewrite size_decr.
  by move: e; rewrite /= sumn_decr //; have : (0 < sumn r)%N; [rewrite (leq_trans r0) // sumnE (big_nth 0%N) big_mkord (bigD1 i) //= leq_addr|lia].
case: p e => [|p] e.
  rewrite !mul0r comps_zero big_seq1 big1 // => b _.
  by rewrite nth_nseq if_same !mul0r mulr0.
rewrite (@comps_incr _ k p (fun b a => p.+1`!%:R / (factprod a)%:R * mono k c a * ((nth 0%N a b)%:R * u y b * PerO u x (decr a b ++ r)))); last first.
  by move=> b t ->; rewrite !mul0r mulr0.
rewrite [p.+1.-1]/= IH //; last by move: e => /= [->].
rewrite h1 ?mem_head // mulr_sumr; apply: eq_big_seq => a; rewrite mem_comps => /andP[/eqP sa _].
rewrite [p.+1%:R * _]mulr_sumr mulr_suml; apply: eq_bigr => b _.
have bl : (b < size a)%N by rewrite sa.
rewrite decr_incr // factprod_incr // mono_incr // nth_incr eqxx natrM factS natrM.
have n1 : ((nth 0%N a b).+1%:R : F) != 0 by rewrite pnatr_eq0.
have n2 : ((factprod a)%:R : F) != 0 by rewrite pnatr_eq0 -lt0n factprod_gt0.
move: (nth 0%N a b).+1%:R (factprod a)%:R p.+1%:R p`!%:R n1 n2 (mono _ _ _) (PerO _ _ _) (u y b) (c b) => A B P Q A0 B0 M G X Y.
by field; rewrite ?A0 ?B0.
Qed.
End Spread.

Section Mean.
Variable R : rcfType.
Notation C := (ComplexField.complex_numFieldType R).
Variable cis : R -> C.
Hypothesis ok : cis_ok cis.

(* the mean of the squared modulus of a polynomial in the phases *)
Lemma grid_quad k p N (A : seq nat -> C) : (p < N)%N ->
  grid_mean k N (fun d => nsq (\sum_(a <- comps k p) A a * mono k (fun j => cis d`_j) a)) = \sum_(a <- comps k p) nsq (A a).
Proof.
move=> pN; have N0 := leq_ltn_trans (leq0n _) pN.
have NR : (N%:R ^+ k : R) != 0 by rewrite expf_neq0 // pnatr_eq0 -lt0n.
rewrite /grid_mean -mulr_suml; apply: (canLR (mulfK NR)); apply: RtoC_inj.
pose c (d : seq R) j : C := cis d`_j.
have E d : (nsq (\sum_(a <- comps k p) A a * mono k (c d) a))%:C%C =
    \sum_(a <- comps k p) \sum_(b <- comps k p) (A a * conjc (A b)) * charac cis a b d.
  rewrite nsqE mulrC rmorph_sum mulr_suml; apply: eq_big_seq => a; rewrite mem_comps => /andP[/eqP sa _].
  rewrite mulr_sumr; apply: eq_bigr => b _; rewrite -(mono_charac _ _ _ sa) rmorphM /= -/(c d).
  by move: (A a) (conjc (A b)) (mono k (c d) a) (conjc (mono k (c d) b)) => u v w z; ring.
rewrite (rmorph_sum (ComplexField.real_complex_rmorphism R)) /=.
rewrite (eq_bigr _ (fun d _ => E d)) exchange_big /=.
rewrite (rmorphM (ComplexField.real_complex_rmorphism R)) /= (rmorph_sum (ComplexField.real_complex_rmorphism R)) /= mulr_suml.
apply: eq_big_seq => a aC; rewrite exchange_big /= (bigD1_seq a) ?comps_uniq //= [X in _ + X]big1_seq ?addr0; last first.
  move=> b /andP[ne bC].
  have sa : size a = k by move: aC; rewrite mem_comps => /andP[/eqP].
  have sb : size b = k by move: bC; rewrite mem_comps => /andP[/eqP].
  have aN := comps_small pN aC; have bN := comps_small pN bC.
  by rewrite -mulr_sumr (grid_charac_n ok (leqnn k) sa sb aN bN N0) eq_sym (negPf ne) mul0r mulr0.
have sa : size a = k by move: aC; rewrite mem_comps => /andP[/eqP].
have aN := comps_small pN aC; rewrite -mulr_sumr (grid_charac_n ok (leqnn k) sa sa aN aN N0) eqxx mul1r (rmorphX (ComplexField.real_complex_rmorphism R)) (rmorph_nat (ComplexField.real_complex_rmorphism R)).
by congr (_ * _); rewrite mulrC -nsqE.
Qed.
End Mean.
