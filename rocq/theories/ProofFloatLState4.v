(* The strategy with an approximated state in rounded arithmetic: the samples. *)
From mathcomp Require Import all_ssreflect all_algebra complex.
From mathcomp Require Import ring zify.
From Verif Require Import Base SpecStates Combi SpecPerm PermMath SpecBS BsMath BsComb BsNorm SpecProb ProbMath ModelStates ModelPerm ModelDist ModelGcc ModelGccB ProofGcc3 ProofSel SpecGcc LemGcc ModelNet SpecNet ProofGccB2
  ProofNet1 ProofNet2 ModelBobs SpecBobs ProofBobs3 ProofBobs4 ProofBobs5 ModelLState SpecLState ProofLS1 ProofLS2 ProofLS3 ProofLS4.
From Verif Require Import ModelFloat SpecFloat ModelFloatGcc ModelFloatGccB SpecFloatSub SpecFloatGcc SpecFloatGccB ProofFloat ProofFloatGcc2 ProofFloatDist2 ProofFloatGccB2 ProofFloatGccB3 ModelFloatNet SpecFloatNet
  SpecFloatFixed ProofFloatFixed3 ModelFloatLState SpecFloatLState ProofFloatLState1 ProofFloatLState2 ProofFloatLState3.
Set Implicit Arguments.
Unset Strict Implicit.
Unset Printing Implicit Defensive.
Import Order.TTheory GRing.Theory Num.Theory.
Local Open Scope ring_scope.
Local Open Scope py_scope.

(* an expectation in [0, 1] that differs by at most e from v0 *)
Section Approx.
Variable R : rcfType.
Definition napx (Y : Type) (F : res Y -> R) (p : rprog R (res Y)) (v0 e : R) : Prop :=
  exists v, [/\ has_exp F p v, 0 <= v <= 1 & `|v - v0| <= e].

Variables (Y : Type) (f : Y -> R).
Notation F := (on_ok f).

Lemma napx_ret y : 0 <= f y <= 1 -> napx F (Ret (Ok y)) (f y) 0.
Proof. by move=> h; exists (f y); split=> //; [exact: (@ExpRet _ _ F (Ok y))|rewrite subrr normr0]. Qed.

Lemma napxA (X Z : Type) (p : rprog R (res X)) (g : X -> rprog R (res Z)) (h : Z -> rprog R (res Y)) v e :
  napx F (rpbind p (fun a => rpbind (g a) h)) v e -> napx F (rpbind (rpbind p g) h) v e.
Proof. by move=> [w [H w01 d]]; exists w; split=> //; apply: has_exp_rpbindA. Qed.

Lemma napx_eq p v e v' e' : napx F p v e -> v = v' -> e <= e' -> napx F p v' e'.
Proof. by move=> [w [H w01 d]] <- le; exists w; split=> //; apply: le_trans le. Qed.

(* a draw with finitely many results *)
Lemma napx_draw (T : eqType) (p : rprog R (res T)) (S : seq T) (W : T -> R) (g : T -> rprog R (res Y)) (E : T -> R) e :
  0 <= e ->
  always (fun r => exists2 d, r = Ok d & d \in S) p -> (forall h, has_exp (on_ok h) p (\sum_(d <- S) W d * h d)) ->
  (forall d, d \in S -> napx F (g d) (E d) e) -> napx F (rpbind p g) (\sum_(d <- S) W d * E d) e.
Proof.
move=> e0 HA HE H; case ES: S => [|d0 S'].
  have hf : always (fun=> False) p by apply: always_impl HA => r [d _]; rewrite ES.
  exists 0; rewrite big_nil subrr normr0 lexx ler01; split=> //.
  have := HE (fun=> 0); rewrite ES big_nil => h0; apply: has_exp_rbind h0 _.
  by apply: always_impl hf.
rewrite -ES.
have K i : (i < size S)%N -> exists v, [/\ has_exp F (g (nth d0 S i)) v, 0 <= v <= 1 & `|v - E (nth d0 S i)| <= e].
  by move=> il; apply: H; rewrite mem_nth.
have [V HV] := choose_seq 0 K.
pose v d := if d \in S then V (index d S) else 0.
have Hv d : d \in S -> [/\ has_exp F (g d) (v d), 0 <= v d <= 1 & `|v d - E d| <= e].
  by move=> dS; have := HV (index d S); rewrite index_mem nth_index // /v dS => /(_ isT).
exists (\sum_(d <- S) W d * v d); split.
- by apply: has_exp_rbind (HE v) _; apply: always_impl HA => _ [d -> dS]; have [] := Hv d dS.
- apply: (exp_01 (HE v)); apply: on_ok01 => d; rewrite /v; case: ifP => dS; last by rewrite lexx ler01.
  by have [_] := Hv d dS; rewrite /v dS.
rewrite -sumrB.
have -> : \sum_(d <- S) (W d * v d - W d * E d) = \sum_(d <- S) W d * (if d \in S then v d - E d else 0).
  by apply: eq_big_seq => d dS; rewrite dS mulrBr.
apply: (exp_bound (HE _)) => -[d|er] /=; last by rewrite normr0.
by case: ifP => dS; [have [] := Hv d dS|rewrite normr0].
Qed.
End Approx.

Section Choice.
Variable R : rcfType.
Variables (u : R) (B : arith R) (f_check : seq R -> R) (f_search : R -> seq R -> nat) (N : nat).
Hypotheses (u0 : 0 <= u) (accB : accurate u B) (acc_check : accurate_sum u f_check) (srch : right_search f_search) (N0 : (0 < N)%N).
Variables (Y : Type) (f : Y -> R).
Notation F := (on_ok f).

Lemma napx_choice (T : Type) (L : seq T) (x0 : T) (w : T -> R) (p : seq R) K (g : nat -> rprog R (res Y)) (E e : T -> R) :
  is_distr (map w L) -> size p = size L -> (size L <= K)%N -> (9 * K + 4)%:R * u <= (2%:R ^+ 27)^-1 ->
  (forall i, (i < size L)%N -> near u (2 * K + 1) (w (nth x0 L i)) (w (nth x0 L i)) p`_i) ->
  (exists er, g (size L) = Ret (Err er)) ->
  (forall i, (i < size L)%N -> napx F (g i) (E (nth x0 L i)) (e (nth x0 L i))) ->
  napx F (rpbind (fl_np_choice_of B f_check f_search N (size L) p) g)
    (\sum_(a <- L) w a * E a) ((size L + (size L).+1)%:R * choice_error u N K + \sum_(a <- L) w a * e a).
Proof.
move=> dw sp mK small pn [er Her] H.
have sw : size (map w L) = size L by rewrite size_map.
have pn' i : (i < size (map w L))%N -> near u (2 * K + 1) (map w L)`_i (map w L)`_i p`_i.
  by rewrite sw => il; rewrite (nth_map x0) //; apply: pn.
have mK' : (size (map w L) <= K)%N by rewrite sw.
have sp' : size p = size (map w L) by rewrite sw.
have [V HV] := choose_seq 0 H.
pose v i := if (i < size L)%N then V i else 0.
have v01 i : (i <= size (map w L))%N -> 0 <= v i <= 1.
  by move=> _; rewrite /v; case: ifP => il; [have [] := HV i il|rewrite lexx ler01].
rewrite /fl_np_choice_of sp eqxx [~~ true]/= (sp_choice f_search u0 accB acc_check N0 dw sp' mK' small pn').
pose si := sidx B f_search N p.
exists ((\sum_(k < N) v (si k)) / N%:R); split.
- apply: (@ExpInt _ _ F N _ (fun k => v (si k))) => // k kN.
  suff : has_exp F (g (si k)) (v (si k)) by [].
  have := @sidx_le R B f_search N srch (map w L) p sp' k; rewrite -/si sw leq_eqVlt /v.
  case/orP=> [/eqP ->|il].
    by rewrite ltnn Her; exact: (@ExpRet _ _ F (Err er)).
  by rewrite il; have [] := HV _ il.
- apply/andP; split.
    rewrite divr_ge0 ?ler0n ?sumr_ge0 // => k _.
    by have /andP[] := v01 (si k) (@sidx_le R B f_search N srch (map w L) p sp' k).
  rewrite ler_pdivr_mulr ?ltr0n // mul1r -[X in _ <= X%:R](card_ord N) -sum1_card natr_sum.
  by apply: ler_sum => k _; have /andP[] := v01 (si k) (@sidx_le R B f_search N srch (map w L) p sp' k).
apply: le_trans (ler_dist_add (\sum_(i < size (map w L)) (map w L)`_i * v i) _ _) _; apply: ler_add.
  have := sp_avg u0 accB srch N0 dw sp' mK' small pn' v01.
  by move=> hh; apply: le_trans hh _; rewrite sw.
rewrite sw !(big_nth x0) !big_mkord -sumrB; apply: le_trans (ler_norm_sum _ _ _) _; apply: ler_sum => i _.
have w0 : 0 <= w (nth x0 L i) by have := distr_ge0 i dw; rewrite (nth_map x0).
rewrite (nth_map x0) // -mulrBr normrM (ger0_norm w0); apply: ler_wpmul2l => //.
by have [_ _] := HV i (ltn_ord i); rewrite /v ltn_ord.
Qed.
End Choice.

(* the sum over the inputs *)
Section Sums.
Variable R : rcfType.
Notation C := (ComplexField.complex_numFieldType R).
Variables (cis : R -> C) (m h : nat) (U : seq (seq C)) (eta : R) (s : seq nat).
Hypotheses (h0 : (0 < h)%N) (hm : (h < m)%N) (ss : size s = m).
Variable L : seq (seq nat).
Hypotheses (uL : uniq L) (mL : L =i subs (take h s)).
Variables (S : seq (seq R)) (W : seq R -> R).
Notation q K l d sigma := (bs_prob (approx_net cis m (permuted m U sigma) (m - h) d) (moved m h K l)).

Definition input_value (f : seq nat -> R) (K : seq nat) (l : nat) : R :=
  \sum_(d <- S) W d * \sum_(sigma <- permutations (iota 0 m)) (m`!%:R)^-1 * \sum_(t <- comps m (sumn K + l)) q K l d sigma t * f t.

Lemma law_sum f : \sum_(l <- iota 0 (sumn (drop h s)).+1) binomial_weight (sumn (drop h s)) eta l *
    (\sum_(K <- L) left_weight eta (take h s) K * input_value f K l) =
  \sum_(t <- lcomps m (sumn s)) lstate_law cis m h U eta s S W t * f t.
Proof.
pose T l K d sigma t : R := if (sumn K + l == sumn t)%N then
  left_weight eta (take h s) K * binomial_weight (sumn (drop h s)) eta l * (W d / m`!%:R) * q K l d sigma t * f t else 0.
transitivity (\sum_(l <- iota 0 (sumn (drop h s)).+1) \sum_(K <- subs (take h s)) \sum_(d <- S)
   \sum_(sigma <- permutations (iota 0 m)) \sum_(t <- lcomps m (sumn s)) T l K d sigma t).
  apply: eq_big_seq => l; rewrite mem_iota ltnS /= => ll.
  rewrite (perm_big (subs (take h s))); last by apply: uniq_perm; rewrite ?subs_uniq.
  rewrite mulr_sumr; apply: eq_big_seq => K; rewrite mem_subs => sK.
  have z3 : (sumn K + l <= sumn s)%N.
    by rewrite -[s in X in (_ <= X)%N](cat_take_drop h) sumn_cat; have := substate_sumn sK; lia.
  rewrite /input_value !mulr_sumr; apply: eq_bigr => d _; rewrite !mulr_sumr; apply: eq_bigr => sigma _.
  rewrite !mulr_sumr (comps_sum _ _ z3) big_mkcond; apply: eq_bigr => t _.
  rewrite /T eq_sym; case: ifP => // _.
  by move: (m`!%:R^-1) => v; ring.
rewrite out5; apply: eq_bigr => t _; rewrite /lstate_law mulr_suml; apply: eq_bigr => d _.
rewrite mulr_suml [in RHS]mulr_sumr [RHS]mulr_suml; apply: eq_bigr => sigma _.
rewrite /lstate_prob mulr_suml [in RHS]mulr_sumr [RHS]mulr_suml; apply: eq_bigr => K _.
rewrite mulr_suml [in RHS]mulr_sumr [RHS]mulr_suml -[X in iota _ X](subn0 (sumn _).+1) -/(index_iota _ _) big_mkord [RHS]big_mkcond.
apply: eq_bigr => l _; rewrite /T; case: ifP => // _.
by move: (m`!%:R^-1) => v; ring.
Qed.

Lemma err_sum (g : seq nat -> nat -> R) :
  \sum_(l <- iota 0 (sumn (drop h s)).+1) binomial_weight (sumn (drop h s)) eta l * (\sum_(K <- L) left_weight eta (take h s) K * g K l) =
  \sum_(K <- subs (take h s)) \sum_(l < (sumn (drop h s)).+1)
    left_weight eta (take h s) K * binomial_weight (sumn (drop h s)) eta l * g K l.
Proof.
rewrite [RHS]exchange_big -[X in iota _ X](subn0 (sumn _).+1) -/(index_iota _ _) big_mkord.
apply: eq_bigr => l _; rewrite (perm_big (subs (take h s))); last by apply: uniq_perm; rewrite ?subs_uniq.
by rewrite mulr_sumr; apply: eq_bigr => K _; rewrite mulrA [X in X * _]mulrC.
Qed.
End Sums.
