(* Final forms of the lemmas behind the property theorems: C72 (the strategy with approximated modes and random phases). *)
From mathcomp Require Import all_ssreflect all_algebra complex ring zify.
From Verif Require Import Base SpecStates Combi SpecPerm SpecBS ModelStates ModelPerm SpecProb ModelGcc ModelGccB ModelNet SpecNet SpecGcc ModelBobs SpecBobs SpecLim SpecBlim PermMath BsNorm BsComb ProbMath ProofGccB2 ProofGcc3 ProofThin ProofNet4 ProofNet5 ProofBobs4 ProofBobs5 LemBobs ProofPert3 LemGcc ProofLim1 ProofLim2 ProofLim3 ProofLim5 ProofLim6 ProofBlim1 ProofBlim2 ProofBlim3 ProofBlim4 ProofBlim5.
Set Implicit Arguments.
Unset Strict Implicit.
Unset Printing Implicit Defensive.
Import Order.TTheory GRing.Theory Num.Theory.
Local Open Scope ring_scope.
Local Open Scope py_scope.

Lemma C72_law_lemma :
  forall (R : rcfType) (svd : seq (seq (ComplexField.complex_numFieldType R)) -> res (seq (seq (ComplexField.complex_numFieldType R)) * seq R * seq (seq (ComplexField.complex_numFieldType R)))) (cis : R -> (ComplexField.complex_numFieldType R)) (m : nat) (M : seq (seq (ComplexField.complex_numFieldType R))) (fuel : nat) (s : seq nat) (x : bobs R) (c : int)
    (e : nat) (D M' : seq (seq (ComplexField.complex_numFieldType R))),
  Num.archimedean_axiom R -> svd_ok svd -> cis_ok cis -> cis_lipschitz cis -> (0 < m)%N -> subunitary m M -> (exists i j, [/\ (i < m)%N, (j < m)%N & ent M i j != 0]) ->
  size s = m -> bobs_of svd m M x -> (0 < bo_threads x)%N -> (0 < bo_modes x)%N ->
  let k := bo_modes x in let p := (bo_particles x + sumn (take k s))%N in
  (forall s', s' \in approx_inputs k p s -> (\prod_(y <- s') y.+1 <= fuel)%N) ->
  (1 <= c)%R ->
  (forall i j, (i < m)%N -> (j < m)%N ->
     ent M' i j = (Num.sqrt (1 - kept_losses (bo_losses x)))%:C%C * ent (bo_matrix x) i j) ->
  dilation m e M' D ->
  lim_iid_samples (bobs_simulate svd cis (@np_rand R) fuel s c x) (bo_threads x * (`|c| %/ bo_threads x).+1)
    [pred t | (size t == m) && (sumn t <= approx_total k p s)%N]
    (spread_rest e D k p (drop k s)).
Proof.
move=> R svd cis m M fuel s x c e D M' ar sv ok lp m0 sub nz ss bx T0 k0 k p fu c1 hM' dD.
exact: (bobs_simulate_lim_iid ar sv ok lp m0 sub nz ss bx T0 k0 fu hM' dD c1).
Qed.

Lemma C72_distribution_lemma :
  forall (R : rcfType) (m e k p : nat) (M D : seq (seq (ComplexField.complex_numFieldType R))) (r : seq nat),
  dilation m e M D -> (0 < k <= m)%N -> size r = (m - k)%N ->
  (forall t, 0 <= spread_rest e D k p r t) /\
  exists S, [/\ uniq S, S =i [pred t | (size t == m) && (sumn t <= p + sumn r)%N] & \sum_(t <- S) spread_rest e D k p r t = 1].
Proof.
move=> R m e k p M D r dD /andP[k0 km] sr; split=> [t|]; first exact: spread_rest_ge0.
exists (lcomps m (p + sumn r)); split; [exact: lcomps_uniq|by move=> t; rewrite mem_lcomps|exact: (spread_rest_norm dD k0 km sr)].
Qed.

Lemma C72_accuracy_lemma :
  forall (R : rcfType) (m d e k : nat) (N DN M D : seq (seq (ComplexField.complex_numFieldType R))) (eta : R) (r : seq nat),
  dilation m d N DN -> dilation m e M D -> 0 <= eta <= 1 ->
  (forall i j : nat, (i < m)%N -> (j < m)%N -> ent M i j = (Num.sqrt eta)%:C%C * ent N i j) ->
  (0 < k <= m)%N -> size r = (m - k)%N ->
  exists S, [/\ uniq S, S =i [pred t | (size t == m) && (sumn t <= k + sumn r)%N]
    & \sum_(t <- S) `|spread_rest e D k k r t - traced_prob e D (nseq k 1%N ++ r) t| <= k.-1%:R * eta ^+ 2].
Proof.
move=> R m d e k N DN M D eta r dN dD e01 h /andP[k0 km] sr.
exists (lcomps m (k + sumn r)); split; [exact: lcomps_uniq|by move=> t; rewrite mem_lcomps|exact: (spread_rest_close dN dD e01 k0 km h sr)].
Qed.

Lemma C72_close_to_exact_sampler_lemma :
  forall (R : rcfType) (svd : seq (seq (ComplexField.complex_numFieldType R)) -> res (seq (seq (ComplexField.complex_numFieldType R)) * seq R * seq (seq (ComplexField.complex_numFieldType R)))) (cis : R -> (ComplexField.complex_numFieldType R)) (m : nat) (M : seq (seq (ComplexField.complex_numFieldType R))) (fuel : nat) (s : seq nat) (x : bobs R) (c : int) (b : gccb R) (f : seq (seq nat) -> R),
  Num.archimedean_axiom R -> svd_ok svd -> cis_ok cis -> cis_lipschitz cis -> (0 < m)%N -> subunitary m M -> (exists i j, [/\ (i < m)%N, (j < m)%N & ent M i j != 0]) ->
  size s = m -> bobs_of svd m M x -> (0 < bo_threads x)%N -> (0 < bo_modes x)%N -> bo_particles x = 0%N ->
  bo_losses x = 0 \/ (10%:R ^+ 8)^-1 < bo_losses x ->
  let k := bo_modes x in let n := (bo_threads x * (`|c| %/ bo_threads x).+1)%N in
  take k s = nseq k 1%N ->
  (forall s', s' \in s :: approx_inputs k k s -> (\prod_(y <- s') y.+1 <= fuel)%N) ->
  (1 <= c)%R -> prepare_expanded svd M = Ok (calc_matrix (b_calc b)) -> (forall L, 0 <= f L <= 1) ->
  exists v v', [/\ lim_exp (on_ok (fun y => f y.1)) (bobs_simulate svd cis (@np_rand R) fuel s c x) v,
      has_exp (on_ok (fun y => f y.1)) (lossy_net_simulate fuel s n b) v'
    & `|v - v'| <= n%:R * (k.-1%:R * (1 - bo_losses x) ^+ 2 / 2%:R)].
Proof.
move=> R svd cis m M fuel s x c b f ar sv ok lp m0 sub nz ss bx T0 k0 p0 lok k n one fu c1 nb f01.
have hM' := C43_effective_matrix_lemma sv m0 sub nz bx lok.
have [/andP[l0 l1] sN hN bd] := bobs_facts sv m0 sub nz bx.
have [DN [_ _ dN]] := expanded_dilation sv m0 (conj sN bd).
have [E [eE _ dE]] := expanded_dilation sv m0 sub.
have eb : calc_matrix (b_calc b) = E by move: nb; rewrite eE => -[].
have km : (k <= m)%N by case: bx.
have ep : (bo_particles x + sumn (take (bo_modes x) s))%N = k by rewrite p0 add0n one sumn_nseq mul1n.
have es : s = nseq k 1%N ++ drop k s by rewrite -one cat_take_drop.
have en : sumn s = (k + sumn (drop k s))%N by rewrite [in LHS]es sumn_cat sumn_nseq mul1n.
have sr : size (drop k s) = (m - k)%N by rewrite size_drop ss.
have fu1 s' : s' \in approx_inputs (bo_modes x) (bo_particles x + sumn (take (bo_modes x) s)) s -> (\prod_(y <- s') y.+1 <= fuel)%N.
  by rewrite ep => h; apply: fu; rewrite inE h orbT.
have e01 : 0 <= 1 - bo_losses x <= 1 by rewrite subr_ge0 (ltW l1) ler_subl_addr ler_addl.
exists (iid_exp (lcomps m (k + sumn (drop k s))) (spread_rest m E k k (drop k s)) n f), (iid_exp (lcomps m (k + sumn (drop k s))) (traced_prob m E s) n f); split.
- by have := bobs_simulate_lim ar sv ok lp m0 sub nz ss bx T0 k0 fu1 hM' dE f c1; rewrite ep.
- have fus : (\prod_(y <- s) y.+1 <= fuel)%N by apply: fu; rewrite mem_head.
  by have := net_exp sv m0 sub ss fus n f nb; rewrite eb en.
have tv : \sum_(t <- lcomps m (k + sumn (drop k s))) `|spread_rest m E k k (drop k s) t - traced_prob m E s t| <= 2%:R * (k.-1%:R * (1 - bo_losses x) ^+ 2 / 2%:R).
  rewrite mulrCA divff ?mulr1 ?pnatr_eq0 //.
  by have := spread_rest_close dN dE e01 k0 km hN sr; rewrite -es.
apply: iid_exp_tv => //.
- by move=> t _; exact: spread_rest_ge0.
- by move=> t _; exact: traced_ge0.
- exact: (spread_rest_norm dE k0 km sr).
by have := traced_norm dE ss; rewrite en.
Qed.

Lemma C72_lower_bound_lemma :
  forall (R : rcfType) (m e k : nat) (M D : seq (seq (ComplexField.complex_numFieldType R))) (eta : R) (a r : seq nat),
  dilation m e M D -> 0 <= eta <= 1 ->
  (forall i j : nat, (i < m)%N -> (j < m)%N -> ent M i j = (i == j)%:R * (Num.sqrt eta)%:C%C) ->
  (0 < k <= m)%N -> size a = k -> size r = (m - k)%N ->
  let p := sumn a in
  exists S, [/\ uniq S, S =i [pred t | (size t == m) && (sumn t <= p + sumn r)%N]
    & 2%:R * eta ^+ (p + sumn r) * (1 - p`!%:R / (factprod a)%:R / k%:R ^+ p) <=
      \sum_(t <- S) `|spread_rest e D k p r t - traced_prob e D (a ++ r) t|].
Proof.
move=> R m e k M D eta a r dD e01 h /andP[k0 km] sa sr p.
exists (lcomps m (p + sumn r)); split; [exact: lcomps_uniq|by move=> t; rewrite mem_lcomps|].
exact: (scaled_distance dD e01 (leq_trans k0 km) h k0 km sa sr).
Qed.

Lemma C72_other_inputs_refuted_lemma :
  forall (R : rcfType) (eta : R), 0 < eta < 1 ->
  exists (M D : seq (seq (ComplexField.complex_numFieldType R))) (e : nat) (S : seq (seq nat)),
  [/\ dilation 2 e M D, forall i j : nat, (i < 2)%N -> (j < 2)%N -> ent M i j = (i == j)%:R * (Num.sqrt eta)%:C%C,
    uniq S, S =i [pred t | (size t == 2)%N && (sumn t <= 1)%N]
    & 2.-1%:R * eta ^+ 2 < \sum_(t <- S) `|spread_rest e D 2 1 [::] t - traced_prob e D [:: 1; 0]%N t|].
Proof.
move=> R eta /andP[e0 e1].
have e01 : 0 <= eta <= 1 by rewrite !ltW.
have xc : Num.sqrt eta ^+ 2 + Num.sqrt (1 - eta) ^+ 2 = 1 by rewrite !sqr_sqrtr ?subr_ge0 ?ltW // addrCA subrr addr0.
pose M : seq (seq (ComplexField.complex_numFieldType R)) := [seq [seq (i == j)%:R * (Num.sqrt eta)%:C%C | j <- iota 0 2] | i <- iota 0 2].
have hM i j : (i < 2)%N -> (j < 2)%N -> ent M i j = (i == j)%:R * (Num.sqrt eta)%:C%C.
  by move=> il jl; rewrite /ent (nth_map 0%N) ?size_iota // (nth_map 0%N) ?size_iota // !nth_iota.
have dI := unitary_dilation (identity_unitary (idm_square R 2) (@idm_ent R 2)).
have dD := thin_dilation dI xc (M := M).
set D := thin_dil _ _ _ _ _ in dD; exists M, D, (0 + 2)%N, (lcomps 2 1)%N; split=> //.
- by apply: dD => i j il jl; rewrite hM // idm_ent // mulrC.
- by move=> t; rewrite mem_lcomps.
have dD' : dilation 2 (0 + 2) M D by apply: dD => i j il jl; rewrite hM // idm_ent // mulrC.
have := @scaled_distance R 2 _ M D eta dD' e01 isT hM 2 [:: 1; 0]%N [::] isT isT erefl erefl.
rewrite -[sumn [:: 1; 0]%N]/1%N -[sumn [::]]/0%N addn0; apply: lt_le_trans.
have -> : spread_weight R 2 1 [:: 1; 0]%N = 2%:R^-1 by rewrite /spread_weight /factprod !big_cons big_nil !muln1 divr1 expr1 mul1r.
have -> : 2%:R * eta ^+ 1 * (1 - 2%:R^-1) = eta by field.
rewrite [2.-1%:R * _](_ : _ = eta * eta); last by rewrite -[2.-1%:R]/(1 : R) mul1r expr2.
by rewrite gtr_pmulr.
Qed.
