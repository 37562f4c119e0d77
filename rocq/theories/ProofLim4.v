(* The samples of the strategies with independent particles, for random phases. *)
From mathcomp Require Import all_ssreflect all_algebra complex.
From mathcomp Require Import ring zify.
From Verif Require Import Base SpecStates Combi SpecPerm PermMath SpecBS BsMath BsNorm SpecProb ProbMath ModelStates ProofSel.
From Verif Require Import ModelGcc ModelGccB ModelNet SpecNet LemNet ProofNet4 ProofGcc3 ProofGccB1 ProofGccB2 SpecGcc LemGcc ModelBobs ProofBobs4 ProofBobs5.
From Verif Require Import SpecFixed ModelFixed ProofFixed1 ProofFixed2 ProofFixed3 SpecLim ProofLim1 ProofLim2 ProofLim3.
Set Implicit Arguments.
Unset Strict Implicit.
Unset Printing Implicit Defensive.
Import Order.TTheory GRing.Theory Num.Theory.
Local Open Scope ring_scope.
Local Open Scope py_scope.

Section Choice.
Variable R : rcfType.

Lemma np_choice_exp (w : seq R) (h : nat -> R) : is_distr w ->
  has_exp (on_ok h) (np_choice w) (\sum_(i < size w) w`_i * h i).
Proof.
move=> dw; rewrite np_choiceE //.
apply: (has_exp_choice (k := fun u => Ret (Ok (find (fun c => u < c) (choice_cdf w)))) (val := h) dw).
by move=> i u _ _ _ ei; have -> : h i = on_ok h (Ok i) by []; rewrite -ei; apply: ExpRet.
Qed.

Lemma np_choice_always (w : seq R) : is_distr w ->
  always (fun r => exists2 i, r = Ok i & (i < size w)%N) (np_choice w).
Proof.
move=> dw; rewrite np_choiceE // => u u01; rewrite choice_findE //.
by have [lt _] := search_pos1 dw u01; exists (cum_search u 0 0 w).
Qed.
End Choice.

Section Samples.
Variable R : rcfType.
Hypothesis arch : Num.archimedean_axiom R.
Notation C := (ComplexField.complex_numFieldType R).
Notation mat := (seq (seq C)).
Variables (svd : mat -> res (mat * seq R * mat)) (cis : R -> C).
Hypotheses (sv : svd_ok svd) (ok : cis_ok cis) (lip : cis_lipschitz cis).
Variables (m e : nat) (M D : mat).
Hypotheses (m0 : (0 < m)%N) (sub : subunitary m M) (dD : dilation m e M D).

Lemma nseq0 (t : seq nat) : (sumn t <= 0)%N -> t = nseq (size t) 0%N.
Proof.
rewrite leqn0 => s0; apply/all_pred1P/allP => x xt; move: s0; rewrite /= !eqn0Ngt; apply: contra => x0.
by rewrite sumnE (big_rem x) //= addn_gt0 x0.
Qed.

Lemma factprod_zeros k : factprod (nseq k 0%N) = 1%N.
Proof. by rewrite /factprod big1_seq // => y /andP[_ /nseqP[-> _]]. Qed.

Lemma traced_zero t : size t = m -> (sumn t <= 0)%N -> traced_prob e D (nseq m 0%N) t = 1.
Proof.
move=> st t0; rewrite (nseq0 t0) st /traced_prob !sumn_nseq !mul0n comps_zero big_seq1 -nseqD /bs_prob.
rewrite bs_permanent_PerO ?sumn_nseq ?mul0n // !factprod_zeros.
have -> : particle_modes (nseq (m + e) 0%N) = [::] by apply/eqP; rewrite -size_eq0 size_particle_modes sumn_nseq mul0n.
by rewrite nsq1 divr1.
Qed.

(* the mean of the laws of l particles over random phases *)
Lemma phases_lim n l (f : seq nat -> R) : (n <= m)%N -> (0 < n)%N || (l == 0)%N ->
  lim_exp (on_ok (fun d => \sum_(t <- lcomps m l) multinomial_prob l (smeared cis m M n d) t * f t)) (@np_rand R m)
    (\sum_(t <- lcomps m l) spread_prob m e D n l t * f t).
Proof.
move=> nm nl; apply: (@np_rand_lim _ m _ _ l.+1) => //.
  by apply: lipb_sum => t; apply: lipb_mul; [exact: mp_lipb|exact: lipb_const].
move=> N lN N0.
have -> : grid_mean m N (fun d => \sum_(t <- lcomps m l) multinomial_prob l (smeared cis m M n d) t * f t) =
    \sum_(t <- lcomps m l) grid_mean m N (fun d => multinomial_prob l (smeared cis m M n d) t) * f t.
  rewrite /grid_mean; under eq_bigr => d _ do rewrite mulr_suml.
  rewrite exchange_big; apply: eq_bigr => t _; rewrite mulr_suml; apply: eq_bigr => d _; by rewrite mulrAC.
apply: eq_big_seq => t; rewrite mem_lcomps => /andP[/eqP st tl]; congr (_ * _).
have [n0|n0] := posnP n; last by rewrite (grid_law ok nm n0 dD st tl lN).
move: nl; rewrite n0 /= => /eqP l0; rewrite l0 in tl *; clear n0 nm lN l0.
have E q : @multinomial_prob R 0 q t = 1.
  rewrite (nseq0 tl) /multinomial_prob sub0n !expr0 fact0 mul1n mulr1 -[(\prod_(x <- _) _)%N]/(factprod _) factprod_zeros divr1 mul1r.
  by rewrite big1 // => i _; rewrite nth_nseq if_same.
rewrite /grid_mean; under eq_bigr => d _ do rewrite E mul1r.
have -> : spread_prob m e D 0 0 t = 1.
  rewrite /spread_prob comps_zero big_seq1 /spread_weight subn0 (factprod_zeros 0) !divr1 mul1r.
  exact: traced_zero.
rewrite big_const_seq count_predT iter_addr_0.
have -> : size (grid R m N) = (N ^ m)%N.
  elim: (m) => // k IH; rewrite /= size_flatten /shape -map_comp (@eq_map _ _ _ (fun=> N ^ k)%N) => [|i]; last by rewrite /= size_map IH.
  by rewrite sumnE big_map big_const_seq count_predT iter_addn_0 size_iota expnSr.
have NR : (N%:R ^+ m : R) != 0 by rewrite expf_neq0 // pnatr_eq0 -lt0n.
by rewrite -[_ *+ _]mulr_natl natrX divff.
Qed.

Section Fixed.
Variables (l : nat) (x : fixed R) (s : seq nat).
Hypotheses (fx : fixed_of svd m M l x).
Let n := sumn s.
Hypotheses (nm : (n <= m)%N) (nl : (0 < n)%N || (l == 0)%N).

Lemma prepare_lim f v :
  lim_exp (on_ok (fun d => f (state cis m s d))) (@np_rand R m) v ->
  lim_exp (on_ok f) (prepare_state cis (@np_rand R) m n) v.
Proof.
move=> HE; apply: lim_rbind HE _.
apply: always_impl (np_rand_always R m) => _ [d ->]; apply: lim_of_exp; apply: has_exp_eq (ExpRet _ _) _ => /=; congr f.
by apply/eq_in_map => i; rewrite mem_iota => im; rewrite /vec (nth_map 0%N) ?size_iota // nth_iota.
Qed.

Lemma fixed_sample_lim f :
  lim_exp (on_ok f) (fixed_sample cis (@np_rand R) x s) (\sum_(t <- lcomps m l) spread_prob m e D n l t * f t).
Proof.
have := fx => -[el em _].
rewrite /fixed_sample em -/n.
pose h v := if network_simulate (fx_net x) v is Ok ev then
   \sum_(t <- lcomps m l) multinomial_prob l (map (@nsq R) ev) t * f t else 0.
have eh d : h (state cis m s d) = \sum_(t <- lcomps m l) multinomial_prob l (smeared cis m M n d) t * f t.
  rewrite /h (net_simulateE sv m0 sub fx) ?size_map ?size_iota //.
  case/orP: nl => [n0|/eqP ->]; last by rewrite !mp0.
  rewrite (smearedE _ _ _ _ n0) -map_comp; apply: eq_bigr => t _; congr (multinomial_prob _ _ _ * _).
  apply: eq_map => i /=; congr nsq; apply: eq_bigr => j _; by rewrite (nth_map 0%N) ?size_iota // nth_iota.
have H : lim_exp (on_ok (fun d => h (state cis m s d))) (@np_rand R m) (\sum_(t <- lcomps m l) spread_prob m e D n l t * f t).
  apply: lim_always (phases_lim f nm nl) _; apply: always_true => -[d|er] //=; by rewrite eh.
apply: lim_rbind (prepare_lim H) _.
have al : always (fun r => exists2 d, r = Ok d & True) (@np_rand R m).
  by apply: always_impl (np_rand_always R m) => _ [d ->]; exists d.
apply: always_impl (prepare_always (m := m) cis s (rand := @np_rand R) al) => _ [d -> _]; apply: lim_of_exp; rewrite eh.
have [ev e1 e2] := probE cis sv m0 sub s fx d; rewrite e1 /rpbind /= -/n e2 el.
have sm : size (smeared cis m M n d) = m by rewrite size_map size_iota.
case/orP: nl => [n0|/eqP ->]; last by rewrite mp0; exact: ExpRet.
rewrite gtn_eqF //.
have so : size (nseq m 0%N) = size (smeared cis m M n d) by rewrite sm size_nseq.
have m0' : (0 < size (smeared cis m M n d))%N by rewrite sm.
have H2 := place_all_exp (smeared_ge0 cis m M n d) (smeared_le1 ok sub d n0) l f m0' so; rewrite sm in H2.
apply: has_exp_eq H2 _; apply: eq_big_seq => t; rewrite mem_lcomps => /andP[/eqP st _]; by rewrite add0v.
Qed.

Lemma fixed_simulate_lim k f :
  lim_exp (on_ok (fun y => f y.1)) (fixed_simulate cis (@np_rand R) s k x) (iid_exp (lcomps m l) (spread_prob m e D n l) k f).
Proof.
have E := @sample_loop_lim R _ _ (fun _ => fixed_sample cis (@np_rand R) x s) (fun t => Ok t) (fun=> True) (lcomps m l) (spread_prob m e D n l).
apply: lim_rbind (E _ _ k f [::] _) _ => //.
- by move=> _ _; apply: always_impl (fixed_sample_always sv ok m0 sub s fx (np_rand_always R m)) => _ [t [-> _ _ _]]; exists t, t.
- by move=> f' _ _; exact: fixed_sample_lim.
apply: always_true => -[y|] //=; apply: lim_of_exp; exact: ExpRet.
Qed.
End Fixed.

Section Uniform.
Variables (eta : R) (s : seq nat).
Hypothesis eta01 : 0 <= eta <= 1.
Let n := sumn s.
Hypothesis nm : (n <= m)%N.

Lemma uniform_sample_lim f :
  lim_exp (on_ok f) (uniform_sample svd cis (@np_rand R) (Uniform M m eta) s)
    (\sum_(t <- lcomps m n) spread_uniform m e D n eta t * f t).
Proof.
rewrite /uniform_sample [un_eta _]/= [un_matrix _]/= [un_modes _]/= -/n weightsE.
have := bw_distr eta01 n; set ws := map _ _ => dw.
have sw : size ws = n.+1 by rewrite /ws size_map size_iota.
have nw l : (l < n.+1)%N -> nth 0 ws l = binomial_weight n eta l.
  by move=> ln; rewrite /ws (nth_map 0%N) ?size_iota // nth_iota // add0n.
pose v l := \sum_(t <- lcomps m l) spread_prob m e D n l t * f t.
apply: lim_eq (lim_rbind (lim_of_exp (np_choice_exp v dw)) _) _.
  apply: always_impl (np_choice_always dw) => _ [l ->]; rewrite sw ltnS => ln.
  have [y ey fy] := new_fixedE sv m0 sub l.
  rewrite ey rpbind_ok.
  have nl : (0 < sumn s)%N || (l == 0%N) by move: ln; rewrite -/n; case: (n) => //; rewrite leqn0 => ->.
  have H := fixed_simulate_lim fy nm nl 1 (fun L => on_ok f (py_get L 0)).
  apply: lim_eq (lim_rbind (h := fun y => on_ok f (py_get y.1 0)) H _) _.
    by apply: always_true => -[a|//]; apply: lim_of_exp; exact: ExpRet.
  by apply: eq_bigr.
rewrite sw.
under [RHS]eq_bigr => t _ do rewrite /spread_uniform big_mkcond mulr_suml.
rewrite exchange_big; apply: eq_bigr => l _ /=.
rewrite nw // /v mulr_sumr.
have ln : (l <= n)%N by rewrite -ltnS.
rewrite (lcomps_sum _ _ ln) big_mkcond.
by apply: eq_bigr => t _; case: ifP => _; rewrite ?mul0r // mulrA.
Qed.

Lemma uniform_simulate_lim k f :
  lim_exp (on_ok (fun y => f y.1)) (uniform_simulate svd cis (@np_rand R) s k (Uniform M m eta))
    (iid_exp (lcomps m n) (spread_uniform m e D n eta) k f).
Proof.
have E := @sample_loop_lim R _ _ (fun _ => uniform_sample svd cis (@np_rand R) (Uniform M m eta) s) (fun t => Ok t) (fun=> True)
  (lcomps m n) (spread_uniform m e D n eta).
apply: lim_rbind (E _ _ k f [::] _) _ => //.
- by move=> _ _; apply: always_impl (uniform_sample_always sv ok m0 sub eta01 s (np_rand_always R m)) => _ [t [-> _ _]]; exists t, t.
- by move=> f' _ _; exact: uniform_sample_lim.
apply: always_true => -[y|] //=; apply: lim_of_exp; exact: ExpRet.
Qed.
End Uniform.
End Samples.
