(* The mean over random phases of the laws of the approximate sampler. *)
From mathcomp Require Import all_ssreflect all_algebra complex.
From mathcomp Require Import ring zify.
From Verif Require Import Base SpecProb ProbMath SpecStates Combi SpecPerm PermMath SpecBS BsMath BsComb BsNorm BsSym SpecNet ProofNet1 ProofNet4 ModelNet ModelGcc ModelBobs SpecBobs ProofGccB2 ProofBobs3 SpecLim ProofLim1 ProofLim2 ProofLim3 SpecBlim ProofBlim1.
Set Implicit Arguments.
Unset Strict Implicit.
Unset Printing Implicit Defensive.
Import Order.TTheory GRing.Theory Num.Theory.
Local Open Scope ring_scope.
Local Open Scope py_scope.

Section Mean.
Variable R : rcfType.
Notation C := (ComplexField.complex_numFieldType R).
Notation mat := (seq (seq C)).
Variable cis : R -> C.
Hypothesis ok : cis_ok cis.
Variables (m e k : nat).
Hypotheses (km : (k <= m)%N) (k0 : (0 < k)%N).

Lemma ortho_mul r (D : mat) (g g' : nat -> C) :
  (forall a b : nat, (a < m)%N -> (b < m)%N -> ortho_cols r D a b) ->
  \sum_(i < r) conjc (\sum_(a < m) ent D i a * g a) * (\sum_(b < m) ent D i b * g' b) = \sum_(a < m) conjc (g a) * g' a.
Proof.
move=> o; transitivity (\sum_(a < m) \sum_(b < m) conjc (g a) * g' b * \sum_(i < r) conjc (ent D i a) * ent D i b).
  under [RHS]eq_bigr => a _ do under eq_bigr => b _ do rewrite mulr_sumr.
  under [RHS]eq_bigr => a _ do rewrite exchange_big.
  rewrite [RHS]exchange_big; apply: eq_bigr => i _ /=; rewrite rmorph_sum mulr_suml; apply: eq_bigr => a _.
  rewrite mulr_sumr; apply: eq_bigr => b _; rewrite rmorphM /=.
  by move: (conjc (ent D i a)) (conjc (g a)) (ent D i b) (g' b) => u v w z; ring.
apply: eq_bigr => a _; rewrite (bigD1 a) //= o // eqxx mulr1 big1 ?addr0 // => b ne; rewrite o //.
have -> : (a == b :> nat) = false by apply/eqP => h; case/eqP: ne; apply: val_inj.
exact: mulr0.
Qed.

(* the Fourier matrix, then the phases d, then D *)
Definition approx_dil (D : mat) (d : seq R) : mat :=
  [seq [seq \sum_(a < m) ent D i a * (phase_of cis k d a * fourier_of cis k a j) | j <- iota 0 m] | i <- iota 0 (m + e)].

Lemma approx_dil_ent D d i j : (i < m + e)%N -> (j < m)%N ->
  ent (approx_dil D d) i j = \sum_(a < m) ent D i a * (phase_of cis k d a * fourier_of cis k a j).
Proof. by move=> il jl; rewrite ent_tab. Qed.

Lemma approx_dilation M D d : dilation m e M D -> dilation m e (approx_net cis m M k d) (approx_dil D d).
Proof.
move=> [h o]; split=> [i j il jl|j j' jl jl'].
  rewrite approx_dil_ent ?ltn_addr // approx_ent //; apply: eq_bigr => a _; by rewrite h // mulrA.
rewrite /ortho_cols; under eq_bigr => i _ do rewrite !approx_dil_ent //.
rewrite (@ortho_mul _ D (fun a => phase_of cis k d a * fourier_of cis k a j) (fun a => phase_of cis k d a * fourier_of cis k a j')) //; have [Q [_ _ [_ uQ] hQ]] := fourierE ok km.
rewrite -[RHS](uQ _ _ jl jl'); apply: eq_bigr => a _; rewrite !hQ // rmorphM /=.
have := phase_nsq ok k d a; rewrite /nsq => n1.
have p1 : conjc (phase_of cis k d a) * phase_of cis k d a = 1 by rewrite -nsqE /nsq n1.
move: (conjc (phase_of cis k d a)) (phase_of cis k d a) p1 (conjc (fourier_of cis k a j)) (fourier_of cis k a j') => x y p1 u v.
by rewrite mulrACA p1 mul1r.
Qed.

Lemma col_first D d j y : (j < k)%N -> (y < m + e)%N ->
  ent (approx_dil D d) y j = \sum_(b < k) ent D y b * (fourier_of cis k b j * cis d`_b).
Proof.
move=> jk yl; rewrite approx_dil_ent ?(leq_trans jk) // (big_ord_widen m (fun b => ent D y b * (fourier_of cis k b j * cis d`_b)) km).
rewrite [RHS]big_mkcond; apply: eq_bigr => a _; rewrite /phase_of; case: ifP => ak; first by rewrite [cis _ * _]mulrC.
rewrite /fourier_of ak /=; have -> : (val a == j) = false by apply/eqP => h; rewrite h jk in ak.
by rewrite mulr0 mulr0.
Qed.

Lemma col_rest D d i y : (k <= i < m)%N -> (y < m + e)%N -> ent (approx_dil D d) y i = ent D y i.
Proof.
move=> /andP[ki im] yl; rewrite approx_dil_ent // (bigD1 (Ordinal im)) //= big1 ?addr0 => [|a ne].
  by rewrite /phase_of /fourier_of ltnNge ki /= eqxx !mulr1.
rewrite /fourier_of [(i < k)%N]ltnNge ki andbF.
have -> : (val a == i) = false by apply/eqP => h; case/eqP: ne; apply: val_inj.
by rewrite !mulr0.
Qed.

Lemma fourier_nsq b j : (b < k)%N -> (j < k)%N -> nsq (fourier_of cis k b j) = k%:R^-1.
Proof.
move=> bk jk; rewrite /fourier_of bk jk /=; have kR : (0 : R) < k%:R by rewrite ltr0n.
have s0 : Num.sqrt (k%:R : R) != 0 by rewrite gt_eqF // sqrtr_gt0.
have -> : cis ((b * j)%:R / k%:R) / (Num.sqrt (k%:R : R))%:C%C = cis ((b * j)%:R / k%:R) * ((Num.sqrt (k%:R : R))^-1)%:C%C.
  by congr (_ * _); rewrite [RHS](fmorphV (ComplexField.real_complex_rmorphism R)).
case: ok => _ o _; rewrite nsqM o mul1r /nsq /= [0 ^+ 2]expr0n addr0 exprVn sqr_sqrtr //; exact: ltW.
Qed.

Lemma particle_modes_in (t : seq nat) y : y \in particle_modes t -> (y < size t)%N.
Proof. exact: particle_modes_lt. Qed.

Lemma bs_grid D j p r t N : (j < k)%N -> size r = (m - k)%N -> size t = (m + e)%N -> sumn t = (p + sumn r)%N -> (p < N)%N ->
  grid_mean k N (fun d => bs_prob (approx_dil D d) (spike k j p ++ r) t) =
  \sum_(a <- comps k p) spread_weight R k p a * bs_prob D (a ++ r) t.
Proof.
move=> jk sr st et pN.
have ssp : sumn (spike k j p) = p.
  rewrite sumnE (big_nth 0%N) size_spike big_mkord (bigD1 (Ordinal jk)) //= nth_spike // eqxx big1 ?addn0 // => i ne.
  by rewrite nth_spike //; case: eqP => // h; case/eqP: ne; apply: val_inj.
pose A a : C := p`!%:R / (factprod a)%:R * mono k (fourier_of cis k ^~ j) a * PerO (ent D) (particle_modes t) (a ++ r).
have E d : bs_permanent (approx_dil D d) (spike k j p ++ r) t = \sum_(a <- comps k p) A a * mono k (fun b => cis d`_b) a.
  rewrite bs_permanent_PerO; last by rewrite sumn_cat ssp et.
  rewrite (@PerO_spread _ k (fun b => fourier_of cis k b j * cis d`_b) j jk (ent D)).
  - apply: eq_bigr => a _; rewrite /A.
    have -> : mono k (fun b => fourier_of cis k b j * cis d`_b) a = mono k (fourier_of cis k ^~ j) a * mono k (fun b => cis d`_b) a.
      by rewrite /mono -big_split; apply: eq_bigr => b _; rewrite exprMn.
    by move: (_ / _) (mono _ _ _) (mono _ _ _) (PerO _ _ _) => u v w z; ring.
  - by rewrite size_particle_modes.
  - by move=> y /particle_modes_in; rewrite st => yl; rewrite col_first.
  move=> y /particle_modes_in; rewrite st sr => yl i il; rewrite col_rest //; lia.
have -> : grid_mean k N (fun d => bs_prob (approx_dil D d) (spike k j p ++ r) t) =
    grid_mean k N (fun d => nsq (\sum_(a <- comps k p) A a * mono k (fun b => cis d`_b) a)) / (p`! * factprod r * factprod t)%:R.
  rewrite /grid_mean mulr_suml; apply: eq_bigr => d _; rewrite /bs_prob E factprod_cat factprod_spike //.
  by rewrite mulrAC.
rewrite (grid_quad ok) // mulr_suml; apply: eq_big_seq => a; rewrite mem_comps => /andP[/eqP sa /eqP ea].
have mo : nsq (mono k (fourier_of cis k ^~ j) a) = (k%:R ^+ p)^-1.
  rewrite /mono nsq_prod -exprVn.
  have nX (x : C) q : nsq (x ^+ q) = nsq x ^+ q by elim: q => [|q IH]; rewrite ?nsq1 // !exprS nsqM IH.
  under eq_bigr => b _ do rewrite nX fourier_nsq //.
  by rewrite -ea sumnE [in RHS](big_nth 0%N) big_mkord sa expr_sum.
rewrite /A !nsqM mo /bs_prob bs_permanent_PerO; last by rewrite sumn_cat ea et.
have f1 : ((factprod a)%:R : C) != 0 by rewrite pnatr_eq0 -lt0n factprod_gt0.
have f2 : ((factprod a)%:R : R) != 0 by rewrite pnatr_eq0 -lt0n factprod_gt0.
have f3 : ((factprod r)%:R : R) != 0 by rewrite pnatr_eq0 -lt0n factprod_gt0.
have f4 : ((factprod t)%:R : R) != 0 by rewrite pnatr_eq0 -lt0n factprod_gt0.
have f5 : (p`!%:R : R) != 0 by rewrite pnatr_eq0 -lt0n fact_gt0.
have f6 : (k%:R ^+ p : R) != 0 by rewrite expf_neq0 // pnatr_eq0 -lt0n.
have -> : nsq ((factprod a)%:R^-1 : C) = ((factprod a)%:R ^+ 2)^-1.
  have f7 : ((factprod a)%:R : R) ^+ 2 != 0 by rewrite expf_neq0.
  by apply: (mulfI f7); rewrite divff // -nsq_nat -nsqM divff // nsq1.
rewrite nsq_nat /spread_weight factprod_cat !natrM.
move: (factprod a)%:R (factprod r)%:R (factprod t)%:R p`!%:R (k%:R ^+ p) f2 f3 f4 f5 f6 (nsq _) => x y z u v x0 y0 z0 u0 v0 w.
by field; rewrite ?x0 ?y0 ?z0 ?u0 ?v0.
Qed.

Lemma traced_grid D j p r t N : (j < k)%N -> size r = (m - k)%N -> size t = m -> (sumn t <= p + sumn r)%N -> (p < N)%N ->
  grid_mean k N (fun d => traced_prob e (approx_dil D d) (spike k j p ++ r) t) = spread_rest e D k p r t.
Proof.
move=> jk sr st le pN; have ssp : sumn (spike k j p ++ r) = (p + sumn r)%N.
  rewrite sumn_cat; congr addn.
  rewrite sumnE (big_nth 0%N) size_spike big_mkord (bigD1 (Ordinal jk)) //= nth_spike // eqxx big1 ?addn0 // => i ne.
  by rewrite nth_spike //; case: eqP => // h; case/eqP: ne; apply: val_inj.
transitivity (\sum_(q <- comps e (p + sumn r - sumn t)) grid_mean k N (fun d => bs_prob (approx_dil D d) (spike k j p ++ r) (t ++ q))).
  rewrite /grid_mean [RHS]exchange_big; apply: eq_bigr => d _ /=; by rewrite /traced_prob ssp mulr_suml.
transitivity (\sum_(q <- comps e (p + sumn r - sumn t)) \sum_(a <- comps k p) spread_weight R k p a * bs_prob D (a ++ r) (t ++ q)).
  apply: eq_big_seq => q; rewrite mem_comps => /andP[/eqP sq /eqP eq].
  by rewrite bs_grid // ?size_cat ?st ?sq // sumn_cat eq subnKC.
rewrite exchange_big; apply: eq_big_seq => a; rewrite mem_comps => /andP[/eqP sa /eqP ea] /=.
by rewrite -mulr_sumr /traced_prob sumn_cat ea.
Qed.

Lemma clipb_PerO (u : seq R -> nat -> nat -> C) x s : (forall y i, clipb (fun d => u d y i)) -> clipb (fun d => PerO (u d) x s).
Proof.
move=> h; elim: x s => [|y x IH] s; first exact: clipb_const.
by apply: clipb_sum => i; apply: clipb_mul; [apply: clipb_mul; [exact: clipb_const|exact: h]|exact: IH].
Qed.

Hypothesis lip : cis_lipschitz cis.

Lemma approx_clipb D i j : clipb (fun d => ent (approx_dil D d) i j).
Proof.
have [il|il] := ltnP i (m + e); last first.
  by apply: clipb_ext (clipb_const 0) => d; rewrite /ent [nth [::] _ i]nth_default ?size_map ?size_iota // nth_nil.
have [jl|jl] := ltnP j m; last first.
  apply: clipb_ext (clipb_const 0) => d; rewrite /ent (nth_map 0%N) ?size_iota // nth_default // size_map size_iota //.
apply: clipb_ext (_ : clipb (fun d => \sum_(a < m) ent D i a * (phase_of cis k d a * fourier_of cis k a j))) => [d|]; first by rewrite approx_dil_ent.
apply: clipb_sum => a; apply: clipb_mul; first exact: clipb_const.
apply: clipb_mul; last exact: clipb_const.
by have [ak|ak] := ltnP a k; [apply: clipb_ext (clipb_cis ok lip a)|apply: clipb_ext (clipb_const 1)] => d; rewrite /phase_of ?ak // ltnNge ak.
Qed.

Lemma traced_lipb D s t : (sumn t <= sumn s)%N -> lipb (fun d => traced_prob e (approx_dil D d) s t).
Proof.
move=> le; apply: (@lipb_ext _ (fun d => \sum_(q <- comps e (sumn s - sumn t) | q \in comps e (sumn s - sumn t))
   nsq (PerO (ent (approx_dil D d)) (particle_modes (t ++ q)) s) / (factprod s * factprod (t ++ q))%:R)).
  move=> d; rewrite /traced_prob [RHS]big_seq; apply: eq_bigr => q.
  rewrite mem_comps => /andP[_ /eqP eq]; rewrite /bs_prob bs_permanent_PerO // sumn_cat eq subnKC //.
apply: lipb_sum => q; apply: lipb_mul; last exact: lipb_const.
by apply: clipb_nsq; apply: clipb_PerO => y i; exact: approx_clipb.
Qed.

Lemma rest_lim D j p r (f : seq nat -> R) N : Num.archimedean_axiom R -> (j < k)%N -> size r = (m - k)%N -> (p < N)%N ->
  lim_exp (on_ok (fun d => \sum_(t <- lcomps m (p + sumn r)) traced_prob e (approx_dil D d) (spike k j p ++ r) t * f t)) (@np_rand R k)
    (\sum_(t <- lcomps m (p + sumn r)) grid_mean k N (fun d => traced_prob e (approx_dil D d) (spike k j p ++ r) t) * f t).
Proof.
move=> arch jk sr pN.
have ssp : sumn (spike k j p ++ r) = (p + sumn r)%N.
  rewrite sumn_cat; congr addn.
  rewrite sumnE (big_nth 0%N) size_spike big_mkord (bigD1 (Ordinal jk)) //= nth_spike // eqxx big1 ?addn0 // => i ne.
  by rewrite nth_spike //; case: eqP => // h; case/eqP: ne; apply: val_inj.
apply: (@np_rand_lim _ k _ _ p.+1) => //.
  apply: (@lipb_ext _ (fun d => \sum_(t <- lcomps m (p + sumn r) | t \in lcomps m (p + sumn r)) (if (sumn t <= p + sumn r)%N then traced_prob e (approx_dil D d) (spike k j p ++ r) t * f t else 0))).
    by move=> d; rewrite [RHS]big_seq; apply: eq_bigr => t; rewrite mem_lcomps => /andP[_ ->].
  apply: lipb_sum => t; case: leqP => le; last exact: lipb_const.
  by apply: lipb_mul; [apply: traced_lipb; rewrite ssp|exact: lipb_const].
move=> N' pN' N'0.
have -> : grid_mean k N' (fun d => \sum_(t <- lcomps m (p + sumn r)) traced_prob e (approx_dil D d) (spike k j p ++ r) t * f t) =
    \sum_(t <- lcomps m (p + sumn r)) grid_mean k N' (fun d => traced_prob e (approx_dil D d) (spike k j p ++ r) t) * f t.
  rewrite /grid_mean; under eq_bigr => d _ do rewrite mulr_suml.
  rewrite exchange_big; apply: eq_bigr => t _; rewrite mulr_suml; apply: eq_bigr => d _; by rewrite mulrAC.
apply: eq_big_seq => t; rewrite mem_lcomps => /andP[/eqP st tl]; congr (_ * _).
by rewrite !traced_grid.
Qed.
End Mean.
