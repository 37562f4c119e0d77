(* Final forms of the lemmas behind the property theorems: C52 (the factory of strategies). *)
From mathcomp Require Import all_ssreflect all_algebra complex ring zify.
From Verif Require Import Base ProofDist1 SpecStates Combi SpecPerm SpecBS ModelStates ModelPerm ModelDist SpecProb ModelGcc ModelGccB ModelNet SpecNet SpecGcc ModelBobs SpecBobs ModelLState SpecLState ModelFixed SpecFixed ModelR ModelFactory SpecFactory PermMath ProbMath LemGcc LemNet LemBobs LemLState LemFixed ProofGcc4 ProofFactory1 ProofFactory2 ProofFactory3 ProofFactory4.
Set Implicit Arguments.
Unset Strict Implicit.
Unset Printing Implicit Defensive.
Import Order.TTheory GRing.Theory Num.Theory.
Local Open Scope ring_scope.
Local Open Scope py_scope.

Lemma C52_type_lemma :
  forall (R : rcfType) (svd : seq (seq (ComplexField.complex_numFieldType R)) -> res (seq (seq (ComplexField.complex_numFieldType R)) * seq R * seq (seq (ComplexField.complex_numFieldType R)))) (cis : R -> (ComplexField.complex_numFieldType R)) (cpu : nat) (rpy2 : bool) (installed : r_package -> bool) (w : world R) (a : any_calc (ComplexField.complex_numFieldType R)),
  py_get (w_heap w) (Posz (w_calc w)) = Ok a ->
  same_res (fun y x => [/\ has_type (w_type w) x, load y.1 y.2 = Ok x
      & forall r, (r < size (w_heap w))%N -> py_get y.1 (Posz r) = py_get (w_heap w) (Posz r)])
    (generate svd cis cpu rpy2 installed w) (build svd cis cpu rpy2 installed (w_type w) (w_conf w) (w_threads w) a).
Proof.
move=> R svd cis cpu rpy2 installed w a /get_ok c; have := generatedE svd cis cpu rpy2 installed c.
case: (generate _ _ _ _ _ _) => [y|e]; case: (build _ _ _ _ _ _ _ _ _) => [x|e'] //= -[h1 h2 h3 h4 h5 h6]; split=> // r lr.
by rewrite !py_getE h4.
Qed.

Lemma C52_value_semantics_lemma :
  forall (R : rcfType) (svd : seq (seq (ComplexField.complex_numFieldType R)) -> res (seq (seq (ComplexField.complex_numFieldType R)) * seq R * seq (seq (ComplexField.complex_numFieldType R)))) (cis : R -> (ComplexField.complex_numFieldType R)) (rand : nat -> rprog R (res (seq R))) (shuf : seq nat -> rprog R (res (seq nat)))
    (H : eqType) (hash : seq nat -> H) (gray : nat -> seq nat) (cpu fuel : nat)
    (boson_sampler : rmatrix R -> nat -> bool -> rprog R (res (seq int * seq R * seq R))) (rpy2 : bool) (installed : r_package -> bool) (vars : seq (any_calc (ComplexField.complex_numFieldType R))) (conf : fconfig R) (t : strategy_type) (ops : seq (operation R)),
  ~~ has (@is_get R) ops ->
  same_run (same_res (fun x y => x.1 = y.1 /\ sees x.2 y.2))
    (draw! w := Ret (new_world vars conf t) in run svd cis rand shuf hash gray cpu fuel boson_sampler rpy2 installed ops w)
    (draw! v := Ret (new_values vars conf t) in v_run svd cis rand shuf hash gray cpu fuel boson_sampler rpy2 installed ops v).
Proof.
move=> R svd cis rand shuf H hash gray cpu fuel boson_sampler rpy2 installed vars conf t ops ng; rewrite /rpbind /=.
have := new_good vars conf t; case: (new_world vars conf t) => [w|e]; case: (new_values vars conf t) => [v|e'] //= gw.
apply: same_run_impl (run_good svd cis rand shuf hash gray cpu fuel boson_sampler rpy2 installed ng gw) => -[x|e1] [y|e2] //= [e [_ s]]; by split.
Qed.

Lemma C52_calculator_unchanged_lemma :
  forall (R : rcfType) (svd : seq (seq (ComplexField.complex_numFieldType R)) -> res (seq (seq (ComplexField.complex_numFieldType R)) * seq R * seq (seq (ComplexField.complex_numFieldType R)))) (cis : R -> (ComplexField.complex_numFieldType R)) (rand : nat -> rprog R (res (seq R))) (shuf : seq nat -> rprog R (res (seq nat)))
    (H : eqType) (hash : seq nat -> H) (gray : nat -> seq nat) (cpu fuel : nat)
    (boson_sampler : rmatrix R -> nat -> bool -> rprog R (res (seq int * seq R * seq R))) (rpy2 : bool) (installed : r_package -> bool) (a : any_calc (ComplexField.complex_numFieldType R)) (vars : seq (any_calc (ComplexField.complex_numFieldType R))) (conf : fconfig R) (t : strategy_type) (ops : seq (operation R)),
  ~~ has (@is_get R) ops -> ~~ has (@is_set_calculator R) ops ->
  always (if_ok (fun y => py_get (w_heap y.2) (Posz (w_calc y.2)) = Ok a))
    (draw! w := Ret (new_world (a :: vars) conf t) in run svd cis rand shuf hash gray cpu fuel boson_sampler rpy2 installed ops w).
Proof.
move=> R svd cis rand shuf H hash gray cpu fuel boson_sampler rpy2 installed a vars conf t ops ng ns.
apply: always_impl (history svd cis rand shuf hash gray cpu fuel boson_sampler rpy2 installed a vars conf t ng ns) => -[y|] //= e; exact/get_ok.
Qed.

Lemma C52_repeated_generation_lemma :
  forall (R : rcfType) (svd : seq (seq (ComplexField.complex_numFieldType R)) -> res (seq (seq (ComplexField.complex_numFieldType R)) * seq R * seq (seq (ComplexField.complex_numFieldType R)))) (cis : R -> (ComplexField.complex_numFieldType R)) (rand : nat -> rprog R (res (seq R))) (shuf : seq nat -> rprog R (res (seq nat)))
    (H : eqType) (hash : seq nat -> H) (gray : nat -> seq nat) (cpu fuel : nat)
    (boson_sampler : rmatrix R -> nat -> bool -> rprog R (res (seq int * seq R * seq R))) (rpy2 : bool) (installed : r_package -> bool) (a : any_calc (ComplexField.complex_numFieldType R)) (vars : seq (any_calc (ComplexField.complex_numFieldType R))) (conf : fconfig R) (t : strategy_type) (ops : seq (operation R)),
  ~~ has (@is_get R) ops -> ~~ has (@is_set_calculator R) ops ->
  always (if_ok (fun y => (let! z := generate svd cis cpu rpy2 installed y.2 in load z.1 z.2)
      = build svd cis cpu rpy2 installed (w_type y.2) (w_conf y.2) (w_threads y.2) a))
    (draw! w := Ret (new_world (a :: vars) conf t) in run svd cis rand shuf hash gray cpu fuel boson_sampler rpy2 installed ops w).
Proof.
move=> R svd cis rand shuf H hash gray cpu fuel boson_sampler rpy2 installed a vars conf t ops ng ns.
apply: always_impl (history svd cis rand shuf hash gray cpu fuel boson_sampler rpy2 installed a vars conf t ng ns) => -[y|] //= e; exact: generate_load.
Qed.

Lemma C52_generate_and_simulate_lemma :
  forall (R : rcfType) (svd : seq (seq (ComplexField.complex_numFieldType R)) -> res (seq (seq (ComplexField.complex_numFieldType R)) * seq R * seq (seq (ComplexField.complex_numFieldType R)))) (cis : R -> (ComplexField.complex_numFieldType R)) (rand : nat -> rprog R (res (seq R))) (shuf : seq nat -> rprog R (res (seq nat)))
    (H : eqType) (hash : seq nat -> H) (gray : nat -> seq nat) (cpu fuel : nat)
    (boson_sampler : rmatrix R -> nat -> bool -> rprog R (res (seq int * seq R * seq R))) (rpy2 : bool) (installed : r_package -> bool) (w : world R) (a : any_calc (ComplexField.complex_numFieldType R)) (s : seq nat) (k : nat),
  py_get (w_heap w) (Posz (w_calc w)) = Ok a ->
  same_run (same_res (fun x y => x.1 = [:: None; Some y.1]))
    (run svd cis rand shuf hash gray cpu fuel boson_sampler rpy2 installed [:: Generate R; Simulate R (size (w_strategies w)) s k] w)
    (build_and_simulate svd cis rand shuf hash gray cpu fuel boson_sampler rpy2 installed (w_type w) (w_conf w) (w_threads w) a s k).
Proof.
move=> R svd cis rand shuf H hash gray cpu fuel boson_sampler rpy2 installed w a s k /get_ok c; exact: generate_simulate.
Qed.

Lemma C52_gcc_law_lemma :
  forall (R : rcfType) (svd : seq (seq (ComplexField.complex_numFieldType R)) -> res (seq (seq (ComplexField.complex_numFieldType R)) * seq R * seq (seq (ComplexField.complex_numFieldType R)))) (cis : R -> (ComplexField.complex_numFieldType R)) (rand : nat -> rprog R (res (seq R))) (shuf : seq nat -> rprog R (res (seq nat)))
    (H : eqType) (hash : seq nat -> H) (gray : nat -> seq nat) (cpu fuel : nat)
    (boson_sampler : rmatrix R -> nat -> bool -> rprog R (res (seq int * seq R * seq R))) (rpy2 : bool) (installed : r_package -> bool) (f : fconfig R) (threads : int) (a : any_calc (ComplexField.complex_numFieldType R)) (s : seq nat) (k : nat) (m : nat),
  unitary_on m (calc_matrix a) s -> size s = m -> gray_ok gray (sumn s) -> (\prod_(x <- s) x.+1 <= fuel)%N ->
  iid_samples (build_and_simulate svd cis rand shuf hash gray cpu fuel boson_sampler rpy2 installed GCC f threads a s k) k (is_state m (sumn s))
    (bs_prob (calc_matrix a) s).
Proof.
move=> R svd cis rand shuf H hash gray cpu fuel boson_sampler rpy2 installed f threads a s k m un sz go fu; apply: (iid_wrap (@SGcc R)); exact: C27_gcc_exact_lemma.
Qed.

Lemma C52_uniform_gcc_law_lemma :
  forall (R : rcfType) (svd : seq (seq (ComplexField.complex_numFieldType R)) -> res (seq (seq (ComplexField.complex_numFieldType R)) * seq R * seq (seq (ComplexField.complex_numFieldType R)))) (cis : R -> (ComplexField.complex_numFieldType R)) (rand : nat -> rprog R (res (seq R))) (shuf : seq nat -> rprog R (res (seq nat)))
    (H : eqType) (hash : seq nat -> H) (gray : nat -> seq nat) (cpu : nat)
    (boson_sampler : rmatrix R -> nat -> bool -> rprog R (res (seq int * seq R * seq R))) (rpy2 : bool) (installed : r_package -> bool) (f : fconfig R) (threads : int) (a : any_calc (ComplexField.complex_numFieldType R)) (s : seq nat) (k : nat) (m : nat),
  unitary_on m (calc_matrix a) s -> size s = m -> (0 < m)%N -> gray_ok gray (sumn s) -> 0 <= cf_eta (fc_conf f) <= 1 ->
  exists f0, forall fuel, (f0 <= fuel)%N ->
  iid_samples (build_and_simulate svd cis rand shuf hash gray cpu fuel boson_sampler rpy2 installed UNIFORM_LOSSES_GCC f threads a s k) k [pred t | (size t == m) && (sumn t <= sumn s)%N]
    (uniform_loss_prob (calc_matrix a) s (cf_eta (fc_conf f))).
Proof.
move=> R svd cis rand shuf H hash gray cpu boson_sampler rpy2 installed f threads a s k m un sz m0 go eta.
have [f0 h] := C32_uniform_losses_exact_lemma k un sz m0 go eta.
exists f0 => fuel ge; apply: (iid_wrap (@SUGcc R)); exact: h.
Qed.

Lemma C52_lossy_net_law_lemma :
  forall (R : rcfType) (svd : seq (seq (ComplexField.complex_numFieldType R)) -> res (seq (seq (ComplexField.complex_numFieldType R)) * seq R * seq (seq (ComplexField.complex_numFieldType R)))) (cis : R -> (ComplexField.complex_numFieldType R)) (rand : nat -> rprog R (res (seq R))) (shuf : seq nat -> rprog R (res (seq nat)))
    (H : eqType) (hash : seq nat -> H) (gray : nat -> seq nat) (cpu fuel : nat)
    (boson_sampler : rmatrix R -> nat -> bool -> rprog R (res (seq int * seq R * seq R))) (rpy2 : bool) (installed : r_package -> bool) (f : fconfig R) (threads : int) (a : any_calc (ComplexField.complex_numFieldType R)) (s : seq nat) (k : nat) (m d : nat) (D : seq (seq (ComplexField.complex_numFieldType R))),
  svd_ok svd -> (0 < m)%N -> subunitary m (calc_matrix a) -> size s = m -> (\prod_(x <- s) x.+1 <= fuel)%N ->
  dilation m d (calc_matrix a) D ->
  iid_samples (build_and_simulate svd cis rand shuf hash gray cpu fuel boson_sampler rpy2 installed LOSSY_NET_GCC f threads a s k) k [pred t | (size t == m) && (sumn t <= sumn s)%N]
    (traced_prob d D s).
Proof.
move=> R svd cis rand shuf H hash gray cpu fuel boson_sampler rpy2 installed f threads a s k m d D sv m0 sub sz fu dil.
have sq : is_square m (calc_matrix a) by case: sub.
have [E [eE _ _]] := C36_upper_left_block_lemma sv m0 sq.
rewrite /build_and_simulate /= /new_lossy_net eE /= /rpbind /=; apply: (iid_wrap (@SLossyNet R)).
have pe : prepare_expanded svd (calc_matrix a) = Ok (calc_matrix (b_calc (new_gccb (set_matrix E a)))) by rewrite eE /= calc_matrix_set.
exact: (C35_lossy_net_exact_lemma k sv m0 sub sz fu pe dil).
Qed.

Lemma C52_bobs_law_lemma :
  forall (R : rcfType) (svd : seq (seq (ComplexField.complex_numFieldType R)) -> res (seq (seq (ComplexField.complex_numFieldType R)) * seq R * seq (seq (ComplexField.complex_numFieldType R)))) (cis : R -> (ComplexField.complex_numFieldType R)) (rand : nat -> rprog R (res (seq R))) (shuf : seq nat -> rprog R (res (seq nat)))
    (H : eqType) (hash : seq nat -> H) (gray : nat -> seq nat) (cpu fuel : nat)
    (boson_sampler : rmatrix R -> nat -> bool -> rprog R (res (seq int * seq R * seq R))) (rpy2 : bool) (installed : r_package -> bool) (f : fconfig R) (threads : int) (a : any_calc (ComplexField.complex_numFieldType R)) (s : seq nat) (k : nat) (m d : nat) (D N : seq (seq (ComplexField.complex_numFieldType R))) (l : R),
  svd_ok svd -> cis_ok cis -> (0 < m)%N -> (0 < cpu)%N -> (0 < k)%N -> subunitary m (calc_matrix a) ->
  (exists i j, [/\ (i < m)%N, (j < m)%N & ent (calc_matrix a) i j != 0]) ->
  size s = m -> (\prod_(x <- s) x.+1 <= fuel)%N -> Posz (cf_modes (fc_conf f)) <= fc_level f ->
  extract_losses svd (calc_matrix a) = Ok (l, N) -> l = 0 \/ (10%:R ^+ 8)^-1 < l ->
  dilation m d (calc_matrix a) D ->
  iid_samples (build_and_simulate svd cis (@np_rand R) shuf hash gray cpu fuel boson_sampler rpy2 installed BOBS f threads a s k) (cpu * (k %/ cpu).+1) [pred t | (size t == m) && (sumn t <= sumn s)%N]
    (traced_prob d D s).
Proof.
move=> R svd cis rand shuf H hash gray cpu fuel boson_sampler rpy2 installed f threads a s k m d D N l sv ok m0 cpu0 k0 sub nz sz fu lev ex ls dil.
have sq : is_square m (calc_matrix a) by case: sub.
have [x [ex' bo _ md th]] := C42_new_object_lemma cpu (Posz (cf_modes (fc_conf f)) - fc_level f) (-1) sv m0 sq nz (erefl (calc_matrix a)).
rewrite /build_and_simulate /= ex' /= /rpbind /=; apply: (iid_wrap (@SBobs R)).
rewrite /= in th; rewrite -th.
apply: (C43_exact_without_approximated_modes_lemma (c := Posz k) sv ok m0 sub nz sz bo) => //.
- by rewrite th.
- by rewrite md; case: ifP => // /negbT; rewrite -leNgt subr_ge0 => h; rewrite (_ : _ - _ = 0) ?min0n //; apply/eqP; rewrite subr_eq0 eq_le lev h.
- by case: bo => _; rewrite ex => -[<- _] _.
Qed.

Lemma C52_lossy_state_law_lemma :
  forall (R : rcfType) (svd : seq (seq (ComplexField.complex_numFieldType R)) -> res (seq (seq (ComplexField.complex_numFieldType R)) * seq R * seq (seq (ComplexField.complex_numFieldType R)))) (cis : R -> (ComplexField.complex_numFieldType R)) (rand : nat -> rprog R (res (seq R))) (shuf : seq nat -> rprog R (res (seq nat)))
    (H : eqType) (hash : seq nat -> H) (gray : nat -> seq nat) (cpu fuel : nat)
    (boson_sampler : rmatrix R -> nat -> bool -> rprog R (res (seq int * seq R * seq R))) (rpy2 : bool) (installed : r_package -> bool) (f : fconfig R) (threads : int) (a : any_calc (ComplexField.complex_numFieldType R)) (s : seq nat) (k : nat) (m h : nat) (S : seq (seq R)) (W : seq R -> R),
  cis_ok cis -> unitary m (calc_matrix a) -> size s = m -> size (calc_input a) = m -> (0 < cpu)%N -> (0 < k)%N ->
  fc_level f = Posz h -> (0 < h < m)%N -> 0 <= cf_eta (fc_conf f) <= 1 -> no_collision hash (take h s) ->
  all (fun n => n <= 1)%N (take h s) -> (2 ^ h * (sumn (drop h s)).+1 <= fuel)%N ->
  always (fun r => exists2 d, r = Ok d & d \in S) (rand (m - h)%N) ->
  (forall g, has_exp (on_ok g) (rand (m - h)%N) (\sum_(d <- S) W d * g d)) ->
  iid_samples (build_and_simulate svd cis rand (@np_shuffle R) hash gray cpu fuel boson_sampler rpy2 installed UNIFORM_LOSSES_BOBS f threads a s k) k [pred t | (size t == m) && (sumn t <= sumn s)%N]
    (lstate_law cis m h (calc_matrix a) (cf_eta (fc_conf f)) s S W).
Proof.
move=> R svd cis rand shuf H hash gray cpu fuel boson_sampler rpy2 installed f threads a s k m h S W ok un sz si cpu0 k0 lev /andP [h0 hm] eta nc al fu ra rb.
have [x [ex ox _]] := C45_new_object_lemma cis (cf_eta (fc_conf f)) threads (erefl (calc_matrix a)) si (ltnW hm) cpu0.
rewrite /build_and_simulate /= lev ex /= /rpbind /=; apply: (iid_wrap (@SLState R)).
exact: (C55_law_lemma (c := Posz k) ok un sz ox eta nc h0 hm al fu k0 ra rb).
Qed.

Lemma C52_fixed_law_lemma :
  forall (R : rcfType) (svd : seq (seq (ComplexField.complex_numFieldType R)) -> res (seq (seq (ComplexField.complex_numFieldType R)) * seq R * seq (seq (ComplexField.complex_numFieldType R)))) (cis : R -> (ComplexField.complex_numFieldType R)) (rand : nat -> rprog R (res (seq R))) (shuf : seq nat -> rprog R (res (seq nat)))
    (H : eqType) (hash : seq nat -> H) (gray : nat -> seq nat) (cpu fuel : nat)
    (boson_sampler : rmatrix R -> nat -> bool -> rprog R (res (seq int * seq R * seq R))) (rpy2 : bool) (installed : r_package -> bool) (f : fconfig R) (threads : int) (a : any_calc (ComplexField.complex_numFieldType R)) (s : seq nat) (k : nat) (m l : nat) (M : seq (seq (ComplexField.complex_numFieldType R))) (S : seq (seq R)) (W : seq R -> R) (t : strategy_type),
  t = FIXED_LOSS \/ t = LOSSLESS_MODES_STRATEGY ->
  svd_ok svd -> cis_ok cis -> (0 < m)%N -> subunitary m M -> (0 < sumn s)%N ->
  cf_matrix (fc_conf f) = M -> cf_modes (fc_conf f) = m -> cf_left (fc_conf f) = l -> fc_net f = None ->
  always (fun r => exists2 d, r = Ok d & d \in S) (rand m) ->
  (forall g, has_exp (on_ok g) (rand m) (\sum_(d <- S) W d * g d)) ->
  iid_samples (build_and_simulate svd cis rand shuf hash gray cpu fuel boson_sampler rpy2 installed t f threads a s k) k [pred t | (size t == m) && (sumn t <= l)%N]
    (fixed_law cis m M (sumn s) l S W).
Proof.
move=> R svd cis rand shuf H hash gray cpu fuel boson_sampler rpy2 installed f threads a s k m l M S W t tt sv ok m0 sub s0 eM em el en ra rb.
have [[x ex fx] _] := C50_new_object_lemma l sv m0 sub.
have e : build svd cis cpu rpy2 installed t f threads a = Ok (SFixed x) by case: tt => ->; rewrite /= eM em el en ex.
rewrite /build_and_simulate e /rpbind /=; apply: (iid_wrap (@SFixed R)).
exact: (C50_law_lemma k sv ok m0 sub fx s0 ra rb).
Qed.

Lemma C52_uniform_law_lemma :
  forall (R : rcfType) (svd : seq (seq (ComplexField.complex_numFieldType R)) -> res (seq (seq (ComplexField.complex_numFieldType R)) * seq R * seq (seq (ComplexField.complex_numFieldType R)))) (cis : R -> (ComplexField.complex_numFieldType R)) (rand : nat -> rprog R (res (seq R))) (shuf : seq nat -> rprog R (res (seq nat)))
    (H : eqType) (hash : seq nat -> H) (gray : nat -> seq nat) (cpu fuel : nat)
    (boson_sampler : rmatrix R -> nat -> bool -> rprog R (res (seq int * seq R * seq R))) (rpy2 : bool) (installed : r_package -> bool) (f : fconfig R) (threads : int) (a : any_calc (ComplexField.complex_numFieldType R)) (s : seq nat) (k : nat) (m : nat) (M : seq (seq (ComplexField.complex_numFieldType R))) (S : seq (seq R)) (W : seq R -> R),
  svd_ok svd -> cis_ok cis -> (0 < m)%N -> subunitary m M -> 0 <= cf_eta (fc_conf f) <= 1 ->
  cf_matrix (fc_conf f) = M -> cf_modes (fc_conf f) = m ->
  always (fun r => exists2 d, r = Ok d & d \in S) (rand m) ->
  (forall g, has_exp (on_ok g) (rand m) (\sum_(d <- S) W d * g d)) ->
  iid_samples (build_and_simulate svd cis rand shuf hash gray cpu fuel boson_sampler rpy2 installed UNIFORM_LOSS f threads a s k) k [pred t | (size t == m) && (sumn t <= sumn s)%N]
    (uniform_law cis m M (sumn s) (cf_eta (fc_conf f)) S W).
Proof.
move=> R svd cis rand shuf H hash gray cpu fuel boson_sampler rpy2 installed f threads a s k m M S W sv ok m0 sub eta eM em ra rb.
rewrite /build_and_simulate /= eM em /rpbind /=; apply: (iid_wrap (@SUniform R)).
exact: (C51_law_lemma s k sv ok m0 sub eta ra rb).
Qed.

Lemma C52_r_missing_lemma :
  forall (R : rcfType) (svd : seq (seq (ComplexField.complex_numFieldType R)) -> res (seq (seq (ComplexField.complex_numFieldType R)) * seq R * seq (seq (ComplexField.complex_numFieldType R)))) (cis : R -> (ComplexField.complex_numFieldType R)) (cpu : nat) (rpy2 : bool) (installed : r_package -> bool) (w : world R),
  w_type w = CLIFFORD_R ->
  generate svd cis cpu rpy2 installed w = if [&& rpy2, installed BosonSampling, installed Rcpp & installed RcppArmadillo]
    then Ok (w_heap w, (None, SR (cf_matrix (fc_conf (w_conf w))))) else Err ImportError.
Proof.
move=> R svd cis cpu rpy2 installed w e; rewrite /generate e /generate_r /= andbT; case: rpy2 => //=.
by case: (installed _); case: (installed _); case: (installed _).
Qed.

Lemma C52_configuration_matrix_ignored_lemma :
  forall (R : rcfType) (svd : seq (seq (ComplexField.complex_numFieldType R)) -> res (seq (seq (ComplexField.complex_numFieldType R)) * seq R * seq (seq (ComplexField.complex_numFieldType R)))) (cis : R -> (ComplexField.complex_numFieldType R)) (cpu : nat) (rpy2 : bool) (installed : r_package -> bool) (t : strategy_type) (f f' : fconfig R) (threads : int) (a : any_calc (ComplexField.complex_numFieldType R)),
  (if t is (GCC | LOSSY_NET_GCC | UNIFORM_LOSSES_GCC | BOBS | UNIFORM_LOSSES_BOBS) then true else false) ->
  cf_modes (fc_conf f) = cf_modes (fc_conf f') -> cf_eta (fc_conf f) = cf_eta (fc_conf f') -> fc_level f = fc_level f' ->
  build svd cis cpu rpy2 installed t f threads a = build svd cis cpu rpy2 installed t f' threads a.
Proof.
by move=> R svd cis cpu rpy2 installed t f f' threads a ht em ee el; case: t ht => //= _; rewrite ?em ?ee ?el.
Qed.

Lemma C52_independent_strategies_refuted_lemma :
  forall (R : rcfType) (svd : seq (seq (ComplexField.complex_numFieldType R)) -> res (seq (seq (ComplexField.complex_numFieldType R)) * seq R * seq (seq (ComplexField.complex_numFieldType R)))) (cis : R -> (ComplexField.complex_numFieldType R)) (rand : nat -> rprog R (res (seq R))) (shuf : seq nat -> rprog R (res (seq nat)))
    (H : eqType) (hash : seq nat -> H) (gray : nat -> seq nat) (cpu fuel : nat)
    (boson_sampler : rmatrix R -> nat -> bool -> rprog R (res (seq int * seq R * seq R))) (rpy2 : bool) (installed : r_package -> bool) (w : world R) (a b : any_calc (ComplexField.complex_numFieldType R)) (x : strategy R),
  py_get (w_heap w) (Posz (w_calc w)) = Ok a ->
  build svd cis cpu rpy2 installed (w_type w) (w_conf w) (w_threads w) a = Ok x ->
  exists w', run svd cis rand shuf hash gray cpu fuel boson_sampler rpy2 installed [:: Generate R; GetCalculator R; ChangeCalculator (size (w_vars w)) b] w
    = Ret (Ok ([:: None; None; None], w')) /\
  (let! y := py_get (w_strategies w') (Posz (size (w_strategies w))) in load (w_heap w') y)
    = Ok (if w_type w is UNIFORM_LOSSES_BOBS then with_calc b x else x).
Proof.
move=> R svd cis rand shuf H hash gray cpu fuel boson_sampler rpy2 installed w a b x /get_ok c eb; have := generatedE svd cis cpu rpy2 installed c.
rewrite eb; case eg: (generate _ _ _ _ _ _) => [y|e] //= [ly vy ry fr ty ky].
have lc : (w_calc w < size (w_heap w))%N by rewrite onth_lt c.
have lc' : (w_calc w < size y.1)%N by rewrite onth_lt fr // -onth_lt.
rewrite /rpbind /= eg /= py_getE onth_rcons eqxx /= py_setE lc' /=; eexists; split; first reflexivity.
rewrite /= py_getE onth_rcons eqxx /= -vy loadE /=; move: ly; rewrite loadE -vy.
have kx : (kind y.2.2 == 2%N) = (if w_type w is UNIFORM_LOSSES_BOBS then true else false).
  by move: ty; rewrite -vy; case: (w_type w); case: (y.2.2).
case er: y.2.1 => [r|] ly; last first.
  by move: er kx; rewrite ky -vy; case: ifP => [/eqP -> _ |_]; [case: (w_type w)|case: ifP].
rewrite onth_upd lc' andbT; move: er ly; rewrite ky -vy.
case: ifP => // _; rewrite kx; case: (w_type w) => -[<-] ly; rewrite ?eqxx //.
all: by case: eqP => [e|_]; [rewrite e ltnn in lc|exact: ly].
Qed.

Lemma C52_direct_construction_lemma :
  forall (R : rcfType) (svd : seq (seq (ComplexField.complex_numFieldType R)) -> res (seq (seq (ComplexField.complex_numFieldType R)) * seq R * seq (seq (ComplexField.complex_numFieldType R)))) (m : nat) (h : seq (any_calc (ComplexField.complex_numFieldType R))) (r : nat) (a : any_calc (ComplexField.complex_numFieldType R)),
  svd_ok svd -> (0 < m)%N -> py_get h (Posz r) = Ok a -> is_square m (calc_matrix a) ->
  exists h1 x1 E1, [/\ construct_lossy_net svd h r = Ok (h1, x1), is_square (m + m) E1,
    py_get h1 (Posz r) = Ok (set_matrix E1 a), forall q, q != r -> py_get h1 (Posz q) = py_get h (Posz q)
  & exists h2 x2 E2, [/\ construct_lossy_net svd h1 r = Ok (h2, x2), is_square (m + m + (m + m)) E2,
    py_get h2 (Posz r) = Ok (set_matrix E2 (set_matrix E1 a))
  & exists b1, load h2 x1 = Ok (SLossyNet b1) /\ calc_matrix (b_calc b1) = E2]].
Proof.
move=> R svd m h r a sv m0 /get_ok ea sq.
have step (n : nat) (h' : seq (any_calc (ComplexField.complex_numFieldType R))) b : (0 < n)%N -> onth h' r = Some b -> is_square n (calc_matrix b) ->
    exists E, [/\ is_square (n + n) E & construct_lossy_net svd h' r
      = Ok (upd h' r (set_matrix E b), (Some r, SLossyNet (new_gccb (set_matrix E b))))].
  move=> n0 eb sb; have [E [eE sE _]] := C36_upper_left_block_lemma sv n0 sb.
  exists E; split=> //; rewrite /construct_lossy_net py_getE eb /= /new_lossy_net eE /= py_setE.
  by rewrite onth_lt eb.
have [E1 [s1 e1]] := step _ _ _ m0 ea sq.
have lr : (r < size h)%N by rewrite onth_lt ea.
have g1 : onth (upd h r (set_matrix E1 a)) r = Some (set_matrix E1 a) by rewrite onth_upd eqxx lr.
do 3 eexists; split; first exact: e1.
- exact: s1.
- exact/get_ok.
- by move=> q /negbTE qr; rewrite !py_getE onth_upd qr.
have mm0 : (0 < m + m)%N by rewrite addn_gt0 m0.
have [|E2 [s2 e2]] := step _ _ _ mm0 g1; first by rewrite calc_matrix_set.
have g2 : onth (upd (upd h r (set_matrix E1 a)) r (set_matrix E2 (set_matrix E1 a))) r = Some (set_matrix E2 (set_matrix E1 a)).
  by rewrite onth_upd eqxx size_upd lr.
do 3 eexists; split; [exact: e2|exact: s2|exact/get_ok|].
by rewrite loadE /= g2; eexists; split; first reflexivity; rewrite /= calc_matrix_set.
Qed.
