(* Property theorems: C52 (the factory of strategies).  Only statements; proofs elsewhere. *)
From mathcomp Require Import all_ssreflect all_algebra complex ring zify.
From Verif Require Import Base ProofDist1 SpecStates Combi SpecPerm SpecBS ModelStates ModelPerm ModelDist SpecProb ModelGcc ModelGccB ModelNet SpecNet SpecGcc ModelBobs SpecBobs ModelLState SpecLState ModelFixed SpecFixed ModelR ModelFactory SpecFactory ProbMath LemGcc LemNet BsNorm Witness LemFactory.
Set Implicit Arguments.
Unset Strict Implicit.
Unset Printing Implicit Defensive.
Import Order.TTheory GRing.Theory Num.Theory.
Local Open Scope ring_scope.
Local Open Scope py_scope.

(* C52: a generated strategy has the requested type (fixed losses for a type without an entry), holds what the arguments of the factory determine, and no calculator existing before is changed *)
Theorem C52_type :
  forall (R : rcfType) (svd : seq (seq (ComplexField.complex_numFieldType R)) -> res (seq (seq (ComplexField.complex_numFieldType R)) * seq R * seq (seq (ComplexField.complex_numFieldType R)))) (cis : R -> (ComplexField.complex_numFieldType R)) (cpu : nat) (rpy2 : bool) (installed : r_package -> bool) (w : world R) (a : any_calc (ComplexField.complex_numFieldType R)),
  py_get (w_heap w) (Posz (w_calc w)) = Ok a ->
  same_res (fun y x => [/\ has_type (w_type w) x, load y.1 y.2 = Ok x
      & forall r, (r < size (w_heap w))%N -> py_get y.1 (Posz r) = py_get (w_heap w) (Posz r)])
    (generate svd cis cpu rpy2 installed w) (build svd cis cpu rpy2 installed (w_type w) (w_conf w) (w_threads w) a).
Proof. exact C52_type_lemma. Qed.
Print Assumptions C52_type.

(* C52: every history of operations in which the caller does not keep the calculator of the factory, every draw.  The samples and exceptions are those of the factory in which every holder of a calculator has its own copy, and following the references gives the same strategies and calculators *)
Theorem C52_value_semantics :
  forall (R : rcfType) (svd : seq (seq (ComplexField.complex_numFieldType R)) -> res (seq (seq (ComplexField.complex_numFieldType R)) * seq R * seq (seq (ComplexField.complex_numFieldType R)))) (cis : R -> (ComplexField.complex_numFieldType R)) (rand : nat -> rprog R (res (seq R))) (shuf : seq nat -> rprog R (res (seq nat)))
    (H : eqType) (hash : seq nat -> H) (gray : nat -> seq nat) (cpu fuel : nat)
    (boson_sampler : rmatrix R -> nat -> bool -> rprog R (res (seq int * seq R * seq R))) (rpy2 : bool) (installed : r_package -> bool) (vars : seq (any_calc (ComplexField.complex_numFieldType R))) (conf : fconfig R) (t : strategy_type) (ops : seq (operation R)),
  ~~ has (@is_get R) ops ->
  same_run (same_res (fun x y => x.1 = y.1 /\ sees x.2 y.2))
    (draw! w := Ret (new_world vars conf t) in run svd cis rand shuf hash gray cpu fuel boson_sampler rpy2 installed ops w)
    (draw! v := Ret (new_values vars conf t) in v_run svd cis rand shuf hash gray cpu fuel boson_sampler rpy2 installed ops v).
Proof. exact C52_value_semantics_lemma. Qed.
Print Assumptions C52_value_semantics.

(* C52: the calculator of the factory stays as the constructor copied it, in every history without its setter and getter *)
Theorem C52_calculator_unchanged :
  forall (R : rcfType) (svd : seq (seq (ComplexField.complex_numFieldType R)) -> res (seq (seq (ComplexField.complex_numFieldType R)) * seq R * seq (seq (ComplexField.complex_numFieldType R)))) (cis : R -> (ComplexField.complex_numFieldType R)) (rand : nat -> rprog R (res (seq R))) (shuf : seq nat -> rprog R (res (seq nat)))
    (H : eqType) (hash : seq nat -> H) (gray : nat -> seq nat) (cpu fuel : nat)
    (boson_sampler : rmatrix R -> nat -> bool -> rprog R (res (seq int * seq R * seq R))) (rpy2 : bool) (installed : r_package -> bool) (a : any_calc (ComplexField.complex_numFieldType R)) (vars : seq (any_calc (ComplexField.complex_numFieldType R))) (conf : fconfig R) (t : strategy_type) (ops : seq (operation R)),
  ~~ has (@is_get R) ops -> ~~ has (@is_set_calculator R) ops ->
  always (if_ok (fun y => py_get (w_heap y.2) (Posz (w_calc y.2)) = Ok a))
    (draw! w := Ret (new_world (a :: vars) conf t) in run svd cis rand shuf hash gray cpu fuel boson_sampler rpy2 installed ops w).
Proof. exact C52_calculator_unchanged_lemma. Qed.
Print Assumptions C52_calculator_unchanged.

(* C52: whatever was generated, simulated and changed before, the generated strategy (or the exception) depends only on the current type, configuration and number of threads and on the calculator given to the constructor *)
Theorem C52_repeated_generation :
  forall (R : rcfType) (svd : seq (seq (ComplexField.complex_numFieldType R)) -> res (seq (seq (ComplexField.complex_numFieldType R)) * seq R * seq (seq (ComplexField.complex_numFieldType R)))) (cis : R -> (ComplexField.complex_numFieldType R)) (rand : nat -> rprog R (res (seq R))) (shuf : seq nat -> rprog R (res (seq nat)))
    (H : eqType) (hash : seq nat -> H) (gray : nat -> seq nat) (cpu fuel : nat)
    (boson_sampler : rmatrix R -> nat -> bool -> rprog R (res (seq int * seq R * seq R))) (rpy2 : bool) (installed : r_package -> bool) (a : any_calc (ComplexField.complex_numFieldType R)) (vars : seq (any_calc (ComplexField.complex_numFieldType R))) (conf : fconfig R) (t : strategy_type) (ops : seq (operation R)),
  ~~ has (@is_get R) ops -> ~~ has (@is_set_calculator R) ops ->
  always (if_ok (fun y => (let! z := generate svd cis cpu rpy2 installed y.2 in load z.1 z.2)
      = build svd cis cpu rpy2 installed (w_type y.2) (w_conf y.2) (w_threads y.2) a))
    (draw! w := Ret (new_world (a :: vars) conf t) in run svd cis rand shuf hash gray cpu fuel boson_sampler rpy2 installed ops w).
Proof. exact C52_repeated_generation_lemma. Qed.
Print Assumptions C52_repeated_generation.

(* C52: generating and simulating, from any state of the program *)
Theorem C52_generate_and_simulate :
  forall (R : rcfType) (svd : seq (seq (ComplexField.complex_numFieldType R)) -> res (seq (seq (ComplexField.complex_numFieldType R)) * seq R * seq (seq (ComplexField.complex_numFieldType R)))) (cis : R -> (ComplexField.complex_numFieldType R)) (rand : nat -> rprog R (res (seq R))) (shuf : seq nat -> rprog R (res (seq nat)))
    (H : eqType) (hash : seq nat -> H) (gray : nat -> seq nat) (cpu fuel : nat)
    (boson_sampler : rmatrix R -> nat -> bool -> rprog R (res (seq int * seq R * seq R))) (rpy2 : bool) (installed : r_package -> bool) (w : world R) (a : any_calc (ComplexField.complex_numFieldType R)) (s : seq nat) (k : nat),
  py_get (w_heap w) (Posz (w_calc w)) = Ok a ->
  same_run (same_res (fun x y => x.1 = [:: None; Some y.1]))
    (run svd cis rand shuf hash gray cpu fuel boson_sampler rpy2 installed [:: Generate R; Simulate R (size (w_strategies w)) s k] w)
    (build_and_simulate svd cis rand shuf hash gray cpu fuel boson_sampler rpy2 installed (w_type w) (w_conf w) (w_threads w) a s k).
Proof. exact C52_generate_and_simulate_lemma. Qed.
Print Assumptions C52_generate_and_simulate.

(* C52, C27: the samples of the type GCC; the calculator is the one of the factory *)
Theorem C52_gcc_law :
  forall (R : rcfType) (svd : seq (seq (ComplexField.complex_numFieldType R)) -> res (seq (seq (ComplexField.complex_numFieldType R)) * seq R * seq (seq (ComplexField.complex_numFieldType R)))) (cis : R -> (ComplexField.complex_numFieldType R)) (rand : nat -> rprog R (res (seq R))) (shuf : seq nat -> rprog R (res (seq nat)))
    (H : eqType) (hash : seq nat -> H) (gray : nat -> seq nat) (cpu fuel : nat)
    (boson_sampler : rmatrix R -> nat -> bool -> rprog R (res (seq int * seq R * seq R))) (rpy2 : bool) (installed : r_package -> bool) (f : fconfig R) (threads : int) (a : any_calc (ComplexField.complex_numFieldType R)) (s : seq nat) (k : nat) (m : nat),
  unitary_on m (calc_matrix a) s -> size s = m -> gray_ok gray (sumn s) -> (\prod_(x <- s) x.+1 <= fuel)%N ->
  iid_samples (build_and_simulate svd cis rand shuf hash gray cpu fuel boson_sampler rpy2 installed GCC f threads a s k) k (is_state m (sumn s))
    (bs_prob (calc_matrix a) s).
Proof. exact C52_gcc_law_lemma. Qed.
Print Assumptions C52_gcc_law.

Example C52_example (R : rcfType) (svd : seq (seq (ComplexField.complex_numFieldType R)) -> res (seq (seq (ComplexField.complex_numFieldType R)) * seq R * seq (seq (ComplexField.complex_numFieldType R)))) (cis : R -> (ComplexField.complex_numFieldType R)) (rand : nat -> rprog R (res (seq R))) (shuf : seq nat -> rprog R (res (seq nat)))
    (H : eqType) (hash : seq nat -> H) (cpu : nat)
    (boson_sampler : rmatrix R -> nat -> bool -> rprog R (res (seq int * seq R * seq R))) (rpy2 : bool) (installed : r_package -> bool) (f : fconfig R) : (* the network of the configuration is not used *)
  has_exp (on_ok (fun y => (y.1 == [:: [:: 1; 1]]%N)%:R : R))
    (build_and_simulate svd cis rand shuf hash reflected_gray cpu 4 boson_sampler rpy2 installed GCC f (-1)
       (generate_calculator (CalcFactory (splitter R) [::] [::] RYSER)) [:: 1; 1]%N 1)
    (49%:R / 625%:R).
Proof.
have pr : (\prod_(x <- [:: 1; 1]) x.+1 <= 4)%N by rewrite !big_cons big_nil.
apply: has_exp_eq (C52_gcc_law svd cis rand shuf hash cpu boson_sampler rpy2 installed f (-1) 1
  (a := generate_calculator (CalcFactory (splitter R) [::] [::] RYSER)) (unitaryW (s := [:: 1; 1]%N) (splitter_unitary R) isT) erefl (@reflected_gray_ok _) pr [:: [:: 1; 1]]%N) _.
by rewrite !big_cons big_nil mulr1 splitter_coincidence.
Qed.

(* C52, C32: the type UNIFORM_LOSSES_GCC, with the transmissivity of the configuration *)
Theorem C52_uniform_gcc_law :
  forall (R : rcfType) (svd : seq (seq (ComplexField.complex_numFieldType R)) -> res (seq (seq (ComplexField.complex_numFieldType R)) * seq R * seq (seq (ComplexField.complex_numFieldType R)))) (cis : R -> (ComplexField.complex_numFieldType R)) (rand : nat -> rprog R (res (seq R))) (shuf : seq nat -> rprog R (res (seq nat)))
    (H : eqType) (hash : seq nat -> H) (gray : nat -> seq nat) (cpu : nat)
    (boson_sampler : rmatrix R -> nat -> bool -> rprog R (res (seq int * seq R * seq R))) (rpy2 : bool) (installed : r_package -> bool) (f : fconfig R) (threads : int) (a : any_calc (ComplexField.complex_numFieldType R)) (s : seq nat) (k : nat) (m : nat),
  unitary_on m (calc_matrix a) s -> size s = m -> (0 < m)%N -> gray_ok gray (sumn s) -> 0 <= cf_eta (fc_conf f) <= 1 ->
  exists f0, forall fuel, (f0 <= fuel)%N ->
  iid_samples (build_and_simulate svd cis rand shuf hash gray cpu fuel boson_sampler rpy2 installed UNIFORM_LOSSES_GCC f threads a s k) k [pred t | (size t == m) && (sumn t <= sumn s)%N]
    (uniform_loss_prob (calc_matrix a) s (cf_eta (fc_conf f))).
Proof. exact C52_uniform_gcc_law_lemma. Qed.
Print Assumptions C52_uniform_gcc_law.

(* C52, C35: the type LOSSY_NET_GCC, for every lossless network D on more modes containing the network *)
Theorem C52_lossy_net_law :
  forall (R : rcfType) (svd : seq (seq (ComplexField.complex_numFieldType R)) -> res (seq (seq (ComplexField.complex_numFieldType R)) * seq R * seq (seq (ComplexField.complex_numFieldType R)))) (cis : R -> (ComplexField.complex_numFieldType R)) (rand : nat -> rprog R (res (seq R))) (shuf : seq nat -> rprog R (res (seq nat)))
    (H : eqType) (hash : seq nat -> H) (gray : nat -> seq nat) (cpu fuel : nat)
    (boson_sampler : rmatrix R -> nat -> bool -> rprog R (res (seq int * seq R * seq R))) (rpy2 : bool) (installed : r_package -> bool) (f : fconfig R) (threads : int) (a : any_calc (ComplexField.complex_numFieldType R)) (s : seq nat) (k : nat) (m d : nat) (D : seq (seq (ComplexField.complex_numFieldType R))),
  svd_ok svd -> (0 < m)%N -> subunitary m (calc_matrix a) -> size s = m -> (\prod_(x <- s) x.+1 <= fuel)%N ->
  dilation m d (calc_matrix a) D ->
  iid_samples (build_and_simulate svd cis rand shuf hash gray cpu fuel boson_sampler rpy2 installed LOSSY_NET_GCC f threads a s k) k [pred t | (size t == m) && (sumn t <= sumn s)%N]
    (traced_prob d D s).
Proof. exact C52_lossy_net_law_lemma. Qed.
Print Assumptions C52_lossy_net_law.

(* C52, C43: the type BOBS with a hierarchy level of at least the number of modes.  More than the requested number of samples is returned *)
Theorem C52_bobs_law :
  forall (R : rcfType) (svd : seq (seq (ComplexField.complex_numFieldType R)) -> res (seq (seq (ComplexField.complex_numFieldType R)) * seq R * seq (seq (ComplexField.complex_numFieldType R)))) (cis : R -> (ComplexField.complex_numFieldType R)) (rand : nat -> rprog R (res (seq R))) (shuf : seq nat -> rprog R (res (seq nat)))
    (H : eqType) (hash : seq nat -> H) (gray : nat -> seq nat) (cpu fuel : nat)
    (boson_sampler : rmatrix R -> nat -> bool -> rprog R (res (seq int * seq R * seq R))) (rpy2 : bool) (installed : r_package -> bool) (f : fconfig R) (threads : int) (a : any_calc (ComplexField.complex_numFieldType R)) (s : seq nat) (k : nat) (m d : nat) (D N : seq (seq (ComplexField.complex_numFieldType R))) (l : R),
  svd_ok svd -> cis_ok cis -> (0 < m)%N -> (0 < cpu)%N -> (0 < k)%N -> subunitary m (calc_matrix a) ->
  (exists i j, [/\ (i < m)%N, (j < m)%N & ent (calc_matrix a) i j != 0]) ->
  size s = m -> (\prod_(x <- s) x.+1 <= fuel)%N -> Posz (cf_modes (fc_conf f)) <= fc_level f ->
  extract_losses svd (calc_matrix a) = Ok (l, N) -> l = 0 \/ (10%:R ^+ 8)^-1 < l ->
  dilation m d (calc_matrix a) D ->
  iid_samples (build_and_simulate svd cis (@np_rand R) shuf hash gray cpu fuel boson_sampler rpy2 installed BOBS f threads a s k) (cpu * (k %/ cpu).+1) [pred t | (size t == m) && (sumn t <= sumn s)%N]
    (traced_prob d D s).
Proof. exact C52_bobs_law_lemma. Qed.
Print Assumptions C52_bobs_law.

(* C52, C55: the type UNIFORM_LOSSES_BOBS *)
Theorem C52_lossy_state_law :
  forall (R : rcfType) (svd : seq (seq (ComplexField.complex_numFieldType R)) -> res (seq (seq (ComplexField.complex_numFieldType R)) * seq R * seq (seq (ComplexField.complex_numFieldType R)))) (cis : R -> (ComplexField.complex_numFieldType R)) (rand : nat -> rprog R (res (seq R))) (shuf : seq nat -> rprog R (res (seq nat)))
    (H : eqType) (hash : seq nat -> H) (gray : nat -> seq nat) (cpu fuel : nat)
    (boson_sampler : rmatrix R -> nat -> bool -> rprog R (res (seq int * seq R * seq R))) (rpy2 : bool) (installed : r_package -> bool) (f : fconfig R) (threads : int) (a : any_calc (ComplexField.complex_numFieldType R)) (s : seq nat) (k : nat) (m h : nat) (S : seq (seq R)) (W : seq R -> R),
  cis_ok cis -> unitary m (calc_matrix a) -> size s = m -> size (calc_input a) = m -> (0 < cpu)%N -> (0 < k)%N ->
  fc_level f = Posz h -> (0 < h < m)%N -> 0 <= cf_eta (fc_conf f) <= 1 -> no_collision hash (take h s) ->
  all (fun n => n <= 1)%N (take h s) -> (2 ^ h * (sumn (drop h s)).+1 <= fuel)%N ->
  always (fun r => exists2 d, r = Ok d & d \in S) (rand (m - h)%N) ->
  (forall g, has_exp (on_ok g) (rand (m - h)%N) (\sum_(d <- S) W d * g d)) ->
  iid_samples (build_and_simulate svd cis rand (@np_shuffle R) hash gray cpu fuel boson_sampler rpy2 installed UNIFORM_LOSSES_BOBS f threads a s k) k [pred t | (size t == m) && (sumn t <= sumn s)%N]
    (lstate_law cis m h (calc_matrix a) (cf_eta (fc_conf f)) s S W).
Proof. exact C52_lossy_state_law_lemma. Qed.
Print Assumptions C52_lossy_state_law.

(* C52, C50: the type FIXED_LOSS, without a network strategy in the configuration; also of the type without an entry *)
Theorem C52_fixed_law :
  forall (R : rcfType) (svd : seq (seq (ComplexField.complex_numFieldType R)) -> res (seq (seq (ComplexField.complex_numFieldType R)) * seq R * seq (seq (ComplexField.complex_numFieldType R)))) (cis : R -> (ComplexField.complex_numFieldType R)) (rand : nat -> rprog R (res (seq R))) (shuf : seq nat -> rprog R (res (seq nat)))
    (H : eqType) (hash : seq nat -> H) (gray : nat -> seq nat) (cpu fuel : nat)
    (boson_sampler : rmatrix R -> nat -> bool -> rprog R (res (seq int * seq R * seq R))) (rpy2 : bool) (installed : r_package -> bool) (f : fconfig R) (threads : int) (a : any_calc (ComplexField.complex_numFieldType R)) (s : seq nat) (k : nat) (m l : nat) (M : seq (seq (ComplexField.complex_numFieldType R))) (S : seq (seq R)) (W : seq R -> R) (t : strategy_type),
  t = FIXED_LOSS \/ t = LOSSLESS_MODES_STRATEGY ->
  svd_ok svd -> cis_ok cis -> (0 < m)%N -> subunitary m M -> (0 < sumn s)%N ->
  cf_matrix (fc_conf f) = M -> cf_modes (fc_conf f) = m -> cf_left (fc_conf f) = l -> fc_net f = None ->
  always (fun r => exists2 d, r = Ok d & d \in S) (rand m) ->
  (forall g, has_exp (on_ok g) (rand m) (\sum_(d <- S) W d * g d)) ->
  iid_samples (build_and_simulate svd cis rand shuf hash gray cpu fuel boson_sampler rpy2 installed t f threads a s k) k [pred t | (size t == m) && (sumn t <= l)%N]
    (fixed_law cis m M (sumn s) l S W).
Proof. exact C52_fixed_law_lemma. Qed.
Print Assumptions C52_fixed_law.

(* C52, C51: the type UNIFORM_LOSS *)
Theorem C52_uniform_law :
  forall (R : rcfType) (svd : seq (seq (ComplexField.complex_numFieldType R)) -> res (seq (seq (ComplexField.complex_numFieldType R)) * seq R * seq (seq (ComplexField.complex_numFieldType R)))) (cis : R -> (ComplexField.complex_numFieldType R)) (rand : nat -> rprog R (res (seq R))) (shuf : seq nat -> rprog R (res (seq nat)))
    (H : eqType) (hash : seq nat -> H) (gray : nat -> seq nat) (cpu fuel : nat)
    (boson_sampler : rmatrix R -> nat -> bool -> rprog R (res (seq int * seq R * seq R))) (rpy2 : bool) (installed : r_package -> bool) (f : fconfig R) (threads : int) (a : any_calc (ComplexField.complex_numFieldType R)) (s : seq nat) (k : nat) (m : nat) (M : seq (seq (ComplexField.complex_numFieldType R))) (S : seq (seq R)) (W : seq R -> R),
  svd_ok svd -> cis_ok cis -> (0 < m)%N -> subunitary m M -> 0 <= cf_eta (fc_conf f) <= 1 ->
  cf_matrix (fc_conf f) = M -> cf_modes (fc_conf f) = m ->
  always (fun r => exists2 d, r = Ok d & d \in S) (rand m) ->
  (forall g, has_exp (on_ok g) (rand m) (\sum_(d <- S) W d * g d)) ->
  iid_samples (build_and_simulate svd cis rand shuf hash gray cpu fuel boson_sampler rpy2 installed UNIFORM_LOSS f threads a s k) k [pred t | (size t == m) && (sumn t <= sumn s)%N]
    (uniform_law cis m M (sumn s) (cf_eta (fc_conf f)) S W).
Proof. exact C52_uniform_law_lemma. Qed.
Print Assumptions C52_uniform_law.

(* C52, C53: the type CLIFFORD_R needs rpy2 and three R packages *)
Theorem C52_r_missing :
  forall (R : rcfType) (svd : seq (seq (ComplexField.complex_numFieldType R)) -> res (seq (seq (ComplexField.complex_numFieldType R)) * seq R * seq (seq (ComplexField.complex_numFieldType R)))) (cis : R -> (ComplexField.complex_numFieldType R)) (cpu : nat) (rpy2 : bool) (installed : r_package -> bool) (w : world R),
  w_type w = CLIFFORD_R ->
  generate svd cis cpu rpy2 installed w = if [&& rpy2, installed BosonSampling, installed Rcpp & installed RcppArmadillo]
    then Ok (w_heap w, (None, SR (cf_matrix (fc_conf (w_conf w))))) else Err ImportError.
Proof. exact C52_r_missing_lemma. Qed.
Print Assumptions C52_r_missing.

(* C52: the types with a calculator do not use the matrix of the configuration *)
Theorem C52_configuration_matrix_ignored :
  forall (R : rcfType) (svd : seq (seq (ComplexField.complex_numFieldType R)) -> res (seq (seq (ComplexField.complex_numFieldType R)) * seq R * seq (seq (ComplexField.complex_numFieldType R)))) (cis : R -> (ComplexField.complex_numFieldType R)) (cpu : nat) (rpy2 : bool) (installed : r_package -> bool) (t : strategy_type) (f f' : fconfig R) (threads : int) (a : any_calc (ComplexField.complex_numFieldType R)),
  (if t is (GCC | LOSSY_NET_GCC | UNIFORM_LOSSES_GCC | BOBS | UNIFORM_LOSSES_BOBS) then true else false) ->
  cf_modes (fc_conf f) = cf_modes (fc_conf f') -> cf_eta (fc_conf f) = cf_eta (fc_conf f') -> fc_level f = fc_level f' ->
  build svd cis cpu rpy2 installed t f threads a = build svd cis cpu rpy2 installed t f' threads a.
Proof. exact C52_configuration_matrix_ignored_lemma. Qed.
Print Assumptions C52_configuration_matrix_ignored.

(* C52: a caller keeping the calculator of the factory and changing it changes an earlier generated strategy of the type UNIFORM_LOSSES_BOBS, which holds the same object; those of the other types stay as they are *)
Theorem C52_independent_strategies_refuted :
  forall (R : rcfType) (svd : seq (seq (ComplexField.complex_numFieldType R)) -> res (seq (seq (ComplexField.complex_numFieldType R)) * seq R * seq (seq (ComplexField.complex_numFieldType R)))) (cis : R -> (ComplexField.complex_numFieldType R)) (rand : nat -> rprog R (res (seq R))) (shuf : seq nat -> rprog R (res (seq nat)))
    (H : eqType) (hash : seq nat -> H) (gray : nat -> seq nat) (cpu fuel : nat)
    (boson_sampler : rmatrix R -> nat -> bool -> rprog R (res (seq int * seq R * seq R))) (rpy2 : bool) (installed : r_package -> bool) (w : world R) (a b : any_calc (ComplexField.complex_numFieldType R)) (x : strategy R),
  py_get (w_heap w) (Posz (w_calc w)) = Ok a ->
  build svd cis cpu rpy2 installed (w_type w) (w_conf w) (w_threads w) a = Ok x ->
  exists w', run svd cis rand shuf hash gray cpu fuel boson_sampler rpy2 installed [:: Generate R; GetCalculator R; ChangeCalculator (size (w_vars w)) b] w
    = Ret (Ok ([:: None; None; None], w')) /\
  (let! y := py_get (w_strategies w') (Posz (size (w_strategies w))) in load (w_heap w') y)
    = Ok (if w_type w is UNIFORM_LOSSES_BOBS then with_calc b x else x).
Proof. exact C52_independent_strategies_refuted_lemma. Qed.
Print Assumptions C52_independent_strategies_refuted.

(* C52: constructing the strategy for lossy networks directly replaces the matrix of the calculator of the caller by the expanded one, and changes no other calculator; a second construction expands the network of the first strategy as well *)
Theorem C52_direct_construction :
  forall (R : rcfType) (svd : seq (seq (ComplexField.complex_numFieldType R)) -> res (seq (seq (ComplexField.complex_numFieldType R)) * seq R * seq (seq (ComplexField.complex_numFieldType R)))) (m : nat) (h : seq (any_calc (ComplexField.complex_numFieldType R))) (r : nat) (a : any_calc (ComplexField.complex_numFieldType R)),
  svd_ok svd -> (0 < m)%N -> py_get h (Posz r) = Ok a -> is_square m (calc_matrix a) ->
  exists h1 x1 E1, [/\ construct_lossy_net svd h r = Ok (h1, x1), is_square (m + m) E1,
    py_get h1 (Posz r) = Ok (set_matrix E1 a), forall q, q != r -> py_get h1 (Posz q) = py_get h (Posz q)
  & exists h2 x2 E2, [/\ construct_lossy_net svd h1 r = Ok (h2, x2), is_square (m + m + (m + m)) E2,
    py_get h2 (Posz r) = Ok (set_matrix E2 (set_matrix E1 a))
  & exists b1, load h2 x1 = Ok (SLossyNet b1) /\ calc_matrix (b_calc b1) = E2]].
Proof. exact C52_direct_construction_lemma. Qed.
Print Assumptions C52_direct_construction.
