(* Model of
     simulation_strategies/simulation_strategy_factory.py (35-226),
     boson_sampling_simulator.py                           (19-25)
   with the permanent calculators as objects: a heap of calculators, and
   references (positions in the heap) held by the factory, by the caller and by
   the strategies.  copy.deepcopy of a calculator is a new cell of the heap. *)
From mathcomp Require Import all_ssreflect all_algebra complex.
From Verif Require Import Base ModelStates ModelPerm ModelDist SpecProb ModelGcc ModelGccB ModelNet ModelBobs ModelLState ModelFixed ModelR.
Set Implicit Arguments.
Unset Strict Implicit.
Unset Printing Implicit Defensive.
Import GRing.Theory Num.Theory.
Local Open Scope ring_scope.
Local Open Scope py_scope.

(* StrategyType (35-44) *)
Inductive strategy_type :=
  | FIXED_LOSS | UNIFORM_LOSS | CLIFFORD_R | GCC | LOSSY_NET_GCC | LOSSLESS_MODES_STRATEGY
  | UNIFORM_LOSSES_GCC | BOBS | UNIFORM_LOSSES_BOBS.

Inductive r_package := BosonSampling | Rcpp | RcppArmadillo.

Section Factory.
Variable R : rcfType.
Notation CF := (ComplexField.complex_numFieldType R).
Notation mat := (seq (seq CF)).
Notation calc := (any_calc CF).
Notation prog A := (rprog R (res A)).

(* BosonSamplingExperimentConfiguration with its last two fields *)
Record fconfig := FConfig {
  fc_conf : config R;
  fc_net : option (network R);   (* network_simulation_strategy *)
  fc_level : int                 (* hierarchy_level *)
}.

(* the strategies as values *)
Inductive strategy :=
  | SFixed of fixed R
  | SUniform of uniform R
  | SR of mat
  | SGcc of gcc R
  | SLossyNet of gccb R
  | SUGcc of ugcc R
  | SBobs of bobs R
  | SLState of lstate R.

(* the calculator in the attributes of a strategy *)
Definition calc_of (x : strategy) : option calc :=
  match x with
  | SGcc g => Some (g_calc g)
  | SLossyNet b => Some (b_calc b)
  | SUGcc u => Some (g_calc (ug_gcc u))
  | SBobs b => Some (bo_calc b)
  | SLState l => Some (ls_calc l)
  | _ => None
  end.
Definition gcc_with (a : calc) (g : gcc R) : gcc R :=
  Gcc (g_r g) (g_n g) (g_pmfs g) a (g_input g) (g_labeled g) (g_outputs g) (g_key g) (g_prob g).
Definition with_calc (a : calc) (x : strategy) : strategy :=
  match x with
  | SGcc g => SGcc (gcc_with a g)
  | SLossyNet b => SLossyNet (GccB (b_r b) (b_n b) a (b_input b) (b_current b) (b_working b) (b_pmf b))
  | SUGcc u => SUGcc (UGcc (gcc_with a (ug_gcc u)) (ug_eta u) (ug_dist u) (ug_unw u) (ug_outs u)
                        (ug_weights u) (ug_missing u))
  | SBobs b => SBobs (Bobs (bo_modes b) (bo_losses b) (bo_matrix b) (bo_weights b) (bo_threads b) a
                        (bo_state b) (bo_particles b))
  | SLState l => SLState (LState (ls_approx l) (ls_approx_w l) (ls_exact l) (ls_exact_w l) (ls_level l)
                            (ls_eta l) (ls_threads l) a (ls_qft l))
  | x => x
  end.

(* environment *)
Variables (svd : mat -> res (mat * seq R * mat)) (cis : R -> CF).
Variables (rand : nat -> prog (seq R)) (shuf : seq nat -> prog (seq nat)).
Variables (H : eqType) (hash : seq nat -> H) (gray : nat -> seq nat).
Variables (cpu fuel : nat).
Variable boson_sampler : rmatrix R -> nat -> bool -> prog (seq int * seq R * seq R).
Variables (rpy2 : bool) (installed : r_package -> bool).

(* the method simulate of the strategies *)
Definition strategy_simulate (s : seq nat) (k : nat) (x : strategy) : prog (seq (seq nat) * strategy) :=
  match x with
  | SFixed x => draw! y := fixed_simulate cis rand s k x in Ret (Ok (y.1, SFixed y.2))
  | SUniform x => draw! y := uniform_simulate svd cis rand s k x in Ret (Ok (y.1, SUniform y.2))
  | SR x => draw! y := r_simulate boson_sampler s k x in Ret (Ok (y.1, SR y.2))
  | SGcc x => draw! y := gcc_simulate gray fuel s k x in Ret (Ok (y.1, SGcc y.2))
  | SLossyNet x => draw! y := lossy_net_simulate fuel s k x in Ret (Ok (y.1, SLossyNet y.2))
  | SUGcc x => draw! y := ugcc_simulate gray fuel s k x in Ret (Ok (y.1, SUGcc y.2))
  | SBobs x => draw! y := bobs_simulate svd cis rand fuel s (Posz k) x in Ret (Ok (y.1, SBobs y.2))
  | SLState x => draw! y := lstate_simulate hash cis rand shuf fuel s (Posz k) x in
                 Ret (Ok (y.1, SLState y.2))
  end.

(* the method set_new_matrix, of the strategies which have it *)
Definition strategy_set_matrix (M : mat) (x : strategy) : res strategy :=
  match x with
  | SGcc g => Ok (SGcc (set_new_matrix M g))
  | SLossyNet b => let! b := lossy_net_set_new_matrix svd M b in Ok (SLossyNet b)
  | SUGcc u => Ok (SUGcc (UGcc (set_new_matrix M (ug_gcc u)) (ug_eta u) (ug_dist u) (ug_unw u)
                            (ug_outs u) (ug_weights u) (ug_missing u)))
  | _ => Err AttributeError
  end.

(* ------------------------------------------------------------------ *)
(* The state of a program using a factory.  A strategy is stored with the
   reference to its calculator; the calculator inside the value is stale. *)
Notation heap := (seq calc).
Record world := World {
  w_heap : heap;
  w_vars : seq nat;                          (* the calculators of the caller *)
  w_calc : nat;                              (* _bs_permanent_calculator *)
  w_conf : fconfig;                          (* _experiment_configuration *)
  w_type : strategy_type;                    (* _strategy_type *)
  w_threads : int;                           (* _available_threads_number *)
  w_strategies : seq (option nat * strategy) (* generated so far *)
}.

Definition deepcopy (h : heap) (r : nat) : res (heap * nat) :=
  let! a := py_get h (Posz r) in Ok (rcons h a, size h).

(* what a strategy sees, and what it leaves behind *)
Definition load (h : heap) (x : option nat * strategy) : res strategy :=
  if x.1 is Some r then let! a := py_get h (Posz r) in Ok (with_calc a x.2) else Ok x.2.
Definition store (h : heap) (r : option nat) (x : strategy) : res heap :=
  match r, calc_of x with
  | Some r, Some a => py_set h (Posz r) a
  | _, _ => Ok h
  end.

(* the generating methods (118-226) *)
Definition generate_fixed (w : world) : res (heap * (option nat * strategy)) :=
  let c := fc_conf (w_conf w) in
  let! x := new_fixed svd (cf_matrix c) (cf_left c) (cf_modes c) (fc_net (w_conf w)) in
  Ok (w_heap w, (None, SFixed x)).
Definition generate_uniform (w : world) : res (heap * (option nat * strategy)) :=
  let c := fc_conf (w_conf w) in
  Ok (w_heap w, (None, SUniform (Uniform (cf_matrix c) (cf_modes c) (cf_eta c)))).
Definition generate_r (w : world) : res (heap * (option nat * strategy)) :=
  if ~~ rpy2 then Err ImportError else
  if ~~ all installed [:: BosonSampling; Rcpp; RcppArmadillo] then Err ImportError else
  Ok (w_heap w, (None, SR (cf_matrix (fc_conf (w_conf w))))).
Definition generate_gcc (w : world) : res (heap * (option nat * strategy)) :=
  let! hr := deepcopy (w_heap w) (w_calc w) in
  let! a := py_get hr.1 (Posz hr.2) in
  Ok (hr.1, (Some hr.2, SGcc (new_gcc a))).
(* LossyNetworksGeneralizedCliffordsSimulationStrategy(calculator): writes the
   calculator *)
Definition construct_lossy_net (h : heap) (r : nat) : res (heap * (option nat * strategy)) :=
  let! a := py_get h (Posz r) in
  let! y := new_lossy_net svd a in
  let! h := py_set h (Posz r) y.2 in
  Ok (h, (Some r, SLossyNet y.1)).
Definition generate_lossy_net (w : world) : res (heap * (option nat * strategy)) :=
  let! hr := deepcopy (w_heap w) (w_calc w) in
  construct_lossy_net hr.1 hr.2.
Definition generate_uniform_gcc (w : world) : res (heap * (option nat * strategy)) :=
  let! hr := deepcopy (w_heap w) (w_calc w) in
  let! a := py_get hr.1 (Posz hr.2) in
  Ok (hr.1, (Some hr.2, SUGcc (new_ugcc a (cf_eta (fc_conf (w_conf w)))))).
Definition generate_bobs (w : world) : res (heap * (option nat * strategy)) :=
  let modes := Posz (cf_modes (fc_conf (w_conf w))) - fc_level (w_conf w) in
  let! hr := deepcopy (w_heap w) (w_calc w) in
  let! a := py_get hr.1 (Posz hr.2) in
  let! x := new_bobs svd cpu a modes (-1) in
  Ok (hr.1, (Some hr.2, SBobs x)).
(* the calculator of the factory itself *)
Definition generate_uniform_bobs (w : world) : res (heap * (option nat * strategy)) :=
  let! a := py_get (w_heap w) (Posz (w_calc w)) in
  let! x := new_lstate cis cpu a (cf_eta (fc_conf (w_conf w))) (fc_level (w_conf w)) (w_threads w) in
  Ok (w_heap w, (Some (w_calc w), SLState x)).

(* generate_strategy (106-116); a type without an entry gets the fixed losses *)
Definition generate (w : world) : res (heap * (option nat * strategy)) :=
  match w_type w with
  | FIXED_LOSS => generate_fixed w
  | UNIFORM_LOSS => generate_uniform w
  | CLIFFORD_R => generate_r w
  | GCC => generate_gcc w
  | LOSSY_NET_GCC => generate_lossy_net w
  | UNIFORM_LOSSES_GCC => generate_uniform_gcc w
  | BOBS => generate_bobs w
  | UNIFORM_LOSSES_BOBS => generate_uniform_bobs w
  | LOSSLESS_MODES_STRATEGY => generate_fixed w
  end.

(* SimulationStrategyFactory(configuration, calculator, type) (48-73), the
   calculator being the first of the caller *)
Definition new_world (vars : seq calc) (conf : fconfig) (t : strategy_type) : res world :=
  let! hr := deepcopy vars 0 in
  Ok (World hr.1 (iota 0 (size vars)) hr.2 conf t (-1) [::]).

(* what the program does.  Calculators of the caller and strategies are numbered
   in the order of their creation. *)
Inductive operation :=
  | Generate
  | Simulate of nat & seq nat & nat
  | SetNewMatrix of nat & mat
  | SetType of strategy_type
  | SetConfiguration of fconfig
  | SetThreads of int
  | SetCalculator of nat            (* factory.bs_permanent_calculator = ... *)
  | NewCalculator of calc           (* a new calculator of the caller *)
  | ChangeCalculator of nat & calc  (* the caller changes its calculator *)
  | GetCalculator.                  (* the caller keeps factory.bs_permanent_calculator *)

Definition w_set (w : world) (h : heap) (st : seq (option nat * strategy)) : world :=
  World h (w_vars w) (w_calc w) (w_conf w) (w_type w) (w_threads w) st.

(* the result: samples, if any *)
Definition step (o : operation) (w : world) : prog (option (seq (seq nat)) * world) :=
  match o with
  | Generate =>
      draw! y := Ret (generate w) in
      Ret (Ok (None, w_set w y.1 (rcons (w_strategies w) y.2)))
  | Simulate i s k =>
      draw! x := Ret (py_get (w_strategies w) (Posz i)) in
      draw! z := Ret (load (w_heap w) x) in
      draw! y := strategy_simulate s k z in
      draw! h := Ret (store (w_heap w) x.1 y.2) in
      draw! st := Ret (py_set (w_strategies w) (Posz i) (x.1, y.2)) in
      Ret (Ok (Some y.1, w_set w h st))
  | SetNewMatrix i M =>
      draw! x := Ret (py_get (w_strategies w) (Posz i)) in
      draw! z := Ret (load (w_heap w) x) in
      draw! y := Ret (strategy_set_matrix M z) in
      draw! h := Ret (store (w_heap w) x.1 y) in
      draw! st := Ret (py_set (w_strategies w) (Posz i) (x.1, y)) in
      Ret (Ok (None, w_set w h st))
  | SetType t =>
      Ret (Ok (None, World (w_heap w) (w_vars w) (w_calc w) (w_conf w) t (w_threads w) (w_strategies w)))
  | SetConfiguration c =>
      Ret (Ok (None, World (w_heap w) (w_vars w) (w_calc w) c (w_type w) (w_threads w) (w_strategies w)))
  | SetThreads n =>
      Ret (Ok (None, World (w_heap w) (w_vars w) (w_calc w) (w_conf w) (w_type w) n (w_strategies w)))
  | SetCalculator i =>
      draw! r := Ret (py_get (w_vars w) (Posz i)) in
      draw! hr := Ret (deepcopy (w_heap w) r) in
      Ret (Ok (None, World hr.1 (w_vars w) hr.2 (w_conf w) (w_type w) (w_threads w) (w_strategies w)))
  | NewCalculator a =>
      Ret (Ok (None, World (rcons (w_heap w) a) (rcons (w_vars w) (size (w_heap w))) (w_calc w) (w_conf w)
                       (w_type w) (w_threads w) (w_strategies w)))
  | ChangeCalculator i a =>
      draw! r := Ret (py_get (w_vars w) (Posz i)) in
      draw! h := Ret (py_set (w_heap w) (Posz r) a) in
      Ret (Ok (None, w_set w h (w_strategies w)))
  | GetCalculator =>
      Ret (Ok (None, World (w_heap w) (rcons (w_vars w) (w_calc w)) (w_calc w) (w_conf w) (w_type w)
                       (w_threads w) (w_strategies w)))
  end.

Fixpoint run (ops : seq operation) (w : world) : prog (seq (option (seq (seq nat))) * world) :=
  if ops is o :: ops' then
    draw! x := step o w in
    draw! y := run ops' x.2 in
    Ret (Ok (x.1 :: y.1, y.2))
  else Ret (Ok ([::], w)).

End Factory.
