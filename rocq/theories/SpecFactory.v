(* The factory without references: every holder of a calculator has its own
   value. *)
From mathcomp Require Import all_ssreflect all_algebra complex.
From Verif Require Import Base ModelStates ModelPerm ModelDist SpecProb ModelGcc ModelGccB ModelNet ModelBobs ModelLState ModelFixed ModelR ModelFactory.
Set Implicit Arguments.
Unset Strict Implicit.
Unset Printing Implicit Defensive.
Import GRing.Theory Num.Theory.
Local Open Scope ring_scope.
Local Open Scope py_scope.

Section Spec.
Variable R : rcfType.
Notation CF := (ComplexField.complex_numFieldType R).
Notation mat := (seq (seq CF)).
Notation calc := (any_calc CF).
Notation prog A := (rprog R (res A)).
Variables (svd : mat -> res (mat * seq R * mat)) (cis : R -> CF).
Variables (rand : nat -> prog (seq R)) (shuf : seq nat -> prog (seq nat)).
Variables (H : eqType) (hash : seq nat -> H) (gray : nat -> seq nat).
Variables (cpu fuel : nat).
Variable boson_sampler : rmatrix R -> nat -> bool -> prog (seq int * seq R * seq R).
Variables (rpy2 : bool) (installed : r_package -> bool).
Notation strategy := (strategy R).

(* the strategy for a configuration, a number of threads and a calculator *)
Definition build (t : strategy_type) (f : fconfig R) (threads : int) (a : calc) : res strategy :=
  let c := fc_conf f in
  match t with
  | FIXED_LOSS | LOSSLESS_MODES_STRATEGY =>
      rmap (@SFixed R) (new_fixed svd (cf_matrix c) (cf_left c) (cf_modes c) (fc_net f))
  | UNIFORM_LOSS => Ok (SUniform (Uniform (cf_matrix c) (cf_modes c) (cf_eta c)))
  | CLIFFORD_R =>
      if rpy2 && (installed BosonSampling && (installed Rcpp && installed RcppArmadillo))
      then Ok (SR (cf_matrix c)) else Err ImportError
  | GCC => Ok (SGcc (new_gcc a))
  | LOSSY_NET_GCC => rmap (fun y => SLossyNet y.1) (new_lossy_net svd a)
  | UNIFORM_LOSSES_GCC => Ok (SUGcc (new_ugcc a (cf_eta c)))
  | BOBS => rmap (@SBobs R) (new_bobs svd cpu a (Posz (cf_modes c) - fc_level f) (-1))
  | UNIFORM_LOSSES_BOBS => rmap (@SLState R) (new_lstate cis cpu a (cf_eta c) (fc_level f) threads)
  end.

Record values := Values {
  v_vars : seq calc;
  v_calc : calc;
  v_conf : fconfig R;
  v_type : strategy_type;
  v_threads : int;
  v_strategies : seq strategy
}.
Definition v_set (v : values) (st : seq strategy) : values :=
  Values (v_vars v) (v_calc v) (v_conf v) (v_type v) (v_threads v) st.
Definition new_values (vars : seq calc) (conf : fconfig R) (t : strategy_type) : res values :=
  if vars is a :: _ then Ok (Values vars a conf t (-1) [::]) else Err IndexError.

Definition v_step (o : operation R) (v : values) : prog (option (seq (seq nat)) * values) :=
  match o with
  | Generate =>
      draw! x := Ret (build (v_type v) (v_conf v) (v_threads v) (v_calc v)) in
      Ret (Ok (None, v_set v (rcons (v_strategies v) x)))
  | Simulate i s k =>
      draw! x := Ret (py_get (v_strategies v) (Posz i)) in
      draw! y := strategy_simulate svd cis rand shuf hash gray fuel boson_sampler s k x in
      draw! st := Ret (py_set (v_strategies v) (Posz i) y.2) in
      Ret (Ok (Some y.1, v_set v st))
  | SetNewMatrix i M =>
      draw! x := Ret (py_get (v_strategies v) (Posz i)) in
      draw! y := Ret (strategy_set_matrix svd M x) in
      draw! st := Ret (py_set (v_strategies v) (Posz i) y) in
      Ret (Ok (None, v_set v st))
  | SetType t =>
      Ret (Ok (None, Values (v_vars v) (v_calc v) (v_conf v) t (v_threads v) (v_strategies v)))
  | SetConfiguration c =>
      Ret (Ok (None, Values (v_vars v) (v_calc v) c (v_type v) (v_threads v) (v_strategies v)))
  | SetThreads n =>
      Ret (Ok (None, Values (v_vars v) (v_calc v) (v_conf v) (v_type v) n (v_strategies v)))
  | SetCalculator i =>
      draw! a := Ret (py_get (v_vars v) (Posz i)) in
      Ret (Ok (None, Values (v_vars v) a (v_conf v) (v_type v) (v_threads v) (v_strategies v)))
  | NewCalculator a =>
      Ret (Ok (None, Values (rcons (v_vars v) a) (v_calc v) (v_conf v) (v_type v) (v_threads v) (v_strategies v)))
  | ChangeCalculator i a =>
      draw! vars := Ret (py_set (v_vars v) (Posz i) a) in
      Ret (Ok (None, Values vars (v_calc v) (v_conf v) (v_type v) (v_threads v) (v_strategies v)))
  | GetCalculator =>
      Ret (Ok (None, Values (rcons (v_vars v) (v_calc v)) (v_calc v) (v_conf v) (v_type v) (v_threads v) (v_strategies v)))
  end.
Fixpoint v_run (ops : seq (operation R)) (v : values) : prog (seq (option (seq (seq nat))) * values) :=
  if ops is o :: ops' then
    draw! x := v_step o v in
    draw! y := v_run ops' x.2 in
    Ret (Ok (x.1 :: y.1, y.2))
  else Ret (Ok ([::], v)).

(* the samples of a new strategy *)
Definition build_and_simulate (t : strategy_type) (f : fconfig R) (threads : int) (a : calc) (s : seq nat) (k : nat) :
    prog (seq (seq nat) * strategy) :=
  draw! x := Ret (build t f threads a) in
  strategy_simulate svd cis rand shuf hash gray fuel boson_sampler s k x.

(* following the references *)
Definition sees (w : world R) (v : values) : Prop :=
  [/\ rmapM (fun r => py_get (w_heap w) (Posz r)) (w_vars w) = Ok (v_vars v),
      py_get (w_heap w) (Posz (w_calc w)) = Ok (v_calc v),
      rmapM (load (w_heap w)) (w_strategies w) = Ok (v_strategies v),
      w_conf w = v_conf v
    & w_type w = v_type v /\ w_threads w = v_threads v].

(* the caller does not keep the calculator of the factory *)
Definition is_get (o : operation R) : bool := if o is GetCalculator then true else false.

(* the calculator of the factory is not replaced *)
Definition is_set_calculator (o : operation R) : bool := if o is SetCalculator _ then true else false.

(* the kind of a strategy, and of the strategies of a type *)
Definition has_type (t : strategy_type) (x : strategy) : bool :=
  match t, x with
  | (FIXED_LOSS | LOSSLESS_MODES_STRATEGY), SFixed _ | UNIFORM_LOSS, SUniform _ | CLIFFORD_R, SR _
  | GCC, SGcc _ | LOSSY_NET_GCC, SLossyNet _ | UNIFORM_LOSSES_GCC, SUGcc _ | BOBS, SBobs _
  | UNIFORM_LOSSES_BOBS, SLState _ => true
  | _, _ => false
  end.

End Spec.
