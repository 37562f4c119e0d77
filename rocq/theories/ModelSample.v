(* Model of
     distribution_calculators/bs_sample_based_distribution_calculator.py (18-113)
     boson_sampling_simulator.py                                         (14-25)
   for any sampling strategy: [simulate] is its method on objects of the type G.
   The frequencies are arrays of floats; None is the result of a division by 0.
   Comparing arrays of lengths which do not fit raises; the exception depends on
   the version of numpy, and is a parameter. *)
From mathcomp Require Import all_ssreflect all_algebra complex.
From Verif Require Import Base ModelStates ModelPerm ModelDist SpecProb.
Set Implicit Arguments.
Unset Strict Implicit.
Unset Printing Implicit Defensive.
Import GRing.Theory Num.Theory.
Local Open Scope ring_scope.
Local Open Scope py_scope.

(* samples_number = 5000 (75) *)
Definition default_samples : nat := locked (50 * 100)%N.

Section Sample.
Variable R : rcfType.
Notation prog A := (rprog R (res A)).
Variables (G : Type) (simulate : seq nat -> nat -> G -> prog (seq (seq nat) * G)).
Variables (shape_error : pyerr) (fuel : nat).

(* the object (19-30) *)
Record scalc := SCalc {
  sc_conf : config R;                      (* _configuration *)
  sc_strategy : G;                         (* _strategy *)
  sc_outcomes : option (seq (seq nat));    (* _outcomes *)
  sc_samples : nat                         (* _samples_number *)
}.
Definition sc_set_outcomes (outs : option (seq (seq nat))) (c : scalc) : scalc :=
  SCalc (sc_conf c) (sc_strategy c) outs (sc_samples c).
Definition sc_set_strategy (g : G) (c : scalc) : scalc :=
  SCalc (sc_conf c) g (sc_outcomes c) (sc_samples c).
Definition sc_set_samples (n : nat) (c : scalc) : scalc :=
  SCalc (sc_conf c) (sc_strategy c) (sc_outcomes c) n.

(* all(asarray(sample) == outcome) (102-104); a length of 1 is broadcast *)
Definition np_all_equal (a b : seq nat) : res bool :=
  if size a == size b then Ok (a == b)
  else if a is [:: x] then Ok (all (pred1 x) b)
  else if b is [:: y] then Ok (all (pred1 y) a)
  else Err shape_error.

(* the inner loop (100-106), from the j-th outcome on *)
Fixpoint count_sample (sample : seq nat) (j : nat) (rest : seq (seq nat)) (counts : seq nat) : res (seq nat) :=
  if rest is o :: rest' then
    let! b := np_all_equal sample o in
    if b then incr_at counts (Posz j) else count_sample sample j.+1 rest' counts
  else Ok counts.

(* get_classical_simulation_results *)
Definition simulation_results (s : seq nat) (k : nat) (g : G) : prog (seq (seq nat) * G) := simulate s k g.

(* calculate_approximate_distribution (74-110) *)
Definition approximate_distribution (k : nat) (c : scalc) : prog (seq (option R) * scalc) :=
  draw! outs := Ret (if sc_outcomes c is Some outs then Ok outs else
    generate_possible_states fuel (Posz (cf_left (sc_conf c))) (Posz (cf_modes (sc_conf c))) false) in
  draw! y := simulation_results (cf_state (sc_conf c)) k (sc_strategy c) in
  draw! counts := Ret (rfoldl (fun counts sample => count_sample sample 0 outs counts) (nseq (size outs) 0%N) y.1) in
  Ret (Ok ([seq if k == 0%N then None else Some (n%:R / k%:R) | n <- counts], sc_set_strategy y.2 c)).

(* calculate_distribution (65-66) *)
Definition sample_distribution (c : scalc) : prog (seq (option R) * scalc) :=
  approximate_distribution default_samples c.

(* calculate_probabilities_of_outcomes (68-72) *)
Definition sample_probabilities (outs : seq (seq nat)) (c : scalc) : prog (seq (option R) * scalc) :=
  approximate_distribution default_samples (sc_set_outcomes (Some outs) c).

(* get_outcomes_in_proper_order (112-113) *)
Definition sample_outcomes (c : scalc) : option (seq (seq nat)) := sc_outcomes c.

End Sample.
