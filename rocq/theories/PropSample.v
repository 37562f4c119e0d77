(* Property theorems: C49 (distributions estimated from samples).  Only statements; proofs elsewhere. *)
From mathcomp Require Import all_ssreflect all_algebra complex ring zify.
From Verif Require Import Base SpecStates SpecPerm SpecBS SpecProb ModelStates ModelPerm ModelDist ModelGcc ModelGccB ModelNet SpecNet SpecGcc ModelBobs SpecBobs ModelSample SpecSample LemNet LemSample.
Set Implicit Arguments.
Unset Strict Implicit.
Unset Printing Implicit Defensive.
Import Order.TTheory GRing.Theory Num.Theory.
Local Open Scope ring_scope.
Local Open Scope py_scope.

(* C49: any strategy which does not raise.  The calculation does not raise, and returns for every outcome the fraction of the samples which match it first *)
Theorem C49_frequencies :
  forall (R : rcfType) (G : Type) (simulate : seq nat -> nat -> G -> rprog R (res (seq (seq nat) * G)))
    (se : pyerr) (fuel : nat) (m k : nat) (c : scalc R G) (outs : seq (seq nat)) (Q : seq (seq nat) -> Prop),
  (if sc_outcomes c is Some o then Ok o else
     generate_possible_states fuel (Posz (cf_left (sc_conf c))) (Posz (cf_modes (sc_conf c))) false) = Ok outs ->
  modes_of m outs -> (0 < k)%N ->
  samples_ok (simulate (cf_state (sc_conf c)) k (sc_strategy c)) (fun L => modes_of m L /\ Q L) ->
  always (fun r => exists L g, r = Ok (map Some (frequencies R k outs L), sc_set_strategy g c) /\ Q L) (approximate_distribution simulate se fuel k c).
Proof. exact C49_frequencies_lemma. Qed.
Print Assumptions C49_frequencies.

(* C49: outcomes of any lengths that numpy can compare with the samples.  Rows of one entry match all rows with only that entry; the first match counts *)
Theorem C49_other_lengths :
  forall (R : rcfType) (G : Type) (simulate : seq nat -> nat -> G -> rprog R (res (seq (seq nat) * G)))
    (se : pyerr) (fuel : nat) (k : nat) (c : scalc R G) (outs : seq (seq nat)) (Q : seq (seq nat) -> Prop),
  (if sc_outcomes c is Some o then Ok o else
     generate_possible_states fuel (Posz (cf_left (sc_conf c))) (Posz (cf_modes (sc_conf c))) false) = Ok outs -> (0 < k)%N ->
  samples_ok (simulate (cf_state (sc_conf c)) k (sc_strategy c)) (fun L => all (fun t => all (comparable t) outs) L /\ Q L) ->
  always (fun r => exists L g,
    r = Ok ([seq Some ((count (fun t => find (matches t) outs == j) L)%:R / k%:R) | j <- iota 0 (size outs)], sc_set_strategy g c) /\ Q L) (approximate_distribution simulate se fuel k c).
Proof. exact C49_other_lengths_lemma. Qed.
Print Assumptions C49_other_lengths.

Example C49_other_lengths_example : (* the row of one entry is compared with every mode *)
  [/\ comparable [:: 1; 1]%N [:: 1]%N, matches [:: 1; 1]%N [:: 1]%N & ~~ matches [:: 1; 0]%N [:: 1]%N].
Proof. by []. Qed.

(* C49: the expectation of anything computed from the result is that of the same computed from the frequencies of the samples *)
Theorem C49_expectation :
  forall (R : rcfType) (G : Type) (simulate : seq nat -> nat -> G -> rprog R (res (seq (seq nat) * G)))
    (se : pyerr) (fuel : nat) (m k : nat) (c : scalc R G) (outs : seq (seq nat)) (F : res (seq (option R) * scalc R G) -> R) (v : R),
  (if sc_outcomes c is Some o then Ok o else
     generate_possible_states fuel (Posz (cf_left (sc_conf c))) (Posz (cf_modes (sc_conf c))) false) = Ok outs ->
  modes_of m outs -> (0 < k)%N ->
  samples_ok (simulate (cf_state (sc_conf c)) k (sc_strategy c)) (modes_of m) ->
  has_exp (fun y => if y is Ok y then F (Ok (map Some (frequencies R k outs y.1), sc_set_strategy y.2 c)) else 0) (simulate (cf_state (sc_conf c)) k (sc_strategy c)) v ->
  has_exp F (approximate_distribution simulate se fuel k c) v.
Proof. exact C49_expectation_lemma. Qed.
Print Assumptions C49_expectation.

(* C49: when k samples are drawn the frequencies are between 0 and 1, and sum up to the fraction of samples in the list: at most 1, and 1 exactly if all are in the list *)
Theorem C49_bounds :
  forall (R : rcfType) (k : nat) (outs L : seq (seq nat)), (0 < k)%N -> size L = k ->
  [/\ size (frequencies R k outs L) = size outs, forall x, x \in frequencies R k outs L -> 0 <= x <= 1,
      \sum_(x <- frequencies R k outs L) x = (count (mem outs) L)%:R / k%:R,
      \sum_(x <- frequencies R k outs L) x <= 1
    & \sum_(x <- frequencies R k outs L) x = 1 <-> {subset L <= outs}].
Proof. exact C49_bounds_lemma. Qed.
Print Assumptions C49_bounds.

(* C49: k independent samples from P on S give unbiased estimates of the probabilities *)
Theorem C49_unbiased :
  forall (R : rcfType) (G : Type) (simulate : seq nat -> nat -> G -> rprog R (res (seq (seq nat) * G)))
    (se : pyerr) (fuel : nat) (m k : nat) (c : scalc R G) (outs S : seq (seq nat)) (P : seq nat -> R) (j : nat),
  (if sc_outcomes c is Some o then Ok o else
     generate_possible_states fuel (Posz (cf_left (sc_conf c))) (Posz (cf_modes (sc_conf c))) false) = Ok outs ->
  modes_of m outs -> (0 < k)%N ->
  samples_ok (simulate (cf_state (sc_conf c)) k (sc_strategy c)) (modes_of m) -> samples_law (simulate (cf_state (sc_conf c)) k (sc_strategy c)) k S P ->
  \sum_(t <- S) P t = 1 -> uniq S -> uniq outs -> (j < size outs)%N ->
  has_exp (on_ok (fun y => odflt 0 (nth None y.1 j))) (approximate_distribution simulate se fuel k c) (if nth [::] outs j \in S then P (nth [::] outs j) else 0).
Proof. exact C49_unbiased_lemma. Qed.
Print Assumptions C49_unbiased.

(* C49: without a list of outcomes the states of the particles left are taken, in the order of generate_possible_states *)
Theorem C49_default_outcomes :
  forall n m : nat, (0 < m)%N -> exists (outs : seq (seq nat)) (f0 : nat),
  [/\ uniq outs, outs =i is_state m n, modes_of m outs
    & forall (R : rcfType) (G : Type) (c : scalc R G) (fuel : nat), (f0 <= fuel)%N ->
      sc_outcomes c = None -> cf_left (sc_conf c) = n -> cf_modes (sc_conf c) = m -> (if sc_outcomes c is Some o then Ok o else
     generate_possible_states fuel (Posz (cf_left (sc_conf c))) (Posz (cf_modes (sc_conf c))) false) = Ok outs].
Proof. exact C49_default_outcomes_lemma. Qed.
Print Assumptions C49_default_outcomes.

(* C49: without a list of outcomes the order of the probabilities is not told: get_outcomes_in_proper_order returns None, before and after the calculation *)
Theorem C49_order_refuted :
  forall (R : rcfType) (G : Type) (simulate : seq nat -> nat -> G -> rprog R (res (seq (seq nat) * G)))
    (se : pyerr) (fuel : nat) (k : nat) (c : scalc R G), sc_outcomes c = None ->
  always (if_ok (fun y => sample_outcomes y.2 = None)) (approximate_distribution simulate se fuel k c).
Proof. exact C49_order_refuted_lemma. Qed.
Print Assumptions C49_order_refuted.

(* C49: calculate_probabilities_of_outcomes replaces the outcomes of the object *)
Theorem C49_outcomes_stored :
  forall (R : rcfType) (G : Type) (simulate : seq nat -> nat -> G -> rprog R (res (seq (seq nat) * G)))
    (se : pyerr) (fuel : nat) (outs : seq (seq nat)) (c : scalc R G),
  always (if_ok (fun y => sample_outcomes y.2 = Some outs)) (sample_probabilities simulate se fuel outs c).
Proof. exact C49_outcomes_stored_lemma. Qed.
Print Assumptions C49_outcomes_stored.

(* C49: the number of samples given to the constructor does not matter for calculate_distribution *)
Theorem C49_configured_number_ignored :
  forall (R : rcfType) (G : Type) (simulate : seq nat -> nat -> G -> rprog R (res (seq (seq nat) * G)))
    (se : pyerr) (fuel : nat) (n : nat) (c : scalc R G),
  same_run (same_res (fun a b => a.1 = b.1)) (sample_distribution simulate se fuel (sc_set_samples n c)) (sample_distribution simulate se fuel c).
Proof. exact C49_configured_number_ignored_lemma. Qed.
Print Assumptions C49_configured_number_ignored.

(* C49: with 0 samples every entry is 0/0 *)
Theorem C49_no_samples :
  forall (R : rcfType) (G : Type) (simulate : seq nat -> nat -> G -> rprog R (res (seq (seq nat) * G)))
    (se : pyerr) (fuel : nat) (c : scalc R G) (outs : seq (seq nat)),
  (if sc_outcomes c is Some o then Ok o else
     generate_possible_states fuel (Posz (cf_left (sc_conf c))) (Posz (cf_modes (sc_conf c))) false) = Ok outs -> samples_ok (simulate (cf_state (sc_conf c)) 0%N (sc_strategy c)) (fun L => L = [::]) ->
  always (fun r => exists g, r = Ok (nseq (size outs) None, sc_set_strategy g c)) (approximate_distribution simulate se fuel 0 c).
Proof. exact C49_no_samples_lemma. Qed.
Print Assumptions C49_no_samples.

(* C49: a first outcome with another number of modes than the samples, neither being 1, raises *)
Theorem C49_other_length_raises :
  forall (R : rcfType) (G : Type) (simulate : seq nat -> nat -> G -> rprog R (res (seq (seq nat) * G)))
    (se : pyerr) (fuel : nat) (m k : nat) (c : scalc R G) (o : seq nat) (outs : seq (seq nat)),
  (if sc_outcomes c is Some o then Ok o else
     generate_possible_states fuel (Posz (cf_left (sc_conf c))) (Posz (cf_modes (sc_conf c))) false) = Ok (o :: outs) -> size o <> m -> size o <> 1%N -> m <> 1%N ->
  samples_ok (simulate (cf_state (sc_conf c)) k (sc_strategy c)) (fun L => modes_of m L /\ (0 < size L)%N) ->
  always (fun r => r = Err se) (approximate_distribution simulate se fuel k c).
Proof. exact C49_other_length_raises_lemma. Qed.
Print Assumptions C49_other_length_raises.

Example C49_example (R : rcfType) (conf : config R) : (* 3 samples, one of which is not listed *)
  approximate_distribution (fun _ k (g : nat) => Ret (Ok (nseq k [:: 1; 0]%N ++ [:: [:: 0; 1]]%N, g.+1)) : rprog R _) ValueError 0 2
    (SCalc conf 7%N (Some [:: [:: 2; 0]; [:: 1; 0]]%N) 1) =
  Ret (Ok ([:: Some (0%:R / 2%:R); Some (2%:R / 2%:R)], SCalc conf 8%N (Some [:: [:: 2; 0]; [:: 1; 0]]%N) 1)).
Proof. by []. Qed.

(* C49: with the non-uniform losses strategy, which returns more samples than it is asked for, the probabilities of all outcomes sum up to more than 1 in every run *)
Theorem C49_bobs_sum_refuted :
  forall (R : rcfType) (svd : seq (seq (ComplexField.complex_numFieldType R)) -> res (seq (seq (ComplexField.complex_numFieldType R)) * seq R * seq (seq (ComplexField.complex_numFieldType R)))) (cis : R -> (ComplexField.complex_numFieldType R)) (m : nat) (M : seq (seq (ComplexField.complex_numFieldType R))) (fuel f : nat) (se : pyerr) (k : nat) (c : scalc R (bobs R)) (outs : seq (seq nat)),
  let x := sc_strategy c in let s := cf_state (sc_conf c) in
  svd_ok svd -> cis_ok cis -> (0 < m)%N -> subunitary m M -> (exists i j, [/\ (i < m)%N, (j < m)%N & ent M i j != 0]) ->
  size s = m -> bobs_of svd m M x -> (0 < bo_threads x)%N ->
  let p := (bo_particles x + sumn (take (bo_modes x) s))%N in
  (forall s', s' \in approx_inputs (bo_modes x) p s -> (\prod_(y <- s') y.+1 <= fuel)%N) ->
  sc_outcomes c = Some outs -> outs =i [pred t | (size t == m) && (sumn t <= approx_total (bo_modes x) p s)%N] -> (0 < k)%N ->
  always (fun r => exists d c', r = Ok (map Some d, c') /\ 1 < \sum_(y <- d) y)
    (approximate_distribution (fun s k x => bobs_simulate svd cis (@np_rand R) fuel s (Posz k) x) se f k c).
Proof. exact C49_bobs_sum_refuted_lemma. Qed.
Print Assumptions C49_bobs_sum_refuted.
