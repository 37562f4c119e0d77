(* Model of the exact distribution calculators:
     distribution_calculators/bs_distribution_calculator_interface.py        (11-26)
     distribution_calculators/bs_distribution_calculator_with_fixed_losses.py (30-169)
     distribution_calculators/bs_exact_distribution_with_uniform_losses.py   (25-104)
   Floats are modelled by a real closed field R, complex numbers by R[i];
   scipy's binom and math.factorial are exact. *)
From mathcomp Require Import all_ssreflect all_algebra complex.
From Verif Require Import Base ModelStates ModelPerm.
Set Implicit Arguments.
Unset Strict Implicit.
Unset Printing Implicit Defensive.
Import GRing.Theory Num.Theory.
Local Open Scope ring_scope.
Local Open Scope py_scope.

Section Dist.
Variable R : rcfType.
Notation CF := (ComplexField.complex_numFieldType R).

(* abs of a complex number *)
Definition py_abs (z : CF) : R := Num.sqrt (complex.Re z ^+ 2 + complex.Im z ^+ 2).

(* BosonSamplingExperimentConfiguration (the fields used here) *)
Record config := Config {
  cf_matrix : seq (seq CF);
  cf_state : seq nat;
  cf_particles : nat;      (* initial_number_of_particles *)
  cf_modes : nat;
  cf_lost : int;
  cf_left : nat;
  cf_eta : R               (* uniform_transmissivity *)
}.

(* environment: hash of tuples, Gray codes of the external package, fuel *)
Variables (H : eqType) (hash : seq nat -> H) (gray : nat -> seq nat) (fuel : nat).

(* __compute_lossy_input_multiplicity (153-169) *)
Definition lossy_multiplicity (cfg : config) (T : seq nat) : res nat :=
  rfoldl (fun acc i =>
    let! x := py_get (cf_state cfg) (Posz i) in
    let! y := py_get T (Posz i) in
    Ok (acc * 'C(x, x - y))%N) 1%N (iota 0 (size T)).

(* 127-142 *)
Definition fixed_losses_step (cfg : config) (t : seq nat)
    (st : R * any_calc CF * option (seq nat)) (T : seq nat) :
    res (R * any_calc CF * option (seq nat)) :=
  let: (p, a, _) := st in
  let! mult := lossy_multiplicity cfg T in
  let a := set_output t (set_input T (set_matrix (cf_matrix cfg) a)) in
  let! va := compute_any gray fuel a in
  let sub := foldl (fun x k => x / k`!%:R) (py_abs va.1 ^+ 2) T in
  Ok (p + sub * mult%:R, va.2, Some T).

(* __compute_probability_of_outcome_state_for_indistinguishable_photons (108-151);
   the variable lossy_input of the loop is used after it *)
Definition indistinguishable_probability (cfg : config) (a : any_calc CF) (t : seq nat) :
    res (R * any_calc CF) :=
  let! Ts := generate_lossy_n_particle_input_states hash (cf_state cfg) (Posz (cf_left cfg)) in
  let! st := rfoldl (fixed_losses_step cfg t) (0, a, None) Ts in
  let: (p, a, lossy_input) := st in
  if lossy_input is Some T then
    Ok (p / (sumn T)`!%:R / 'C(cf_particles cfg, cf_left cfg)%:R, a)
  else Err UnboundLocalError.

(* __calculate_probability_of_outcome (84-106) *)
Definition fixed_outcome_probability (cfg : config) (a : any_calc CF) (t : seq nat) :
    res (R * any_calc CF) :=
  let! pa := indistinguishable_probability cfg a t in
  let! p := rfoldl (fun x i => let! k := py_get t (Posz i) in Ok (x / k`!%:R))
              (pa.1 * (cf_left cfg)`!%:R) (iota 0 (cf_modes cfg)) in
  Ok (p, pa.2).

(* calculate_probabilities_of_outcomes (65-82) *)
Definition fixed_probabilities (cfg : config) (a : any_calc CF) (ts : seq (seq nat)) :
    res (seq R * any_calc CF) :=
  rfoldl (fun st t =>
    let! pa := fixed_outcome_probability cfg st.2 t in
    Ok (rcons st.1 pa.1, pa.2)) ([::], a) ts.

(* get_outcomes_in_proper_order (38-50) *)
Definition fixed_outcomes (cfg : config) : res (seq (seq nat)) :=
  generate_possible_states fuel (Posz (cf_left cfg)) (Posz (cf_modes cfg)) false.

(* calculate_distribution (52-63) *)
Definition fixed_distribution (cfg : config) (a : any_calc CF) : res (seq R * any_calc CF) :=
  let! ts := fixed_outcomes cfg in fixed_probabilities cfg a ts.

(* ------------------------------------------------------------------ *)
(* uniform losses: the object (25-32) *)
Record uniform_calc := UniformCalc {
  u_cfg : config;
  u_calc : any_calc CF;
  u_weights : seq R;
  u_weightless : bool
}.

(* _initialize_weights (42-60) *)
Definition uniform_weights (cfg : config) : seq R :=
  let n := cf_particles cfg in
  let eta := cf_eta cfg in
  [seq eta ^+ l * 'C(n, l)%:R * (1 - eta) ^+ (n - l) | l <- iota 0 n.+1].

Definition new_uniform_calc (cfg : config) (a : any_calc CF) : uniform_calc :=
  UniformCalc cfg a (uniform_weights cfg) false.

(* set_weightless (34-40) *)
Definition set_weightless (u : uniform_calc) (w : bool) : uniform_calc :=
  UniformCalc (u_cfg u) (u_calc u)
    (if ~~ w then uniform_weights (u_cfg u) else [seq 1 | _ <- u_weights u]) w.

(* _calculate_probability_of_outcome (73-97) *)
Definition uniform_outcome_probability (u : uniform_calc) (t : seq nat) : res R :=
  let l := sumn t in
  if l == 0%N then py_get (u_weights u) 0 else
  let cfg := u_cfg u in
  let n := cf_particles cfg in
  let sub := Config (cf_matrix cfg) (cf_state cfg) n (cf_modes cfg)
    (Posz n - Posz l) l (cf_eta cfg) in
  let! pa := fixed_probabilities sub (u_calc u) [:: t] in
  let! p := py_get pa.1 0 in
  let! w := py_get (u_weights u) (Posz l) in
  Ok (p * w).

(* calculate_probabilities_of_outcomes (62-71): Pool.map; the workers get copies
   of the object, which itself is unchanged *)
Definition uniform_probabilities (u : uniform_calc) (ts : seq (seq nat)) : res (seq R) :=
  rmapM (uniform_outcome_probability u) ts.

(* get_outcomes_in_proper_order (99-104) *)
Definition uniform_outcomes (u : uniform_calc) : res (seq (seq nat)) :=
  generate_possible_states fuel (Posz (cf_particles (u_cfg u))) (Posz (cf_modes (u_cfg u))) true.

(* calculate_distribution, inherited (52-63) *)
Definition uniform_distribution (u : uniform_calc) : res (seq R) :=
  let! ts := uniform_outcomes u in uniform_probabilities u ts.

End Dist.
