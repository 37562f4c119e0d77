(* The exact distribution calculators of ModelDist.v over arbitrary arithmetics
   for complex128 and float.  Sources as in ModelDist.v. *)
From mathcomp Require Import all_ssreflect all_algebra complex.
From Verif Require Import Base ModelStates ModelPerm ModelDist ModelFloat.
Set Implicit Arguments.
Unset Strict Implicit.
Unset Printing Implicit Defensive.
Import GRing.Theory Num.Theory.
Local Open Scope ring_scope.
Local Open Scope py_scope.

Section Dist.
Variable R : rcfType.
Notation CF := (ComplexField.complex_numFieldType R).
Variables (A : arith CF) (B : arith R) (f_abs : CF -> R).

Variables (H : eqType) (hash : seq nat -> H) (gray : nat -> seq nat) (fuel : nat).

(* with_fixed_losses 127-142; the multiplicity is an integer *)
Definition fl_fixed_losses_step (cfg : config R) (t : seq nat)
    (st : R * any_calc CF * option (seq nat)) (T : seq nat) :
    res (R * any_calc CF * option (seq nat)) :=
  let: (p, a, _) := st in
  let! mult := lossy_multiplicity cfg T in
  let a := set_output t (set_input T (set_matrix (cf_matrix cfg) a)) in
  let! va := fl_compute_any A gray fuel a in
  let sub := foldl (fun x k => f_div B x (Posz k`!)) (f_pow B (f_abs va.1) 2) T in
  Ok (f_add B p (f_mul B sub (f_int B (Posz mult))), va.2, Some T).

(* 108-151 *)
Definition fl_indistinguishable_probability (cfg : config R) (a : any_calc CF) (t : seq nat) :
    res (R * any_calc CF) :=
  let! Ts := generate_lossy_n_particle_input_states hash (cf_state cfg) (Posz (cf_left cfg)) in
  let! st := rfoldl (fl_fixed_losses_step cfg t) (0, a, None) Ts in
  let: (p, a, lossy_input) := st in
  if lossy_input is Some T then
    Ok (f_div B (f_div B p (Posz (sumn T)`!)) (Posz 'C(cf_particles cfg, cf_left cfg)), a)
  else Err UnboundLocalError.

(* 84-106 *)
Definition fl_fixed_outcome_probability (cfg : config R) (a : any_calc CF) (t : seq nat) :
    res (R * any_calc CF) :=
  let! pa := fl_indistinguishable_probability cfg a t in
  let! p := rfoldl (fun x i => let! k := py_get t (Posz i) in Ok (f_div B x (Posz k`!)))
              (f_mul B pa.1 (f_int B (Posz (cf_left cfg)`!))) (iota 0 (cf_modes cfg)) in
  Ok (p, pa.2).

(* 65-82 *)
Definition fl_fixed_probabilities (cfg : config R) (a : any_calc CF) (ts : seq (seq nat)) :
    res (seq R * any_calc CF) :=
  rfoldl (fun st t =>
    let! pa := fl_fixed_outcome_probability cfg st.2 t in
    Ok (rcons st.1 pa.1, pa.2)) ([::], a) ts.

(* 52-63 *)
Definition fl_fixed_distribution (cfg : config R) (a : any_calc CF) : res (seq R * any_calc CF) :=
  let! ts := fixed_outcomes fuel cfg in fl_fixed_probabilities cfg a ts.

(* with_uniform_losses: _initialize_weights (42-60) *)
Definition fl_uniform_weights (cfg : config R) : seq R :=
  let n := cf_particles cfg in
  let eta := cf_eta cfg in
  [seq f_mul B (f_mul B (f_pow B eta l) (f_int B (Posz 'C(n, l))))
         (f_pow B (f_sub B 1 eta) (n - l)) | l <- iota 0 n.+1].

Definition fl_new_uniform_calc (cfg : config R) (a : any_calc CF) : uniform_calc R :=
  UniformCalc cfg a (fl_uniform_weights cfg) false.

(* 73-97 *)
Definition fl_uniform_outcome_probability (u : uniform_calc R) (t : seq nat) : res R :=
  let l := sumn t in
  if l == 0%N then py_get (u_weights u) 0 else
  let cfg := u_cfg u in
  let n := cf_particles cfg in
  let sub := Config (cf_matrix cfg) (cf_state cfg) n (cf_modes cfg)
    (Posz n - Posz l) l (cf_eta cfg) in
  let! pa := fl_fixed_probabilities sub (u_calc u) [:: t] in
  let! p := py_get pa.1 0 in
  let! w := py_get (u_weights u) (Posz l) in
  Ok (f_mul B p w).

(* 62-71 *)
Definition fl_uniform_probabilities (u : uniform_calc R) (ts : seq (seq nat)) : res (seq R) :=
  rmapM (fl_uniform_outcome_probability u) ts.

Definition fl_uniform_distribution (u : uniform_calc R) : res (seq R) :=
  let! ts := uniform_outcomes fuel u in fl_uniform_probabilities u ts.

End Dist.
