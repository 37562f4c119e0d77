(* Model of distribution_calculators/
   bs_appriximated_distribution_from_separable_states_calculator.py (32-192).
   The class reads attributes that neither it nor the configuration has; the
   model takes them as optional, [None] for a missing one.  For a class
   attribute or a configuration attribute added by the user, it is [Some]. *)
From mathcomp Require Import all_ssreflect all_algebra complex.
From Verif Require Import Base ModelStates ModelPerm ModelDist SpecProb ModelGcc ModelGccB ModelNet.
Set Implicit Arguments.
Unset Strict Implicit.
Unset Printing Implicit Defensive.
Import GRing.Theory Num.Theory.
Local Open Scope ring_scope.
Local Open Scope py_scope.

Section Sep.
Variable R : rcfType.
Notation CF := (ComplexField.complex_numFieldType R).
Notation mat := (seq (seq CF)).
Notation prog A := (rprog R (res A)).

Record sep_attrs := SepAttrs {
  at_modes : option nat;             (* self._approximated_modes_number *)
  at_transmissivity : option R;      (* self._modes_transmissivity, a number > 0 *)
  at_conf_modes : option nat;        (* self._configuration.approximated_modes_number *)
  at_configuration : option (config R) (* self.configuration *)
}.
(* the class as it is *)
Definition no_attrs : sep_attrs := SepAttrs None None None None.

Definition py_getattr (A : Type) (o : option A) : res A :=
  if o is Some x then Ok x else Err AttributeError.

Variables (H : eqType) (hash : seq nat -> H) (gray : nat -> seq nat) (fuel : nat).
Variables (svd : mat -> res (mat * seq R * mat)) (cis : R -> CF) (rand : nat -> prog (seq R)).

(* _prepare_initial_matrix (46-61); the right hand side of the assignment is
   evaluated before the bound of the slice *)
Definition prepare_initial_matrix (at_ : sep_attrs) (M : mat) : res mat :=
  let! row := py_get M 0 in
  let ones := [seq 1 : CF | _ <- row] in
  let! tau := py_getattr (at_transmissivity at_) in
  let! a := py_getattr (at_modes at_) in
  let v := [seq if (i < a)%N then (1 / Num.sqrt tau)%:C%C : CF else ones`_i | i <- iota 0 (size ones)] in
  let! X := np_matmul M (np_diag v) in
  prepare_expanded svd X.

(* x[:m] = s for an array x with at least m entries: s has m entries, or a
   single one, which is repeated *)
Definition np_set_prefix (x : seq nat) (m : nat) (s : seq nat) : res (seq nat) :=
  if size s == m then Ok (s ++ drop m x)
  else if s is [:: y] then Ok (nseq m y ++ drop m x)
  else Err ValueError.

(* _prepare_initial_state (63-91) *)
Definition prepare_initial_state (at_ : sep_attrs) (cfg : config R) : res (seq nat) :=
  let m := cf_modes cfg in
  let! st := np_set_prefix (nseq (2 * m) 0%N) m (cf_state cfg) in
  let! a := py_getattr (at_conf_modes at_) in
  let! x := rfoldl (fun x i =>
      let! n := py_get x.2 (Posz i) in
      let! st := py_set x.2 (Posz i) 0%N in
      Ok ((x.1 + n)%N, st)) (0%N, st) (py_range (Posz a - 1)) in
  py_set x.2 (Posz a - 1) x.1.

(* the object *)
Record sep := Sep {
  sp_cfg : config R;
  sp_attrs : sep_attrs;
  sp_calc : any_calc CF;
  sp_matrix : mat;
  sp_state : seq nat;
  sp_number : nat            (* _matrices_number *)
}.

(* __init__ (33-44) *)
Definition new_sep (at_ : sep_attrs) (cfg : config R) (a : any_calc CF) : res sep :=
  let! E := prepare_initial_matrix at_ (cf_matrix cfg) in
  let! st := prepare_initial_state at_ cfg in
  Ok (Sep cfg at_ a E st 100).

(* _generate_effective_matrix (118-131) *)
Definition effective_sep (x : sep) : prog mat :=
  let n := (cf_modes (sp_cfg x) * 2)%N in
  draw! a := Ret (py_getattr (at_conf_modes (sp_attrs x))) in
  draw! Q := Ret (qft_matrix_first cis a n) in
  draw! d := rand a in
  draw! P := Ret (phases_matrix_first cis a n d) in
  draw! X := Ret (np_matmul Q P) in
  Ret (np_matmul X (sp_matrix x)).

(* _get_2m_outcomes_corresponding_to_the_outcome (163-182) *)
Definition outcomes_2m (cfg : config R) (t : seq nat) : res (seq (seq nat)) :=
  let! L := generate_possible_states fuel (Posz (cf_particles cfg) - Posz (sumn t)) (Posz (cf_modes cfg)) false in
  Ok [seq t ++ r | r <- L].

(* _calculate_probability_of_outcome (133-161) *)
Definition sep_outcome_probability (x : sep) (a : any_calc CF) (A : mat) (t : seq nat) : res (R * any_calc CF) :=
  let cfg := sp_cfg x in
  let n := cf_particles cfg in
  let! ts := outcomes_2m cfg t in
  let sub := Config A (sp_state x) n (2 * cf_modes cfg) 0 n 1 in
  let! pa := fixed_probabilities hash gray fuel sub a ts in
  Ok (foldl +%R 0 pa.1, pa.2).

(* calculate_probabilities_of_outcomes (103-116), for a list of outcomes *)
Fixpoint sep_rounds (k : nat) (x : sep) (ts : seq (seq nat)) (ps : seq R) (a : any_calc CF) :
    prog (seq R * any_calc CF) :=
  if k is k'.+1 then
    draw! A := effective_sep x in
    draw! y := Ret (rfoldl (fun y t =>
        let! pa := sep_outcome_probability x y.2 A t in
        Ok (rcons y.1 pa.1, pa.2)) (ps, a) ts) in
    sep_rounds k' x ts y.1 y.2
  else Ret (Ok (ps, a)).
Definition sep_probabilities (x : sep) (ts : seq (seq nat)) : prog (seq R * any_calc CF) :=
  sep_rounds (sp_number x) x ts [::] (sp_calc x).

(* get_outcomes_in_proper_order (184-192) *)
Definition sep_outcomes (x : sep) : res (seq (seq nat)) :=
  generate_possible_states fuel (Posz (cf_left (sp_cfg x))) (Posz (cf_modes (sp_cfg x))) false.

(* calculate_distribution (93-101) *)
Definition sep_distribution (x : sep) : prog (seq R * any_calc CF) :=
  draw! c := Ret (py_getattr (at_configuration (sp_attrs x))) in
  draw! ts := Ret (generate_possible_states fuel (Posz (cf_left c)) (Posz (cf_modes c)) false) in
  sep_probabilities x ts.

End Sep.
