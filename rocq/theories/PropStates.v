(* Property theorems C01-C09 (states).  Only statements; proofs elsewhere. *)
From mathcomp Require Import all_ssreflect all_algebra.
From Verif Require Import Base SpecStates ModelStates LemStates.
Set Implicit Arguments.
Unset Strict Implicit.
Unset Printing Implicit Defensive.
Local Open Scope nat_scope.

(* C01 *)
Theorem C01_occupation_assignment_roundtrip :
  forall s : seq nat, s != [::] ->
  let a := mode_occupation_to_mode_assignment (map Posz s) in
  [/\ mode_assignment_to_mode_occupation (map Posz a) (Posz (size s)) = Ok s,
      sorted leq a & forall i, count_mem i a = nth 0 s i].
Proof. exact C01_lemma. Qed.
Print Assumptions C01_occupation_assignment_roundtrip.

Example C01_example :
  mode_occupation_to_mode_assignment (map Posz [:: 2; 0; 1]) = [:: 0; 0; 2] /\
  mode_assignment_to_mode_occupation (map Posz [:: 0; 0; 2]) (Posz 3) = Ok [:: 2; 0; 1].
Proof. by split; vm_compute. Qed.

(* C02: explicit number of modes M > 0; an index x is accepted when
   -M <= x < M and then denotes position x (x >= 0) or M + x (x < 0). *)
Theorem C02_assignment_to_occupation :
  forall (a : seq int) (M : nat), 0 < M ->
  mode_assignment_to_mode_occupation a (Posz M) =
  if all (fun x => (- Posz M <= x < Posz M)%R) a then
    Ok [seq count (fun x : int => (x == Posz i) || (x == (Posz i - Posz M)%R)) a
       | i <- iota 0 M]
  else Err IndexError.
Proof. exact C02_lemma. Qed.
Print Assumptions C02_assignment_to_occupation.

(* C02: default number of modes *)
Theorem C02_default_modes :
  mode_assignment_to_mode_occupation [::] 0%R = Err ValueError /\
  forall (a : seq int) (x : int), x \in a -> (forall y, y \in a -> (y <= x)%R) ->
  mode_assignment_to_mode_occupation a 0%R =
  if (0 <= x)%R then mode_assignment_to_mode_occupation a (x + 1)%R else Err IndexError.
Proof. exact C02_default_lemma. Qed.
Print Assumptions C02_default_modes.

(* C02: non-positive explicit number of modes *)
Theorem C02_negative_modes :
  forall (a : seq int) (m : int), (m < 0)%R ->
  mode_assignment_to_mode_occupation a m = if a == [::] then Ok [::] else Err IndexError.
Proof. exact C02_negative_lemma. Qed.
Print Assumptions C02_negative_modes.

(* C02: going back from the occupation gives the sorted assignment *)
Theorem C02_assignment_occupation_sorts :
  forall (a : seq nat) (M : nat), 0 < M -> all (fun i => i < M) a ->
  rmap (fun s => mode_occupation_to_mode_assignment (map Posz s))
    (mode_assignment_to_mode_occupation (map Posz a) (Posz M)) = Ok (sort leq a).
Proof. exact C02_sorts_lemma. Qed.
Print Assumptions C02_assignment_occupation_sorts.

Example C02_example :
  mode_assignment_to_mode_occupation [:: Posz 2; Posz 0; Negz 0] (Posz 4) = Ok [:: 1; 0; 1; 1] /\
  mode_assignment_to_mode_occupation [:: Posz 2; Posz 0; Posz 2] 0%R = Ok [:: 1; 0; 2] /\
  mode_assignment_to_mode_occupation [:: Posz 4] (Posz 4) = Err IndexError.
Proof. by do 2?split; vm_compute. Qed.

(* C03 *)
Theorem C03_possible_states_exact :
  forall n m : nat, 0 < m -> exists L : seq (seq nat),
  [/\ exists f0, forall fuel, f0 <= fuel ->
        generate_possible_states fuel (Posz n) (Posz m) false = Ok L,
      forall s, (s \in L) = (size s == m) && (sumn s == n) &
      sorted lexgt L].
Proof. exact C03_lemma. Qed.
Print Assumptions C03_possible_states_exact.

Theorem C03_degenerate :
  forall (fuel : nat) (n m : int) (losses : bool), ((n < 0) || (m < 1))%R ->
  generate_possible_states fuel n m losses = Ok [::].
Proof. exact C03_degenerate_lemma. Qed.
Print Assumptions C03_degenerate.

(* the order used in the statement is a strict total order *)
Theorem C03_order :
  [/\ irreflexive lexgt, transitive lexgt &
      forall a b, size a = size b -> a != b -> lexgt a b || lexgt b a].
Proof. exact C03_order_lemma. Qed.
Print Assumptions C03_order.

Example C03_example :
  generate_possible_states 20 (Posz 2) (Posz 3) false =
  Ok [:: [:: 2;0;0]; [:: 1;1;0]; [:: 1;0;1]; [:: 0;2;0]; [:: 0;1;1]; [:: 0;0;2]].
Proof. by vm_compute. Qed.

(* C04 *)
Theorem C04_lossy_states_exact :
  forall n m : nat, 0 < m -> exists L : seq (seq nat),
  [/\ exists f0, forall fuel, f0 <= fuel ->
        generate_possible_states fuel (Posz n) (Posz m) true = Ok L,
      forall s, (s \in L) = (size s == m) && (sumn s <= n) &
      sorted (fun a b => (sumn a < sumn b) || ((sumn a == sumn b) && lexgt a b)) L].
Proof. exact C04_lemma. Qed.
Print Assumptions C04_lossy_states_exact.

Example C04_example :
  generate_possible_states 20 (Posz 2) (Posz 2) true =
  Ok [:: [:: 0;0]; [:: 1;0]; [:: 0;1]; [:: 2;0]; [:: 1;1]; [:: 0;2]].
Proof. by vm_compute. Qed.

(* C05 *)
Theorem C05_dimension_counts_states :
  forall (n m : nat) (losses : bool), 0 < m ->
  exists f0, forall fuel, f0 <= fuel ->
  rmap size (generate_possible_states fuel (Posz n) (Posz m) losses)
  = Ok (bosonic_space_dimension n m losses).
Proof. exact C05_lemma. Qed.
Print Assumptions C05_dimension_counts_states.

Example C05_example : bosonic_space_dimension 3 4 false = 20 /\ bosonic_space_dimension 3 4 true = 35.
Proof. by split; vm_compute. Qed.

(* C06: soundness and absence of repetitions for every hash, completeness for
   a hash without collisions on the candidates *)
Theorem C06_lossy_inputs_exact :
  forall (H : eqType) (hash : seq nat -> H) (s : seq nat) (k : nat), 0 < sumn s ->
  exists L, [/\ generate_lossy_n_particle_input_states hash s (Posz k) = Ok L,
    uniq L,
    (forall t, t \in L -> substate t s /\ sumn t = k) &
    ((forall t t', substate t s -> substate t' s -> sumn t = k -> sumn t' = k ->
        hash t = hash t' -> t = t') ->
     forall t, substate t s -> sumn t = k -> t \in L)].
Proof. exact C06_lemma. Qed.
Print Assumptions C06_lossy_inputs_exact.

Theorem C06_lossy_inputs_edge_cases :
  forall (H : eqType) (hash : seq nat -> H) (s : seq nat) (k : int),
  (sumn s = 0 -> generate_lossy_n_particle_input_states hash s k = Ok [:: s]) /\
  (0 < sumn s -> (k < 0)%R ->
     generate_lossy_n_particle_input_states hash s k = Err ValueError).
Proof. exact C06_edge_lemma. Qed.
Print Assumptions C06_lossy_inputs_edge_cases.

(* the documented "required number of particles" fails for the empty input *)
Theorem C06_vacuum_refuted :
  exists (s : seq nat) (k : nat) (L : seq (seq nat)) (t : seq nat),
  [/\ generate_lossy_n_particle_input_states id s (Posz k) = Ok L, t \in L & sumn t <> k].
Proof. exact C06_vacuum_lemma. Qed.
Print Assumptions C06_vacuum_refuted.

Example C06_example :
  generate_lossy_n_particle_input_states id [:: 2; 0; 1] (Posz 2) = Ok [:: [:: 2; 0; 0]; [:: 1; 0; 1]].
Proof. by vm_compute. Qed.

(* C07 *)
Theorem C07_state_types_exact :
  forall m n : nat, 0 < m -> exists L, [/\
    forall fuel, n < fuel -> generate_state_types fuel m n false = Ok L,
    uniq L &
    forall t, (t \in L) = [&& size t == m, sorted geq t & sumn t == n]].
Proof. exact C07_lemma. Qed.
Print Assumptions C07_state_types_exact.

Theorem C07_lossy_state_types_exact :
  forall m n : nat, 0 < m -> exists L, [/\
    forall fuel, n < fuel -> generate_state_types fuel m n true = Ok L,
    uniq L &
    forall t, (t \in L) = [&& size t == m, sorted geq t & sumn t <= n]].
Proof. exact C07_lossy_lemma. Qed.
Print Assumptions C07_lossy_state_types_exact.

(* no modes: the empty list, also for no particles *)
Theorem C07_no_modes :
  forall (fuel n : nat) (losses : bool), n < fuel ->
  generate_state_types fuel 0 n losses = Ok [::].
Proof. exact C07_no_modes_lemma. Qed.
Print Assumptions C07_no_modes.

Example C07_example : generate_state_types 10 3 4 false =
  Ok [:: [:: 4; 0; 0]; [:: 3; 1; 0]; [:: 2; 1; 1]; [:: 2; 2; 0]].
Proof. by vm_compute. Qed.

(* C08 *)
Theorem C08_number_of_state_types :
  forall (fuel m n : nat) (losses : bool), n < fuel ->
  compute_number_of_state_types fuel m n losses
  = rmap size (generate_state_types fuel m n losses).
Proof. exact C08_lemma. Qed.
Print Assumptions C08_number_of_state_types.

Theorem C08_number_of_k_partitions :
  forall (fuel k n : nat) (L : seq (seq nat)), n < fuel -> 0 < n -> uniq L ->
  (forall p, (p \in L) = [&& size p == k, sorted leq p, all (leq 1) p & sumn p == n]) ->
  number_of_k_partitions fuel k n = Ok (size L).
Proof. exact C08_partitions_lemma. Qed.
Print Assumptions C08_number_of_k_partitions.

(* n = 0: the code counts one partition into one part, and none into more *)
Theorem C08_zero :
  forall (fuel k : nat), 0 < fuel -> number_of_k_partitions fuel k 0 = Ok (k == 1 : nat).
Proof. exact C08_zero_lemma. Qed.
Print Assumptions C08_zero.

Example C08_example :
  compute_number_of_state_types 10 3 6 false = Ok 7 /\ number_of_k_partitions 10 3 7 = Ok 4.
Proof. by split; vm_compute. Qed.

(* C09: [vals] is the iteration order of Python's set of values *)
Theorem C09_states_of_given_type :
  forall (vals t : seq nat) (L : seq (seq nat)), perm_eq vals (undup t) -> uniq L ->
  (forall s, (s \in L) = perm_eq s t) ->
  compute_number_of_states_of_given_type vals t = size L.
Proof. exact C09_lemma. Qed.
Print Assumptions C09_states_of_given_type.

Theorem C09_sum_over_types :
  forall (m n : nat) (order : seq nat -> seq nat), 0 < m ->
  (forall t, perm_eq (order t) (undup t)) ->
  exists L, (forall fuel, n < fuel -> generate_state_types fuel m n false = Ok L) /\
  \sum_(t <- L) compute_number_of_states_of_given_type (order t) t
  = bosonic_space_dimension n m false.
Proof. exact C09_sum_lemma. Qed.
Print Assumptions C09_sum_over_types.

Example C09_example :
  compute_number_of_states_of_given_type [:: 0; 2; 1] [:: 2; 1; 1; 0; 0] = 30.
Proof. by vm_compute. Qed.
