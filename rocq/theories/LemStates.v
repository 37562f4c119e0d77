(* Final lemmas for C01-C09, in the form used by PropStates.v. *)
From mathcomp Require Import all_ssreflect all_algebra zify.
From Verif Require Import Base SpecStates ModelStates Combi
  ProofStates1 ProofStates2 ProofStates3 ProofStates4 ProofStates5.
Set Implicit Arguments.
Unset Strict Implicit.
Unset Printing Implicit Defensive.
Local Open Scope nat_scope.

Lemma C01_lemma (s : seq nat) : s != [::] ->
  let a := mode_occupation_to_mode_assignment (map Posz s) in
  [/\ mode_assignment_to_mode_occupation (map Posz a) (Posz (size s)) = Ok s,
      sorted leq a & forall i, count_mem i a = nth 0 s i].
Proof.
move=> s0; split; [exact: occ_assign_roundtrip | exact: occ_assign_sorted | exact: occ_assign_count].
Qed.

Lemma C02_lemma (a : seq int) (M : nat) : 0 < M ->
  mode_assignment_to_mode_occupation a (Posz M) =
  if all (fun x => (- Posz M <= x < Posz M)%R) a then
    Ok [seq count (fun x : int => (x == Posz i) || (x == (Posz i - Posz M)%R)) a
       | i <- iota 0 M]
  else Err IndexError.
Proof.
move=> M0; rewrite assignment_to_occupationE // -[all (in_range M) a]/(all _ a).
case: ifP => // al; congr Ok; apply/eq_in_map => i.
rewrite mem_iota add0n => /andP[_ iM]; apply: eq_in_count => x /(allP al).
by case: x => k; rewrite /wrap /in_range; lia.
Qed.

Lemma C02_default_lemma :
  mode_assignment_to_mode_occupation [::] 0%R = Err ValueError /\
  forall (a : seq int) (x : int), x \in a -> (forall y, y \in a -> (y <= x)%R) ->
  mode_assignment_to_mode_occupation a 0%R =
  if (0 <= x)%R then mode_assignment_to_mode_occupation a (x + 1)%R else Err IndexError.
Proof.
split=> // a x xa mx; case: ifPn => x0; first exact: assignment_default_modes.
apply: assignment_all_negative; first by case: (a) xa.
apply/allP => y /mx; lia.
Qed.

Lemma C02_negative_lemma (a : seq int) (m : int) : (m < 0)%R ->
  mode_assignment_to_mode_occupation a m = if a == [::] then Ok [::] else Err IndexError.
Proof. by move=> m0; rewrite assignment_negative_modes //; case: a. Qed.

Definition C02_sorts_lemma := assign_occ_roundtrip.

Lemma C03_lemma (n m : nat) : 0 < m -> exists L : seq (seq nat),
  [/\ exists f0, forall fuel, f0 <= fuel ->
        generate_possible_states fuel (Posz n) (Posz m) false = Ok L,
      forall s, (s \in L) = (size s == m) && (sumn s == n) &
      sorted lexgt L].
Proof.
move=> m0; exists (comps m n); split.
- exists (size (comps m n) + m) => fuel fu; exact: gen_states_lossless.
- exact: mem_comps.
- exact: comps_sorted.
Qed.

Definition C03_degenerate_lemma := gen_states_trivial.

Lemma C03_order_lemma :
  [/\ irreflexive lexgt, transitive lexgt &
      forall a b, size a = size b -> a != b -> lexgt a b || lexgt b a].
Proof.
split; [exact: lexgt_irr | exact: lexgt_trans |].
elim=> [|x a IH] [|y b] //= [sz]; rewrite eqseq_cons.
case: (ltngtP x y) => //= _ ne; exact: IH.
Qed.

Lemma C04_lemma (n m : nat) : 0 < m -> exists L : seq (seq nat),
  [/\ exists f0, forall fuel, f0 <= fuel ->
        generate_possible_states fuel (Posz n) (Posz m) true = Ok L,
      forall s, (s \in L) = (size s == m) && (sumn s <= n) &
      sorted (fun a b => (sumn a < sumn b) || ((sumn a == sumn b) && lexgt a b)) L].
Proof.
move=> m0; exists (lossy_comps m n); split.
- exists (size (comps m n) + m) => fuel fu; exact: gen_states_lossy.
- exact: mem_lossy_comps.
- exact: lossy_comps_sorted.
Qed.

Lemma C05_lemma (n m : nat) (losses : bool) : 0 < m ->
  exists f0, forall fuel, f0 <= fuel ->
  rmap size (generate_possible_states fuel (Posz n) (Posz m) losses)
  = Ok (bosonic_space_dimension n m losses).
Proof.
move=> m0; exists (size (comps m n) + m) => fuel fu; case: losses.
  by rewrite gen_states_lossy // dimension_lossy.
by rewrite gen_states_lossless // dimension_lossless.
Qed.

Definition C06_lemma := lossy_inputs_spec.

Lemma C06_edge_lemma (H : eqType) (hash : seq nat -> H) (s : seq nat) (k : int) :
  (sumn s = 0 -> generate_lossy_n_particle_input_states hash s k = Ok [:: s]) /\
  (0 < sumn s -> (k < 0)%R ->
     generate_lossy_n_particle_input_states hash s k = Err ValueError).
Proof. by split; [exact: lossy_inputs_vacuum | exact: lossy_inputs_negative]. Qed.

Lemma C06_vacuum_lemma :
  exists (s : seq nat) (k : nat) (L : seq (seq nat)) (t : seq nat),
  [/\ generate_lossy_n_particle_input_states id s (Posz k) = Ok L, t \in L & sumn t <> k].
Proof. by exists [:: 0; 0], 1, [:: [:: 0; 0]], [:: 0; 0]. Qed.

Lemma C07_lemma (m n : nat) : 0 < m -> exists L, [/\
    forall fuel, n < fuel -> generate_state_types fuel m n false = Ok L,
    uniq L &
    forall t, (t \in L) = [&& size t == m, sorted geq t & sumn t == n]].
Proof.
move=> m0; exists (types m n); split.
- by move=> fuel fu; rewrite gen_typesE.
- exact: types_uniq.
- by move=> t; rewrite mem_types.
Qed.

Lemma C07_lossy_lemma (m n : nat) : 0 < m -> exists L, [/\
    forall fuel, n < fuel -> generate_state_types fuel m n true = Ok L,
    uniq L &
    forall t, (t \in L) = [&& size t == m, sorted geq t & sumn t <= n]].
Proof.
move=> m0; exists (lossy_types m n); split.
- by move=> fuel fu; rewrite gen_typesE.
- exact: lossy_types_uniq.
- by move=> t; rewrite mem_lossy_types.
Qed.

Lemma C07_no_modes_lemma (fuel n : nat) (losses : bool) : n < fuel ->
  generate_state_types fuel 0 n losses = Ok [::].
Proof.
have t0 k : types 0 k = [::].
  rewrite /types /types_of; have [_ mem] := plistP k.
  rewrite (_ : [seq p <- plist k | size p <= 0] = [::]) //.
  apply/eqP; rewrite -size_eq0 size_filter -leqn0 leqNgt -has_count; apply/hasPn => p.
  by rewrite mem; case: p => [|x p] //; case: (k == 0) => //; case/and3P.
move=> fu; rewrite gen_typesE // /lossy_types t0 /=; case: losses => //.
by elim: (iota 0 n) => //= i l; rewrite t0.
Qed.

Lemma C08_lemma (fuel m n : nat) (losses : bool) : n < fuel ->
  compute_number_of_state_types fuel m n losses
  = rmap size (generate_state_types fuel m n losses).
Proof. by move=> fu; rewrite number_of_state_typesE // gen_typesE. Qed.

Lemma C08_partitions_lemma (fuel k n : nat) (L : seq (seq nat)) : n < fuel -> 0 < n -> uniq L ->
  (forall p, (p \in L) = [&& size p == k, sorted leq p, all (leq 1) p & sumn p == n]) ->
  number_of_k_partitions fuel k n = Ok (size L).
Proof.
move=> fu n0 uL mL; rewrite number_of_k_partitionsE //; congr Ok.
apply: perm_size; apply: uniq_perm => //; first exact: kparts_uniq.
move=> p; rewrite mem_kparts mL (gtn_eqF n0) /is_part.
by case: p => [|x p] //=; rewrite (ltn_eqF n0) !andbF.
Qed.

Lemma C08_zero_lemma (fuel k : nat) : 0 < fuel -> number_of_k_partitions fuel k 0 = Ok (k == 1 : nat).
Proof. by case: fuel => //= fuel _; case: eqP => // _; rewrite orbT. Qed.

Definition C09_lemma := number_of_states_spec.

Lemma C09_sum_lemma (m n : nat) (order : seq nat -> seq nat) : 0 < m ->
  (forall t, perm_eq (order t) (undup t)) ->
  exists L, (forall fuel, n < fuel -> generate_state_types fuel m n false = Ok L) /\
  \sum_(t <- L) compute_number_of_states_of_given_type (order t) t
  = bosonic_space_dimension n m false.
Proof.
move=> m0 ord; exists (types m n); split; first by move=> fuel fu; rewrite gen_typesE.
rewrite dimension_lossless // -sum_over_types //; apply: eq_bigr => t _.
exact: number_of_states_of_typeE.
Qed.
