(* Property theorems C10-C20 (permanent calculators).  Only statements; proofs elsewhere. *)
From mathcomp Require Import all_ssreflect all_algebra.
From Verif Require Import Base SpecStates SpecPerm ModelPerm LemPerm.
Set Implicit Arguments.
Unset Strict Implicit.
Unset Printing Implicit Defensive.
Import GRing.Theory.
Local Open Scope ring_scope.

(* C10: for a rectangular rr x cc matrix *)
Theorem C10_scattering_matrix :
  forall (F : numFieldType) (M : seq (seq F)) (rr cc : nat) (s t : seq nat),
  size M = rr -> all (fun row => size row == cc) M -> (0 < rr)%N ->
  scattering_calculate M s t =
  if (sumn s == 0%N) || (sumn t == 0%N) then Ok [::] else
  if (size s <= cc)%N && (size t <= rr)%N
  then Ok [seq [seq ent M j i | i <- particle_modes s] | j <- particle_modes t]
  else Err IndexError.
Proof. exact C10_scattering_matrix_lemma. Qed.
Print Assumptions C10_scattering_matrix.

Example C10_example :
  scattering_calculate (F := rat_numFieldType) [:: [:: 1; 2%:R]; [:: 3%:R; 4%:R]] [:: 2; 1]%N [:: 0; 3]%N
  = Ok [:: [:: 3%:R; 3%:R; 4%:R]; [:: 3%:R; 3%:R; 4%:R]; [:: 3%:R; 3%:R; 4%:R]].
Proof. by vm_compute. Qed.

(* C11: from the initial code of any object, whatever its stale index and last value *)
Theorem C11_guan_codes :
  forall (s : seq nat) (g : guan) (fuel : nat), s != [::] -> (\prod_(x <- s) x.+1 <= fuel)%N ->
  exists L : seq (seq nat),
  [/\ guan_iterate fuel (init_guan s g) = Ok (map (map Posz) L),
      uniq (nseq (size s) 0%N :: L),
      (forall r, (r \in nseq (size s) 0%N :: L) = substate r s)
    & unit_steps (nseq (size s) 0%N :: L)].
Proof. exact C11_guan_codes_lemma. Qed.
Print Assumptions C11_guan_codes.

Example C11_example :
  guan_iterate 6 (init_guan [:: 2; 1]%N (Guan [::] [::] [::] 7 (-5)%R))
  = Ok (map (map Posz) [:: [:: 1; 0]; [:: 2; 0]; [:: 2; 1]; [:: 1; 1]; [:: 0; 1]]%N).
Proof. by vm_compute. Qed.

(* C12: for every object c with these public attributes, whatever its private state *)
Theorem C12_ryser_permanent :
  forall (F : numFieldType) (m : nat) (M : seq (seq F)) (s t : seq nat) (c : calc F) (fuel : nat),
  is_square m M -> size t = size s -> (size s <= m)%N -> s != [::] ->
  c_matrix c = M -> c_input c = s -> c_output c = t -> (\prod_(x <- s) x.+1 <= fuel)%N ->
  sumn s = sumn t ->
  exists c', [/\ compute_permanent fuel Ryser c = Ok c', c_perm c' = bs_permanent M s t,
    c_matrix c' = M, c_input c' = s & c_output c' = t].
Proof. exact C12_ryser_permanent_lemma. Qed.
Print Assumptions C12_ryser_permanent.

Example C12_example :
  rmap (@c_perm rat_numFieldType) (compute_permanent 20 Ryser (new_calc [:: [:: 1; 2%:R]; [:: 3%:R; 4%:R]] [:: 2; 1]%N [:: 1; 2]%N))
  = Ok 84%:R.
Proof. by vm_compute. Qed.

(* C12: with fewer output than input particles the result is 0 *)
Theorem C12_fewer_outputs :
  forall (F : numFieldType) (m : nat) (M : seq (seq F)) (s t : seq nat) (c : calc F) (fuel : nat),
  is_square m M -> size t = size s -> (size s <= m)%N -> s != [::] ->
  c_matrix c = M -> c_input c = s -> c_output c = t -> (\prod_(x <- s) x.+1 <= fuel)%N ->
  (sumn t < sumn s)%N ->
  exists c', [/\ compute_permanent fuel Ryser c = Ok c', c_perm c' = 0,
    c_matrix c' = M, c_input c' = s & c_output c' = t].
Proof. exact C12_fewer_outputs_lemma. Qed.
Print Assumptions C12_fewer_outputs.

Example C12_fewer_example :
  rmap (@c_perm rat_numFieldType) (compute_permanent 20 Ryser (new_calc [:: [:: 1; 2%:R]; [:: 3%:R; 4%:R]] [:: 2; 1]%N [:: 1; 1]%N))
  = Ok 0.
Proof. by vm_compute. Qed.

(* C13: for every object c with these public attributes, whatever its private state *)
Theorem C13_chin_huh_permanent :
  forall (F : numFieldType) (m : nat) (M : seq (seq F)) (s t : seq nat) (c : calc F) (fuel : nat),
  is_square m M -> size t = size s -> (size s <= m)%N -> s != [::] ->
  c_matrix c = M -> c_input c = s -> c_output c = t -> (\prod_(x <- s) x.+1 <= fuel)%N ->
  sumn s = sumn t ->
  exists c', [/\ compute_permanent fuel ChinHuh c = Ok c', c_perm c' = bs_permanent M s t,
    c_matrix c' = M, c_input c' = s & c_output c' = t].
Proof. exact C13_chin_huh_permanent_lemma. Qed.
Print Assumptions C13_chin_huh_permanent.

Example C13_example :
  rmap (@c_perm rat_numFieldType) (compute_permanent 20 ChinHuh (new_calc [:: [:: 1; 2%:R]; [:: 3%:R; 4%:R]] [:: 2; 1]%N [:: 1; 2]%N))
  = Ok 84%:R.
Proof. by vm_compute. Qed.

(* C13: with fewer output than input particles the result is 0 *)
Theorem C13_fewer_outputs :
  forall (F : numFieldType) (m : nat) (M : seq (seq F)) (s t : seq nat) (c : calc F) (fuel : nat),
  is_square m M -> size t = size s -> (size s <= m)%N -> s != [::] ->
  c_matrix c = M -> c_input c = s -> c_output c = t -> (\prod_(x <- s) x.+1 <= fuel)%N ->
  (sumn t < sumn s)%N ->
  exists c', [/\ compute_permanent fuel ChinHuh c = Ok c', c_perm c' = 0,
    c_matrix c' = M, c_input c' = s & c_output c' = t].
Proof. exact C13_fewer_outputs_lemma. Qed.
Print Assumptions C13_fewer_outputs.

Example C13_fewer_example :
  rmap (@c_perm rat_numFieldType) (compute_permanent 20 ChinHuh (new_calc [:: [:: 1; 2%:R]; [:: 3%:R; 4%:R]] [:: 2; 1]%N [:: 1; 1]%N))
  = Ok 0.
Proof. by vm_compute. Qed.

(* C14 *)
Theorem C14_classic_permanent :
  forall (F : numFieldType) (m : nat) (M : seq (seq F)) (s t : seq nat) (fuel : nat),
  is_square m M -> (size s <= m)%N -> (size t <= m)%N -> sumn s = sumn t -> (sumn s <= fuel)%N ->
  classic_permanent fuel M s t = Ok (bs_permanent M s t).
Proof. exact C14_classic_permanent_lemma. Qed.
Print Assumptions C14_classic_permanent.

Example C14_example :
  classic_permanent (F := rat_numFieldType) 3 [:: [:: 1; 2%:R]; [:: 3%:R; 4%:R]] [:: 2; 1]%N [:: 1; 2]%N = Ok 84%:R.
Proof. by vm_compute. Qed.

(* C14: one empty state *)
Theorem C14_classic_edge_cases :
  forall (F : numFieldType) (M : seq (seq F)) (s t : seq nat) (fuel : nat),
  [/\ sumn s = 0%N -> sumn t = 0%N -> classic_permanent fuel M s t = Ok 1,
      sumn s = 0%N -> (0 < sumn t)%N -> classic_permanent fuel M s t = Ok 0
    & (0 < sumn s)%N -> sumn t = 0%N -> classic_permanent fuel M s t = Err IndexError].
Proof. exact C14_classic_edge_cases_lemma. Qed.
Print Assumptions C14_classic_edge_cases.

Example C14_edge_example :
  [/\ classic_permanent (F := rat_numFieldType) 3 [:: [:: 1; 2%:R]; [:: 3%:R; 4%:R]] [:: 0; 0]%N [:: 0; 0]%N = Ok 1,
      classic_permanent (F := rat_numFieldType) 3 [:: [:: 1; 2%:R]; [:: 3%:R; 4%:R]] [:: 0; 0]%N [:: 1; 0]%N = Ok 0
    & classic_permanent (F := rat_numFieldType) 3 [:: [:: 1; 2%:R]; [:: 3%:R; 4%:R]] [:: 1; 0]%N [:: 0; 0]%N = Err IndexError].
Proof. by split; vm_compute. Qed.

(* C15 *)
Theorem C15_glynn_permanent :
  forall (F : numFieldType) (m : nat) (M : seq (seq F)) (s t : seq nat) (gray : nat -> seq nat),
  is_square m M -> (size s <= m)%N -> (size t <= m)%N -> sumn s = sumn t ->
  ((0 < sumn s)%N -> is_gray_code (sumn s - 1) (gray (sumn s - 1)%N)) ->
  glynn_permanent gray M s t = Ok (bs_permanent M s t).
Proof. exact C15_glynn_permanent_lemma. Qed.
Print Assumptions C15_glynn_permanent.

Example C15_example :
  glynn_permanent (F := rat_numFieldType) reflected_gray [:: [:: 1; 2%:R]; [:: 3%:R; 4%:R]] [:: 2; 1]%N [:: 1; 2]%N = Ok 84%:R.
Proof. by vm_compute. Qed.

(* C15: the reflected Gray code satisfies the hypothesis for every length *)
Theorem C15_reflected_gray_code :
  forall n : nat, is_gray_code n (reflected_gray n).
Proof. exact C15_reflected_gray_code_lemma. Qed.
Print Assumptions C15_reflected_gray_code.

(* C15: Glynn returns 1 as soon as one of the states is empty *)
Theorem C15_glynn_vacuum :
  forall (F : numFieldType) (M : seq (seq F)) (s t : seq nat) (gray : nat -> seq nat),
  sumn s = 0%N \/ sumn t = 0%N -> glynn_permanent gray M s t = Ok 1.
Proof. exact C15_glynn_vacuum_lemma. Qed.
Print Assumptions C15_glynn_vacuum.

(* C16: the calculator made by the factory for any type returns the permanent *)
Theorem C16_factory_calculators_agree :
  forall (F : numFieldType) (m : nat) (M : seq (seq F)) (s t : seq nat) (gray : nat -> seq nat)
    (fuel : nat) (k : calc_type),
  is_square m M -> size t = size s -> (size s <= m)%N -> s != [::] -> sumn s = sumn t ->
  ((0 < sumn s)%N -> is_gray_code (sumn s - 1) (gray (sumn s - 1)%N)) ->
  (\prod_(x <- s) x.+1 <= fuel)%N ->
  rmap fst (compute_any gray fuel (generate_calculator (CalcFactory M s t k)))
  = Ok (bs_permanent M s t).
Proof. exact C16_factory_calculators_agree_lemma. Qed.
Print Assumptions C16_factory_calculators_agree.

Example C16_example :
  [seq rmap fst (compute_any reflected_gray 20
     (generate_calculator (CalcFactory (F := rat_numFieldType) [:: [:: 1; 2%:R]; [:: 3%:R; 4%:R]] [:: 2; 1]%N [:: 1; 2]%N k)))
   | k <- [:: CLASSIC; GLYNN; CHIN_HUH; RYSER; OTHER_TYPE 9]] = nseq 5 (Ok 84%:R).
Proof. by vm_compute. Qed.

(* C16: equal numbers of particles are needed; with one particle in and two out the calculators disagree *)
Theorem C16_unequal_numbers_refuted :
  forall (gray : nat -> seq nat) (fuel : nat), (2 <= fuel)%N ->
  let v k := rmap fst (compute_any gray fuel (generate_calculator (CalcFactory (F := rat_numFieldType) [:: [:: 1]] [:: 1]%N [:: 2]%N k))) in
  [/\ v RYSER = Ok 1, v CHIN_HUH = Ok 0 & v CLASSIC = Ok 2%:R].
Proof. exact C16_unequal_numbers_refuted_lemma. Qed.
Print Assumptions C16_unequal_numbers_refuted.

(* C16: class and public attributes of the generated calculator *)
Theorem C16_factory_type :
  forall (F : numFieldType) (f : calc_factory F), let a := generate_calculator f in
  [/\ calc_matrix a = f_matrix f, calc_input a = f_input f, calc_output a = f_output f
    & match f_type f, a with
      | CLASSIC, ClassicCalc _ _ _ | GLYNN, GlynnCalc _ _ _ | RYSER, GuanCalc Ryser _
      | CHIN_HUH, GuanCalc ChinHuh _ | OTHER_TYPE _, GuanCalc ChinHuh _ => True
      | _, _ => False
      end].
Proof. exact C16_factory_type_lemma. Qed.
Print Assumptions C16_factory_type.

(* C17: the exception is raised exactly in these cases; an empty matrix raises IndexError *)
Theorem C17_guard :
  forall (F : numFieldType) (fuel : nat) (k : guan_kind) (c : calc F),
  (compute_permanent fuel k c = Err AttributeError <->
   exists row0 rows, c_matrix c = row0 :: rows /\
    ~~ [&& size (c_matrix c) == size row0, size (c_output c) == size (c_input c)
         & (size (c_output c) <= size row0)%N]) /\
  (c_matrix c = [::] -> compute_permanent fuel k c = Err IndexError).
Proof. exact C17_guard_lemma. Qed.
Print Assumptions C17_guard.

Example C17_example :
  [/\ rmap (@c_perm _) (compute_permanent 20 Ryser (new_calc (F := rat_numFieldType) [:: [:: 1; 2%:R]; [:: 3%:R; 4%:R]] [:: 2]%N [:: 1; 1]%N)) = Err AttributeError,
      rmap (@c_perm _) (compute_permanent 20 ChinHuh (new_calc (F := rat_numFieldType) [:: [:: 1; 2%:R]; [:: 3%:R; 4%:R]] [:: 2; 0; 0]%N [:: 1; 1; 0]%N)) = Err AttributeError
    & rmap (@c_perm _) (compute_permanent 20 Ryser (new_calc (F := rat_numFieldType) [:: [:: 1; 1]] [:: 1]%N [:: 1]%N)) = Err AttributeError].
Proof. by split; vm_compute. Qed.

(* C18: ops is any sequence of setter calls and computations, some of which
   may have raised and left the private attributes in any state (broken) *)
Theorem C18_history_independence :
  forall (F : numFieldType) (gray : nat -> seq nat) (fuel fuel' : nat)
    (broken : any_calc F -> any_calc F) (f : calc_factory F) (ops : seq (calc_op F)),
  (forall a, same_public (broken a) a) ->
  rmap fst (compute_any gray fuel
    (foldl (run_op gray fuel' broken) (generate_calculator f) ops)) =
  rmap fst (compute_any gray fuel (generate_calculator (foldl (@track_op F) f ops))).
Proof. exact C18_history_independence_lemma. Qed.
Print Assumptions C18_history_independence.

Example C18_example :
  rmap fst (compute_any reflected_gray 20
    (foldl (run_op reflected_gray 20 id)
      (generate_calculator (CalcFactory (F := rat_numFieldType) [:: [:: 1; 2%:R]; [:: 3%:R; 4%:R]] [:: 1; 1]%N [:: 2; 0]%N RYSER))
      [:: OpCompute _; OpInput _ [:: 2; 1]%N; OpCompute _; OpOutput _ [:: 1; 2]%N; OpCompute _])) = Ok 84%:R.
Proof. by vm_compute. Qed.

(* C19: for every object c with these public attributes, whatever its private state *)
Theorem C19_ryser_sub_permanents :
  forall (F : numFieldType) (m : nat) (M : seq (seq F)) (s t : seq nat) (c : subcalc F) (fuel : nat),
  is_square m M -> size t = size s -> (size s <= m)%N -> sumn s = (sumn t).+1 ->
  sc_matrix c = M -> sc_input c = s -> sc_output c = t -> (\prod_(x <- s) x.+1 <= fuel)%N ->
  exists c', [/\ compute_permanents fuel Ryser c = Ok (sub_permanents M s t, c'),
    sc_matrix c' = M, sc_input c' = s & sc_output c' = t].
Proof. exact C19_ryser_sub_permanents_lemma. Qed.
Print Assumptions C19_ryser_sub_permanents.

Example C19_example :
  rmap fst (compute_permanents 20 Ryser (new_subcalc (F := rat_numFieldType) [:: [:: 1; 2%:R]; [:: 3%:R; 4%:R]] [:: 2; 1]%N [:: 1; 1]%N))
  = Ok [:: 10%:R; 6%:R].
Proof. by vm_compute. Qed.

(* C20: for every object c with these public attributes, whatever its private state *)
Theorem C20_chin_huh_sub_permanents :
  forall (F : numFieldType) (m : nat) (M : seq (seq F)) (s t : seq nat) (c : subcalc F) (fuel : nat),
  is_square m M -> size t = size s -> (size s <= m)%N -> sumn s = (sumn t).+1 ->
  sc_matrix c = M -> sc_input c = s -> sc_output c = t -> (\prod_(x <- s) x.+1 <= fuel)%N ->
  exists c', [/\ compute_permanents fuel ChinHuh c = Ok (sub_permanents M s t, c'),
    sc_matrix c' = M, sc_input c' = s & sc_output c' = t].
Proof. exact C20_chin_huh_sub_permanents_lemma. Qed.
Print Assumptions C20_chin_huh_sub_permanents.

Example C20_example :
  rmap fst (compute_permanents 20 ChinHuh (new_subcalc (F := rat_numFieldType) [:: [:: 1; 2%:R]; [:: 3%:R; 4%:R]] [:: 2; 1]%N [:: 1; 1]%N))
  = Ok [:: 10%:R; 6%:R].
Proof. by vm_compute. Qed.
