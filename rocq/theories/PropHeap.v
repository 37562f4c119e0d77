(* Property theorems: C80 (arrays and lists as objects: shared references and changes in place).  Only statements; proofs elsewhere. *)
From mathcomp Require Import all_ssreflect all_algebra complex.
From Verif Require Import Base ProofDist1 SpecStates SpecPerm SpecBS SpecProb ModelStates ModelPerm ModelDist SpecGcc ModelGcc ModelGccB ModelHeap SpecHeap LemHeap.
Set Implicit Arguments.
Unset Strict Implicit.
Unset Printing Implicit Defensive.
Import GRing.Theory Num.Theory.
Local Open Scope ring_scope.
Local Open Scope py_scope.

(* C80: a calculator computes from the present contents of the objects it refers to, and leaves every array, every matrix and every other calculator as it was *)
Theorem C80_calculator :
  forall (R : rcfType) (gray : nat -> seq nat) (fuel : nat) (h : store R) (a : nat),
  store_ok h -> (a < size (st_calcs h))%N ->
  same_res (fun x y => [/\ x.1 = y.1, calc_view x.2 a = y.2, unchanged a h x.2 & store_ok x.2])
    (h_compute gray fuel h a) (compute_any gray fuel (calc_view h a)).
Proof. exact C80_calculator_lemma. Qed.
Print Assumptions C80_calculator.

(* C80: so in every store it returns the permanent of the present contents, however the objects came to have them *)
Theorem C80_permanent :
  forall (R : rcfType) (gray : nat -> seq nat) (fuel : nat) (h : store R) (a m : nat),
  let M := mat h (hc_mat (cal h a)) in let s := vec h (hc_in (cal h a)) in let t := vec h (hc_out (cal h a)) in
  is_square m M -> size t = size s -> (size s <= m)%N -> s != [::] -> sumn s = sumn t ->
  ((0 < sumn s)%N -> is_gray_code (sumn s - 1) (gray (sumn s - 1)%N)) -> (\prod_(x <- s) x.+1 <= fuel)%N ->
  rmap fst (h_compute gray fuel h a) = Ok (bs_permanent M s t).
Proof. exact C80_permanent_lemma. Qed.
Print Assumptions C80_permanent.

(* C80: version A of the sampler draws as the model with values does, from the present contents of the array and of the matrix; arrays and matrices that existed before the call are unchanged after it, and so are all other calculators *)
Theorem C80_same_samples_A :
  forall (R : rcfType) (gray : nat -> seq nat) (fuel : nat) (h : store R) (g : hgcc R) (p k : nat),
  store_ok h -> gcc_ok h g -> is_vec h p ->
  same_run (same_res (same_call (@gcc_view R) (@gcc_ok R) (hg_calc g) h))
    (h_gcc_simulate gray fuel p k (h, g)) (gcc_simulate gray fuel (vec h p) k (gcc_view h g)).
Proof. exact C80_same_samples_A_lemma. Qed.
Print Assumptions C80_same_samples_A.

(* C80: the same for version B, although the calculator and the sampler share a list that is changed in place *)
Theorem C80_same_samples_B :
  forall (R : rcfType) (fuel : nat) (h : store R) (b : hgccb R) (p k : nat),
  store_ok h -> gccb_ok h b -> is_vec h p ->
  same_run (same_res (same_call (@gccb_view R) (@gccb_ok R) (hb_calc b) h))
    (h_gccb_simulate fuel p k (h, b)) (gccb_simulate fuel (vec h p) k (gccb_view h b)).
Proof. exact C80_same_samples_B_lemma. Qed.
Print Assumptions C80_same_samples_B.

(* C80: the same for version B with uniform losses *)
Theorem C80_same_samples_uniform_B :
  forall (R : rcfType) (fuel : nat) (h : store R) (v : hugccb R) (p k : nat),
  store_ok h -> ugccb_ok h v -> is_vec h p ->
  same_run (same_res (same_call (@ugccb_view R) (@ugccb_ok R) (hb_calc (hub_b v)) h))
    (h_ugccb_simulate fuel p k (h, v)) (ugccb_simulate fuel (vec h p) k (ugccb_view h v)).
Proof. exact C80_same_samples_uniform_B_lemma. Qed.
Print Assumptions C80_same_samples_uniform_B.

(* C80: in every program of a user that makes, changes in place, shares and uses arrays, matrices, calculators and samplers, the arrays and matrices of the user contain what the user wrote last, and no reference is ever left without an object *)
Theorem C80_history :
  forall (R : rcfType) (gray : nat -> seq nat) (fuel : nat) (ops : seq (hop R)),
  always (if_ok (fun w =>
      [/\ world_ok w,
          [seq vec (hw_st w) p | p <- hw_vecs w] = foldl (@user_vecs R) [::] ops &
          [seq mat (hw_st w) p | p <- hw_mats w] = foldl (@user_mats R) [::] ops]))
    (hrun gray fuel ops (empty_world R)).
Proof. exact C80_history_lemma. Qed.
Print Assumptions C80_history.

Example C80_example (R : rcfType) (M : seq (seq (ComplexField.complex_numFieldType R))) : (* the array is changed after the calculator got it *)
  exists w, hrun reflected_gray 9 [:: NewVec R [:: 1; 0]%N; NewMat M; NewCalc R RYSER 0 0 0; WriteVec R 0 [:: 0; 1]%N] (empty_world R) = Ret (Ok w) /\
    same_public (calc_view (hw_st w) 0) (generate_calculator (CalcFactory M [:: 0; 1]%N [:: 0; 1]%N RYSER)).
Proof. by eexists; split; [reflexivity|]. Qed.

(* C80: in any such world the samples of both versions have the exact law of the present contents: of the matrix the calculator refers to and of the array given to simulate *)
Theorem C80_exact :
  forall (R : rcfType) (gray : nat -> seq nat) (fuel : nat) (m : nat) (w : hworld R) (p k : nat),
  world_ok w -> p \in hw_vecs w -> let h := hw_st w in let s := vec h p in
  size s = m -> (\prod_(x <- s) x.+1 <= fuel)%N ->
  (forall g, List.In g (hw_A w) -> let U := mat h (hc_mat (cal h (hg_calc g))) in
     unitary_on m U s -> gray_ok gray (sumn s) ->
     iid_samples (h_gcc_simulate gray fuel p k (h, g)) k (is_state m (sumn s)) (bs_prob U s)) /\
  (forall b, List.In b (hw_B w) -> let U := mat h (hc_mat (cal h (hb_calc b))) in
     unitary_on m U s ->
     iid_samples (h_gccb_simulate fuel p k (h, b)) k (is_state m (sumn s)) (bs_prob U s)).
Proof. exact C80_exact_lemma. Qed.
Print Assumptions C80_exact.

(* C80: sampling takes the calculator over: after a call of version B for at least one sample with at least one particle, the input state of the calculator is the list of the sampler itself, made during the call; the array that the user had set is gone from it *)
Theorem C80_calculator_keeps_input_refuted :
  forall (R : rcfType) (fuel : nat) (h : store R) (b : hgccb R) (p k : nat),
  (0 < sumn (vec h p))%N -> (0 < k)%N ->
  always (if_ok (fun y => hc_in (cal y.2.1 (hb_calc y.2.2)) = hb_current y.2.2 /\ (size (st_vecs h) <= hb_current y.2.2)%N))
    (h_gccb_simulate fuel p k (h, b)).
Proof. exact C80_calculator_keeps_input_refuted_lemma. Qed.
Print Assumptions C80_calculator_keeps_input_refuted.
