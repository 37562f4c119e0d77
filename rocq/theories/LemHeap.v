(* Final forms of the lemmas behind the property theorems: C80 (arrays and lists as objects: shared references and changes in place). *)
From mathcomp Require Import all_ssreflect all_algebra complex.
From Verif Require Import Base ProofDist1 SpecStates SpecPerm SpecBS SpecProb ModelStates ModelPerm ModelDist SpecGcc ModelGcc ModelGccB ModelHeap SpecHeap ProbMath ProofPerm6 ProofHeap1 ProofHeap2 ProofHeap3 ProofHeap4 LemPerm LemGcc.
Set Implicit Arguments.
Unset Strict Implicit.
Unset Printing Implicit Defensive.
Import GRing.Theory Num.Theory.
Local Open Scope ring_scope.
Local Open Scope py_scope.

Lemma C80_calculator_lemma :
  forall (R : rcfType) (gray : nat -> seq nat) (fuel : nat) (h : store R) (a : nat),
  store_ok h -> (a < size (st_calcs h))%N ->
  same_res (fun x y => [/\ x.1 = y.1, calc_view x.2 a = y.2, unchanged a h x.2 & store_ok x.2])
    (h_compute gray fuel h a) (compute_any gray fuel (calc_view h a)).
Proof.
move=> R gray fuel h a so al; have := h_computeE gray fuel so al.
by case: (h_compute _ _ _ _) => [x|e]; case: (compute_any _ _ _) => [y|e'] //= [e1 e2 [_ u so']]; split.
Qed.

Lemma C80_permanent_lemma :
  forall (R : rcfType) (gray : nat -> seq nat) (fuel : nat) (h : store R) (a m : nat),
  let M := mat h (hc_mat (cal h a)) in let s := vec h (hc_in (cal h a)) in let t := vec h (hc_out (cal h a)) in
  is_square m M -> size t = size s -> (size s <= m)%N -> s != [::] -> sumn s = sumn t ->
  ((0 < sumn s)%N -> is_gray_code (sumn s - 1) (gray (sumn s - 1)%N)) -> (\prod_(x <- s) x.+1 <= fuel)%N ->
  rmap fst (h_compute gray fuel h a) = Ok (bs_permanent M s t).
Proof.
move=> R gray fuel h a m M s t sq st sm s0 e gr fu; rewrite /h_compute.
have [k sp] := any_class h (cal h a).
have := C16_factory_calculators_agree_lemma k sq st sm s0 e gr fu.
by rewrite -(compute_any_sim gray fuel sp); case: (compute_any _ _ _).
Qed.

Lemma C80_same_samples_A_lemma :
  forall (R : rcfType) (gray : nat -> seq nat) (fuel : nat) (h : store R) (g : hgcc R) (p k : nat),
  store_ok h -> gcc_ok h g -> is_vec h p ->
  same_run (same_res (same_call (@gcc_view R) (@gcc_ok R) (hg_calc g) h))
    (h_gcc_simulate gray fuel p k (h, g)) (gcc_simulate gray fuel (vec h p) k (gcc_view h g)).
Proof.
move=> R gray fuel h g p k; exact: h_gccE.
Qed.

Lemma C80_same_samples_B_lemma :
  forall (R : rcfType) (fuel : nat) (h : store R) (b : hgccb R) (p k : nat),
  store_ok h -> gccb_ok h b -> is_vec h p ->
  same_run (same_res (same_call (@gccb_view R) (@gccb_ok R) (hb_calc b) h))
    (h_gccb_simulate fuel p k (h, b)) (gccb_simulate fuel (vec h p) k (gccb_view h b)).
Proof.
move=> R fuel h b p k; exact: h_gccbE.
Qed.

Lemma C80_same_samples_uniform_B_lemma :
  forall (R : rcfType) (fuel : nat) (h : store R) (v : hugccb R) (p k : nat),
  store_ok h -> ugccb_ok h v -> is_vec h p ->
  same_run (same_res (same_call (@ugccb_view R) (@ugccb_ok R) (hb_calc (hub_b v)) h))
    (h_ugccb_simulate fuel p k (h, v)) (ugccb_simulate fuel (vec h p) k (ugccb_view h v)).
Proof.
move=> R fuel h v p k; exact: h_ugccbE.
Qed.

Lemma C80_history_lemma :
  forall (R : rcfType) (gray : nat -> seq nat) (fuel : nat) (ops : seq (hop R)),
  always (if_ok (fun w =>
      [/\ world_ok w,
          [seq vec (hw_st w) p | p <- hw_vecs w] = foldl (@user_vecs R) [::] ops &
          [seq mat (hw_st w) p | p <- hw_mats w] = foldl (@user_mats R) [::] ops]))
    (hrun gray fuel ops (empty_world R)).
Proof.
move=> R gray fuel ops; have h0 : hist (empty_world R) [::] [::] by [].
by apply: always_impl (hrun_hist gray fuel ops h0) => -[w|e].
Qed.

Lemma C80_exact_lemma :
  forall (R : rcfType) (gray : nat -> seq nat) (fuel : nat) (m : nat) (w : hworld R) (p k : nat),
  world_ok w -> p \in hw_vecs w -> let h := hw_st w in let s := vec h p in
  size s = m -> (\prod_(x <- s) x.+1 <= fuel)%N ->
  (forall g, List.In g (hw_A w) -> let U := mat h (hc_mat (cal h (hg_calc g))) in
     unitary_on m U s -> gray_ok gray (sumn s) ->
     iid_samples (h_gcc_simulate gray fuel p k (h, g)) k (is_state m (sumn s)) (bs_prob U s)) /\
  (forall b, List.In b (hw_B w) -> let U := mat h (hc_mat (cal h (hb_calc b))) in
     unitary_on m U s ->
     iid_samples (h_gccb_simulate fuel p k (h, b)) k (is_state m (sumn s)) (bs_prob U s)).
Proof.
move=> R gray fuel m w p k wo pin h s sm fu; have /and5P[so o2 _ _ /and3P[_ oA oB]] := wo.
have hp : is_vec h p := allP o2 _ pin.
split=> [g gin U uU gr|b bin U uU].
- have go : gcc_ok h g by apply: (all_In oA gin).
  by apply: (iid_same (h_gccE gray fuel k so go hp)); apply: C27_gcc_exact_lemma => //; exact: matrix_view.
- have bo : gccb_ok h b by apply: (all_In oB bin).
  by apply: (iid_same (h_gccbE fuel k so bo hp)); apply: C31_gcc_b_exact_lemma => //; exact: matrix_view.
Qed.

Lemma C80_calculator_keeps_input_refuted_lemma :
  forall (R : rcfType) (fuel : nat) (h : store R) (b : hgccb R) (p k : nat),
  (0 < sumn (vec h p))%N -> (0 < k)%N ->
  always (if_ok (fun y => hc_in (cal y.2.1 (hb_calc y.2.2)) = hb_current y.2.2 /\ (size (st_vecs h) <= hb_current y.2.2)%N))
    (h_gccb_simulate fuel p k (h, b)).
Proof.
move=> R fuel h b p k; exact: gccb_alias.
Qed.
