(* Final forms of the lemmas behind the property theorems: C49 (distributions estimated from samples). *)
From mathcomp Require Import all_ssreflect all_algebra complex ring zify.
From Verif Require Import Base SpecStates SpecPerm SpecBS SpecProb ModelStates ModelPerm ModelDist ModelGcc ModelGccB ModelNet SpecNet SpecGcc ModelBobs SpecBobs ModelSample SpecSample PermMath ProbMath LemStates LemNet ProofGcc4 ProofGccB2 LemBobs ProofSample1.
Set Implicit Arguments.
Unset Strict Implicit.
Unset Printing Implicit Defensive.
Import Order.TTheory GRing.Theory Num.Theory.
Local Open Scope ring_scope.
Local Open Scope py_scope.

Lemma C49_frequencies_lemma :
  forall (R : rcfType) (G : Type) (simulate : seq nat -> nat -> G -> rprog R (res (seq (seq nat) * G)))
    (se : pyerr) (fuel : nat) (m k : nat) (c : scalc R G) (outs : seq (seq nat)) (Q : seq (seq nat) -> Prop),
  (if sc_outcomes c is Some o then Ok o else
     generate_possible_states fuel (Posz (cf_left (sc_conf c))) (Posz (cf_modes (sc_conf c))) false) = Ok outs ->
  modes_of m outs -> (0 < k)%N ->
  samples_ok (simulate (cf_state (sc_conf c)) k (sc_strategy c)) (fun L => modes_of m L /\ Q L) ->
  always (fun r => exists L g, r = Ok (map Some (frequencies R k outs L), sc_set_strategy g c) /\ Q L) (approximate_distribution simulate se fuel k c).
Proof.
move=> R G simulate se fuel m k c outs Q ho mo k0 H; exact: (@approx_always R G simulate se fuel m c outs ho mo k k0 Q H).
Qed.

Lemma C49_other_lengths_lemma :
  forall (R : rcfType) (G : Type) (simulate : seq nat -> nat -> G -> rprog R (res (seq (seq nat) * G)))
    (se : pyerr) (fuel : nat) (k : nat) (c : scalc R G) (outs : seq (seq nat)) (Q : seq (seq nat) -> Prop),
  (if sc_outcomes c is Some o then Ok o else
     generate_possible_states fuel (Posz (cf_left (sc_conf c))) (Posz (cf_modes (sc_conf c))) false) = Ok outs -> (0 < k)%N ->
  samples_ok (simulate (cf_state (sc_conf c)) k (sc_strategy c)) (fun L => all (fun t => all (comparable t) outs) L /\ Q L) ->
  always (fun r => exists L g,
    r = Ok ([seq Some ((count (fun t => find (matches t) outs == j) L)%:R / k%:R) | j <- iota 0 (size outs)], sc_set_strategy g c) /\ Q L) (approximate_distribution simulate se fuel k c).
Proof.
move=> R G simulate se fuel k c outs Q ho k0 H; rewrite (@approxE R G simulate se fuel c outs ho k k0).
apply: always_rbind; apply: always_impl H => _ [L [g [-> [hL q]]]].
by rewrite count_all_find // /rpbind /= -map_comp; exists L, g.
Qed.

Lemma C49_expectation_lemma :
  forall (R : rcfType) (G : Type) (simulate : seq nat -> nat -> G -> rprog R (res (seq (seq nat) * G)))
    (se : pyerr) (fuel : nat) (m k : nat) (c : scalc R G) (outs : seq (seq nat)) (F : res (seq (option R) * scalc R G) -> R) (v : R),
  (if sc_outcomes c is Some o then Ok o else
     generate_possible_states fuel (Posz (cf_left (sc_conf c))) (Posz (cf_modes (sc_conf c))) false) = Ok outs ->
  modes_of m outs -> (0 < k)%N ->
  samples_ok (simulate (cf_state (sc_conf c)) k (sc_strategy c)) (modes_of m) ->
  has_exp (fun y => if y is Ok y then F (Ok (map Some (frequencies R k outs y.1), sc_set_strategy y.2 c)) else 0) (simulate (cf_state (sc_conf c)) k (sc_strategy c)) v ->
  has_exp F (approximate_distribution simulate se fuel k c) v.
Proof.
move=> R G simulate se fuel m k c outs F v ho mo k0 H E; exact: (@approx_exp R G simulate se fuel m c outs ho mo k k0 F v H E).
Qed.

Lemma C49_bounds_lemma :
  forall (R : rcfType) (k : nat) (outs L : seq (seq nat)), (0 < k)%N -> size L = k ->
  [/\ size (frequencies R k outs L) = size outs, forall x, x \in frequencies R k outs L -> 0 <= x <= 1,
      \sum_(x <- frequencies R k outs L) x = (count (mem outs) L)%:R / k%:R,
      \sum_(x <- frequencies R k outs L) x <= 1
    & \sum_(x <- frequencies R k outs L) x = 1 <-> {subset L <= outs}].
Proof.
move=> R k outs L k0 sL; split.
- exact: freq_size.
- by move=> x; apply: freq_bounds; rewrite sL.
- exact: freq_sum.
- by rewrite freq_sum ler_pdivr_mulr ?ltr0n // mul1r ler_nat -sL count_size.
rewrite freq_sum; have kn : k%:R != 0 :> R by rewrite pnatr_eq0 -lt0n.
split=> [h|h].
  have /eqP : (count (mem outs) L)%:R = k%:R :> R by rewrite -[LHS](divfK kn) h mul1r.
  by rewrite eqr_nat -sL -all_count => /allP.
by have /allP := h; rewrite all_count sL => /eqP ->; rewrite divff.
Qed.

Lemma C49_unbiased_lemma :
  forall (R : rcfType) (G : Type) (simulate : seq nat -> nat -> G -> rprog R (res (seq (seq nat) * G)))
    (se : pyerr) (fuel : nat) (m k : nat) (c : scalc R G) (outs S : seq (seq nat)) (P : seq nat -> R) (j : nat),
  (if sc_outcomes c is Some o then Ok o else
     generate_possible_states fuel (Posz (cf_left (sc_conf c))) (Posz (cf_modes (sc_conf c))) false) = Ok outs ->
  modes_of m outs -> (0 < k)%N ->
  samples_ok (simulate (cf_state (sc_conf c)) k (sc_strategy c)) (modes_of m) -> samples_law (simulate (cf_state (sc_conf c)) k (sc_strategy c)) k S P ->
  \sum_(t <- S) P t = 1 -> uniq S -> uniq outs -> (j < size outs)%N ->
  has_exp (on_ok (fun y => odflt 0 (nth None y.1 j))) (approximate_distribution simulate se fuel k c) (if nth [::] outs j \in S then P (nth [::] outs j) else 0).
Proof.
move=> R G simulate se fuel m k c outs S P j ho mo k0 H E P1 uS uo jl.
apply: (@approx_exp R G simulate se fuel m c outs ho mo k k0 _ _ H); apply: has_exp_eq (has_exp_ext _ (E (fun L => (count_mem (nth [::] outs j) L)%:R / k%:R))) _.
  move=> [[L g]|e] //=; rewrite (nth_map 0) ?freq_size //= freq_uniq // (nth_map [::]) //.
rewrite (iid_exp_ext _ _ _ (g' := fun L => 0 + k%:R^-1 * (count_mem (nth [::] outs j) L)%:R)) => [|L]; last by rewrite add0r mulrC.
rewrite (iid_exp_lin _ _ _ (fun=> 0) (fun L => (count_mem (nth [::] outs j) L)%:R)) iid_exp_const // add0r iid_exp_count //.
rewrite mulKf ?pnatr_eq0 -?lt0n //; case: ifP => h.
  by rewrite -big_filter (_ : [seq t <- S | _] = [:: nth [::] outs j]) ?big_seq1 // filter_pred1_uniq.
by rewrite big1_seq // => t /andP[/eqP -> ts]; rewrite ts in h.
Qed.

Lemma C49_default_outcomes_lemma :
  forall n m : nat, (0 < m)%N -> exists (outs : seq (seq nat)) (f0 : nat),
  [/\ uniq outs, outs =i is_state m n, modes_of m outs
    & forall (R : rcfType) (G : Type) (c : scalc R G) (fuel : nat), (f0 <= fuel)%N ->
      sc_outcomes c = None -> cf_left (sc_conf c) = n -> cf_modes (sc_conf c) = m -> (if sc_outcomes c is Some o then Ok o else
     generate_possible_states fuel (Posz (cf_left (sc_conf c))) (Posz (cf_modes (sc_conf c))) false) = Ok outs].
Proof.
move=> n m m0; have [outs [[f0 E] mL sL]] := C03_lemma n m0; exists outs, f0; split.
- by have [irr tr _] := C03_order_lemma; exact: (sorted_uniq tr irr sL).
- by move=> t; rewrite mL.
- by apply/allP => t; rewrite mL => /andP[].
- by move=> R G c fuel le -> -> ->; exact: E.
Qed.

Lemma C49_order_refuted_lemma :
  forall (R : rcfType) (G : Type) (simulate : seq nat -> nat -> G -> rprog R (res (seq (seq nat) * G)))
    (se : pyerr) (fuel : nat) (k : nat) (c : scalc R G), sc_outcomes c = None ->
  always (if_ok (fun y => sample_outcomes y.2 = None)) (approximate_distribution simulate se fuel k c).
Proof.
move=> R G simulate se fuel k c oc; apply: always_rbind; case: (if sc_outcomes c is Some o then _ else _) => [outs|e] //=.
apply: always_rbind; apply: always_true => -[[L g]|e] //=; apply: always_rbind => /=.
by case: (rfoldl _ _ _).
Qed.

Lemma C49_outcomes_stored_lemma :
  forall (R : rcfType) (G : Type) (simulate : seq nat -> nat -> G -> rprog R (res (seq (seq nat) * G)))
    (se : pyerr) (fuel : nat) (outs : seq (seq nat)) (c : scalc R G),
  always (if_ok (fun y => sample_outcomes y.2 = Some outs)) (sample_probabilities simulate se fuel outs c).
Proof.
move=> R G simulate se fuel outs c; apply: always_rbind => /=.
apply: always_rbind; apply: always_true => -[[L g]|e] //=; apply: always_rbind => /=.
by case: (rfoldl _ _ _).
Qed.

Lemma C49_configured_number_ignored_lemma :
  forall (R : rcfType) (G : Type) (simulate : seq nat -> nat -> G -> rprog R (res (seq (seq nat) * G)))
    (se : pyerr) (fuel : nat) (n : nat) (c : scalc R G),
  same_run (same_res (fun a b => a.1 = b.1)) (sample_distribution simulate se fuel (sc_set_samples n c)) (sample_distribution simulate se fuel c).
Proof.
move=> R G simulate se fuel n c; rewrite /sample_distribution; move: default_samples => k.
rewrite /approximate_distribution [sc_outcomes _]/= [sc_conf _]/= [sc_strategy _]/=.
apply: (@same_run_rbind _ _ _ _ _ eq); first by apply: same_run_refl => -[].
move=> outs _ <-; apply: (@same_run_rbind _ _ _ _ _ eq); first by apply: same_run_refl => -[].
move=> y _ <-; apply: (@same_run_rbind _ _ _ _ _ eq); first by apply: same_run_refl => -[].
by move=> cs _ <-.
Qed.

Lemma C49_no_samples_lemma :
  forall (R : rcfType) (G : Type) (simulate : seq nat -> nat -> G -> rprog R (res (seq (seq nat) * G)))
    (se : pyerr) (fuel : nat) (c : scalc R G) (outs : seq (seq nat)),
  (if sc_outcomes c is Some o then Ok o else
     generate_possible_states fuel (Posz (cf_left (sc_conf c))) (Posz (cf_modes (sc_conf c))) false) = Ok outs -> samples_ok (simulate (cf_state (sc_conf c)) 0%N (sc_strategy c)) (fun L => L = [::]) ->
  always (fun r => exists g, r = Ok (nseq (size outs) None, sc_set_strategy g c)) (approximate_distribution simulate se fuel 0 c).
Proof.
move=> R G simulate se fuel c outs ho H; rewrite /approximate_distribution ho; apply: always_rbind => /=.
apply: always_rbind; apply: always_impl H => _ [L [g [-> ->]]] /=; exists g.
by rewrite map_nseq.
Qed.

Lemma C49_other_length_raises_lemma :
  forall (R : rcfType) (G : Type) (simulate : seq nat -> nat -> G -> rprog R (res (seq (seq nat) * G)))
    (se : pyerr) (fuel : nat) (m k : nat) (c : scalc R G) (o : seq nat) (outs : seq (seq nat)),
  (if sc_outcomes c is Some o then Ok o else
     generate_possible_states fuel (Posz (cf_left (sc_conf c))) (Posz (cf_modes (sc_conf c))) false) = Ok (o :: outs) -> size o <> m -> size o <> 1%N -> m <> 1%N ->
  samples_ok (simulate (cf_state (sc_conf c)) k (sc_strategy c)) (fun L => modes_of m L /\ (0 < size L)%N) ->
  always (fun r => r = Err se) (approximate_distribution simulate se fuel k c).
Proof.
move=> R G simulate se fuel m k c o outs ho so o1 m1 H; rewrite /approximate_distribution ho; apply: always_rbind => /=.
apply: always_rbind; apply: always_impl H => _ [[|t L] [g [-> [hL //]]]] _; apply: always_rbind.
have st : size t = m by case/andP: hL => /eqP.
rewrite [y in rfoldl _ _ y]/= [rfoldl _ _ _]/=.
suff -> : np_all_equal se t o = Err se by [].
rewrite /np_all_equal; case: (size t =P size o) => [e|_]; first by case: so; rewrite -e.
case: t st {hL} => [|x [|x' t]] st; try by case: m1.
all: by case: o so o1 {ho} => [|y [|y' o]].
Qed.

Lemma C49_bobs_sum_refuted_lemma :
  forall (R : rcfType) (svd : seq (seq (ComplexField.complex_numFieldType R)) -> res (seq (seq (ComplexField.complex_numFieldType R)) * seq R * seq (seq (ComplexField.complex_numFieldType R)))) (cis : R -> (ComplexField.complex_numFieldType R)) (m : nat) (M : seq (seq (ComplexField.complex_numFieldType R))) (fuel f : nat) (se : pyerr) (k : nat) (c : scalc R (bobs R)) (outs : seq (seq nat)),
  let x := sc_strategy c in let s := cf_state (sc_conf c) in
  svd_ok svd -> cis_ok cis -> (0 < m)%N -> subunitary m M -> (exists i j, [/\ (i < m)%N, (j < m)%N & ent M i j != 0]) ->
  size s = m -> bobs_of svd m M x -> (0 < bo_threads x)%N ->
  let p := (bo_particles x + sumn (take (bo_modes x) s))%N in
  (forall s', s' \in approx_inputs (bo_modes x) p s -> (\prod_(y <- s') y.+1 <= fuel)%N) ->
  sc_outcomes c = Some outs -> outs =i [pred t | (size t == m) && (sumn t <= approx_total (bo_modes x) p s)%N] -> (0 < k)%N ->
  always (fun r => exists d c', r = Ok (map Some d, c') /\ 1 < \sum_(y <- d) y)
    (approximate_distribution (fun s k x => bobs_simulate svd cis (@np_rand R) fuel s (Posz k) x) se f k c).
Proof.
move=> R svd cis m M fuel f se k c outs x s sv ok m0 sub nz ss bx T0 p fu oc mo k0.
have H := @C42_accumulated_particles_lemma R svd cis m M fuel s x (Posz k) sv ok m0 sub nz ss bx T0 fu k0.
have ho : modes_of m outs by apply/allP => t; rewrite mo => /andP[].
have B : samples_ok (bobs_simulate svd cis (@np_rand R) fuel s (Posz k) x) (fun L => modes_of m L /\ ((k < size L)%N /\ {subset L <= outs})).
  apply: always_impl H => _ [L [x' [-> [_ sL] aL _]]]; exists L, x'; split=> //; split.
    by apply/allP => t /aL /andP[].
  by split=> // t /aL h; rewrite mo.
have oe : (if sc_outcomes c is Some o then Ok o else
    generate_possible_states f (Posz (cf_left (sc_conf c))) (Posz (cf_modes (sc_conf c))) false) = Ok outs by rewrite oc.
apply: always_impl (@approx_always R _ (fun s k x => bobs_simulate svd cis (@np_rand R) fuel s (Posz k) x) se f m c outs oe ho k k0 _ B) => _ [L [g [-> [sL sub']]]].
exists (frequencies R k outs L), (sc_set_strategy g c); split=> //.
rewrite freq_sum ltr_pdivl_mulr ?ltr0n // mul1r ltr_nat.
by have /allP := sub'; rewrite all_count => /eqP ->.
Qed.
