(* Final forms of the lemmas behind the property theorems: C85 (rounding errors of the strategies with independent particles). *)
From mathcomp Require Import all_ssreflect all_algebra complex ring zify.
From Verif Require Import Base SpecStates Combi SpecPerm SpecBS ModelStates ModelPerm ModelDist SpecProb ModelGcc ModelGccB ModelNet SpecNet ModelFixed SpecFixed ModelFloat ModelFloatGcc ModelFloatGccB ModelFloatNet ModelFloatFixed SpecFloat SpecFloatGcc SpecFloatSub SpecFloatGccB SpecFloatNet SpecFloatFixed ProofGccB2 PermMath ProbMath ProofFixed1 ProofFixed2 ProofFloat ProofFloatNet4 ProofFloatNet5 ProofFloatFixed1 ProofFloatFixed2 ProofFloatFixed3 ProofFloatFixed4.
Set Implicit Arguments.
Unset Strict Implicit.
Unset Printing Implicit Defensive.
Import Order.TTheory GRing.Theory Num.Theory.
Local Open Scope ring_scope.
Local Open Scope py_scope.

Lemma C85_exact_arithmetic_lemma :
  forall (R : rcfType) (svd : (seq (seq (ComplexField.complex_numFieldType R))) -> res ((seq (seq (ComplexField.complex_numFieldType R))) * seq R * (seq (seq (ComplexField.complex_numFieldType R))))) (cis : R -> (ComplexField.complex_numFieldType R)) (rand : nat -> rprog R (res (seq R))) (M : (seq (seq (ComplexField.complex_numFieldType R)))) (l m n : nat)
    (net : option (network R)) (net' : network R) (v : seq (ComplexField.complex_numFieldType R)) (ps : seq (option R)) (x eta : R) (out : seq nat),
  let A := exact_arith (ComplexField.complex_numFieldType R) in let B := exact_arith R in let dot := @exact_dot (ComplexField.complex_numFieldType R) in
  [/\ fl_new_fixed B Num.sqrt dot svd M l m net = new_fixed svd M l m net,
      fl_prepare_state A B Num.sqrt cis rand m n = prepare_state cis rand m n,
      fl_network_simulate dot net' v = network_simulate net' v,
      fl_probabilities B n v = probabilities n v
    & fl_place B ps x out = place ps x out /\ fl_separable_weights B eta n = separable_weights eta n].
Proof.
move=> R svd cis rand M l m n net net' v ps x eta out A B dot.
have fE y : fl_find_mode B x y 0 = find_mode x y 0.
  by [].
split=> //.
- by case: net => [//|]; rewrite /fl_new_fixed /new_fixed fl_prepare_exact.
- by case: net' => E; [exact: fl_dot_exact|exact: fl_network_exact].
by apply: eq_map => z; case: ifP => // _; congr Some; rewrite /fl_intensity /= mulNr opprK -!expr2.
Qed.

Lemma C85_lossless_network_lemma :
  forall (R : rcfType) (u eps : R) (f_dot : seq (ComplexField.complex_numFieldType R) -> seq (ComplexField.complex_numFieldType R) -> (ComplexField.complex_numFieldType R)) (m : nat) (M M0 : (seq (seq (ComplexField.complex_numFieldType R)))),
  0 <= u -> 0 <= eps -> accurate_dot (u%:C)%C f_dot -> is_square m M -> subunitary m M0 -> close m eps M M0 ->
  accurate_network f_dot m M0 (lossless_error u eps m) (LosslessNetwork M).
Proof.
move=> R u eps f_dot m M M0 u0 e0 aD sq su cl.
by apply: lossless_accurate => //; exact: subunitary_entries.
Qed.

Lemma C85_new_object_lemma :
  forall (R : rcfType) (u d : R) (B : arith R) (f_sqrt : R -> R) (f_dot : seq (ComplexField.complex_numFieldType R) -> seq (ComplexField.complex_numFieldType R) -> (ComplexField.complex_numFieldType R)) (svd : (seq (seq (ComplexField.complex_numFieldType R))) -> res ((seq (seq (ComplexField.complex_numFieldType R))) * seq R * (seq (seq (ComplexField.complex_numFieldType R))))) (m : nat) (M M0 V U : (seq (seq (ComplexField.complex_numFieldType R)))) (s : seq R) (l : nat),
  0 <= u -> 0 <= d -> accurate u B -> accurate_sqrt u f_sqrt -> accurate_dot (u%:C)%C f_dot ->
  (0 < m)%N -> svd M = Ok (V, s, U) -> near_svd m d M0 V s U -> subunitary m M0 ->
  exists2 y, fl_new_fixed B f_sqrt f_dot svd M l m None = Ok y &
  [/\ fx_left y = l, fx_modes y = m & accurate_network f_dot m M0 (lossy_error u d m) (fx_net y)].
Proof.
move=> R u d B f_sqrt f_dot svd m M M0 V U s l u0 d0 aB aS aD m0 e nM su.
exact: (fl_new_fixedE u0 aB aS aD d0 m0 e nM su l).
Qed.

Lemma C85_probabilities_lemma :
  forall (R : rcfType) (u c nu : R) (A : arith (ComplexField.complex_numFieldType R)) (B : arith R) (f_sqrt : R -> R) (f_dot : seq (ComplexField.complex_numFieldType R) -> seq (ComplexField.complex_numFieldType R) -> (ComplexField.complex_numFieldType R)) (cis f_cis : R -> (ComplexField.complex_numFieldType R)) (rand : nat -> rprog R (res (seq R))) (m : nat) (M0 : (seq (seq (ComplexField.complex_numFieldType R)))) (net : network R) (n : nat) (d : seq R),
  0 <= u -> u <= 8%:R^-1 -> 0 <= c -> 0 <= nu -> accurate (u%:C)%C A -> accurate u B -> accurate_sqrt u f_sqrt ->
  cis_ok cis -> accurate_cis c cis f_cis ->
  (0 < m)%N -> subunitary m M0 -> accurate_network f_dot m M0 nu net -> (0 < n)%N ->
  always (fun r => r = Ok d) (rand m) ->
  always (fun r => exists v ev p, [/\ r = Ok v, fl_network_simulate f_dot net v = Ok ev,
    fl_probabilities B n ev = [seq Some x | x <- p], size p = m
    & forall i : nat, (i < m)%N -> 0 <= p`_i /\ `|p`_i - (smeared cis m M0 n d)`_i| <= intensity_error u c nu m])
    (fl_prepare_state A B f_sqrt f_cis rand m n).
Proof.
move=> R u c nu A B f_sqrt f_dot cis f_cis rand m M0 net n d u0 u8 c0 nu0 aA aB aS ok aC m0 su nok n0 HA.
apply: always_rbind; apply: always_impl HA => _ ->.
have [ev [e1 e2 e3]] := intensities u0 u8 c0 nu0 aA aB aS ok aC su nok d n0.
exists (fstate A B f_sqrt f_cis m n d), ev, [seq fl_intensity B z | z <- ev]; split=> //.
- by congr Ok; apply/eq_in_map => i; rewrite mem_iota => im; rewrite /fvec (nth_map 0%N) ?size_iota // nth_iota.
- by rewrite /fl_probabilities gtn_eqF // -map_comp.
- by rewrite size_map.
by move=> i im; rewrite (nth_map 0) ?e2 //; split; [exact: (intensity_ge0 u0 u8 aB)|exact: e3].
Qed.

Lemma C85_placing_lemma :
  forall (R : rcfType) (u e : R) (B : arith R) (N : nat) (p q : seq R) (l : nat) (f : seq nat -> R),
  0 <= u -> accurate u B -> (0 < N)%N -> all (fun x => 0 <= x) q -> \sum_(x <- q) x <= 1 ->
  all (fun x => 0 <= x) p -> size q = size p -> (forall i : nat, (i < size p)%N -> `|p`_i - q`_i| <= e) -> (0 < size p)%N ->
  (forall t, 0 <= f t <= 1) ->
  exists v, has_exp (on_ok f) (fl_place_all B N [seq Some x | x <- p] l (nseq (size p) 0%N)) v /\
    `|v - \sum_(t <- lcomps (size p) l) multinomial_prob l q t * f t| <= l%:R * place_error u e N (size p).
Proof.
move=> R u e B N p q l f u0 aB N0 q0 q1 p0 sz pq m0 f01.
exists (place_val B N p f l (nseq (size p) 0%N)); split.
  by apply: fl_place_all_exp; rewrite ?size_nseq.
have := @place_val_near R u e B N u0 aB N0 p q q0 q1 p0 sz pq m0 f l _ f01 (size_nseq _ 0%N).
congr (`|_ - _| <= _); apply: eq_big_seq => t; rewrite mem_lcomps => /andP[/eqP st _].
by rewrite add0v.
Qed.

Lemma C85_fixed_sampler_lemma :
  forall (R : rcfType) (u c nu : R) (A : arith (ComplexField.complex_numFieldType R)) (B : arith R) (f_sqrt : R -> R) (f_dot : seq (ComplexField.complex_numFieldType R) -> seq (ComplexField.complex_numFieldType R) -> (ComplexField.complex_numFieldType R)) (cis f_cis : R -> (ComplexField.complex_numFieldType R)) (m : nat) (M0 : (seq (seq (ComplexField.complex_numFieldType R)))) (N l : nat) (x : fixed R) (s : seq nat)
    (rand : nat -> rprog R (res (seq R))) (S : seq (seq R)) (W : seq R -> R) (k : nat) (f : seq (seq nat) -> R),
  0 <= u -> u <= 8%:R^-1 -> 0 <= c -> 0 <= nu -> accurate (u%:C)%C A -> accurate u B -> accurate_sqrt u f_sqrt ->
  cis_ok cis -> accurate_cis c cis f_cis ->
  (0 < m)%N -> subunitary m M0 -> (0 < N)%N -> fx_left x = l -> fx_modes x = m -> accurate_network f_dot m M0 nu (fx_net x) ->
  always (fun r => exists2 d, r = Ok d & d \in S) (rand m) ->
  (forall f, has_exp (on_ok f) (rand m) (\sum_(d <- S) W d * f d)) ->
  (0 < sumn s)%N || (l == 0)%N -> (forall L, 0 <= f L <= 1) ->
  exists v, has_exp (on_ok (fun y => f y.1)) (fl_fixed_simulate A B f_sqrt f_dot f_cis rand N s k x) v /\
    `|v - iid_exp (lcomps m l) (fixed_law cis m M0 (sumn s) l S W) k f| <= k%:R * fixed_error u c nu N m l.
Proof.
move=> R u c nu A B f_sqrt f_dot cis f_cis m M0 N l x s rand S W k f u0 u8 c0 nu0 aA aB aS ok aC m0 su N0 xl xm nok HA HE nl f01.
have [v [h _ e]] := fl_fixed_simulate_exp u0 u8 c0 nu0 aA aB aS ok aC m0 su N0 xl xm nok HA HE nl k f01.
by exists v.
Qed.

Lemma C85_fixed_always_lemma :
  forall (R : rcfType) (nu : R) (A : arith (ComplexField.complex_numFieldType R)) (B : arith R) (f_sqrt : R -> R) (f_dot : seq (ComplexField.complex_numFieldType R) -> seq (ComplexField.complex_numFieldType R) -> (ComplexField.complex_numFieldType R)) (f_cis : R -> (ComplexField.complex_numFieldType R)) (m : nat) (M0 : (seq (seq (ComplexField.complex_numFieldType R)))) (N l : nat)
    (x : fixed R) (s : seq nat) (rand : nat -> rprog R (res (seq R))) (k : nat),
  (0 < m)%N -> fx_left x = l -> fx_modes x = m -> accurate_network f_dot m M0 nu (fx_net x) ->
  always (fun r => exists d, r = Ok d) (rand m) ->
  always (fun y => exists L, [/\ y = Ok (L, x), size L = k
      & forall t, t \in L -> [/\ size t = m, (sumn t <= l)%N & sumn s = 0%N -> t = l :: nseq m.-1 0%N]])
    (fl_fixed_simulate A B f_sqrt f_dot f_cis rand N s k x).
Proof.
move=> R nu A B f_sqrt f_dot f_cis m M0 N l x s rand k m0 xl xm nok HA.
exact: (fl_fixed_simulate_always A B f_sqrt f_cis m0 N s xl xm nok k HA).
Qed.

Lemma C85_uniform_sampler_lemma :
  forall (R : rcfType) (u c d : R) (A : arith (ComplexField.complex_numFieldType R)) (B : arith R) (f_sqrt : R -> R) (f_dot : seq (ComplexField.complex_numFieldType R) -> seq (ComplexField.complex_numFieldType R) -> (ComplexField.complex_numFieldType R)) (cis f_cis : R -> (ComplexField.complex_numFieldType R))
    (svd : (seq (seq (ComplexField.complex_numFieldType R))) -> res ((seq (seq (ComplexField.complex_numFieldType R))) * seq R * (seq (seq (ComplexField.complex_numFieldType R))))) (f_check : seq R -> R) (f_search : R -> seq R -> nat) (m : nat) (M M0 V U : (seq (seq (ComplexField.complex_numFieldType R)))) (sv : seq R)
    (N : nat) (s : seq nat) (rand : nat -> rprog R (res (seq R))) (eta : R) (S : seq (seq R)) (W : seq R -> R) (k : nat) (f : seq (seq nat) -> R),
  0 <= u -> 0 <= c -> 0 <= d -> accurate (u%:C)%C A -> accurate u B -> accurate_sqrt u f_sqrt -> accurate_dot (u%:C)%C f_dot ->
  accurate_sum u f_check -> right_search f_search -> cis_ok cis -> accurate_cis c cis f_cis ->
  (0 < m)%N -> svd M = Ok (V, sv, U) -> near_svd m d M0 V sv U -> subunitary m M0 -> (0 < N)%N -> 0 <= eta <= 1 ->
  (9 * (sumn s).+1 + 4)%:R * u <= (2%:R ^+ 27)^-1 ->
  always (fun r => exists2 d, r = Ok d & d \in S) (rand m) ->
  (forall f, has_exp (on_ok f) (rand m) (\sum_(d <- S) W d * f d)) ->
  (forall L, 0 <= f L <= 1) ->
  exists v, has_exp (on_ok (fun y => f y.1)) (fl_uniform_simulate A B f_sqrt f_dot svd f_cis rand N f_check f_search s k (Uniform M m eta)) v /\
    `|v - iid_exp (lcomps m (sumn s)) (uniform_law cis m M0 (sumn s) eta S W) k f| <=
      k%:R * uniform_error u c (lossy_error u d m) N m (sumn s).
Proof.
move=> R u c d A B f_sqrt f_dot cis f_cis svd f_check f_search m M M0 V U sv N s rand eta S W k f u0 c0 d0 aA aB aS aD aC sr ok acis m0 eM nM su N0 e01 small HA HE f01.
have [v [h _ e]] := fl_uniform_simulate_exp u0 c0 d0 aA aB aS aD aC sr ok acis m0 eM nM su N0 e01 small HA HE k f01.
by exists v.
Qed.

Lemma C85_uniform_always_lemma :
  forall (R : rcfType) (u c d : R) (A : arith (ComplexField.complex_numFieldType R)) (B : arith R) (f_sqrt : R -> R) (f_dot : seq (ComplexField.complex_numFieldType R) -> seq (ComplexField.complex_numFieldType R) -> (ComplexField.complex_numFieldType R)) (cis f_cis : R -> (ComplexField.complex_numFieldType R))
    (svd : (seq (seq (ComplexField.complex_numFieldType R))) -> res ((seq (seq (ComplexField.complex_numFieldType R))) * seq R * (seq (seq (ComplexField.complex_numFieldType R))))) (f_check : seq R -> R) (f_search : R -> seq R -> nat) (m : nat) (M M0 V U : (seq (seq (ComplexField.complex_numFieldType R)))) (sv : seq R)
    (N : nat) (s : seq nat) (rand : nat -> rprog R (res (seq R))) (eta : R) (k : nat),
  0 <= u -> 0 <= c -> 0 <= d -> accurate (u%:C)%C A -> accurate u B -> accurate_sqrt u f_sqrt -> accurate_dot (u%:C)%C f_dot ->
  accurate_sum u f_check -> right_search f_search -> cis_ok cis -> accurate_cis c cis f_cis ->
  (0 < m)%N -> svd M = Ok (V, sv, U) -> near_svd m d M0 V sv U -> subunitary m M0 -> (0 < N)%N -> 0 <= eta <= 1 ->
  (9 * (sumn s).+1 + 4)%:R * u <= (2%:R ^+ 27)^-1 ->
  always (fun r => exists d, r = Ok d) (rand m) ->
  always (fun y => exists L, [/\ y = Ok (L, Uniform M m eta), size L = k & forall t, t \in L -> size t = m /\ (sumn t <= (sumn s).+1)%N])
    (fl_uniform_simulate A B f_sqrt f_dot svd f_cis rand N f_check f_search s k (Uniform M m eta)).
Proof.
move=> R u c d A B f_sqrt f_dot cis f_cis svd f_check f_search m M M0 V U sv N s rand eta k u0 c0 d0 aA aB aS aD aC sr ok acis m0 eM nM su N0 e01 small HA.
exact: (fl_uniform_simulate_always A f_cis u0 c0 d0 aB aS aD aC sr m0 eM nM su N0 e01 small k HA).
Qed.
