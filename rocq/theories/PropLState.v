(* Property theorems: C41, C44, C45, C55, C56 (lossy state strategy).  Only statements; proofs elsewhere. *)
From mathcomp Require Import all_ssreflect all_algebra complex ring zify.
From Verif Require Import Base SpecStates Combi SpecPerm SpecBS BsMath BsComb BsNorm ModelStates ModelPerm ModelDist SpecProb ProbMath ModelGcc ModelGccB SpecGcc ModelNet SpecNet ModelBobs SpecBobs ModelLState SpecLState LemBobs LemLState.
Set Implicit Arguments.
Unset Strict Implicit.
Unset Printing Implicit Defensive.
Import Order.TTheory GRing.Theory Num.Theory.
Local Open Scope ring_scope.
Local Open Scope py_scope.

(* C41: every number of samples, every positive number of threads *)
Theorem C41_lossy_state_split :
  forall (samples threads : nat), (0 < threads)%N ->
  exists L, [/\ distribute_uniformly samples threads = Ok L, size L = threads, sumn L = samples
    & forall x y, x \in L -> y \in L -> (x <= y.+1)%N].
Proof. exact C41_lossy_state_split_lemma. Qed.
Print Assumptions C41_lossy_state_split.

Example C41_split_example : distribute_uniformly 10 4 = Ok [:: 3; 3; 2; 2]%N.
Proof. by []. Qed.

(* C41, C55: no run raises, exactly c samples are returned, with at most the particles of the input, and the object may be used again; numpy's draws *)
Theorem C41_lossy_state_samples :
  forall (R : rcfType) (H : eqType) (hash : seq nat -> H) (cis : R -> (ComplexField.complex_numFieldType R)) (m h : nat) (U : seq (seq (ComplexField.complex_numFieldType R))) (eta : R) (s : seq nat) (x : lstate R) (fuel : nat) (c : int),
  cis_ok cis -> unitary m U -> size s = m -> lstate_of cis m U h eta x -> 0 <= eta <= 1 ->
  no_collision hash (take h s) ->
  (0 < h)%N -> (h < m)%N -> all (fun n => n <= 1)%N (take h s) -> (2 ^ h * (sumn (drop h s)).+1 <= fuel)%N -> 1 <= c ->
  always (fun r => exists L x', [/\ r = Ok (L, x'), size L = `|c|%N,
      forall t, t \in L -> (size t == m) && (sumn t <= sumn s)%N & lstate_of cis m U h eta x'])
    (lstate_simulate hash cis (@np_rand R) (@np_shuffle R) fuel s c x).
Proof. exact C41_lossy_state_samples_lemma. Qed.
Print Assumptions C41_lossy_state_samples.

(* C41: the non-uniform strategy never returns the requested number of samples *)
Theorem C41_nonuniform_samples_refuted :
  forall (R : rcfType) (svd : seq (seq (ComplexField.complex_numFieldType R)) -> res (seq (seq (ComplexField.complex_numFieldType R)) * seq R * seq (seq (ComplexField.complex_numFieldType R)))) (cis : R -> (ComplexField.complex_numFieldType R)) (m : nat) (M : seq (seq (ComplexField.complex_numFieldType R))) (fuel : nat) (s : seq nat) (x : bobs R) (c : int),
  svd_ok svd -> cis_ok cis -> (0 < m)%N -> subunitary m M -> (exists i j, [/\ (i < m)%N, (j < m)%N & ent M i j != 0]) ->
  size s = m -> bobs_of svd m M x -> (0 < bo_threads x)%N ->
  (forall s', s' \in approx_inputs (bo_modes x) (bo_particles x + sumn (take (bo_modes x) s)) s -> (\prod_(y <- s') y.+1 <= fuel)%N) ->
  (1 <= c)%R ->
  always (fun r => exists2 z, r = Ok z & size z.1 <> `|c|%N) (bobs_simulate svd cis (@np_rand R) fuel s c x).
Proof. exact C41_nonuniform_samples_refuted_lemma. Qed.
Print Assumptions C41_nonuniform_samples_refuted.

(* C44: every lossy variant of the part p once, with its weight; the sum of the weights is the product over the modes *)
Theorem C44_weights :
  forall (R : rcfType) (H : eqType) (hash : seq nat -> H) (p : seq nat) (eta : R), no_collision hash p ->
  exists L, [/\ exact_parts hash p = Ok L, uniq L, (forall K, (K \in L) = substate K p),
     exact_weights eta L = Ok [seq left_weight eta p K | K <- L]
   & \sum_(K <- L) left_weight eta p K = \prod_(k <- p) \sum_(l < k.+1) eta ^+ l * (1 - eta) ^+ (k - l)].
Proof. exact C44_weights_lemma. Qed.
Print Assumptions C44_weights.

(* C44: at most one particle in every mode *)
Theorem C44_distribution :
  forall (R : rcfType) (H : eqType) (hash : seq nat -> H) (p : seq nat) (eta : R) L ws, no_collision hash p -> 0 <= eta <= 1 -> all (fun k => k <= 1)%N p ->
  exact_parts hash p = Ok L -> exact_weights eta L = Ok ws -> is_distr ws.
Proof. exact C44_distribution_lemma. Qed.
Print Assumptions C44_distribution.

(* C44: some mode holds two particles or more *)
Theorem C44_distribution_bunched_refuted :
  forall (R : rcfType) (H : eqType) (hash : seq nat -> H) (p : seq nat) (eta : R) L ws, no_collision hash p -> 0 < eta < 1 -> has (fun k => 1 < k)%N p ->
  exact_parts hash p = Ok L -> exact_weights eta L = Ok ws -> \sum_(w <- ws) w < 1.
Proof. exact C44_distribution_bunched_refuted_lemma. Qed.
Print Assumptions C44_distribution_bunched_refuted.

Example C44_example (R : rcfType) : exists L ws, (* two particles in a mode, each lost with probability 1/2 *)
  [/\ exact_parts id [:: 2]%N = Ok L, exact_weights (2%:R^-1 : R) L = Ok ws & \sum_(w <- ws) w = 3%:R / 4%:R].
Proof.
have inj : no_collision id [:: 2]%N by move=> t t' _ _.
have [L [e1 _ _ e2 e3]] := C44_weights (2%:R^-1 : R) inj; exists L, [seq left_weight (2%:R^-1) [:: 2]%N K | K <- L].
by split=> //; rewrite big_map e3 big_seq1 !big_ord_recl big_ord0 /=; field.
Qed.

(* C44: when the weights miss 1 by more than numpy's tolerance every run raises ValueError; numpy's draws *)
Theorem C44_bunched_raises :
  forall (R : rcfType) (H : eqType) (hash : seq nat -> H) (cis : R -> (ComplexField.complex_numFieldType R)) (m h : nat) (U : seq (seq (ComplexField.complex_numFieldType R))) (eta : R) (s : seq nat) (x : lstate R) (fuel : nat) (c : int),
  cis_ok cis -> unitary m U -> size s = m -> lstate_of cis m U h eta x -> 0 <= eta <= 1 ->
  no_collision hash (take h s) ->
  (h <= m)%N -> 1 <= c ->
  @choice_tol R < 1 - \sum_(K <- subs (take h s)) left_weight eta (take h s) K ->
  always (fun r => r = Err ValueError) (lstate_simulate hash cis (@np_rand R) (@np_shuffle R) fuel s c x).
Proof. exact C44_bunched_raises_lemma. Qed.
Print Assumptions C44_bunched_raises.

(* C45: the levels from 0 to the number of modes are accepted *)
Theorem C45_new_object :
  forall (R : rcfType) (cis : R -> (ComplexField.complex_numFieldType R)) (m h : nat) (U : seq (seq (ComplexField.complex_numFieldType R))) (eta : R) (cpu : nat) (a : any_calc (ComplexField.complex_numFieldType R)) (threads : int),
  calc_matrix a = U -> size (calc_input a) = m -> (h <= m)%N -> (0 < cpu)%N ->
  exists x, [/\ new_lstate cis cpu a eta (Posz h) threads = Ok x, lstate_of cis m U h eta x
    & ls_threads x = (if (1 <= threads) && (threads <= Posz cpu) then `|threads|%N else cpu)].
Proof. exact C45_new_object_lemma. Qed.
Print Assumptions C45_new_object.

(* C45: a level above the number of modes, or below 0 (two modes or more), makes the constructor raise *)
Theorem C45_wrong_level :
  forall (R : rcfType) (cis : R -> (ComplexField.complex_numFieldType R)) (eta : R) (cpu : nat) (a : any_calc (ComplexField.complex_numFieldType R)) (level threads : int),
  (Posz (size (calc_input a)) < level) \/ (level < 0 /\ (0 < size (calc_input a))%N) ->
  new_lstate cis cpu a eta level threads = Err ValueError.
Proof. exact C45_wrong_level_lemma. Qed.
Print Assumptions C45_wrong_level.

(* C45: at the levels 0 and m every run raises TypeError; numpy's draws *)
Theorem C45_exact_at_extreme_levels_refuted :
  forall (R : rcfType) (H : eqType) (hash : seq nat -> H) (cis : R -> (ComplexField.complex_numFieldType R)) (m h : nat) (U : seq (seq (ComplexField.complex_numFieldType R))) (eta : R) (s : seq nat) (x : lstate R) (fuel : nat) (c : int),
  cis_ok cis -> unitary m U -> size s = m -> lstate_of cis m U h eta x -> 0 <= eta <= 1 ->
  no_collision hash (take h s) ->
  (0 < m)%N -> (h == 0%N) || (h == m) -> 1 <= c -> all (fun n => n <= 1)%N (take h s) ->
  always (fun r => r = Err TypeError) (lstate_simulate hash cis (@np_rand R) (@np_shuffle R) fuel s c x).
Proof. exact C45_exact_at_extreme_levels_refuted_lemma. Qed.
Print Assumptions C45_exact_at_extreme_levels_refuted.

(* C55: the permutation is uniform among the n! ones *)
Theorem C55_shuffle :
  forall (R : rcfType) (n : nat) (f : seq nat -> R), (0 < n)%N ->
  has_exp (on_ok f) (@np_shuffle R (iota 0 n)) ((\sum_(q <- permutations (iota 0 n)) f q) / n`!%:R).
Proof. exact C55_shuffle_lemma. Qed.
Print Assumptions C55_shuffle.

(* C55: for draws of the phases which take the values in S with the probabilities W; in particular given fixed phases d, with S = [:: d] *)
Theorem C55_law :
  forall (R : rcfType) (H : eqType) (hash : seq nat -> H) (cis : R -> (ComplexField.complex_numFieldType R)) (m h : nat) (U : seq (seq (ComplexField.complex_numFieldType R))) (eta : R) (s : seq nat) (x : lstate R) (fuel : nat) (c : int)
    (rand : nat -> rprog R (res (seq R))) (S : seq (seq R)) (W : seq R -> R),
  cis_ok cis -> unitary m U -> size s = m -> lstate_of cis m U h eta x -> 0 <= eta <= 1 ->
  no_collision hash (take h s) ->
  (0 < h)%N -> (h < m)%N -> all (fun n => n <= 1)%N (take h s) -> (2 ^ h * (sumn (drop h s)).+1 <= fuel)%N -> 1 <= c ->
  always (fun r => exists2 d, r = Ok d & d \in S) (rand (m - h)%N) ->
  (forall f, has_exp (on_ok f) (rand (m - h)%N) (\sum_(d <- S) W d * f d)) ->
  iid_samples (lstate_simulate hash cis rand (@np_shuffle R) fuel s c x) `|c|
    [pred t | (size t == m) && (sumn t <= sumn s)%N] (lstate_law cis m h U eta s S W).
Proof. exact C55_law_lemma. Qed.
Print Assumptions C55_law.

(* C56: three modes, level 1, the identity network without losses, one particle in each of the modes 0 and 1, fixed phases d.  Both particles come out in the mode 0 with probability 1/3; with the phases and the Fourier matrix on the modes 1 and 2 this is impossible, whatever the permutation and the phases *)
Theorem C56_modes_left_alone_refuted :
  forall (R : rcfType) (H : eqType) (hash : seq nat -> H) (cis : R -> (ComplexField.complex_numFieldType R)) (x : lstate R) (fuel : nat) (d : seq R),
  let U := np_eye (ComplexField.complex_numFieldType R) 3 in let s := [:: 1; 1; 0]%N in let t := [:: 2; 0; 0]%N in
  cis_ok cis -> lstate_of cis 3 U 1 1 x -> no_collision hash [:: 1]%N -> (4 <= fuel)%N ->
  has_exp (on_ok (fun z => (z.1 == [:: t])%:R))
    (lstate_simulate hash cis (fun=> Ret (Ok d)) (@np_shuffle R) fuel s 1 x) 3%:R^-1
  /\ forall sigma d', sigma \in permutations (iota 0 3) ->
       lstate_prob 1 3 1 (intended_net cis 3 1 (permuted 3 U sigma) d') s t = 0.
Proof. exact C56_modes_left_alone_refuted_lemma. Qed.
Print Assumptions C56_modes_left_alone_refuted.

Example C56_example (R : rcfType) (cis : R -> (ComplexField.complex_numFieldType R)) : exists x, (* the object of the theorem can be built *)
  lstate_of cis 3 (np_eye (ComplexField.complex_numFieldType R) 3) 1 1 x /\ no_collision id [:: 1]%N.
Proof.
pose a : any_calc (ComplexField.complex_numFieldType R) := generate_calculator (CalcFactory (np_eye (ComplexField.complex_numFieldType R) 3) [:: 1; 1; 0]%N [::] RYSER).
have [x [_ ox _]] := @C45_new_object_lemma R cis 3 1 _ 1 1 a 1 erefl erefl isT isT.
by exists x; split=> // t t' _ _.
Qed.
