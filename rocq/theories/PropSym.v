(* Property theorems: C64-C69 (other labels, phases, reversal, composition, losses behind the network, mean numbers, zero transmission, networks side by side).  Only statements; proofs elsewhere. *)
From mathcomp Require Import all_ssreflect all_algebra complex ring zify.
From Verif Require Import Base SpecStates Combi SpecPerm SpecBS ModelStates ModelPerm ModelDist ProofDist1 SpecProb ModelGcc ModelGccB ModelNet SpecNet SpecGcc SpecSym Witness LemSym.
Set Implicit Arguments.
Unset Strict Implicit.
Unset Printing Implicit Defensive.
Import Order.TTheory GRing.Theory Num.Theory.
Local Open Scope ring_scope.
Local Open Scope py_scope.

(* C64: the modes in another order, the inputs and the outputs independently: every permanent calculator returns the same value *)
Theorem C64_relabelled_permanent :
  forall (F : numFieldType) (gray : nat -> seq nat) (fuel m : nat) (U : seq (seq F)) (sigma tau s t : seq nat) (k k' : calc_type),
  is_square m U -> size s = m -> size t = m -> (0 < m)%N -> sumn s = sumn t -> perm_eq sigma (iota 0 m) -> perm_eq tau (iota 0 m) ->
  ((0 < sumn s)%N -> is_gray_code (sumn s - 1) (gray (sumn s - 1)%N)) -> (\prod_(x <- s) x.+1 <= fuel)%N ->
  rmap fst (compute_any gray fuel (generate_calculator (CalcFactory (relabel_mx tau sigma U) (relabel sigma s) (relabel tau t) k))) =
  rmap fst (compute_any gray fuel (generate_calculator (CalcFactory U s t k'))).
Proof. exact C64_relabelled_permanent_lemma. Qed.
Print Assumptions C64_relabelled_permanent.

Example C64_example : (* three modes, the inputs rotated, two outputs exchanged *)
  let U := [:: [:: 1; 2%:R; 3%:R]; [:: 4%:R; 5%:R; 6%:R]; [:: 7%:R; 8%:R; 0]] : seq (seq rat) in
  let P U s t := rmap fst (compute_any reflected_gray 20 (generate_calculator (CalcFactory U s t RYSER))) in
  [/\ relabel [:: 2; 0; 1]%N [:: 1; 2; 0]%N = [:: 0; 1; 2]%N,
      relabel_mx [:: 1; 0; 2]%N [:: 2; 0; 1]%N U = [:: [:: 6%:R; 4%:R; 5%:R]; [:: 3%:R; 1; 2%:R]; [:: 0; 7%:R; 8%:R]],
      P U [:: 1; 2; 0]%N [:: 0; 1; 2]%N = Ok 1632%:R
    & P (relabel_mx [:: 1; 0; 2]%N [:: 2; 0; 1]%N U) [:: 0; 1; 2]%N [:: 1; 0; 2]%N = Ok 1632%:R].
Proof. by split; vm_compute. Qed.

(* C64: so do the exact calculators with a fixed number of losses, for every list of outcomes *)
Theorem C64_relabelled_fixed :
  forall (R : rcfType) (H : eqType) (hash : seq nat -> H) (gray : nat -> seq nat) (fuel m : nat) (U : seq (seq (ComplexField.complex_numFieldType R))) (sigma tau s : seq nat) (eta : R) (lost : int) (l : nat) (a a' : any_calc (ComplexField.complex_numFieldType R)) (ts : seq (seq nat)),
  is_square m U -> size s = m -> (0 < m)%N -> gray_ok gray (sumn s) -> (\prod_(x <- s) x.+1 <= fuel)%N -> perm_eq sigma (iota 0 m) -> perm_eq tau (iota 0 m) ->
  (forall t t', substate t s -> substate t' s -> hash t = hash t' -> t = t') -> (forall t t', substate t (relabel sigma s) -> substate t' (relabel sigma s) -> hash t = hash t' -> t = t') ->
  (l <= sumn s)%N -> all (is_state m l) ts ->
  exists P b b', fixed_probabilities hash gray fuel (Config U s (sumn s) m lost l eta) a ts = Ok (P, b) /\
  fixed_probabilities hash gray fuel (Config (relabel_mx tau sigma U) (relabel sigma s) (sumn s) m lost l eta) a' (map (relabel tau) ts) = Ok (P, b').
Proof. exact C64_relabelled_fixed_lemma. Qed.
Print Assumptions C64_relabelled_fixed.

(* C64: and those with uniform losses *)
Theorem C64_relabelled_uniform :
  forall (R : rcfType) (H : eqType) (hash : seq nat -> H) (gray : nat -> seq nat) (fuel m : nat) (U : seq (seq (ComplexField.complex_numFieldType R))) (sigma tau s : seq nat) (eta : R) (lost : int) (left : nat) (a a' : any_calc (ComplexField.complex_numFieldType R)) (ts : seq (seq nat)),
  is_square m U -> size s = m -> (0 < m)%N -> gray_ok gray (sumn s) -> (\prod_(x <- s) x.+1 <= fuel)%N -> perm_eq sigma (iota 0 m) -> perm_eq tau (iota 0 m) ->
  (forall t t', substate t s -> substate t' s -> hash t = hash t' -> t = t') -> (forall t t', substate t (relabel sigma s) -> substate t' (relabel sigma s) -> hash t = hash t' -> t = t') ->
  all (fun t => (size t == m) && (sumn t <= sumn s)%N) ts ->
  uniform_probabilities hash gray fuel (new_uniform_calc (Config (relabel_mx tau sigma U) (relabel sigma s) (sumn s) m lost left eta) a') (map (relabel tau) ts) =
  uniform_probabilities hash gray fuel (new_uniform_calc (Config U s (sumn s) m lost left eta) a) ts.
Proof. exact C64_relabelled_uniform_lemma. Qed.
Print Assumptions C64_relabelled_uniform.

(* C64: the relabelled network with the relabelled input samples every list of relabelled outcomes as often as the network samples the list of outcomes *)
Theorem C64_relabelled_sampler :
  forall (R : rcfType) (gray : nat -> seq nat) (fuel m : nat) (U : seq (seq (ComplexField.complex_numFieldType R))) (sigma tau s : seq nat) (k : nat) (g g' : gcc R) (L : seq (seq nat)),
  unitary_on m U s -> size s = m -> gray_ok gray (sumn s) -> (\prod_(x <- s) x.+1 <= fuel)%N -> perm_eq sigma (iota 0 m) -> perm_eq tau (iota 0 m) ->
  calc_matrix (g_calc g) = U -> calc_matrix (g_calc g') = relabel_mx tau sigma U -> all (fun t => size t == m) L ->
  exists2 v, has_exp (on_ok (fun x => (x.1 == L)%:R)) (gcc_simulate gray fuel s k g) v
    & has_exp (on_ok (fun x => (x.1 == map (relabel tau) L)%:R)) (gcc_simulate gray fuel (relabel sigma s) k g') v.
Proof. exact C64_relabelled_sampler_lemma. Qed.
Print Assumptions C64_relabelled_sampler.

(* C64: phases in front of and behind the network: the calculators with a fixed number of losses return the same probabilities *)
Theorem C64_phases_fixed :
  forall (R : rcfType) (H : eqType) (hash : seq nat -> H) (gray : nat -> seq nat) (fuel m : nat) (U : seq (seq (ComplexField.complex_numFieldType R))) (x y : nat -> (ComplexField.complex_numFieldType R)) (s : seq nat) (eta : R) (lost : int) (l : nat) (a a' : any_calc (ComplexField.complex_numFieldType R)) (ts : seq (seq nat)),
  is_square m U -> size s = m -> (0 < m)%N -> gray_ok gray (sumn s) -> (\prod_(x <- s) x.+1 <= fuel)%N -> (forall i, (i < m)%N -> nsq (x i) = 1) -> (forall i, (i < m)%N -> nsq (y i) = 1) ->
  (forall t t', substate t s -> substate t' s -> hash t = hash t' -> t = t') ->
  (l <= sumn s)%N -> all (is_state m l) ts ->
  exists P b b', fixed_probabilities hash gray fuel (Config U s (sumn s) m lost l eta) a ts = Ok (P, b) /\
  fixed_probabilities hash gray fuel (Config (phased m x y U) s (sumn s) m lost l eta) a' ts = Ok (P, b').
Proof. exact C64_phases_fixed_lemma. Qed.
Print Assumptions C64_phases_fixed.

(* C64: those with uniform losses too *)
Theorem C64_phases_uniform :
  forall (R : rcfType) (H : eqType) (hash : seq nat -> H) (gray : nat -> seq nat) (fuel m : nat) (U : seq (seq (ComplexField.complex_numFieldType R))) (x y : nat -> (ComplexField.complex_numFieldType R)) (s : seq nat) (eta : R) (lost : int) (left : nat) (a a' : any_calc (ComplexField.complex_numFieldType R)) (ts : seq (seq nat)),
  is_square m U -> size s = m -> (0 < m)%N -> gray_ok gray (sumn s) -> (\prod_(x <- s) x.+1 <= fuel)%N -> (forall i, (i < m)%N -> nsq (x i) = 1) -> (forall i, (i < m)%N -> nsq (y i) = 1) ->
  (forall t t', substate t s -> substate t' s -> hash t = hash t' -> t = t') ->
  all (fun t => (size t == m) && (sumn t <= sumn s)%N) ts ->
  uniform_probabilities hash gray fuel (new_uniform_calc (Config (phased m x y U) s (sumn s) m lost left eta) a') ts =
  uniform_probabilities hash gray fuel (new_uniform_calc (Config U s (sumn s) m lost left eta) a) ts.
Proof. exact C64_phases_uniform_lemma. Qed.
Print Assumptions C64_phases_uniform.

(* C64: and the sampler of the network with phases follows the law of the network *)
Theorem C64_phases_sampler :
  forall (R : rcfType) (gray : nat -> seq nat) (fuel m : nat) (U : seq (seq (ComplexField.complex_numFieldType R))) (x y : nat -> (ComplexField.complex_numFieldType R)) (s : seq nat) (k : nat) (g : gcc R),
  unitary_on m U s -> size s = m -> gray_ok gray (sumn s) -> (\prod_(x <- s) x.+1 <= fuel)%N -> (forall i, (i < m)%N -> nsq (x i) = 1) -> (forall i, (i < m)%N -> nsq (y i) = 1) ->
  calc_matrix (g_calc g) = phased m x y U ->
  iid_samples (gcc_simulate gray fuel s k g) k (is_state m (sumn s)) (bs_prob U s).
Proof. exact C64_phases_sampler_lemma. Qed.
Print Assumptions C64_phases_sampler.

(* C64: the conjugate transpose with input and output exchanged has the conjugate permanent *)
Theorem C64_reversed_permanent :
  forall (R : rcfType) (gray : nat -> seq nat) (fuel m : nat) (U : seq (seq (ComplexField.complex_numFieldType R))) (s t : seq nat) (k k' : calc_type),
  is_square m U -> size s = m -> size t = m -> (0 < m)%N -> sumn s = sumn t ->
  ((0 < sumn s)%N -> is_gray_code (sumn s - 1) (gray (sumn s - 1)%N)) -> (\prod_(x <- s) x.+1 <= fuel)%N -> (\prod_(x <- t) x.+1 <= fuel)%N ->
  rmap fst (compute_any gray fuel (generate_calculator (CalcFactory (reversed m U) t s k))) =
  rmap conjc (rmap fst (compute_any gray fuel (generate_calculator (CalcFactory U s t k')))).
Proof. exact C64_reversed_permanent_lemma. Qed.
Print Assumptions C64_reversed_permanent.

(* C64: hence without losses going back through the network is as probable as going through it *)
Theorem C64_reversed_probability :
  forall (R : rcfType) (H : eqType) (hash : seq nat -> H) (gray : nat -> seq nat) (fuel m : nat) (U : seq (seq (ComplexField.complex_numFieldType R))) (s t : seq nat) (eta eta' : R) (lost lost' : int) (a a' : any_calc (ComplexField.complex_numFieldType R)),
  is_square m U -> size s = m -> size t = m -> (0 < m)%N -> sumn s = sumn t -> gray_ok gray (sumn s) -> (\prod_(x <- s) x.+1 <= fuel)%N -> (\prod_(x <- t) x.+1 <= fuel)%N ->
  (forall t t', substate t s -> substate t' s -> hash t = hash t' -> t = t') -> (forall r r', substate r t -> substate r' t -> hash r = hash r' -> r = r') ->
  exists p b b', fixed_probabilities hash gray fuel (Config U s (sumn s) m lost (sumn s) eta) a [:: t] = Ok ([:: p], b) /\
  fixed_probabilities hash gray fuel (Config (reversed m U) t (sumn t) m lost' (sumn t) eta') a' [:: s] = Ok ([:: p], b').
Proof. exact C64_reversed_probability_lemma. Qed.
Print Assumptions C64_reversed_probability.

(* C65: the amplitudes of two networks one after the other are the sum over the states between them, which generate_possible_states lists, of the products of the amplitudes *)
Theorem C65_composition :
  forall (F : numFieldType) (gray : nat -> seq nat) (m : nat) (U V : seq (seq F)) (s t : seq nat),
  is_square m U -> is_square m V -> size s = m -> size t = m -> (0 < m)%N -> sumn s = sumn t ->
  ((0 < sumn s)%N -> is_gray_code (sumn s - 1) (gray (sumn s - 1)%N)) ->
  exists (L : seq (seq nat)) (f0 : nat), forall fuel, (f0 <= fuel)%N ->
  generate_possible_states fuel (Posz (sumn s)) (Posz m) false = Ok L /\
  forall k k1 k2 : calc_type, exists x y : seq nat -> F,
  [/\ forall r, r \in L -> rmap fst (compute_any gray fuel (generate_calculator (CalcFactory V s r k1))) = Ok (x r),
      forall r, r \in L -> rmap fst (compute_any gray fuel (generate_calculator (CalcFactory U r t k2))) = Ok (y r)
    & rmap fst (compute_any gray fuel (generate_calculator (CalcFactory (product m U V) s t k))) = Ok (\sum_(r <- L) y r * x r / (factprod r)%:R)].
Proof. exact C65_composition_lemma. Qed.
Print Assumptions C65_composition.

Example C65_example : (* the sum over the three states of two particles in two modes *)
  let U := [:: [:: 1; 2%:R]; [:: 3%:R; 4%:R]] : seq (seq rat) in let V := [:: [:: 5%:R; 6%:R]; [:: 7%:R; 8%:R]] : seq (seq rat) in
  let P U s t := rmap fst (compute_any reflected_gray 20 (generate_calculator (CalcFactory U s t RYSER))) in
  [/\ product 2 U V = [:: [:: 19%:R; 22%:R]; [:: 43%:R; 50%:R]],
      [seq P V [:: 1; 1]%N r | r <- [:: [:: 2; 0]; [:: 1; 1]; [:: 0; 2]]%N] = [:: Ok 60%:R; Ok 82%:R; Ok 112%:R],
      [seq P U r [:: 1; 1]%N | r <- [:: [:: 2; 0]; [:: 1; 1]; [:: 0; 2]]%N] = [:: Ok 6%:R; Ok 10%:R; Ok 16%:R],
      P [:: [:: 19%:R; 22%:R]; [:: 43%:R; 50%:R]] [:: 1; 1]%N [:: 1; 1]%N = Ok 1896%:R
    & 6%:R * 60%:R / 2%:R + 10%:R * 82%:R + 16%:R * 112%:R / 2%:R = 1896%:R :> rat].
Proof.
split; [|by vm_compute|by vm_compute|by vm_compute|by apply/eqP; vm_compute].
by rewrite /product /mkseq /= !big_ord_recl !big_ord0 /ent /=; vm_compute.
Qed.

(* C66: losing particles at the output of the distribution which the calculator with fewer losses returns is what the calculator with more losses computes *)
Theorem C66_fixed_losses_behind :
  forall (R : rcfType) (H : eqType) (hash : seq nat -> H) (gray : nat -> seq nat) (m : nat) (U : seq (seq (ComplexField.complex_numFieldType R))) (s : seq nat) (eta : R) (lost : int) (l l' : nat) (a a' : any_calc (ComplexField.complex_numFieldType R)),
  unitary m U -> size s = m -> (0 < m)%N -> gray_ok gray (sumn s) ->
  (forall t t', substate t s -> substate t' s -> hash t = hash t' -> t = t') ->
  (l <= l')%N -> (l' <= sumn s)%N ->
  exists (L : seq (seq nat)) (f0 : nat), forall fuel, (f0 <= fuel)%N ->
  exists (P : seq R) b,
  [/\ fixed_outcomes fuel (Config U s (sumn s) m lost l' eta) = Ok L,
      fixed_distribution hash gray fuel (Config U s (sumn s) m lost l' eta) a = Ok (P, b)
    & forall ts, all (is_state m l) ts -> exists b',
      fixed_probabilities hash gray fuel (Config U s (sumn s) m lost l eta) a' ts =
      Ok ([seq (\sum_(x <- zip L P) (ways x.1 t)%:R * x.2) / 'C(l', l)%:R | t <- ts], b')].
Proof. exact C66_fixed_losses_behind_lemma. Qed.
Print Assumptions C66_fixed_losses_behind.

(* C66: uniform losses behind the network on top of those in it: the transmissivities multiply *)
Theorem C66_uniform_losses_behind :
  forall (R : rcfType) (H : eqType) (hash : seq nat -> H) (gray : nat -> seq nat) (m : nat) (U : seq (seq (ComplexField.complex_numFieldType R))) (s : seq nat) (e1 e2 : R) (lost : int) (left : nat) (a a' : any_calc (ComplexField.complex_numFieldType R)),
  unitary m U -> size s = m -> (0 < m)%N -> gray_ok gray (sumn s) ->
  (forall t t', substate t s -> substate t' s -> hash t = hash t' -> t = t') ->
  0 <= e1 <= 1 ->
  exists (L : seq (seq nat)) (f0 : nat), forall fuel, (f0 <= fuel)%N ->
  exists P : seq R,
  [/\ uniform_outcomes fuel (new_uniform_calc (Config U s (sumn s) m lost left e1) a) = Ok L,
      uniform_distribution hash gray fuel (new_uniform_calc (Config U s (sumn s) m lost left e1) a) = Ok P
    & forall ts, all (fun t => (size t == m) && (sumn t <= sumn s)%N) ts ->
      uniform_probabilities hash gray fuel (new_uniform_calc (Config U s (sumn s) m lost left (e1 * e2)) a') ts =
      Ok [seq \sum_(x <- zip L P) (ways x.1 t)%:R * e2 ^+ sumn t * (1 - e2) ^+ (sumn x.1 - sumn t) * x.2 | t <- ts]].
Proof. exact C66_uniform_losses_behind_lemma. Qed.
Print Assumptions C66_uniform_losses_behind.

(* C67: the mean number of particles in an output mode of the distribution with fixed losses *)
Theorem C67_fixed_mean :
  forall (R : rcfType) (H : eqType) (hash : seq nat -> H) (gray : nat -> seq nat) (m : nat) (U : seq (seq (ComplexField.complex_numFieldType R))) (s : seq nat) (eta : R) (lost : int) (l i : nat) (a : any_calc (ComplexField.complex_numFieldType R)),
  unitary m U -> size s = m -> (0 < m)%N -> gray_ok gray (sumn s) ->
  (forall t t', substate t s -> substate t' s -> hash t = hash t' -> t = t') ->
  (l <= sumn s)%N -> (i < m)%N ->
  exists (L : seq (seq nat)) (f0 : nat), forall fuel, (f0 <= fuel)%N ->
  exists (P : seq R) b,
  [/\ fixed_outcomes fuel (Config U s (sumn s) m lost l eta) = Ok L,
      fixed_distribution hash gray fuel (Config U s (sumn s) m lost l eta) a = Ok (P, b)
    & \sum_(x <- zip L P) (nth 0%N x.1 i)%:R * x.2 = l%:R / (sumn s)%:R * \sum_(j < m) (nth 0%N s j)%:R * nsq (ent U i j)].
Proof. exact C67_fixed_mean_lemma. Qed.
Print Assumptions C67_fixed_mean.

(* C67: with uniform losses *)
Theorem C67_uniform_mean :
  forall (R : rcfType) (H : eqType) (hash : seq nat -> H) (gray : nat -> seq nat) (m : nat) (U : seq (seq (ComplexField.complex_numFieldType R))) (s : seq nat) (eta : R) (lost : int) (left i : nat) (a : any_calc (ComplexField.complex_numFieldType R)),
  unitary m U -> size s = m -> (0 < m)%N -> gray_ok gray (sumn s) ->
  (forall t t', substate t s -> substate t' s -> hash t = hash t' -> t = t') ->
  0 <= eta <= 1 -> (i < m)%N ->
  exists (L : seq (seq nat)) (f0 : nat), forall fuel, (f0 <= fuel)%N ->
  exists P : seq R,
  [/\ uniform_outcomes fuel (new_uniform_calc (Config U s (sumn s) m lost left eta) a) = Ok L,
      uniform_distribution hash gray fuel (new_uniform_calc (Config U s (sumn s) m lost left eta) a) = Ok P
    & \sum_(x <- zip L P) (nth 0%N x.1 i)%:R * x.2 = eta * \sum_(j < m) (nth 0%N s j)%:R * nsq (ent U i j)].
Proof. exact C67_uniform_mean_lemma. Qed.
Print Assumptions C67_uniform_mean.

(* C67: the expected number of particles in an output mode, over all samples of a call *)
Theorem C67_sampler_mean :
  forall (R : rcfType) (gray : nat -> seq nat) (fuel m : nat) (U : seq (seq (ComplexField.complex_numFieldType R))) (s : seq nat) (k i : nat) (g : gcc R),
  unitary_on m U s -> size s = m -> gray_ok gray (sumn s) -> (\prod_(x <- s) x.+1 <= fuel)%N -> (i < m)%N ->
  calc_matrix (g_calc g) = U ->
  has_exp (on_ok (fun x => \sum_(t <- x.1) (nth 0%N t i)%:R)) (gcc_simulate gray fuel s k g)
    (k%:R * \sum_(j < m) (nth 0%N s j)%:R * nsq (ent U i j)).
Proof. exact C67_sampler_mean_lemma. Qed.
Print Assumptions C67_sampler_mean.

(* C67: of a call of the sampler with uniform losses *)
Theorem C67_uniform_sampler_mean :
  forall (R : rcfType) (fuel m : nat) (U : seq (seq (ComplexField.complex_numFieldType R))) (s : seq nat) (eta : R) (k i : nat) (x : ugccb R),
  unitary_on m U s -> size s = m -> (\prod_(x <- s) x.+1 <= fuel)%N -> 0 <= eta <= 1 -> (i < m)%N ->
  calc_matrix (b_calc (ub_b x)) = U -> ub_eta x = eta ->
  has_exp (on_ok (fun y => \sum_(t <- y.1) (nth 0%N t i)%:R)) (ugccb_simulate fuel s k x)
    (k%:R * (eta * \sum_(j < m) (nth 0%N s j)%:R * nsq (ent U i j))).
Proof. exact C67_uniform_sampler_mean_lemma. Qed.
Print Assumptions C67_uniform_sampler_mean.

(* C68: an input which does not change when the modes are rotated by q, and an output whose mode numbers, times q, do not add up to a multiple of the number of modes: the permanent for the Fourier matrix is 0 *)
Theorem C68_permanent :
  forall (R : rcfType) (cis : R -> (ComplexField.complex_numFieldType R)) (gray : nat -> seq nat) (fuel n q : nat) (s t : seq nat) (k : calc_type),
  cis_ok cis -> (0 < n)%N -> size s = n -> size t = n -> sumn s = sumn t ->
  (forall j, (j < n)%N -> nth 0%N s ((j + q) %% n)%N = nth 0%N s j) -> ~~ (n %| q * \sum_(i < n) i * nth 0%N t i)%N ->
  ((0 < sumn s)%N -> is_gray_code (sumn s - 1) (gray (sumn s - 1)%N)) -> (\prod_(x <- s) x.+1 <= fuel)%N ->
  rmap fst (compute_any gray fuel (generate_calculator (CalcFactory (compute_qft_matrix cis n) s t k))) = Ok 0.
Proof. exact C68_permanent_lemma. Qed.
Print Assumptions C68_permanent.

Example C68_example (R : rcfType) (cis : R -> ComplexField.complex_numFieldType R) : cis_ok cis -> (* Hong, Ou and Mandel *)
  rmap fst (compute_any reflected_gray 4 (generate_calculator (CalcFactory (compute_qft_matrix cis 2) [:: 1; 1]%N [:: 1; 1]%N RYSER))) = Ok 0.
Proof.
move=> ok; apply: (@C68_permanent R cis reflected_gray 4 2 1 [:: 1; 1]%N [:: 1; 1]%N RYSER ok) => //.
- by case=> [|[|]].
- by rewrite !big_ord_recl big_ord0.
by rewrite !big_cons big_nil.
Qed.

(* C68: the exact calculator returns probability 0 *)
Theorem C68_probability :
  forall (R : rcfType) (cis : R -> (ComplexField.complex_numFieldType R)) (H : eqType) (hash : seq nat -> H) (gray : nat -> seq nat) (fuel n q : nat) (s t : seq nat) (eta : R) (lost : int) (a : any_calc (ComplexField.complex_numFieldType R)),
  cis_ok cis -> (0 < n)%N -> size s = n -> size t = n -> sumn s = sumn t ->
  (forall j, (j < n)%N -> nth 0%N s ((j + q) %% n)%N = nth 0%N s j) -> ~~ (n %| q * \sum_(i < n) i * nth 0%N t i)%N ->
  gray_ok gray (sumn s) -> (\prod_(x <- s) x.+1 <= fuel)%N -> (forall t t', substate t s -> substate t' s -> hash t = hash t' -> t = t') ->
  exists b, fixed_probabilities hash gray fuel (Config (compute_qft_matrix cis n) s (sumn s) n lost (sumn s) eta) a [:: t] = Ok ([:: 0], b).
Proof. exact C68_probability_lemma. Qed.
Print Assumptions C68_probability.

(* C68: and no run of the sampler returns the outcome *)
Theorem C68_sampler :
  forall (R : rcfType) (cis : R -> (ComplexField.complex_numFieldType R)) (gray : nat -> seq nat) (fuel n q : nat) (s t : seq nat) (k : nat) (g : gcc R),
  cis_ok cis -> (0 < n)%N -> size s = n -> sumn s = sumn t ->
  (forall j, (j < n)%N -> nth 0%N s ((j + q) %% n)%N = nth 0%N s j) -> ~~ (n %| q * \sum_(i < n) i * nth 0%N t i)%N ->
  gray_ok gray (sumn s) -> (\prod_(x <- s) x.+1 <= fuel)%N -> calc_matrix (g_calc g) = (compute_qft_matrix cis n) ->
  always (fun x => exists L g', [/\ x = Ok (L, g'), size L = k & t \notin L]) (gcc_simulate gray fuel s k g).
Proof. exact C68_sampler_lemma. Qed.
Print Assumptions C68_sampler.

(* C69: two networks side by side: the permanent is the product, and 0 if particles have changed sides *)
Theorem C69_permanent :
  forall (F : numFieldType) (gray : nat -> seq nat) (fuel m1 m2 : nat) (A B : seq (seq F)) (s1 s2 t1 t2 : seq nat) (k k1 k2 : calc_type),
  is_square m1 A -> is_square m2 B -> (0 < m1)%N -> (0 < m2)%N -> size s1 = m1 -> size s2 = m2 -> size t1 = m1 -> size t2 = m2 -> (sumn s1 + sumn s2 = sumn t1 + sumn t2)%N ->
  gray_ok gray (sumn s1 + sumn s2) -> (\prod_(x <- s1 ++ s2) x.+1 <= fuel)%N ->
  rmap fst (compute_any gray fuel (generate_calculator (CalcFactory (side_by_side m1 m2 A B) (s1 ++ s2) (t1 ++ t2) k))) =
  (if sumn s1 == sumn t1 then
     let! x := rmap fst (compute_any gray fuel (generate_calculator (CalcFactory A s1 t1 k1))) in
     let! y := rmap fst (compute_any gray fuel (generate_calculator (CalcFactory B s2 t2 k2))) in Ok (x * y)
   else Ok 0).
Proof. exact C69_permanent_lemma. Qed.
Print Assumptions C69_permanent.

(* C69: without losses the probabilities multiply *)
Theorem C69_probability :
  forall (R : rcfType) (H : eqType) (hash : seq nat -> H) (gray : nat -> seq nat) (fuel m1 m2 : nat) (A B : seq (seq (ComplexField.complex_numFieldType R))) (s1 s2 t1 t2 : seq nat) (eta : R) (lost : int) (a a1 a2 : any_calc (ComplexField.complex_numFieldType R)),
  is_square m1 A -> is_square m2 B -> (0 < m1)%N -> (0 < m2)%N -> size s1 = m1 -> size s2 = m2 -> size t1 = m1 -> size t2 = m2 -> (sumn s1 + sumn s2 = sumn t1 + sumn t2)%N ->
  gray_ok gray (sumn s1 + sumn s2) -> (\prod_(x <- s1 ++ s2) x.+1 <= fuel)%N -> injective hash ->
  exists p b, fixed_probabilities hash gray fuel (Config (side_by_side m1 m2 A B) (s1 ++ s2) (sumn s1 + sumn s2) (m1 + m2) lost (sumn s1 + sumn s2) eta) a [:: t1 ++ t2] = Ok ([:: p], b) /\
  if sumn s1 == sumn t1 then exists p1 p2 b1 b2,
   [/\ fixed_probabilities hash gray fuel (Config A s1 (sumn s1) m1 lost (sumn s1) eta) a1 [:: t1] = Ok ([:: p1], b1),
       fixed_probabilities hash gray fuel (Config B s2 (sumn s2) m2 lost (sumn s2) eta) a2 [:: t2] = Ok ([:: p2], b2)
     & p = p1 * p2]
  else p = 0.
Proof. exact C69_probability_lemma. Qed.
Print Assumptions C69_probability.

(* C69: with uniform losses they multiply for all outcomes of the parts *)
Theorem C69_uniform_losses :
  forall (R : rcfType) (H : eqType) (hash : seq nat -> H) (gray : nat -> seq nat) (fuel m1 m2 : nat) (A B : seq (seq (ComplexField.complex_numFieldType R))) (s1 s2 t1 t2 : seq nat) (eta : R) (lost : int) (left : nat) (a a1 a2 : any_calc (ComplexField.complex_numFieldType R)),
  is_square m1 A -> is_square m2 B -> (0 < m1)%N -> (0 < m2)%N -> size s1 = m1 -> size s2 = m2 -> size t1 = m1 -> size t2 = m2 -> (sumn t1 <= sumn s1)%N -> (sumn t2 <= sumn s2)%N ->
  gray_ok gray (sumn s1 + sumn s2) -> (\prod_(x <- s1 ++ s2) x.+1 <= fuel)%N -> injective hash ->
  exists p1 p2,
  [/\ uniform_probabilities hash gray fuel (new_uniform_calc (Config A s1 (sumn s1) m1 lost left eta) a1) [:: t1] = Ok [:: p1],
      uniform_probabilities hash gray fuel (new_uniform_calc (Config B s2 (sumn s2) m2 lost left eta) a2) [:: t2] = Ok [:: p2]
    & uniform_probabilities hash gray fuel (new_uniform_calc (Config (side_by_side m1 m2 A B) (s1 ++ s2) (sumn s1 + sumn s2) (m1 + m2) lost left eta) a) [:: t1 ++ t2] = Ok [:: p1 * p2]].
Proof. exact C69_uniform_losses_lemma. Qed.
Print Assumptions C69_uniform_losses.
