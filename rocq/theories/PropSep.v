(* Property theorems: C62, C63 (the approximated lossy distribution calculator).  Only statements; proofs elsewhere. *)
From mathcomp Require Import all_ssreflect all_algebra complex ring zify.
From Verif Require Import Base SpecStates Combi SpecPerm SpecBS ModelStates ModelPerm ModelDist ProofDist1 SpecProb ModelGcc ModelGccB ModelNet SpecNet ModelBobs SpecSep ModelSep ProbMath LemNet Witness LemSep.
Set Implicit Arguments.
Unset Strict Implicit.
Unset Printing Implicit Defensive.
Import Order.TTheory GRing.Theory Num.Theory.
Local Open Scope ring_scope.
Local Open Scope py_scope.

(* C62: whatever the configuration, the constructor of the class raises *)
Theorem C62_no_object :
  forall (R : rcfType) (svd : seq (seq (ComplexField.complex_numFieldType R)) -> res (seq (seq (ComplexField.complex_numFieldType R)) * seq R * seq (seq (ComplexField.complex_numFieldType R)))) (cfg : config R) (a : any_calc (ComplexField.complex_numFieldType R)),
  new_sep svd (no_attrs R) cfg a = Err (if cf_matrix cfg is [::] then IndexError else AttributeError).
Proof. exact C62_no_object_lemma. Qed.
Print Assumptions C62_no_object.

(* C62: an object exists only after the user has added two attributes to the class and one to the configuration *)
Theorem C62_attributes :
  forall (R : rcfType) (svd : seq (seq (ComplexField.complex_numFieldType R)) -> res (seq (seq (ComplexField.complex_numFieldType R)) * seq R * seq (seq (ComplexField.complex_numFieldType R)))) (at_ : sep_attrs R) (cfg : config R) (a : any_calc (ComplexField.complex_numFieldType R)) x,
  new_sep svd at_ cfg a = Ok x ->
  [/\ at_modes at_ <> None, at_transmissivity at_ <> None & at_conf_modes at_ <> None].
Proof. exact C62_attributes_lemma. Qed.
Print Assumptions C62_attributes.

(* C62: even then calculate_distribution raises, unless a fourth attribute is added *)
Theorem C62_distribution_refuted :
  forall (R : rcfType) (H : eqType) (hash : seq nat -> H) (gray : nat -> seq nat) (fuel : nat)
    (cis : R -> (ComplexField.complex_numFieldType R)) (x : sep R), at_configuration (sp_attrs x) = None ->
  sep_distribution hash gray fuel cis (@np_rand R) x = Ret (Err AttributeError).
Proof. exact C62_distribution_refuted_lemma. Qed.
Print Assumptions C62_distribution_refuted.

(* C63: with the attributes, the object starts from the state with the particles of the first a - 1 modes in mode a - 1, followed by m empty modes *)
Theorem C63_initial_state :
  forall (R : rcfType) (svd : seq (seq (ComplexField.complex_numFieldType R)) -> res (seq (seq (ComplexField.complex_numFieldType R)) * seq R * seq (seq (ComplexField.complex_numFieldType R)))) (cis : R -> (ComplexField.complex_numFieldType R)) (m a : nat) (tau : R) (cfg : config R) (calc : any_calc (ComplexField.complex_numFieldType R)) (c : option (config R)),
  svd_ok svd -> cis_ok cis -> (0 < a <= m)%N ->
  is_square m (cf_matrix cfg) -> cf_modes cfg = m -> size (cf_state cfg) = m -> cf_particles cfg = sumn (cf_state cfg) ->
  subunitary m (scaled_columns m a tau (cf_matrix cfg)) ->
  exists x, [/\ new_sep svd (SepAttrs (Some a) (Some tau) (Some a) c) cfg calc = Ok x, sp_state x = bunched a (cf_state cfg) ++ nseq m 0%N
    & (sumn (sp_state x) + nth 0%N (cf_state cfg) a.-1 = sumn (cf_state cfg))%N].
Proof. exact C63_initial_state_lemma. Qed.
Print Assumptions C63_initial_state.

(* C63: the particles of mode a - 1 itself are dropped; then the probability of no outcome is computed *)
Theorem C63_particles_refuted :
  forall (R : rcfType) (svd : seq (seq (ComplexField.complex_numFieldType R)) -> res (seq (seq (ComplexField.complex_numFieldType R)) * seq R * seq (seq (ComplexField.complex_numFieldType R)))) (cis : R -> (ComplexField.complex_numFieldType R)) (m a : nat) (tau : R) (cfg : config R) (calc : any_calc (ComplexField.complex_numFieldType R)) (c : option (config R)) (H : eqType) (hash : seq nat -> H) (gray : nat -> seq nat) (t : seq nat) (ts : seq (seq nat)),
  svd_ok svd -> cis_ok cis -> (0 < a <= m)%N ->
  is_square m (cf_matrix cfg) -> cf_modes cfg = m -> size (cf_state cfg) = m -> cf_particles cfg = sumn (cf_state cfg) ->
  subunitary m (scaled_columns m a tau (cf_matrix cfg)) ->
  (0 < nth 0%N (cf_state cfg) a.-1)%N -> (0 < sumn (bunched a (cf_state cfg)))%N -> size t = m -> (sumn t <= sumn (cf_state cfg))%N ->
  exists f0 x, [/\ new_sep svd (SepAttrs (Some a) (Some tau) (Some a) c) cfg calc = Ok x, (sumn (sp_state x) < sumn (cf_state cfg))%N
    & forall fuel, (f0 <= fuel)%N -> always (fun r => r = Err UnboundLocalError)
        (sep_probabilities hash gray fuel cis (@np_rand R) x (t :: ts))].
Proof. exact C63_particles_refuted_lemma. Qed.
Print Assumptions C63_particles_refuted.

(* C63: otherwise every run returns the probabilities of all outcomes a hundred times, each time behind other phases and the Fourier transform applied to the first a modes of the output *)
Theorem C63_probabilities :
  forall (R : rcfType) (svd : seq (seq (ComplexField.complex_numFieldType R)) -> res (seq (seq (ComplexField.complex_numFieldType R)) * seq R * seq (seq (ComplexField.complex_numFieldType R)))) (cis : R -> (ComplexField.complex_numFieldType R)) (m a : nat) (tau : R) (cfg : config R) (calc : any_calc (ComplexField.complex_numFieldType R)) (c : option (config R)) (H : eqType) (hash : seq nat -> H) (gray : nat -> seq nat),
  svd_ok svd -> cis_ok cis -> (0 < a <= m)%N ->
  is_square m (cf_matrix cfg) -> cf_modes cfg = m -> size (cf_state cfg) = m -> cf_particles cfg = sumn (cf_state cfg) ->
  subunitary m (scaled_columns m a tau (cf_matrix cfg)) ->
  nth 0%N (cf_state cfg) a.-1 = 0%N -> gray_ok gray (sumn (cf_state cfg)) ->
  (forall t t', substate t (bunched a (cf_state cfg) ++ nseq m 0%N) -> substate t' (bunched a (cf_state cfg) ++ nseq m 0%N) -> hash t = hash t' -> t = t') ->
  exists f0 x, new_sep svd (SepAttrs (Some a) (Some tau) (Some a) c) cfg calc = Ok x /\
  forall fuel, (f0 <= fuel)%N -> forall ts, all (fun t => size t == m) ts ->
  always (fun r => exists As a', [/\ size As = 100%N,
      forall A, A \in As -> exists phi, dilation m m (rotated_rows cis m a phi (scaled_columns m a tau (cf_matrix cfg))) A
    & r = Ok (flatten [seq [seq if (sumn t <= sumn (cf_state cfg))%N then traced_prob m A (bunched a (cf_state cfg)) t else 0 | t <- ts]
                      | A <- As], a')])
    (sep_probabilities hash gray fuel cis (@np_rand R) x ts).
Proof. exact C63_probabilities_lemma. Qed.
Print Assumptions C63_probabilities.

(* C63: calculate_distribution, with the fourth attribute as well, does this for the outcomes of get_outcomes_in_proper_order, all states with the particles left, in descending order *)
Theorem C63_distribution :
  forall (R : rcfType) (svd : seq (seq (ComplexField.complex_numFieldType R)) -> res (seq (seq (ComplexField.complex_numFieldType R)) * seq R * seq (seq (ComplexField.complex_numFieldType R)))) (cis : R -> (ComplexField.complex_numFieldType R)) (m a : nat) (tau : R) (cfg : config R) (calc : any_calc (ComplexField.complex_numFieldType R)) (H : eqType) (hash : seq nat -> H) (gray : nat -> seq nat),
  svd_ok svd -> cis_ok cis -> (0 < a <= m)%N ->
  is_square m (cf_matrix cfg) -> cf_modes cfg = m -> size (cf_state cfg) = m -> cf_particles cfg = sumn (cf_state cfg) ->
  subunitary m (scaled_columns m a tau (cf_matrix cfg)) ->
  nth 0%N (cf_state cfg) a.-1 = 0%N -> gray_ok gray (sumn (cf_state cfg)) ->
  (forall t t', substate t (bunched a (cf_state cfg) ++ nseq m 0%N) -> substate t' (bunched a (cf_state cfg) ++ nseq m 0%N) -> hash t = hash t' -> t = t') ->
  exists f0 x L, [/\ new_sep svd (SepAttrs (Some a) (Some tau) (Some a) (Some cfg)) cfg calc = Ok x, sorted lexgt L,
    L =i [pred t | (size t == m) && (sumn t == cf_left cfg)]
  & forall fuel, (f0 <= fuel)%N -> sep_outcomes fuel x = Ok L /\
  always (fun r => exists As a', [/\ size As = 100%N,
      forall A, A \in As -> exists phi, dilation m m (rotated_rows cis m a phi (scaled_columns m a tau (cf_matrix cfg))) A
    & r = Ok (flatten [seq [seq if (sumn t <= sumn (cf_state cfg))%N then traced_prob m A (bunched a (cf_state cfg)) t else 0 | t <- L]
                      | A <- As], a')])
    (sep_distribution hash gray fuel cis (@np_rand R) x)].
Proof. exact C63_distribution_lemma. Qed.
Print Assumptions C63_distribution.

(* C63: the probabilities do not depend on the way D of completing the lossy matrix K *)
Theorem C63_outcome_independent :
  forall (R : rcfType) (m d d' : nat) (K D D' : seq (seq (ComplexField.complex_numFieldType R))) (w t : seq nat),
  dilation m d K D -> dilation m d' K D' -> size w = m -> size t = m -> (sumn t <= sumn w)%N ->
  traced_prob d D w t = traced_prob d' D' w t.
Proof. exact C63_outcome_independent_lemma. Qed.
Print Assumptions C63_outcome_independent.

(* C63: the numbers returned for all outcomes with at most as many particles add up to 100 and not to 1 *)
Theorem C63_normalisation_refuted :
  forall (R : rcfType) (svd : seq (seq (ComplexField.complex_numFieldType R)) -> res (seq (seq (ComplexField.complex_numFieldType R)) * seq R * seq (seq (ComplexField.complex_numFieldType R)))) (cis : R -> (ComplexField.complex_numFieldType R)) (m a : nat) (tau : R) (cfg : config R) (calc : any_calc (ComplexField.complex_numFieldType R)) (c : option (config R)) (H : eqType) (hash : seq nat -> H) (gray : nat -> seq nat) (L : seq (seq nat)),
  svd_ok svd -> cis_ok cis -> (0 < a <= m)%N ->
  is_square m (cf_matrix cfg) -> cf_modes cfg = m -> size (cf_state cfg) = m -> cf_particles cfg = sumn (cf_state cfg) ->
  subunitary m (scaled_columns m a tau (cf_matrix cfg)) ->
  nth 0%N (cf_state cfg) a.-1 = 0%N -> gray_ok gray (sumn (cf_state cfg)) ->
  (forall t t', substate t (bunched a (cf_state cfg) ++ nseq m 0%N) -> substate t' (bunched a (cf_state cfg) ++ nseq m 0%N) -> hash t = hash t' -> t = t') ->
  uniq L -> L =i [pred t | (size t == m) && (sumn t <= sumn (cf_state cfg))%N] ->
  exists f0 x, new_sep svd (SepAttrs (Some a) (Some tau) (Some a) c) cfg calc = Ok x /\
  forall fuel, (f0 <= fuel)%N ->
  always (fun r => exists P a', [/\ r = Ok (P, a'), size P = (100 * size L)%N & \sum_(p <- P) p = 100%:R])
    (sep_probabilities hash gray fuel cis (@np_rand R) x L).
Proof. exact C63_normalisation_refuted_lemma. Qed.
Print Assumptions C63_normalisation_refuted.

(* C63: a network of three modes, two of them approximated, without losses: the outcome that occurs with certainty is given probability 0 in every run *)
Theorem C63_wrong_side_refuted :
  forall (R : rcfType) (svd : seq (seq (ComplexField.complex_numFieldType R)) -> res (seq (seq (ComplexField.complex_numFieldType R)) * seq R * seq (seq (ComplexField.complex_numFieldType R)))) (cis : R -> (ComplexField.complex_numFieldType R)) (H : eqType) (hash : seq nat -> H) (gray : nat -> seq nat) (calc : any_calc (ComplexField.complex_numFieldType R)), svd_ok svd -> cis_ok cis ->
  (forall n, gray_ok gray n) -> injective hash ->
  exists (U : seq (seq (ComplexField.complex_numFieldType R))) (s t : seq nat) x f0, [/\ unitary 3 U, bs_prob U s t = 1,
    new_sep svd (SepAttrs (Some 2%N) (Some 1) (Some 2%N) None) (Config U s (sumn s) 3 0 (sumn s) 1) calc = Ok x
  & forall fuel, (f0 <= fuel)%N -> always (fun r => exists a', r = Ok (nseq 100 0, a'))
      (sep_probabilities hash gray fuel cis (@np_rand R) x [:: t])].
Proof. exact C63_wrong_side_refuted_lemma. Qed.
Print Assumptions C63_wrong_side_refuted.

Example C63_example (R : rcfType) (cis : R -> ComplexField.complex_numFieldType R) calc : cis_ok cis ->
  exists svd U s t x f0, [/\ unitary 3 U, bs_prob U s t = 1,
    new_sep svd (SepAttrs (Some 2%N) (Some 1) (Some 2%N) None) (Config U s (sumn s) 3 0 (sumn s) 1) calc = Ok x
  & forall fuel, (f0 <= fuel)%N -> always (fun r => exists a', r = Ok (nseq 100 (0 : R), a'))
      (sep_probabilities (fun t => t) reflected_gray fuel cis (@np_rand R) x [:: t])].
Proof.
move=> ok; have [svd sv] := C35_svd_exists_lemma R; exists svd.
exact: C63_wrong_side_refuted sv ok reflected_gray_ok _.
Qed.
