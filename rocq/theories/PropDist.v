(* Property theorems: C21-C25 (exact distributions).  Only statements; proofs elsewhere. *)
From mathcomp Require Import all_ssreflect all_algebra complex.
From Verif Require Import Base SpecStates SpecPerm SpecBS ModelStates ModelPerm ModelDist ProofDist1 LemDist BsNorm Witness.
Set Implicit Arguments.
Unset Strict Implicit.
Unset Printing Implicit Defensive.
Import GRing.Theory Num.Theory.
Local Open Scope ring_scope.

(* C21: any calculator object a, whatever its type and history *)
Theorem C21_fixed_loss_probabilities :
  forall (R : rcfType) (H : eqType) (hash : seq nat -> H) (gray : nat -> seq nat) (fuel m : nat)
    (U : seq (seq (ComplexField.complex_numFieldType R))) (s : seq nat) (eta : R)
    (lost : int) (l : nat) (a : any_calc (ComplexField.complex_numFieldType R)) (ts : seq (seq nat)),
  is_square m U -> size s = m -> (0 < m)%N -> gray_ok gray (sumn s) -> (\prod_(x <- s) x.+1 <= fuel)%N ->
  (forall t t', substate t s -> substate t' s -> hash t = hash t' -> t = t') ->
  (l <= sumn s)%N -> all (is_state m l) ts ->
  exists a', fixed_probabilities hash gray fuel (Config U s (sumn s) m lost l eta) a ts =
    Ok ([seq fixed_loss_prob U s t | t <- ts], a').
Proof. exact C21_fixed_loss_probabilities_lemma. Qed.
Print Assumptions C21_fixed_loss_probabilities.

Example C21_example (R : rcfType) : (* two photons on a beam splitter *)
  exists a', fixed_probabilities id reflected_gray 4 (Config (splitter R) [:: 1; 1]%N 2 2 0 2 1)
    (generate_calculator (CalcFactory (splitter R) [::] [::] RYSER)) [:: [:: 1; 1]%N] = Ok ([:: 49%:R / 625%:R], a').
Proof.
rewrite -splitter_coincidence -(fixed_loss_full (splitter R) (erefl (sumn [:: 1; 1]%N))).
by apply: (@C21_fixed_loss_probabilities R _ id reflected_gray 4 2) => //;
  [exact: reflected_gray_ok|rewrite !big_cons big_nil].
Qed.

(* C22 *)
Theorem C22_fixed_loss_distribution :
  forall (R : rcfType) (H : eqType) (hash : seq nat -> H) (gray : nat -> seq nat) (m : nat)
    (U : seq (seq (ComplexField.complex_numFieldType R))) (s : seq nat) (eta : R)
    (lost : int) (l : nat) (a : any_calc (ComplexField.complex_numFieldType R)),
  unitary m U -> size s = m -> (0 < m)%N -> gray_ok gray (sumn s) ->
  (forall t t', substate t s -> substate t' s -> hash t = hash t' -> t = t') ->
  (l <= sumn s)%N ->
  exists (L : seq (seq nat)) (f0 : nat), forall fuel, (f0 <= fuel)%N ->
  let cfg := Config U s (sumn s) m lost l eta in
  exists (P : seq R) a',
  [/\ fixed_outcomes fuel cfg = Ok L, fixed_distribution hash gray fuel cfg a = Ok (P, a'),
      P = [seq fixed_loss_prob U s t | t <- L] /\ (uniq L /\ L =i is_state m l),
      forall p, p \in P -> 0 <= p & \sum_(p <- P) p = 1].
Proof. exact C22_fixed_loss_distribution_lemma. Qed.
Print Assumptions C22_fixed_loss_distribution.

Example C22_example (R : rcfType) : exists (L : seq (seq nat)) (f0 : nat), forall fuel, (f0 <= fuel)%N ->
  exists (P : seq R) a', fixed_outcomes fuel (Config (splitter R) [:: 1; 1]%N 2 2 1 1 1) = Ok L /\
    fixed_distribution id reflected_gray fuel (Config (splitter R) [:: 1; 1]%N 2 2 1 1 1)
      (generate_calculator (CalcFactory (splitter R) [::] [::] RYSER)) = Ok (P, a') /\ \sum_(p <- P) p = 1.
Proof.
have [L [f0 H]] := @C22_fixed_loss_distribution R _ id reflected_gray 2 (splitter R) [:: 1; 1]%N 1 1 1 (generate_calculator (CalcFactory (splitter R) [::] [::] RYSER))
  (splitter_unitary R) erefl isT (@reflected_gray_ok _) (fun _ _ _ _ e => e) isT.
by exists L, f0 => fuel /H [P [a' [h1 h2 _ _ h3]]]; exists P, a'.
Qed.

(* C23: values; any calculator object a, whatever its type and history *)
Theorem C23_uniform_loss_probabilities :
  forall (R : rcfType) (H : eqType) (hash : seq nat -> H) (gray : nat -> seq nat) (fuel m : nat)
    (U : seq (seq (ComplexField.complex_numFieldType R))) (s : seq nat) (eta : R)
    (lost : int) (left : nat) (a : any_calc (ComplexField.complex_numFieldType R)) (ts : seq (seq nat)),
  is_square m U -> size s = m -> (0 < m)%N -> gray_ok gray (sumn s) -> (\prod_(x <- s) x.+1 <= fuel)%N ->
  (forall t t', substate t s -> substate t' s -> hash t = hash t' -> t = t') ->
  all (fun t => (size t == m) && (sumn t <= sumn s)%N) ts ->
  uniform_probabilities hash gray fuel
    (new_uniform_calc (Config U s (sumn s) m lost left eta) a) ts =
  Ok [seq uniform_loss_prob U s eta t | t <- ts].
Proof. exact C23_uniform_loss_probabilities_lemma. Qed.
Print Assumptions C23_uniform_loss_probabilities.

Example C23_example (R : rcfType) : (* half of the photons are lost on average *)
  uniform_probabilities id reflected_gray 4 (new_uniform_calc (Config (splitter R) [:: 1; 1]%N 2 2 0 2 (2%:R^-1)) (generate_calculator (CalcFactory (splitter R) [::] [::] RYSER)))
    [:: [:: 1; 1]%N] = Ok [:: 2%:R^-1 ^+ 2 * (49%:R / 625%:R)].
Proof.
rewrite -splitter_coincidence -(fixed_loss_full (splitter R) (erefl (sumn [:: 1; 1]%N))).
rewrite (@C23_uniform_loss_probabilities R _ id reflected_gray 4 2) //.
- by rewrite /= /uniform_loss_prob /binomial_weight binn subnn expr0 mulr1 mul1r.
- exact: reflected_gray_ok.
- by rewrite !big_cons big_nil.
Qed.

(* C23: normalisation *)
Theorem C23_uniform_loss_distribution :
  forall (R : rcfType) (H : eqType) (hash : seq nat -> H) (gray : nat -> seq nat) (m : nat)
    (U : seq (seq (ComplexField.complex_numFieldType R))) (s : seq nat) (eta : R)
    (lost : int) (left : nat) (a : any_calc (ComplexField.complex_numFieldType R)),
  unitary m U -> size s = m -> (0 < m)%N -> gray_ok gray (sumn s) ->
  (forall t t', substate t s -> substate t' s -> hash t = hash t' -> t = t') ->
  0 <= eta <= 1 ->
  exists (L : seq (seq nat)) (f0 : nat), forall fuel, (f0 <= fuel)%N ->
  let u := new_uniform_calc (Config U s (sumn s) m lost left eta) a in
  exists P : seq R,
  [/\ uniform_outcomes fuel u = Ok L, uniform_distribution hash gray fuel u = Ok P,
      P = [seq uniform_loss_prob U s eta t | t <- L] /\
        (uniq L /\ L =i [pred t | (size t == m) && (sumn t <= sumn s)%N]),
      forall p, p \in P -> 0 <= p & \sum_(p <- P) p = 1].
Proof. exact C23_uniform_loss_distribution_lemma. Qed.
Print Assumptions C23_uniform_loss_distribution.

Example C23_distribution_example (R : rcfType) : exists (L : seq (seq nat)) (f0 : nat), forall fuel, (f0 <= fuel)%N ->
  exists P : seq R,
    uniform_distribution id reflected_gray fuel
      (new_uniform_calc (Config (splitter R) [:: 1; 1]%N 2 2 0 2 (2%:R^-1)) (generate_calculator (CalcFactory (splitter R) [::] [::] RYSER))) = Ok P /\ \sum_(p <- P) p = 1.
Proof.
have h01 : 0 <= (2%:R^-1 : R) <= 1 by rewrite invr_ge0 ler0n invf_le1 ?ltr0n // ler1n.
have [L [f0 H]] := @C23_uniform_loss_distribution R _ id reflected_gray 2 (splitter R) [:: 1; 1]%N 2%:R^-1 0 2 (generate_calculator (CalcFactory (splitter R) [::] [::] RYSER))
  (splitter_unitary R) erefl isT (@reflected_gray_ok _) (fun _ _ _ _ e => e) h01.
by exists L, f0 => fuel /H [P [h1 h2 _ _ h3]]; exists P.
Qed.

(* C24: no losses at all *)
Theorem C24_transmissivity_one :
  forall (R : rcfType) (H : eqType) (hash : seq nat -> H) (gray : nat -> seq nat) (fuel m : nat)
    (U : seq (seq (ComplexField.complex_numFieldType R))) (s : seq nat) 
    (lost : int) (left : nat) (a : any_calc (ComplexField.complex_numFieldType R)) (t : seq nat),
  is_square m U -> size s = m -> (0 < m)%N -> gray_ok gray (sumn s) -> (\prod_(x <- s) x.+1 <= fuel)%N ->
  (forall t t', substate t s -> substate t' s -> hash t = hash t' -> t = t') ->
  size t = m -> (sumn t <= sumn s)%N ->
  uniform_outcome_probability hash gray fuel
    (new_uniform_calc (Config U s (sumn s) m lost left 1) a) t =
  Ok (if sumn t == sumn s then bs_prob U s t else 0).
Proof. exact C24_transmissivity_one_lemma. Qed.
Print Assumptions C24_transmissivity_one.

(* C24: everything is lost *)
Theorem C24_transmissivity_zero :
  forall (R : rcfType) (H : eqType) (hash : seq nat -> H) (gray : nat -> seq nat) (fuel m : nat)
    (U : seq (seq (ComplexField.complex_numFieldType R))) (s : seq nat) 
    (lost : int) (left : nat) (a : any_calc (ComplexField.complex_numFieldType R)) (t : seq nat),
  is_square m U -> size s = m -> (0 < m)%N -> gray_ok gray (sumn s) -> (\prod_(x <- s) x.+1 <= fuel)%N ->
  (forall t t', substate t s -> substate t' s -> hash t = hash t' -> t = t') ->
  size t = m -> (sumn t <= sumn s)%N ->
  uniform_outcome_probability hash gray fuel
    (new_uniform_calc (Config U s (sumn s) m lost left 0) a) t =
  Ok (if sumn t == 0%N then 1 else 0).
Proof. exact C24_transmissivity_zero_lemma. Qed.
Print Assumptions C24_transmissivity_zero.

(* C25: after any sequence of calls only the last one matters; without calls the weights are in use *)
Theorem C25_weightless_toggle :
  forall (R : rcfType) (H : eqType) (hash : seq nat -> H) (gray : nat -> seq nat) (fuel m : nat)
    (U : seq (seq (ComplexField.complex_numFieldType R))) (s : seq nat) (eta : R)
    (lost : int) (left : nat) (a : any_calc (ComplexField.complex_numFieldType R)) (ws : seq bool) (t : seq nat),
  is_square m U -> size s = m -> (0 < m)%N -> gray_ok gray (sumn s) -> (\prod_(x <- s) x.+1 <= fuel)%N ->
  (forall t t', substate t s -> substate t' s -> hash t = hash t' -> t = t') ->
  size t = m -> (sumn t <= sumn s)%N ->
  let u0 := new_uniform_calc (Config U s (sumn s) m lost left eta) a in
  let u := foldl (@set_weightless R) u0 ws in
  let w := last false ws in
  [/\ u_weightless u = w,
      u_weights u = (if w then nseq (sumn s).+1 1 else u_weights u0),
      u_cfg u = u_cfg u0 /\ u_calc u = u_calc u0
    & uniform_outcome_probability hash gray fuel u t =
      Ok (if w then fixed_loss_prob U s t else uniform_loss_prob U s eta t)].
Proof. exact C25_weightless_toggle_lemma. Qed.
Print Assumptions C25_weightless_toggle.

Example C25_example (R : rcfType) (ws : seq bool) (w : bool) :
  uniform_outcome_probability id reflected_gray 4 (foldl (@set_weightless R)
    (new_uniform_calc (Config (splitter R) [:: 1; 1]%N 2 2 0 2 (2%:R^-1)) (generate_calculator (CalcFactory (splitter R) [::] [::] RYSER))) (rcons ws w)) [:: 1; 1]%N
  = Ok ((if w then 1 else 2%:R^-1 ^+ 2) * (49%:R / 625%:R)).
Proof.
rewrite -splitter_coincidence -(fixed_loss_full (splitter R) (erefl (sumn [:: 1; 1]%N))).
have pr : (\prod_(x <- [:: 1; 1]) x.+1 <= 4)%N by rewrite !big_cons big_nil.
have [_ _ _ ->] := @C25_weightless_toggle R _ id reflected_gray 4 2 (splitter R) [:: 1; 1]%N 2%:R^-1 0 2 (generate_calculator (CalcFactory (splitter R) [::] [::] RYSER)) (rcons ws w) [:: 1; 1]%N
  (splitter_unitary R).1 erefl isT (@reflected_gray_ok _) pr (fun _ _ _ _ e => e) erefl isT.
rewrite last_rcons.
by case: w; rewrite ?mul1r // /uniform_loss_prob /binomial_weight binn subnn expr0 mulr1 mul1r.
Qed.
