(* The approximated lossy distribution calculator: particles dropped, and an instance. *)
From mathcomp Require Import all_ssreflect all_algebra complex ring zify.
From Verif Require Import Base SpecStates Combi SpecPerm SpecBS BsMath BsComb BsNorm ModelStates LemStates ModelPerm ModelDist ProofDist1 SpecProb ProbMath ModelGcc ModelGccB SpecGcc ModelNet SpecNet ProofNet1 ProofNet2 ProofNet3 ProofNet4 ProofNet5 ProofNet6 ProofNet7 ProofGccB2 ModelBobs ProofBobs5 SpecSep ModelSep ProofSep1 ProofSep2.
Set Implicit Arguments.
Unset Strict Implicit.
Unset Printing Implicit Defensive.
Import Order.TTheory GRing.Theory Num.Theory.
Local Open Scope ring_scope.
Local Open Scope py_scope.

Lemma combinations_none (A : Type) (l : seq A) k : (size l < k)%N -> combinations l k = [::].
Proof.
elim: l k => [|x l IH] [|k] //=; rewrite ltnS => h; rewrite !IH //; exact: leq_trans h _.
Qed.

Section Build.
Variable R : rcfType.
Notation C := (ComplexField.complex_numFieldType R).
Notation mat := (seq (seq C)).
Variables (svd : mat -> res (mat * seq R * mat)) (cis : R -> C) (m a : nat) (tau : R) (cfg : config R) (calc : any_calc C) (c : option (config R)).
Hypotheses (sv : svd_ok svd) (ok : cis_ok cis) (m0 : (0 < m)%N) (am : (0 < a <= m)%N).
Notation s := (cf_state cfg).
Hypotheses (sqM : is_square m (cf_matrix cfg)) (em : cf_modes cfg = m) (ss : size s = m).
Hypothesis su : subunitary m (scaled_columns m a tau (cf_matrix cfg)).
Notation at_ := (SepAttrs (Some a) (Some tau) (Some a) c).

Lemma new_sepE : exists E, [/\ new_sep svd at_ cfg calc = Ok (Sep cfg at_ calc E (bunched a s ++ nseq m 0%N) 100),
  is_square (m + m) E & dilation m m (scaled_columns m a tau (cf_matrix cfg)) E].
Proof using sv m0 am sqM em ss su.
have /andP[a0 a1] := am.
have [E [eE sE dE]] := initial_matrixE sv m0 sqM su (erefl : at_modes at_ = Some a) (erefl : at_transmissivity at_ = Some tau).
by exists E; split=> //; rewrite /new_sep eE [rbind (Ok _) _]/= (initial_stateE em ss (erefl : at_conf_modes at_ = Some a) am).
Qed.

Lemma sep_effective E : is_square (m + m) E -> dilation m m (scaled_columns m a tau (cf_matrix cfg)) E ->
  always (fun r => exists A, [/\ r = Ok A, is_square (m + m) A
      & exists phi, is_square (m + m) A /\ dilation m m (rotated_rows cis m a phi (scaled_columns m a tau (cf_matrix cfg))) A])
    (effective_sep cis (@np_rand R) (Sep cfg at_ calc E (bunched a s ++ nseq m 0%N) 100)).
Proof using ok m0 am em sqM.
move=> sE dE; have /andP[_ a1] := am.
have H := effectiveE ok m0 a1 sqM dE sE (erefl : sp_matrix (Sep cfg at_ calc E (bunched a s ++ nseq m 0%N) 100) = E) em erefl (np_rand_always R a).
by apply: always_impl H => r [A [phi [-> sA dA]]]; exists A; split=> //; exists phi.
Qed.

Variables (H : eqType) (hash : seq nat -> H) (gray : nat -> seq nat).
Hypothesis en : cf_particles cfg = sumn s.

(* the particles of the last approximated mode are lost *)
Lemma sep_dropped E t ts : is_square (m + m) E -> dilation m m (scaled_columns m a tau (cf_matrix cfg)) E ->
  (0 < nth 0 s a.-1)%N -> (0 < sumn (bunched a s))%N -> size t = m -> (sumn t <= sumn s)%N ->
  exists f0, forall fuel, (f0 <= fuel)%N ->
  always (fun r => r = Err UnboundLocalError)
    (sep_probabilities hash gray fuel cis (@np_rand R) (Sep cfg at_ calc E (bunched a s ++ nseq m 0%N) 100) (t :: ts)).
Proof using ok m0 am em ss en sqM.
move=> sE dE p0 b0 st le; have [f0 F] := states_fuel (sumn s) m0; exists f0 => fuel /F gen.
rewrite /sep_probabilities [sp_number _]/= -[100%N]/(99.+1) /sep_rounds -/(sep_rounds hash gray fuel cis (@np_rand R)).
apply: always_rbind; apply: always_impl (sep_effective sE dE) => _ [A [-> _ _]].
suff e y : sep_outcome_probability hash gray fuel (Sep cfg at_ calc E (bunched a s ++ nseq m 0%N) 100) y A t = Err UnboundLocalError.
  by rewrite rfoldl_cons e.
rewrite /sep_outcome_probability /outcomes_2m [sp_cfg _]/= em en.
have -> : Posz (sumn s) - Posz (sumn t) = Posz (sumn s - sumn t) by lia.
have [L [-> pL]] := gen _ (leq_subr (sumn t) (sumn s)); rewrite [rbind (rbind _ _) _]/=.
have : L != [::].
  apply/eqP => L0; have := perm_mem pL ((sumn s - sumn t)%N :: nseq m.-1 0%N).
  by rewrite L0 mem_comps /is_state /= size_nseq sumn_nseq prednK // addn0 !eqxx.
case: L pL => [//|r L] _ _; rewrite [map _ _]/= /fixed_probabilities rfoldl_cons /fixed_outcome_probability /indistinguishable_probability.
rewrite [cf_state _]/= [cf_left _]/= /generate_lossy_n_particle_input_states.
have sW : sumn (bunched a s ++ nseq m 0%N) = sumn (bunched a s) by rewrite sumn_cat sumn_nseq mul0n addn0.
rewrite sW eqn0Ngt b0 /= combinations_none // size_iota.
have := sumn_bunched (_ : 0 < a <= size s)%N; rewrite ss => /(_ am) <-; lia.
Qed.
End Build.
