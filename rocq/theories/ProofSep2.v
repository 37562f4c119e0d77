(* The probabilities returned by the approximated lossy distribution calculator. *)
From mathcomp Require Import all_ssreflect all_algebra complex ring zify.
From Verif Require Import Base SpecStates Combi SpecPerm SpecBS BsMath BsComb BsNorm ModelStates LemStates ModelPerm ModelDist ProofDist1 SpecProb ProbMath ModelGcc ModelGccB SpecGcc ModelNet SpecNet ProofNet1 ProofNet2 ProofNet3 ProofNet4 ProofNet5 ProofNet7 ProofGccB2 SpecSep ModelSep ProofSep1.
Set Implicit Arguments.
Unset Strict Implicit.
Unset Printing Implicit Defensive.
Import Order.TTheory GRing.Theory Num.Theory.
Local Open Scope ring_scope.
Local Open Scope py_scope.

Lemma states_fuel (m n : nat) : (0 < m)%N -> exists f0, forall fuel, (f0 <= fuel)%N -> forall k, (k <= n)%N ->
  exists L, generate_possible_states fuel (Posz k) (Posz m) false = Ok L /\ perm_eq L (comps m k).
Proof.
move=> m0; have P k : exists f0, forall fuel, (f0 <= fuel)%N ->
    exists L, generate_possible_states fuel (Posz k) (Posz m) false = Ok L /\ perm_eq L (comps m k).
  have [L [[f0 E] mL sL]] := C03_lemma k m0; exists f0 => fuel /E e; exists L; split=> //.
  have uL : uniq L by apply: (sorted_uniq _ _ sL); [exact: lexgt_trans|exact: lexgt_irr].
  by apply: uniq_perm; rewrite ?comps_uniq // => t; rewrite mL mem_comps.
elim: n => [|n [f1 IH]].
  by have [f0 E] := P 0%N; exists f0 => fuel /E e k; rewrite leqn0 => /eqP ->.
have [f0 E] := P n.+1; exists (maxn f0 f1) => fuel; rewrite geq_max => /andP[/E e /IH h] k.
by rewrite leq_eqVlt => /orP[/eqP -> //|]; rewrite ltnS; exact: h.
Qed.

Section Probs.
Variable R : rcfType.
Notation C := (ComplexField.complex_numFieldType R).
Notation mat := (seq (seq C)).
Variables (H : eqType) (hash : seq nat -> H) (gray : nat -> seq nat) (fuel m : nat) (w : seq nat) (x : sep R).
Hypotheses (m0 : (0 < m)%N) (sw : size w = m) (gr : gray_ok gray (sumn w)) (fu : (\prod_(k <- w) k.+1 <= fuel)%N).
Hypothesis inj : forall t t', substate t (w ++ nseq m 0%N) -> substate t' (w ++ nseq m 0%N) -> hash t = hash t' -> t = t'.
Hypotheses (em : cf_modes (sp_cfg x) = m) (ep : cf_particles (sp_cfg x) = sumn w) (es : sp_state x = w ++ nseq m 0%N).
Hypothesis gen : forall k, (k <= sumn w)%N ->
  exists L, generate_possible_states fuel (Posz k) (Posz m) false = Ok L /\ perm_eq L (comps m k).

(* the value returned for the outcome t, when the effective matrix is A *)
Definition sep_value (A : mat) (t : seq nat) : R :=
  if (sumn t <= sumn w)%N then traced_prob m A w t else 0.

Lemma sep_outcomeE (A : mat) a t : is_square (m + m) A -> size t = m ->
  exists a', sep_outcome_probability hash gray fuel x a A t = Ok (sep_value A t, a').
Proof using m0 sw gr fu inj em ep es gen.
move=> sqA st; rewrite /sep_outcome_probability /outcomes_2m em ep es /sep_value; case: ifP => le; last first.
  rewrite C03_degenerate_lemma; last by apply/orP; left; lia.
  by exists a.
have -> : Posz (sumn w) - Posz (sumn t) = Posz (sumn w - sumn t) by lia.
have [L [-> pL]] := gen (leq_subr (sumn t) (sumn w)); rewrite [rbind (rbind _ _) _]/=.
have sW : sumn (w ++ nseq m 0%N) = sumn w by rewrite sumn_cat sumn_nseq mul0n addn0.
have fu' : (\prod_(k <- w ++ nseq m 0) k.+1 <= fuel)%N by rewrite big_cat /= big_nseq iter_muln_1 exp1n muln1.
have sW' : size (w ++ nseq m 0%N) = (m + m)%N by rewrite size_cat size_nseq sw.
have mm0 : (0 < m + m)%N by rewrite addn_gt0 m0.
have gr' : gray_ok gray (sumn (w ++ nseq m 0%N)) by rewrite sW.
have al : all (is_state (m + m) (sumn w)) [seq t ++ r | r <- L].
  apply/allP => _ /mapP[r rL ->]; move: rL; rewrite (perm_mem pL) mem_comps /is_state => /andP[/eqP sr /eqP nr].
  by rewrite size_cat sumn_cat st sr nr subnKC // !eqxx.
have mm2 : (2 * m = m + m)%N by rewrite mul2n addnn.
have [|a' ->] := @fixed_probabilitiesE R H hash gray fuel (m + m) A (w ++ nseq m 0%N) sqA sW' mm0 gr' fu' inj
  (Config A (w ++ nseq m 0%N) (sumn w) (2 * m) 0 (sumn w) 1) [seq t ++ r | r <- L] a (sumn w) erefl erefl (esym sW) mm2 erefl _ al.
  by rewrite sW.
rewrite [rbind _ _]/=; exists a'; congr (Ok (_, _)); rewrite foldl_sum -[RHS](perm_big _ pL) /= big_map.
rewrite big_seq_cond [RHS]big_seq_cond; apply: eq_bigr => r; rewrite andbT (perm_mem pL) mem_comps => /andP[/eqP sr /eqP nr].
have e : sumn (t ++ r) = sumn w by rewrite sumn_cat nr subnKC.
by rewrite fixed_loss_full ?sW // bs_prob_pad.
Qed.

Lemma sep_foldE (A : mat) ps a ts : is_square (m + m) A -> all (fun t => size t == m) ts ->
  exists a', rfoldl (fun y t =>
        let! pa := sep_outcome_probability hash gray fuel x y.2 A t in
        Ok (rcons y.1 pa.1, pa.2)) (ps, a) ts = Ok (ps ++ [seq sep_value A t | t <- ts], a').
Proof using m0 sw gr fu inj em ep es gen.
move=> sqA; elim: ts ps a => [|t ts IH] ps a /=; first by exists a; rewrite cats0.
case/andP=> /eqP st al; have [a' ->] := sep_outcomeE a sqA st; rewrite [rbind (Ok _) _]/= [rbind _ _]/=.
by have [a'' ->] := IH (rcons ps (sep_value A t)) a' al; exists a''; rewrite cat_rcons.
Qed.

Variables (cis : R -> C) (rand : nat -> rprog R (res (seq R))) (good : mat -> Prop).
Hypothesis eff : always (fun r => exists A, [/\ r = Ok A, is_square (m + m) A & good A]) (effective_sep cis rand x).

Lemma sep_roundsE k ts ps a : all (fun t => size t == m) ts ->
  always (fun r => exists As a', [/\ size As = k, forall A, A \in As -> good A
      & r = Ok (ps ++ flatten [seq [seq sep_value A t | t <- ts] | A <- As], a')])
    (sep_rounds hash gray fuel cis rand k x ts ps a).
Proof using m0 sw gr fu inj em ep es gen eff.
move=> al; elim: k ps a => [|k IH] ps a.
  by exists [::], a; rewrite /= cats0.
apply: always_rbind; apply: always_impl eff => _ [A [-> sqA gA]].
have [a' E] := sep_foldE ps a sqA al; rewrite E.
apply: always_rbind; rewrite [always _ _]/=; apply: always_impl (IH _ a') => r [As [a'' [sA hA ->]]].
exists (A :: As), a''; split=> /=; [by rewrite sA|move=> B; rewrite inE => /orP[/eqP ->|/hA]//|by rewrite catA].
Qed.

(* each round is a probability distribution over the lossy outcomes *)
Lemma sep_norm (A : mat) (N : mat) : dilation m m N A -> is_square (m + m) A -> \sum_(t <- lcomps m (sumn w)) sep_value A t = 1.
Proof using sw.
move=> dA sqA.
have on : unitary_on (m + m) A (w ++ nseq m 0%N).
  split=> // i i' p p'; case: dA => _ o.
  have lt j : (0 < nth 0%N (w ++ nseq m 0%N) j)%N -> (j < m)%N.
    by rewrite nth_cat sw; case: (ltnP j m) => // _; rewrite nth_nseq if_same.
  by apply: o; apply: lt.
have <- := fixed_loss_norm (l := sumn w) on; last by rewrite sumn_cat sumn_nseq mul0n addn0.
rewrite big_comps_split big_seq_cond [RHS]big_seq_cond; apply: eq_bigr => t.
rewrite andbT mem_lcomps => /andP[/eqP st le]; rewrite /sep_value le /traced_prob.
rewrite big_seq_cond [RHS]big_seq_cond; apply: eq_bigr => r; rewrite andbT mem_comps => /andP[/eqP sr /eqP nr].
have e : sumn (t ++ r) = sumn w by rewrite sumn_cat nr subnKC.
by rewrite fixed_loss_full ?bs_prob_pad ?e // sumn_cat sumn_nseq mul0n addn0.
Qed.
End Probs.
