(* Final forms of the lemmas behind the property theorems: C62, C63 (the approximated lossy distribution calculator). *)
From mathcomp Require Import all_ssreflect all_algebra complex ring zify.
From Verif Require Import Base SpecStates Combi SpecPerm SpecBS ModelStates ModelPerm ModelDist ProofDist1 SpecProb ModelGcc ModelGccB ModelNet SpecNet ModelBobs SpecSep ModelSep PermMath BsNorm BsComb ProbMath ProofGccB2 ProofNet1 ProofNet4 ProofNet5 ProofNet6 ProofFixed4 ProofSep1 ProofSep2 ProofSep3 LemStates.
Set Implicit Arguments.
Unset Strict Implicit.
Unset Printing Implicit Defensive.
Import Order.TTheory GRing.Theory Num.Theory.
Local Open Scope ring_scope.
Local Open Scope py_scope.

Lemma C62_no_object_lemma :
  forall (R : rcfType) (svd : seq (seq (ComplexField.complex_numFieldType R)) -> res (seq (seq (ComplexField.complex_numFieldType R)) * seq R * seq (seq (ComplexField.complex_numFieldType R)))) (cfg : config R) (a : any_calc (ComplexField.complex_numFieldType R)),
  new_sep svd (no_attrs R) cfg a = Err (if cf_matrix cfg is [::] then IndexError else AttributeError).
Proof.
exact: new_sep_none.
Qed.

Lemma C62_attributes_lemma :
  forall (R : rcfType) (svd : seq (seq (ComplexField.complex_numFieldType R)) -> res (seq (seq (ComplexField.complex_numFieldType R)) * seq R * seq (seq (ComplexField.complex_numFieldType R)))) (at_ : sep_attrs R) (cfg : config R) (a : any_calc (ComplexField.complex_numFieldType R)) x,
  new_sep svd at_ cfg a = Ok x ->
  [/\ at_modes at_ <> None, at_transmissivity at_ <> None & at_conf_modes at_ <> None].
Proof.
exact: new_sep_attrs.
Qed.

Lemma C62_distribution_refuted_lemma :
  forall (R : rcfType) (H : eqType) (hash : seq nat -> H) (gray : nat -> seq nat) (fuel : nat)
    (cis : R -> (ComplexField.complex_numFieldType R)) (x : sep R), at_configuration (sp_attrs x) = None ->
  sep_distribution hash gray fuel cis (@np_rand R) x = Ret (Err AttributeError).
Proof.
by move=> R H hash gray fuel cis x e; rewrite /sep_distribution e.
Qed.

Lemma C63_initial_state_lemma :
  forall (R : rcfType) (svd : seq (seq (ComplexField.complex_numFieldType R)) -> res (seq (seq (ComplexField.complex_numFieldType R)) * seq R * seq (seq (ComplexField.complex_numFieldType R)))) (cis : R -> (ComplexField.complex_numFieldType R)) (m a : nat) (tau : R) (cfg : config R) (calc : any_calc (ComplexField.complex_numFieldType R)) (c : option (config R)),
  svd_ok svd -> cis_ok cis -> (0 < a <= m)%N ->
  is_square m (cf_matrix cfg) -> cf_modes cfg = m -> size (cf_state cfg) = m -> cf_particles cfg = sumn (cf_state cfg) ->
  subunitary m (scaled_columns m a tau (cf_matrix cfg)) ->
  exists x, [/\ new_sep svd (SepAttrs (Some a) (Some tau) (Some a) c) cfg calc = Ok x, sp_state x = bunched a (cf_state cfg) ++ nseq m 0%N
    & (sumn (sp_state x) + nth 0%N (cf_state cfg) a.-1 = sumn (cf_state cfg))%N].
Proof.
move=> R svd cis m a tau cfg calc c sv ok am sqM em ss en su.
have m0 : (0 < m)%N by case/andP: am => h1 h2; exact: leq_trans h1 h2.
have [E [e _ _]] := new_sepE calc c sv m0 am sqM em ss su.
exists (Sep cfg (SepAttrs (Some a) (Some tau) (Some a) c) calc E (bunched a (cf_state cfg) ++ nseq m 0%N) 100); split=> //.
by rewrite [sp_state _]/= sumn_cat sumn_nseq mul0n addn0 sumn_bunched // ss.
Qed.

Lemma C63_particles_refuted_lemma :
  forall (R : rcfType) (svd : seq (seq (ComplexField.complex_numFieldType R)) -> res (seq (seq (ComplexField.complex_numFieldType R)) * seq R * seq (seq (ComplexField.complex_numFieldType R)))) (cis : R -> (ComplexField.complex_numFieldType R)) (m a : nat) (tau : R) (cfg : config R) (calc : any_calc (ComplexField.complex_numFieldType R)) (c : option (config R)) (H : eqType) (hash : seq nat -> H) (gray : nat -> seq nat) (t : seq nat) (ts : seq (seq nat)),
  svd_ok svd -> cis_ok cis -> (0 < a <= m)%N ->
  is_square m (cf_matrix cfg) -> cf_modes cfg = m -> size (cf_state cfg) = m -> cf_particles cfg = sumn (cf_state cfg) ->
  subunitary m (scaled_columns m a tau (cf_matrix cfg)) ->
  (0 < nth 0%N (cf_state cfg) a.-1)%N -> (0 < sumn (bunched a (cf_state cfg)))%N -> size t = m -> (sumn t <= sumn (cf_state cfg))%N ->
  exists f0 x, [/\ new_sep svd (SepAttrs (Some a) (Some tau) (Some a) c) cfg calc = Ok x, (sumn (sp_state x) < sumn (cf_state cfg))%N
    & forall fuel, (f0 <= fuel)%N -> always (fun r => r = Err UnboundLocalError)
        (sep_probabilities hash gray fuel cis (@np_rand R) x (t :: ts))].
Proof.
move=> R svd cis m a tau cfg calc c H hash gray t ts sv ok am sqM em ss en su p0 b0 st le.
have m0 : (0 < m)%N by case/andP: am => h1 h2; exact: leq_trans h1 h2.
have [E [e sE dE]] := new_sepE calc c sv m0 am sqM em ss su.
have [f0 F] := sep_dropped calc c ok m0 am sqM em ss hash gray en ts sE dE p0 b0 st le.
exists f0, (Sep cfg (SepAttrs (Some a) (Some tau) (Some a) c) calc E (bunched a (cf_state cfg) ++ nseq m 0%N) 100); split=> //.
have := @sumn_bunched a (cf_state cfg); rewrite ss => /(_ am) <-.
by rewrite [sp_state _]/= sumn_cat sumn_nseq mul0n addn0 -addn1 leq_add2l.
Qed.

Lemma C63_probabilities_lemma :
  forall (R : rcfType) (svd : seq (seq (ComplexField.complex_numFieldType R)) -> res (seq (seq (ComplexField.complex_numFieldType R)) * seq R * seq (seq (ComplexField.complex_numFieldType R)))) (cis : R -> (ComplexField.complex_numFieldType R)) (m a : nat) (tau : R) (cfg : config R) (calc : any_calc (ComplexField.complex_numFieldType R)) (c : option (config R)) (H : eqType) (hash : seq nat -> H) (gray : nat -> seq nat),
  svd_ok svd -> cis_ok cis -> (0 < a <= m)%N ->
  is_square m (cf_matrix cfg) -> cf_modes cfg = m -> size (cf_state cfg) = m -> cf_particles cfg = sumn (cf_state cfg) ->
  subunitary m (scaled_columns m a tau (cf_matrix cfg)) ->
  nth 0%N (cf_state cfg) a.-1 = 0%N -> gray_ok gray (sumn (cf_state cfg)) ->
  (forall t t', substate t (bunched a (cf_state cfg) ++ nseq m 0%N) -> substate t' (bunched a (cf_state cfg) ++ nseq m 0%N) -> hash t = hash t' -> t = t') ->
  exists f0 x, new_sep svd (SepAttrs (Some a) (Some tau) (Some a) c) cfg calc = Ok x /\
  forall fuel, (f0 <= fuel)%N -> forall ts, all (fun t => size t == m) ts ->
  always (fun r => exists As a', [/\ size As = 100%N,
      forall A, A \in As -> exists phi, dilation m m (rotated_rows cis m a phi (scaled_columns m a tau (cf_matrix cfg))) A
    & r = Ok (flatten [seq [seq if (sumn t <= sumn (cf_state cfg))%N then traced_prob m A (bunched a (cf_state cfg)) t else 0 | t <- ts]
                      | A <- As], a')])
    (sep_probabilities hash gray fuel cis (@np_rand R) x ts).
Proof.
move=> R svd cis m a tau cfg calc c H hash gray sv ok am sqM em ss en su z0 gr inj.
have m0 : (0 < m)%N by case/andP: am => h1 h2; exact: leq_trans h1 h2.
have [E [e sE dE]] := new_sepE calc c sv m0 am sqM em ss su.
have am' : (0 < a <= size (cf_state cfg))%N by rewrite ss.
have eb : sumn (bunched a (cf_state cfg)) = sumn (cf_state cfg) by have := sumn_bunched am'; rewrite z0 addn0.
have [f0 F] := states_fuel (sumn (cf_state cfg)) m0.
set x := Sep cfg (SepAttrs (Some a) (Some tau) (Some a) c) calc E (bunched a (cf_state cfg) ++ nseq m 0%N) 100.
exists (maxn f0 (\prod_(k <- bunched a (cf_state cfg)) k.+1)), x; split=> // fuel; rewrite geq_max => /andP[/F gen fu] ts al.
have sw : size (bunched a (cf_state cfg)) = m by rewrite size_bunched.
have gr' : gray_ok gray (sumn (bunched a (cf_state cfg))) by rewrite eb.
have ep : cf_particles (sp_cfg x) = sumn (bunched a (cf_state cfg)) by rewrite eb.
rewrite -{1}eb in gen.
have K := sep_roundsE m0 sw gr' fu inj (em : cf_modes (sp_cfg x) = m) ep erefl gen (sep_effective calc c ok m0 am sqM em sE dE) 100 [::] calc al.
apply: always_impl K => r [As [a' [sA gA ->]]]; exists As, a'; split=> //; last by rewrite /sep_value eb.
by move=> A /gA [phi [_ d]]; exists phi.
Qed.

Lemma C63_distribution_lemma :
  forall (R : rcfType) (svd : seq (seq (ComplexField.complex_numFieldType R)) -> res (seq (seq (ComplexField.complex_numFieldType R)) * seq R * seq (seq (ComplexField.complex_numFieldType R)))) (cis : R -> (ComplexField.complex_numFieldType R)) (m a : nat) (tau : R) (cfg : config R) (calc : any_calc (ComplexField.complex_numFieldType R)) (H : eqType) (hash : seq nat -> H) (gray : nat -> seq nat),
  svd_ok svd -> cis_ok cis -> (0 < a <= m)%N ->
  is_square m (cf_matrix cfg) -> cf_modes cfg = m -> size (cf_state cfg) = m -> cf_particles cfg = sumn (cf_state cfg) ->
  subunitary m (scaled_columns m a tau (cf_matrix cfg)) ->
  nth 0%N (cf_state cfg) a.-1 = 0%N -> gray_ok gray (sumn (cf_state cfg)) ->
  (forall t t', substate t (bunched a (cf_state cfg) ++ nseq m 0%N) -> substate t' (bunched a (cf_state cfg) ++ nseq m 0%N) -> hash t = hash t' -> t = t') ->
  exists f0 x L, [/\ new_sep svd (SepAttrs (Some a) (Some tau) (Some a) (Some cfg)) cfg calc = Ok x, sorted lexgt L,
    L =i [pred t | (size t == m) && (sumn t == cf_left cfg)]
  & forall fuel, (f0 <= fuel)%N -> sep_outcomes fuel x = Ok L /\
  always (fun r => exists As a', [/\ size As = 100%N,
      forall A, A \in As -> exists phi, dilation m m (rotated_rows cis m a phi (scaled_columns m a tau (cf_matrix cfg))) A
    & r = Ok (flatten [seq [seq if (sumn t <= sumn (cf_state cfg))%N then traced_prob m A (bunched a (cf_state cfg)) t else 0 | t <- L]
                      | A <- As], a')])
    (sep_distribution hash gray fuel cis (@np_rand R) x)].
Proof.
move=> R svd cis m a tau cfg calc H hash gray sv ok am sqM em ss en su z0 gr inj.
have m0 : (0 < m)%N by case/andP: am => h1 h2; exact: leq_trans h1 h2.
have [f0 [x [e F]]] := C63_probabilities_lemma calc (Some cfg) sv ok am sqM em ss en su z0 gr inj.
have [L [[f1 E] mL sL]] := C03_lemma (cf_left cfg) m0.
have [ec eA] : sp_cfg x = cfg /\ at_configuration (sp_attrs x) = Some cfg.
  by move: e; rewrite /new_sep; do 2! [case: (X in rbind X _) => //= ?]; move=> -[<-].
exists (maxn f0 f1), x, L; split=> // fuel; rewrite geq_max => /andP[f0f /E eL].
have al : all (fun t => size t == m) L by apply/allP=> t; rewrite mL => /andP[].
split; first by rewrite /sep_outcomes ec em.
by rewrite /sep_distribution eA /rpbind /= em eL /=; exact: F.
Qed.

Lemma C63_outcome_independent_lemma :
  forall (R : rcfType) (m d d' : nat) (K D D' : seq (seq (ComplexField.complex_numFieldType R))) (w t : seq nat),
  dilation m d K D -> dilation m d' K D' -> size w = m -> size t = m -> (sumn t <= sumn w)%N ->
  traced_prob d D w t = traced_prob d' D' w t.
Proof.
by move=> R m d d' K D D' w t; exact: traced_dil.
Qed.

Lemma C63_normalisation_refuted_lemma :
  forall (R : rcfType) (svd : seq (seq (ComplexField.complex_numFieldType R)) -> res (seq (seq (ComplexField.complex_numFieldType R)) * seq R * seq (seq (ComplexField.complex_numFieldType R)))) (cis : R -> (ComplexField.complex_numFieldType R)) (m a : nat) (tau : R) (cfg : config R) (calc : any_calc (ComplexField.complex_numFieldType R)) (c : option (config R)) (H : eqType) (hash : seq nat -> H) (gray : nat -> seq nat) (L : seq (seq nat)),
  svd_ok svd -> cis_ok cis -> (0 < a <= m)%N ->
  is_square m (cf_matrix cfg) -> cf_modes cfg = m -> size (cf_state cfg) = m -> cf_particles cfg = sumn (cf_state cfg) ->
  subunitary m (scaled_columns m a tau (cf_matrix cfg)) ->
  nth 0%N (cf_state cfg) a.-1 = 0%N -> gray_ok gray (sumn (cf_state cfg)) ->
  (forall t t', substate t (bunched a (cf_state cfg) ++ nseq m 0%N) -> substate t' (bunched a (cf_state cfg) ++ nseq m 0%N) -> hash t = hash t' -> t = t') ->
  uniq L -> L =i [pred t | (size t == m) && (sumn t <= sumn (cf_state cfg))%N] ->
  exists f0 x, new_sep svd (SepAttrs (Some a) (Some tau) (Some a) c) cfg calc = Ok x /\
  forall fuel, (f0 <= fuel)%N ->
  always (fun r => exists P a', [/\ r = Ok (P, a'), size P = (100 * size L)%N & \sum_(p <- P) p = 100%:R])
    (sep_probabilities hash gray fuel cis (@np_rand R) x L).
Proof.
move=> R svd cis m a tau cfg calc c H hash gray L sv ok am sqM em ss en su z0 gr inj uL mL.
have m0 : (0 < m)%N by case/andP: am => h1 h2; exact: leq_trans h1 h2.
have [E [e sE dE]] := new_sepE calc c sv m0 am sqM em ss su.
have am' : (0 < a <= size (cf_state cfg))%N by rewrite ss.
have eb : sumn (bunched a (cf_state cfg)) = sumn (cf_state cfg) by have := sumn_bunched am'; rewrite z0 addn0.
have [f0 F] := states_fuel (sumn (cf_state cfg)) m0.
set x := Sep cfg (SepAttrs (Some a) (Some tau) (Some a) c) calc E (bunched a (cf_state cfg) ++ nseq m 0%N) 100.
exists (maxn f0 (\prod_(k <- bunched a (cf_state cfg)) k.+1)), x; split=> // fuel; rewrite geq_max => /andP[/F gen fu].
have sw : size (bunched a (cf_state cfg)) = m by rewrite size_bunched.
have gr' : gray_ok gray (sumn (bunched a (cf_state cfg))) by rewrite eb.
have ep : cf_particles (sp_cfg x) = sumn (bunched a (cf_state cfg)) by rewrite eb.
have al : all (fun t => size t == m) L by apply/allP=> t; rewrite mL => /andP[].
rewrite -{1}eb in gen.
have K := sep_roundsE m0 sw gr' fu inj (em : cf_modes (sp_cfg x) = m) ep erefl gen (sep_effective calc c ok m0 am sqM em sE dE) 100 [::] calc al.
apply: always_impl K => r [As [a' [sA gA ->]]]; eexists; exists a'; split; first by [].
  rewrite /= -sA; elim: As {sA gA} => [//|A As IH] /=; by rewrite size_cat size_map IH mulSn.
rewrite /= -sA; elim: As {sA} gA => [|A As IH] gA /=; first by rewrite big_nil.
rewrite big_cat /= IH => [|B BA]; last by apply: gA; rewrite inE BA orbT.
have [phi [sqA dA]] := gA A (mem_head _ _).
rewrite big_map (perm_big (lcomps m (sumn (bunched a (cf_state cfg))))) /=; last first.
  by apply: uniq_perm; rewrite ?lcomps_uniq // => t; rewrite mL mem_lcomps eb.
by rewrite (sep_norm sw dA sqA) [RHS](natrD R 1 (size As)).
Qed.

Lemma C63_wrong_side_refuted_lemma :
  forall (R : rcfType) (svd : seq (seq (ComplexField.complex_numFieldType R)) -> res (seq (seq (ComplexField.complex_numFieldType R)) * seq R * seq (seq (ComplexField.complex_numFieldType R)))) (cis : R -> (ComplexField.complex_numFieldType R)) (H : eqType) (hash : seq nat -> H) (gray : nat -> seq nat) (calc : any_calc (ComplexField.complex_numFieldType R)), svd_ok svd -> cis_ok cis ->
  (forall n, gray_ok gray n) -> injective hash ->
  exists (U : seq (seq (ComplexField.complex_numFieldType R))) (s t : seq nat) x f0, [/\ unitary 3 U, bs_prob U s t = 1,
    new_sep svd (SepAttrs (Some 2%N) (Some 1) (Some 2%N) None) (Config U s (sumn s) 3 0 (sumn s) 1) calc = Ok x
  & forall fuel, (f0 <= fuel)%N -> always (fun r => exists a', r = Ok (nseq 100 0, a'))
      (sep_probabilities hash gray fuel cis (@np_rand R) x [:: t])].
Proof.
move=> R svd cis H hash gray calc sv ok gr inj.
pose U := [:: [:: 1; 0; 0]; [:: 0; 0; 1]; [:: 0; 1; 0]] : seq (seq (ComplexField.complex_numFieldType R)); exists U, [:: 1; 0; 0]%N, [:: 1; 0; 0]%N.
have e30 : [:: 1; 0; 0]%N = single 3 0 by rewrite /single incrE.

have uU : unitary 3 U.
  split; first by rewrite /is_square /=.
  move=> i i' il i'l; rewrite /ortho_cols !big_ord_recl big_ord0.
  by case: i il => [|[|[|//]]] _; case: i' i'l => [|[|[|//]]] _; rewrite /ent /=; simpc; apply/eqP;
    rewrite eq_complex /= ?oppr0 ?mulr0 ?mul0r ?mulr1 ?addr0 ?add0r ?subr0 ?eqxx.
have eN : scaled_columns 3 2 1 U = U.
  by rewrite /scaled_columns /U /= /ent /= sqrtr1 divr1 !mulr1.
pose cfg := Config U [:: 1; 0; 0]%N (sumn [:: 1; 0; 0]%N) 3 0 (sumn [:: 1; 0; 0]%N) (1 : R).
have su : subunitary 3 (scaled_columns 3 2 1 (cf_matrix cfg)).
  rewrite [cf_matrix _]/= eN; apply: (@gram_subunitary R 3 U 1) => // i i' il il'; have [_ /(_ i i' il il')] := uU.
  by rewrite /ortho_cols => ->; rewrite mulr1.
have [f0 [x [e F]]] := @C63_probabilities_lemma R svd cis 3 2 1 cfg calc None H hash gray sv ok isT isT erefl erefl erefl su erefl (gr _) (fun t t' _ _ h => inj t t' h).
exists x, f0; split=> //.
  by rewrite e30 bs_prob_single // /ent /= /nsq /= expr1n expr0n addr0.
move=> fuel /F K; apply: always_impl (K [:: [:: 1; 0; 0]%N] isT) => r [As [a' [sA dA ->]]]; exists a'; congr (Ok (_, _)).
rewrite -sA; elim: As {sA} dA => [//|A As IH] dA; rewrite [flatten _]/= IH => [|B BA]; last by apply: dA; rewrite inE BA orbT.
congr (_ :: _); have [phi [c _]] := dA A (mem_head _ _).
rewrite [bunched _ _](_ : _ = [:: 0; 1; 0]%N) // /traced_prob.
have -> : comps 3 (sumn [:: 0; 1; 0]%N - sumn [:: 1; 0; 0]%N) = [:: nseq 3 0%N] by vm_compute.
rewrite big_seq1 -(@bs_prob_pad R A [:: 0; 1; 0]%N _ 3) //.
have -> : ([:: 0; 1; 0] ++ nseq 3 0)%N = single 6 1 by rewrite /single incrE.
have -> : ([:: 1; 0; 0] ++ nseq 3 0)%N = single 6 0 by rewrite /single incrE.
rewrite bs_prob_single // c // ent_tab //=.
rewrite eN !big_ord_recl big_ord0 /U /ent /= !mulr0 !addr0 /nsq /= expr0n addr0; by [].
Qed.
