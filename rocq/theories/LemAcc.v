(* Final forms of the lemmas behind the property theorems: C59 (accuracy of the distributions estimated from samples, on the real numbers of the standard library). *)
From Coq Require Import Reals ZArith.
From mathcomp Require Import all_ssreflect all_algebra complex zify.
From Verif Require Import Base ProofDist1 SpecStates SpecPerm SpecBS SpecProb ModelStates ModelPerm ModelDist ModelGcc ModelGccB SpecGcc ModelQC ModelBound ModelSample SpecSample RealInst Combi PermMath ProbMath BsNorm LemDist LemGcc ProofGcc3 ProofGccB2 ProofSample1 LemBound LemStates.
Set Implicit Arguments.
Unset Strict Implicit.
Unset Printing Implicit Defensive.
Import Order.TTheory GRing.Theory Num.Theory.
Local Open Scope ring_scope.
Local Open Scope py_scope.

Lemma accuracy_aux : forall (G : Type) (simulate : seq nat -> nat -> G -> rprog R_rcfType (res (seq (seq nat) * G))) (se : pyerr) (fuel m : nat)
    (c : scalc R_rcfType G) (outs S : seq (seq nat)) (P : seq nat -> R_rcfType) (k : nat) (b : R_rcfType) (v : R_rcfType),
  (if sc_outcomes c is Some o then Ok o else
     generate_possible_states fuel (Posz (cf_left (sc_conf c))) (Posz (cf_modes (sc_conf c))) false) = Ok outs ->
  modes_of m outs -> uniq outs -> uniq S -> S =i outs -> (forall t, t \in S -> 0 <= P t) -> \sum_(t <- S) P t = 1 ->
  (0 < k)%N -> samples_ok (simulate (cf_state (sc_conf c)) k (sc_strategy c)) (modes_of m) -> samples_law (simulate (cf_state (sc_conf c)) k (sc_strategy c)) k S P ->
  v = iid_exp outs P k (fun L => if tvd_lists [seq (count_mem t L)%:R / (size L)%:R | t <- outs] [seq P t | t <- outs] is Ok x
              then if b <= x then 1 else 0 else 1) ->
  has_exp (far_from [seq P t | t <- outs] b) (approximate_distribution simulate se fuel k c) v.
Proof.
move=> G simulate se fuel m c outs S P k b v ho mo uo uS So P0 P1 k0 H E ->.
apply: (@approx_exp R_rcfType G simulate se fuel m c outs ho mo k k0 _ _ H).
pose F L := far_from [seq P t | t <- outs] b (Ok (map Some (frequencies R_rcfType k outs L), tt)).
apply: has_exp_eq (has_exp_ext _ (E F)) _; first by move=> [[L g]|e].
rewrite (iid_exp_perm _ _ _ (_ : perm_eq S outs)); last exact: uniq_perm.
apply: iid_exp_size => L sL; rewrite /F /far_from /=.
have -> : pmap id [seq Some x | x <- frequencies R_rcfType k outs L] = frequencies R_rcfType k outs L.
  by elim: (frequencies _ _ _ _) => //= x l ->.
by rewrite freq_uniq // sL; case: (tvd_lists _ _).
Qed.

Lemma C59_accuracy_lemma :
  forall (G : Type) (simulate : seq nat -> nat -> G -> rprog R_rcfType (res (seq (seq nat) * G))) (se : pyerr) (fuel m : nat)
    (c : scalc R_rcfType G) (outs S : seq (seq nat)) (P : seq nat -> R_rcfType) (k : nat) (p : R_rcfType),
  (if sc_outcomes c is Some o then Ok o else
     generate_possible_states fuel (Posz (cf_left (sc_conf c))) (Posz (cf_modes (sc_conf c))) false) = Ok outs ->
  modes_of m outs -> uniq outs -> uniq S -> S =i outs -> (forall t, t \in S -> 0 <= P t) -> \sum_(t <- S) P t = 1 ->
  (0 < k)%N -> samples_ok (simulate (cf_state (sc_conf c)) k (sc_strategy c)) (modes_of m) -> samples_law (simulate (cf_state (sc_conf c)) k (sc_strategy c)) k S P -> Rlt 0 p -> Rle p 1 ->
  exists2 v, has_exp (far_from [seq P t | t <- outs] (tv_error_bound (Z.of_nat (size outs)) (Z.of_nat k) p)) (approximate_distribution simulate se fuel k c) v & v <= p.
Proof.
move=> G simulate se fuel m c outs S P k p ho mo uo uS So P0 P1 k0 H E p0 p1.
eexists; first exact: (@accuracy_aux G simulate se fuel m c outs S P k _ _ ho mo uo uS So P0 P1 k0 H E erefl).
apply: C57_error_bound_lemma => //; first by move=> t; rewrite -So; exact: P0.
by rewrite -P1; apply: perm_big; rewrite perm_sym; exact: uniq_perm.
Qed.

Lemma C59_minimal_samples_lemma :
  forall (G : Type) (simulate : seq nat -> nat -> G -> rprog R_rcfType (res (seq (seq nat) * G))) (se : pyerr) (fuel m : nat)
    (c : scalc R_rcfType G) (outs S : seq (seq nat)) (P : seq nat -> R_rcfType) (p d : R_rcfType),
  (if sc_outcomes c is Some o then Ok o else
     generate_possible_states fuel (Posz (cf_left (sc_conf c))) (Posz (cf_modes (sc_conf c))) false) = Ok outs ->
  modes_of m outs -> uniq outs -> uniq S -> S =i outs -> (forall t, t \in S -> 0 <= P t) -> \sum_(t <- S) P t = 1 ->
  let k := Z.to_nat (minimal_samples (Z.of_nat (size outs)) p d) in
  samples_ok (simulate (cf_state (sc_conf c)) k (sc_strategy c)) (modes_of m) -> samples_law (simulate (cf_state (sc_conf c)) k (sc_strategy c)) k S P -> Rlt 0 p -> Rle p 1 -> Rlt 0 d ->
  exists2 v, has_exp (far_from [seq P t | t <- outs] d) (approximate_distribution simulate se fuel k c) v & v <= p.
Proof.
move=> G simulate se fuel m c outs S P p d ho mo uo uS So P0 P1 k H E p0 p1 d0.
have k0 : (0 < k)%N.
  have [k1 _ _] := @C47_minimal_samples_lemma (Z.of_nat (size outs)) p d (Zle_0_nat _) p0 p1 d0.
  by rewrite /k; move: (minimal_samples _ _ _) k1 => z; lia.
eexists; first exact: (@accuracy_aux G simulate se fuel m c outs S P k _ _ ho mo uo uS So P0 P1 k0 H E erefl).
apply: C57_minimal_samples_lemma => //; first by move=> t; rewrite -So; exact: P0.
by rewrite -P1; apply: perm_big; rewrite perm_sym; exact: uniq_perm.
Qed.

Lemma C59_gcc_agrees_with_exact_lemma :
  forall (H : eqType) (hash : seq nat -> H) (gray : nat -> seq nat) (se : pyerr) (m : nat) (U : seq (seq (ComplexField.complex_numFieldType R_rcfType))) (s : seq nat)
    (lost : int) (eta : R_rcfType) (a : any_calc (ComplexField.complex_numFieldType R_rcfType)) (n k : nat) (x : gcc R_rcfType) (p : R_rcfType),
  unitary m U -> size s = m -> (0 < m)%N -> gray_ok gray (sumn s) ->
  (forall t t', substate t s -> substate t' s -> hash t = hash t' -> t = t') ->
  calc_matrix (g_calc x) = U -> (0 < k)%N -> Rlt 0 p -> Rle p 1 ->
  exists f0, forall fuel, (f0 <= fuel)%N ->
  let cfg := Config U s (sumn s) m lost (sumn s) eta in
  exists D a', fixed_distribution hash gray fuel cfg a = Ok (D, a') /\
  exists2 v, has_exp (far_from D (tv_error_bound (Z.of_nat (size D)) (Z.of_nat k) p))
    (approximate_distribution (gcc_simulate gray fuel) se fuel k (SCalc cfg x None n)) v & v <= p.
Proof.
move=> H hash gray se m U s lost eta a n k x p u ss m0 gr inj ex k0 p0 p1.
have [L [f1 D]] := @C22_fixed_loss_distribution_lemma _ H hash gray m U s eta lost (sumn s) a u ss m0 gr inj (leqnn _).
have [outs [[f2 E] mL sL]] := C03_lemma (sumn s) m0.
exists (maxn f1 (maxn f2 (\prod_(x <- s) x.+1))) => fuel; rewrite !geq_max => /and3P[h1 h2 h3] cfg.
have [Pr [a' [eo ed [eP [uL iL]] P0 P1]]] := D fuel h1; exists Pr, a'; split=> //.
have eL : L = outs.
  by move: eo; rewrite /fixed_outcomes /= E // => -[].
subst outs; have uon : unitary_on m U s by apply: unitaryW; rewrite ?ss.
have ok : samples_ok (gcc_simulate gray fuel s k x) (modes_of m).
  apply: always_impl (gcc_simulate_always uon ss gr h3 k ex) => _ [M [g' [-> _ _ aM]]]; exists M, g'; split=> //.
  by apply/allP => t /aM [/andP[]].
have ho : modes_of m L by apply/allP => t; rewrite iL => /andP[].
have eP' : Pr = [seq bs_prob U s t | t <- L].
  by rewrite eP; apply/eq_in_map => t; rewrite iL => /andP[_ /eqP e]; exact: fixed_loss_full.
have e1 : comps m (sumn s) =i L by move=> t; rewrite mem_comps iL.
have e2 : perm_eq (comps m (sumn s)) L by apply: uniq_perm => //; exact: comps_uniq.
have [|||v h1' h2'] := @C59_accuracy_lemma _ (gcc_simulate gray fuel) se fuel m (SCalc cfg x None n) L (comps m (sumn s)) (bs_prob U s) k p (E fuel h2) ho uL (comps_uniq _ _) e1 _ _ k0 ok _ p0 p1.
- by move=> t; rewrite e1 => tL; apply: P0; rewrite eP'; exact: map_f.
- by rewrite (perm_big _ e2) -P1 eP' big_map.
- by move=> f; exact: gcc_simulate_exp.
by exists v => //; rewrite eP' size_map.
Qed.

Lemma C59_uniform_losses_agrees_with_exact_lemma :
  forall (H : eqType) (hash : seq nat -> H) (gray : nat -> seq nat) (se : pyerr) (m : nat) (U : seq (seq (ComplexField.complex_numFieldType R_rcfType))) (s : seq nat)
    (lost : int) (left : nat) (eta : R_rcfType) (a : any_calc (ComplexField.complex_numFieldType R_rcfType)) (n k : nat) (x : ugccb R_rcfType) (p : R_rcfType),
  unitary m U -> size s = m -> (0 < m)%N -> gray_ok gray (sumn s) ->
  (forall t t', substate t s -> substate t' s -> hash t = hash t' -> t = t') -> 0 <= eta <= 1 ->
  calc_matrix (b_calc (ub_b x)) = U -> ub_eta x = eta -> (0 < k)%N -> Rlt 0 p -> Rle p 1 ->
  exists f0, forall fuel, (f0 <= fuel)%N ->
  let cfg := Config U s (sumn s) m lost left eta in
  exists L D, [/\ uniform_outcomes fuel (new_uniform_calc cfg a) = Ok L, uniform_distribution hash gray fuel (new_uniform_calc cfg a) = Ok D
  & exists2 v, has_exp (far_from D (tv_error_bound (Z.of_nat (size D)) (Z.of_nat k) p))
    (approximate_distribution (ugccb_simulate fuel) se fuel k (SCalc cfg x (Some L) n)) v & v <= p].
Proof.
move=> H hash gray se m U s lost left eta a n k x p u ss m0 gr inj e01 ex ee k0 p0 p1.
have [L [f1 D]] := @C23_uniform_loss_distribution_lemma _ H hash gray m U s eta lost left a u ss m0 gr inj e01.
exists (maxn f1 (\prod_(x <- s) x.+1)) => fuel; rewrite !geq_max => /andP[h1 h3] cfg.
have [Pr [eo ed [eP [uL iL]] P0 P1]] := D fuel h1; exists L, Pr; split=> //.
have uon : unitary_on m U s by apply: unitaryW; rewrite ?ss.
have ok : samples_ok (ugccb_simulate fuel s k x) (modes_of m).
  apply: always_impl (ugccb_simulate_always uon ss h3 e01 k ex ee) => _ [M [g' [-> _ _ aM]]]; exists M, g'; split=> //.
  by apply/allP => t /aM /andP[].
have ho : modes_of m L by apply/allP => t; rewrite iL => /andP[].
have e1 : lcomps m (sumn s) =i L by move=> t; rewrite mem_lcomps iL.
have e2 : perm_eq (lcomps m (sumn s)) L by apply: uniq_perm => //; exact: lcomps_uniq.
have [|||v h1' h2'] := @C59_accuracy_lemma _ (ugccb_simulate fuel) se fuel m (SCalc cfg x (Some L) n) L (lcomps m (sumn s)) (uniform_loss_prob U s eta) k p erefl ho uL (lcomps_uniq _ _) e1 _ _ k0 ok _ p0 p1.
- by move=> t; rewrite e1 => tL; apply: P0; rewrite eP; exact: map_f.
- by rewrite (perm_big _ e2) -P1 eP big_map.
- by move=> f; exact: ugccb_simulate_exp.
by exists v => //; rewrite eP size_map.
Qed.

Lemma C59_calculate_distribution_lemma :
  forall (H : eqType) (hash : seq nat -> H) (gray : nat -> seq nat) (se : pyerr) (m : nat) (U : seq (seq (ComplexField.complex_numFieldType R_rcfType))) (s : seq nat)
    (lost : int) (eta : R_rcfType) (a : any_calc (ComplexField.complex_numFieldType R_rcfType)) (n : nat) (x : gcc R_rcfType) (p : R_rcfType),
  unitary m U -> size s = m -> (0 < m)%N -> gray_ok gray (sumn s) ->
  (forall t t', substate t s -> substate t' s -> hash t = hash t' -> t = t') ->
  calc_matrix (g_calc x) = U -> Rlt 0 p -> Rle p 1 ->
  exists f0, forall fuel, (f0 <= fuel)%N ->
  let cfg := Config U s (sumn s) m lost (sumn s) eta in
  exists D a', fixed_distribution hash gray fuel cfg a = Ok (D, a') /\
  exists2 v, has_exp (far_from D (tv_error_bound (Z.of_nat (size D)) 5000 p))
    (sample_distribution (gcc_simulate gray fuel) se fuel (SCalc cfg x None n)) v & v <= p.
Proof.
move=> H hash gray se m U s lost eta a n x p u ss m0 gr inj ex p0 p1.
have k0 : (0 < default_samples)%N by rewrite /default_samples -lock.
have ek : Z.of_nat default_samples = Z.add 0 5000 by rewrite /default_samples -lock Nat2Z.inj_mul.
rewrite /= in ek.
rewrite -ek.
exact: (@C59_gcc_agrees_with_exact_lemma H hash gray se m U s lost eta a n default_samples x p u ss m0 gr inj ex k0 p0 p1).
Qed.
