(* Final forms of the lemmas behind the property theorems: C64-C69 (other labels, phases, reversal, composition, losses behind the network, mean numbers, zero transmission, networks side by side). *)
From mathcomp Require Import all_ssreflect all_algebra complex ring zify.
From Verif Require Import Base SpecStates Combi SpecPerm SpecBS ModelStates ModelPerm ModelDist ProofDist1 SpecProb ModelGcc ModelGccB ModelNet SpecNet SpecGcc SpecSym PermMath BsNorm BsComb BsSym ProbMath ProofGccB2 ProofGcc3 ProofGcc6 ProofNet7 ProofSym1 ProofSym2 ProofSym3 ProofSym4 ProofSym5 ProofSym6 LemStates LemPerm LemDist LemGcc.
Set Implicit Arguments.
Unset Strict Implicit.
Unset Printing Implicit Defensive.
Import Order.TTheory GRing.Theory Num.Theory.
Local Open Scope ring_scope.
Local Open Scope py_scope.

Lemma C64_relabelled_permanent_lemma :
  forall (F : numFieldType) (gray : nat -> seq nat) (fuel m : nat) (U : seq (seq F)) (sigma tau s t : seq nat) (k k' : calc_type),
  is_square m U -> size s = m -> size t = m -> (0 < m)%N -> sumn s = sumn t -> perm_eq sigma (iota 0 m) -> perm_eq tau (iota 0 m) ->
  ((0 < sumn s)%N -> is_gray_code (sumn s - 1) (gray (sumn s - 1)%N)) -> (\prod_(x <- s) x.+1 <= fuel)%N ->
  rmap fst (compute_any gray fuel (generate_calculator (CalcFactory (relabel_mx tau sigma U) (relabel sigma s) (relabel tau t) k))) =
  rmap fst (compute_any gray fuel (generate_calculator (CalcFactory U s t k'))).
Proof.
move=> F gray fuel m U sigma tau s t k k' sq zs zt m0 e ps pt gr fu.
have ne : s != [::] by case: (s) zs m0 => [<-|].
have es := sumn_relabel ps zs.
rewrite (C16_factory_calculators_agree_lemma (m := m)) ?size_relabel ?(sigma_size ps) ?(sigma_size pt) //.
- rewrite (C16_factory_calculators_agree_lemma (m := m)) ?zs ?zt //.
  by rewrite bs_permanent_relabel ?zs ?zt.
- by apply: square_relabel; [exact: (sigma_size pt)|exact: (sigma_size ps)].
- by rewrite -size_eq0 size_relabel (sigma_size ps) -lt0n.
- by rewrite es (sumn_relabel pt).
- by rewrite es.
- by rewrite (perm_big s) //; apply: relabel_perm; rewrite zs.
Qed.

Lemma C64_relabelled_fixed_lemma :
  forall (R : rcfType) (H : eqType) (hash : seq nat -> H) (gray : nat -> seq nat) (fuel m : nat) (U : seq (seq (ComplexField.complex_numFieldType R))) (sigma tau s : seq nat) (eta : R) (lost : int) (l : nat) (a a' : any_calc (ComplexField.complex_numFieldType R)) (ts : seq (seq nat)),
  is_square m U -> size s = m -> (0 < m)%N -> gray_ok gray (sumn s) -> (\prod_(x <- s) x.+1 <= fuel)%N -> perm_eq sigma (iota 0 m) -> perm_eq tau (iota 0 m) ->
  (forall t t', substate t s -> substate t' s -> hash t = hash t' -> t = t') -> (forall t t', substate t (relabel sigma s) -> substate t' (relabel sigma s) -> hash t = hash t' -> t = t') ->
  (l <= sumn s)%N -> all (is_state m l) ts ->
  exists P b b', fixed_probabilities hash gray fuel (Config U s (sumn s) m lost l eta) a ts = Ok (P, b) /\
  fixed_probabilities hash gray fuel (Config (relabel_mx tau sigma U) (relabel sigma s) (sumn s) m lost l eta) a' (map (relabel tau) ts) = Ok (P, b').
Proof.
move=> R H hash gray fuel m U sigma tau s eta lost l a a' ts sq zs m0 gr fu ps pt inj inj' ls at_.
have [b E] := C21_fixed_loss_probabilities_lemma eta lost a sq zs m0 gr fu inj ls at_.
have es := sumn_relabel ps zs.
have sq' : is_square m (relabel_mx tau sigma U) by apply: square_relabel; [exact: (sigma_size pt)|exact: (sigma_size ps)].
have zs' : size (relabel sigma s) = m by rewrite size_relabel (sigma_size ps).
have fu' : (\prod_(x <- relabel sigma s) x.+1 <= fuel)%N by rewrite (perm_big s) //; apply: relabel_perm; rewrite zs.
have at' : all (is_state m l) (map (relabel tau) ts).
  rewrite all_map; apply/allP=> t /(allP at_)/andP[/eqP zt /eqP et] /=.
  by rewrite /is_state size_relabel (sigma_size pt) (sumn_relabel pt) // et !eqxx.
have := @C21_fixed_loss_probabilities_lemma R H hash gray fuel m (relabel_mx tau sigma U) (relabel sigma s) eta lost l a' (map (relabel tau) ts) sq' zs' m0.
rewrite es => /(_ gr fu' inj' ls at')[b' E'].
exists [seq fixed_loss_prob U s t | t <- ts], b, b'; split=> //; rewrite E' -map_comp; congr (Ok (_, _)).
by apply/eq_in_map=> t /(allP at_)/andP[/eqP zt _] /=; exact: (fixed_loss_relabel _ ps pt).
Qed.

Lemma C64_relabelled_uniform_lemma :
  forall (R : rcfType) (H : eqType) (hash : seq nat -> H) (gray : nat -> seq nat) (fuel m : nat) (U : seq (seq (ComplexField.complex_numFieldType R))) (sigma tau s : seq nat) (eta : R) (lost : int) (left : nat) (a a' : any_calc (ComplexField.complex_numFieldType R)) (ts : seq (seq nat)),
  is_square m U -> size s = m -> (0 < m)%N -> gray_ok gray (sumn s) -> (\prod_(x <- s) x.+1 <= fuel)%N -> perm_eq sigma (iota 0 m) -> perm_eq tau (iota 0 m) ->
  (forall t t', substate t s -> substate t' s -> hash t = hash t' -> t = t') -> (forall t t', substate t (relabel sigma s) -> substate t' (relabel sigma s) -> hash t = hash t' -> t = t') ->
  all (fun t => (size t == m) && (sumn t <= sumn s)%N) ts ->
  uniform_probabilities hash gray fuel (new_uniform_calc (Config (relabel_mx tau sigma U) (relabel sigma s) (sumn s) m lost left eta) a') (map (relabel tau) ts) =
  uniform_probabilities hash gray fuel (new_uniform_calc (Config U s (sumn s) m lost left eta) a) ts.
Proof.
move=> R H hash gray fuel m U sigma tau s eta lost left a a' ts sq zs m0 gr fu ps pt inj inj' at_.
rewrite (C23_uniform_loss_probabilities_lemma eta lost left a sq zs m0 gr fu inj at_).
have es := sumn_relabel ps zs.
have sq' : is_square m (relabel_mx tau sigma U) by apply: square_relabel; [exact: (sigma_size pt)|exact: (sigma_size ps)].
have zs' : size (relabel sigma s) = m by rewrite size_relabel (sigma_size ps).
have fu' : (\prod_(x <- relabel sigma s) x.+1 <= fuel)%N by rewrite (perm_big s) //; apply: relabel_perm; rewrite zs.
have at' : all (fun t => (size t == m) && (sumn t <= sumn s)%N) (map (relabel tau) ts).
  rewrite all_map; apply/allP=> t /(allP at_)/andP[/eqP zt et] /=.
  by rewrite size_relabel (sigma_size pt) (sumn_relabel pt) // et eqxx.
have := @C23_uniform_loss_probabilities_lemma R H hash gray fuel m (relabel_mx tau sigma U) (relabel sigma s) eta lost left a' (map (relabel tau) ts) sq' zs' m0.
rewrite es => /(_ gr fu' inj' at') ->; rewrite -map_comp; congr Ok.
by apply/eq_in_map=> t /(allP at_)/andP[/eqP zt _] /=; exact: (uniform_loss_relabel _ _ ps pt).
Qed.

Lemma C64_relabelled_sampler_lemma :
  forall (R : rcfType) (gray : nat -> seq nat) (fuel m : nat) (U : seq (seq (ComplexField.complex_numFieldType R))) (sigma tau s : seq nat) (k : nat) (g g' : gcc R) (L : seq (seq nat)),
  unitary_on m U s -> size s = m -> gray_ok gray (sumn s) -> (\prod_(x <- s) x.+1 <= fuel)%N -> perm_eq sigma (iota 0 m) -> perm_eq tau (iota 0 m) ->
  calc_matrix (g_calc g) = U -> calc_matrix (g_calc g') = relabel_mx tau sigma U -> all (fun t => size t == m) L ->
  exists2 v, has_exp (on_ok (fun x => (x.1 == L)%:R)) (gcc_simulate gray fuel s k g) v
    & has_exp (on_ok (fun x => (x.1 == map (relabel tau) L)%:R)) (gcc_simulate gray fuel (relabel sigma s) k g') v.
Proof.
move=> R gray fuel m U sigma tau s k g g' L u zs gr fu ps pt eg eg' aL.
have es := sumn_relabel ps zs.
have u' := unitary_on_relabel pt ps zs u.
have zs' : size (relabel sigma s) = m by rewrite size_relabel (sigma_size ps).
have fu' : (\prod_(x <- relabel sigma s) x.+1 <= fuel)%N by rewrite (perm_big s) //; apply: relabel_perm; rewrite zs.
have := C27_gcc_exact_lemma k u zs gr fu eg => /(_ L) E.
have := @C27_gcc_exact_lemma R gray fuel m _ (relabel sigma s) k g' u' zs'; rewrite es => /(_ gr fu' eg')/(_ (map (relabel tau) L)) E'.
eexists; first exact: E.
congr (has_exp _ _ _): E'; rewrite size_map all_map big_map.
have -> : all (preim (relabel tau) (is_state m (sumn s))) L = all (is_state m (sumn s)) L.
  apply: eq_in_all => t /(allP aL)/eqP zt /=.
  by rewrite /is_state size_relabel (sigma_size pt) (sumn_relabel pt) // zt.
case: ifP => // /andP[_ /allP aS]; apply: eq_big_seq => t tL; have /andP[/eqP zt /eqP et] := aS _ tL.
by rewrite (bs_prob_relabel _ ps pt).
Qed.

Lemma C64_phases_fixed_lemma :
  forall (R : rcfType) (H : eqType) (hash : seq nat -> H) (gray : nat -> seq nat) (fuel m : nat) (U : seq (seq (ComplexField.complex_numFieldType R))) (x y : nat -> (ComplexField.complex_numFieldType R)) (s : seq nat) (eta : R) (lost : int) (l : nat) (a a' : any_calc (ComplexField.complex_numFieldType R)) (ts : seq (seq nat)),
  is_square m U -> size s = m -> (0 < m)%N -> gray_ok gray (sumn s) -> (\prod_(x <- s) x.+1 <= fuel)%N -> (forall i, (i < m)%N -> nsq (x i) = 1) -> (forall i, (i < m)%N -> nsq (y i) = 1) ->
  (forall t t', substate t s -> substate t' s -> hash t = hash t' -> t = t') ->
  (l <= sumn s)%N -> all (is_state m l) ts ->
  exists P b b', fixed_probabilities hash gray fuel (Config U s (sumn s) m lost l eta) a ts = Ok (P, b) /\
  fixed_probabilities hash gray fuel (Config (phased m x y U) s (sumn s) m lost l eta) a' ts = Ok (P, b').
Proof.
move=> R H hash gray fuel m U x y s eta lost l a a' ts sq zs m0 gr fu px py inj ls at_.
have [b E] := C21_fixed_loss_probabilities_lemma eta lost a sq zs m0 gr fu inj ls at_.
have sq' : is_square m (phased m x y U) by exact: square_mk.
have [b' E'] := C21_fixed_loss_probabilities_lemma eta lost a' sq' zs m0 gr fu inj ls at_.
exists [seq fixed_loss_prob U s t | t <- ts], b, b'; split=> //; rewrite E'; congr (Ok (_, _)).
by apply/eq_in_map=> t /(allP at_)/andP[/eqP zt _] /=; exact: fixed_loss_phased.
Qed.

Lemma C64_phases_uniform_lemma :
  forall (R : rcfType) (H : eqType) (hash : seq nat -> H) (gray : nat -> seq nat) (fuel m : nat) (U : seq (seq (ComplexField.complex_numFieldType R))) (x y : nat -> (ComplexField.complex_numFieldType R)) (s : seq nat) (eta : R) (lost : int) (left : nat) (a a' : any_calc (ComplexField.complex_numFieldType R)) (ts : seq (seq nat)),
  is_square m U -> size s = m -> (0 < m)%N -> gray_ok gray (sumn s) -> (\prod_(x <- s) x.+1 <= fuel)%N -> (forall i, (i < m)%N -> nsq (x i) = 1) -> (forall i, (i < m)%N -> nsq (y i) = 1) ->
  (forall t t', substate t s -> substate t' s -> hash t = hash t' -> t = t') ->
  all (fun t => (size t == m) && (sumn t <= sumn s)%N) ts ->
  uniform_probabilities hash gray fuel (new_uniform_calc (Config (phased m x y U) s (sumn s) m lost left eta) a') ts =
  uniform_probabilities hash gray fuel (new_uniform_calc (Config U s (sumn s) m lost left eta) a) ts.
Proof.
move=> R H hash gray fuel m U x y s eta lost left a a' ts sq zs m0 gr fu px py inj at_.
have sq' : is_square m (phased m x y U) by exact: square_mk.
rewrite (C23_uniform_loss_probabilities_lemma eta lost left a sq zs m0 gr fu inj at_).
rewrite (C23_uniform_loss_probabilities_lemma eta lost left a' sq' zs m0 gr fu inj at_); congr Ok.
by apply/eq_in_map=> t /(allP at_)/andP[/eqP zt _] /=; exact: uniform_loss_phased.
Qed.

Lemma C64_phases_sampler_lemma :
  forall (R : rcfType) (gray : nat -> seq nat) (fuel m : nat) (U : seq (seq (ComplexField.complex_numFieldType R))) (x y : nat -> (ComplexField.complex_numFieldType R)) (s : seq nat) (k : nat) (g : gcc R),
  unitary_on m U s -> size s = m -> gray_ok gray (sumn s) -> (\prod_(x <- s) x.+1 <= fuel)%N -> (forall i, (i < m)%N -> nsq (x i) = 1) -> (forall i, (i < m)%N -> nsq (y i) = 1) ->
  calc_matrix (g_calc g) = phased m x y U ->
  iid_samples (gcc_simulate gray fuel s k g) k (is_state m (sumn s)) (bs_prob U s).
Proof.
move=> R gray fuel m U x y s k g u zs gr fu px py eg L.
have := C27_gcc_exact_lemma k (unitary_on_phased px py zs u) zs gr fu eg => /(_ L) E.
congr (has_exp _ _ _): E; case: ifP => // /andP[_ /allP aS]; apply: eq_big_seq => t tL; have /andP[/eqP zt /eqP et] := aS _ tL.
by rewrite bs_prob_phased.
Qed.

Lemma C64_reversed_permanent_lemma :
  forall (R : rcfType) (gray : nat -> seq nat) (fuel m : nat) (U : seq (seq (ComplexField.complex_numFieldType R))) (s t : seq nat) (k k' : calc_type),
  is_square m U -> size s = m -> size t = m -> (0 < m)%N -> sumn s = sumn t ->
  ((0 < sumn s)%N -> is_gray_code (sumn s - 1) (gray (sumn s - 1)%N)) -> (\prod_(x <- s) x.+1 <= fuel)%N -> (\prod_(x <- t) x.+1 <= fuel)%N ->
  rmap fst (compute_any gray fuel (generate_calculator (CalcFactory (reversed m U) t s k))) =
  rmap conjc (rmap fst (compute_any gray fuel (generate_calculator (CalcFactory U s t k')))).
Proof.
move=> R gray fuel m U s t k k' sq zs zt m0 e gr fu fu'.
have ne : s != [::] by case: (s) zs m0 => [<-|].
have ne' : t != [::] by case: (t) zt m0 => [<-|].
rewrite (C16_factory_calculators_agree_lemma (m := m)) ?zs ?zt -?e //; last exact: square_mk.
rewrite (C16_factory_calculators_agree_lemma (m := m)) ?zs ?zt //=.
by rewrite bs_permanent_reversed.
Qed.

Lemma C64_reversed_probability_lemma :
  forall (R : rcfType) (H : eqType) (hash : seq nat -> H) (gray : nat -> seq nat) (fuel m : nat) (U : seq (seq (ComplexField.complex_numFieldType R))) (s t : seq nat) (eta eta' : R) (lost lost' : int) (a a' : any_calc (ComplexField.complex_numFieldType R)),
  is_square m U -> size s = m -> size t = m -> (0 < m)%N -> sumn s = sumn t -> gray_ok gray (sumn s) -> (\prod_(x <- s) x.+1 <= fuel)%N -> (\prod_(x <- t) x.+1 <= fuel)%N ->
  (forall t t', substate t s -> substate t' s -> hash t = hash t' -> t = t') -> (forall r r', substate r t -> substate r' t -> hash r = hash r' -> r = r') ->
  exists p b b', fixed_probabilities hash gray fuel (Config U s (sumn s) m lost (sumn s) eta) a [:: t] = Ok ([:: p], b) /\
  fixed_probabilities hash gray fuel (Config (reversed m U) t (sumn t) m lost' (sumn t) eta') a' [:: s] = Ok ([:: p], b').
Proof.
move=> R H hash gray fuel m U s t eta eta' lost lost' a a' sq zs zt m0 e gr fu fu' inj inj'.
have at_ : all (is_state m (sumn s)) [:: t] by rewrite /= /is_state zt e !eqxx.
have at' : all (is_state m (sumn t)) [:: s] by rewrite /= /is_state zs e !eqxx.
have [b E] := C21_fixed_loss_probabilities_lemma eta lost a sq zs m0 gr fu inj (leqnn _) at_.
have sq' : is_square m (reversed m U) by exact: square_mk.
have gr' : gray_ok gray (sumn t) by rewrite -e.
have [b' E'] := C21_fixed_loss_probabilities_lemma eta' lost' a' sq' zt m0 gr' fu' inj' (leqnn _) at'.
exists (bs_prob U s t), b, b'; rewrite E E' /=; split; congr (Ok ([:: _], _)).
  exact: fixed_loss_full.
by rewrite fixed_loss_full // bs_prob_reversed.
Qed.

Lemma C65_composition_lemma :
  forall (F : numFieldType) (gray : nat -> seq nat) (m : nat) (U V : seq (seq F)) (s t : seq nat),
  is_square m U -> is_square m V -> size s = m -> size t = m -> (0 < m)%N -> sumn s = sumn t ->
  ((0 < sumn s)%N -> is_gray_code (sumn s - 1) (gray (sumn s - 1)%N)) ->
  exists (L : seq (seq nat)) (f0 : nat), forall fuel, (f0 <= fuel)%N ->
  generate_possible_states fuel (Posz (sumn s)) (Posz m) false = Ok L /\
  forall k k1 k2 : calc_type, exists x y : seq nat -> F,
  [/\ forall r, r \in L -> rmap fst (compute_any gray fuel (generate_calculator (CalcFactory V s r k1))) = Ok (x r),
      forall r, r \in L -> rmap fst (compute_any gray fuel (generate_calculator (CalcFactory U r t k2))) = Ok (y r)
    & rmap fst (compute_any gray fuel (generate_calculator (CalcFactory (product m U V) s t k))) = Ok (\sum_(r <- L) y r * x r / (factprod r)%:R)].
Proof.
move=> F gray m U V s t sqU sqV zs zt m0 e gr.
have ne : s != [::] by case: (s) zs m0 => [<-|].
have [L [[f2 E] mL sL]] := C03_lemma (sumn s) m0.
have uL : uniq L by apply: (sorted_uniq _ _ sL); [exact: lexgt_trans|exact: lexgt_irr].
exists L, (maxn f2 (maxn (\prod_(x <- s) x.+1) (\sum_(r <- L) \prod_(x <- r) x.+1))) => fuel; rewrite !geq_max => /and3P[h2 h3 h4].
split=> [|k k1 k2]; first exact: E.
exists (fun r => bs_permanent V s r), (fun r => bs_permanent U r t); split.
- move=> r; rewrite mL => /andP[/eqP zr /eqP er]; apply: (C16_factory_calculators_agree_lemma (m := m)); rewrite ?zs ?zr ?er //.
- move=> r rL; have := rL; rewrite mL => /andP[/eqP zr /eqP er].
  apply: (C16_factory_calculators_agree_lemma (m := m)); rewrite ?zt ?zr ?er //.
    by case: (r) zr m0 => [<-|].
  apply: leq_trans h4; rewrite (big_rem r) //=; exact: leq_addr.
rewrite (C16_factory_calculators_agree_lemma (m := m)) ?zs ?zt //; last exact: square_mk.
rewrite cauchy_binet //; congr Ok; apply: perm_big; apply: uniq_perm => //; first exact: comps_uniq.
by move=> r; rewrite mem_comps mL.
Qed.

Lemma C66_fixed_losses_behind_lemma :
  forall (R : rcfType) (H : eqType) (hash : seq nat -> H) (gray : nat -> seq nat) (m : nat) (U : seq (seq (ComplexField.complex_numFieldType R))) (s : seq nat) (eta : R) (lost : int) (l l' : nat) (a a' : any_calc (ComplexField.complex_numFieldType R)),
  unitary m U -> size s = m -> (0 < m)%N -> gray_ok gray (sumn s) ->
  (forall t t', substate t s -> substate t' s -> hash t = hash t' -> t = t') ->
  (l <= l')%N -> (l' <= sumn s)%N ->
  exists (L : seq (seq nat)) (f0 : nat), forall fuel, (f0 <= fuel)%N ->
  exists (P : seq R) b,
  [/\ fixed_outcomes fuel (Config U s (sumn s) m lost l' eta) = Ok L,
      fixed_distribution hash gray fuel (Config U s (sumn s) m lost l' eta) a = Ok (P, b)
    & forall ts, all (is_state m l) ts -> exists b',
      fixed_probabilities hash gray fuel (Config U s (sumn s) m lost l eta) a' ts =
      Ok ([seq (\sum_(x <- zip L P) (ways x.1 t)%:R * x.2) / 'C(l', l)%:R | t <- ts], b')].
Proof.
move=> R H hash gray m U s eta lost l l' a a' u zs m0 gr inj ll ls.
have [L [f1 D]] := C22_fixed_loss_distribution_lemma eta lost a u zs m0 gr inj ls.
exists L, (maxn f1 (\prod_(x <- s) x.+1)) => fuel; rewrite geq_max => /andP[h1 h3].
have [P [b [eo ed [eP [uL iL]] P0 P1]]] := D fuel h1; exists P, b; split=> // ts at_.
have sq : is_square m U by case: u.
have [b' E] := C21_fixed_loss_probabilities_lemma eta lost a' sq zs m0 gr h3 inj (leq_trans ll ls) at_.
exists b'; rewrite E; congr (Ok (_, _)); apply/eq_in_map=> t /(allP at_)/andP[/eqP zt /eqP et].
have uon : unitary_on m U s by apply: unitaryW; rewrite ?zs.
have -> : fixed_loss_prob U s t = fixed_after m l' (fixed_loss_prob U s) t.
  by apply: fixed_loss_after; rewrite // et ll.
rewrite /fixed_after et; congr (_ / _).
have -> : zip L P = [seq (t', fixed_loss_prob U s t') | t' <- L] by rewrite eP -[X in zip X _]map_id zip_map.
rewrite big_map /=; apply: perm_big; apply: uniq_perm => //; first exact: comps_uniq.
by move=> r; rewrite mem_comps iL.
Qed.

Lemma C66_uniform_losses_behind_lemma :
  forall (R : rcfType) (H : eqType) (hash : seq nat -> H) (gray : nat -> seq nat) (m : nat) (U : seq (seq (ComplexField.complex_numFieldType R))) (s : seq nat) (e1 e2 : R) (lost : int) (left : nat) (a a' : any_calc (ComplexField.complex_numFieldType R)),
  unitary m U -> size s = m -> (0 < m)%N -> gray_ok gray (sumn s) ->
  (forall t t', substate t s -> substate t' s -> hash t = hash t' -> t = t') ->
  0 <= e1 <= 1 ->
  exists (L : seq (seq nat)) (f0 : nat), forall fuel, (f0 <= fuel)%N ->
  exists P : seq R,
  [/\ uniform_outcomes fuel (new_uniform_calc (Config U s (sumn s) m lost left e1) a) = Ok L,
      uniform_distribution hash gray fuel (new_uniform_calc (Config U s (sumn s) m lost left e1) a) = Ok P
    & forall ts, all (fun t => (size t == m) && (sumn t <= sumn s)%N) ts ->
      uniform_probabilities hash gray fuel (new_uniform_calc (Config U s (sumn s) m lost left (e1 * e2)) a') ts =
      Ok [seq \sum_(x <- zip L P) (ways x.1 t)%:R * e2 ^+ sumn t * (1 - e2) ^+ (sumn x.1 - sumn t) * x.2 | t <- ts]].
Proof.
move=> R H hash gray m U s e1 e2 lost left a a' u zs m0 gr inj e01.
have [L [f1 D]] := C23_uniform_loss_distribution_lemma lost left a u zs m0 gr inj e01.
exists L, (maxn f1 (\prod_(x <- s) x.+1)) => fuel; rewrite geq_max => /andP[h1 h3].
have [P [eo ed [eP [uL iL]] P0 P1]] := D fuel h1; exists P; split=> // ts at_.
have sq : is_square m U by case: u.
rewrite (C23_uniform_loss_probabilities_lemma (e1 * e2) lost left a' sq zs m0 gr h3 inj at_).
congr Ok; apply/eq_in_map=> t /(allP at_)/andP[/eqP zt et].
have uon : unitary_on m U s by apply: unitaryW; rewrite ?zs.
rewrite (uniform_loss_after _ _ uon) // /uniform_after.
have -> : zip L P = [seq (t', uniform_loss_prob U s e1 t') | t' <- L] by rewrite eP -[X in zip X _]map_id zip_map.
rewrite big_map /= (perm_big (lcomps m (sumn s))) /=; last first.
  apply: uniq_perm => //; first exact: lcomps_uniq.
  by move=> r; rewrite mem_lcomps iL.
rewrite big_lcomps; apply: eq_bigr => l _; apply: eq_big_seq => r; rewrite mem_comps => /andP[_ /eqP ->].
by [].
Qed.

Lemma C67_fixed_mean_lemma :
  forall (R : rcfType) (H : eqType) (hash : seq nat -> H) (gray : nat -> seq nat) (m : nat) (U : seq (seq (ComplexField.complex_numFieldType R))) (s : seq nat) (eta : R) (lost : int) (l i : nat) (a : any_calc (ComplexField.complex_numFieldType R)),
  unitary m U -> size s = m -> (0 < m)%N -> gray_ok gray (sumn s) ->
  (forall t t', substate t s -> substate t' s -> hash t = hash t' -> t = t') ->
  (l <= sumn s)%N -> (i < m)%N ->
  exists (L : seq (seq nat)) (f0 : nat), forall fuel, (f0 <= fuel)%N ->
  exists (P : seq R) b,
  [/\ fixed_outcomes fuel (Config U s (sumn s) m lost l eta) = Ok L,
      fixed_distribution hash gray fuel (Config U s (sumn s) m lost l eta) a = Ok (P, b)
    & \sum_(x <- zip L P) (nth 0%N x.1 i)%:R * x.2 = l%:R / (sumn s)%:R * \sum_(j < m) (nth 0%N s j)%:R * nsq (ent U i j)].
Proof.
move=> R H hash gray m U s eta lost l i a u zs m0 gr inj ls il.
have [L [f1 D]] := C22_fixed_loss_distribution_lemma eta lost a u zs m0 gr inj ls.
exists L, f1 => fuel h1.
have [P [b [eo ed [eP [uL iL]] P0 P1]]] := D fuel h1; exists P, b; split=> //.
have uon : unitary_on m U s by apply: unitaryW; rewrite ?zs.
rewrite -(mean_fixed uon zs il ls).
have -> : zip L P = [seq (t', fixed_loss_prob U s t') | t' <- L] by rewrite eP -[X in zip X _]map_id zip_map.
rewrite big_map /=; apply: perm_big; apply: uniq_perm => //; first exact: comps_uniq.
by move=> r; rewrite mem_comps iL.
Qed.

Lemma C67_uniform_mean_lemma :
  forall (R : rcfType) (H : eqType) (hash : seq nat -> H) (gray : nat -> seq nat) (m : nat) (U : seq (seq (ComplexField.complex_numFieldType R))) (s : seq nat) (eta : R) (lost : int) (left i : nat) (a : any_calc (ComplexField.complex_numFieldType R)),
  unitary m U -> size s = m -> (0 < m)%N -> gray_ok gray (sumn s) ->
  (forall t t', substate t s -> substate t' s -> hash t = hash t' -> t = t') ->
  0 <= eta <= 1 -> (i < m)%N ->
  exists (L : seq (seq nat)) (f0 : nat), forall fuel, (f0 <= fuel)%N ->
  exists P : seq R,
  [/\ uniform_outcomes fuel (new_uniform_calc (Config U s (sumn s) m lost left eta) a) = Ok L,
      uniform_distribution hash gray fuel (new_uniform_calc (Config U s (sumn s) m lost left eta) a) = Ok P
    & \sum_(x <- zip L P) (nth 0%N x.1 i)%:R * x.2 = eta * \sum_(j < m) (nth 0%N s j)%:R * nsq (ent U i j)].
Proof.
move=> R H hash gray m U s eta lost left i a u zs m0 gr inj e01 il.
have [L [f1 D]] := C23_uniform_loss_distribution_lemma lost left a u zs m0 gr inj e01.
exists L, f1 => fuel h1.
have [P [eo ed [eP [uL iL]] P0 P1]] := D fuel h1; exists P; split=> //.
have uon : unitary_on m U s by apply: unitaryW; rewrite ?zs.
rewrite -(mean_uniform _ uon zs il) -(big_lcomps m (sumn s) (fun t => (nth 0%N t i)%:R * uniform_loss_prob U s eta t)).
have -> : zip L P = [seq (t', uniform_loss_prob U s eta t') | t' <- L] by rewrite eP -[X in zip X _]map_id zip_map.
rewrite big_map /=; apply: perm_big; apply: uniq_perm => //; first exact: lcomps_uniq.
by move=> r; rewrite mem_lcomps iL.
Qed.

Lemma C67_sampler_mean_lemma :
  forall (R : rcfType) (gray : nat -> seq nat) (fuel m : nat) (U : seq (seq (ComplexField.complex_numFieldType R))) (s : seq nat) (k i : nat) (g : gcc R),
  unitary_on m U s -> size s = m -> gray_ok gray (sumn s) -> (\prod_(x <- s) x.+1 <= fuel)%N -> (i < m)%N ->
  calc_matrix (g_calc g) = U ->
  has_exp (on_ok (fun x => \sum_(t <- x.1) (nth 0%N t i)%:R)) (gcc_simulate gray fuel s k g)
    (k%:R * \sum_(j < m) (nth 0%N s j)%:R * nsq (ent U i j)).
Proof.
move=> R gray fuel m U s k i g u zs gr fu il eg.
have := gcc_simulate_exp u zs gr fu k (fun L => \sum_(t <- L) (nth 0%N t i)%:R) eg.
rewrite iid_exp_sum ?bs_prob_norm //.
have := mean_fixed u zs il (leqnn (sumn s)) => E; congr (has_exp _ _ (_ * _)).
transitivity (\sum_(t <- comps m (sumn s)) (nth 0%N t i)%:R * fixed_loss_prob U s t).
  by apply: eq_big_seq => t; rewrite mem_comps => /andP[_ /eqP et]; rewrite fixed_loss_full.
rewrite E; case: (posnP (sumn s)) => [e0|n0]; last by rewrite divff ?mul1r // pnatr_eq0 -lt0n.
rewrite e0 !mul0r big1 // => j _.
have /eqP/sumn0P -> := e0; by rewrite nth_nseq if_same mul0r.
Qed.

Lemma C67_uniform_sampler_mean_lemma :
  forall (R : rcfType) (fuel m : nat) (U : seq (seq (ComplexField.complex_numFieldType R))) (s : seq nat) (eta : R) (k i : nat) (x : ugccb R),
  unitary_on m U s -> size s = m -> (\prod_(x <- s) x.+1 <= fuel)%N -> 0 <= eta <= 1 -> (i < m)%N ->
  calc_matrix (b_calc (ub_b x)) = U -> ub_eta x = eta ->
  has_exp (on_ok (fun y => \sum_(t <- y.1) (nth 0%N t i)%:R)) (ugccb_simulate fuel s k x)
    (k%:R * (eta * \sum_(j < m) (nth 0%N s j)%:R * nsq (ent U i j))).
Proof.
move=> R fuel m U s eta k i x u zs fu e01 il eg ee.
have := ugccb_simulate_exp u zs fu e01 k (fun L => \sum_(t <- L) (nth 0%N t i)%:R) eg ee.
rewrite iid_exp_sum; last by rewrite big_lcomps uniform_loss_norm.
by rewrite big_lcomps mean_uniform.
Qed.

Lemma C68_permanent_lemma :
  forall (R : rcfType) (cis : R -> (ComplexField.complex_numFieldType R)) (gray : nat -> seq nat) (fuel n q : nat) (s t : seq nat) (k : calc_type),
  cis_ok cis -> (0 < n)%N -> size s = n -> size t = n -> sumn s = sumn t ->
  (forall j, (j < n)%N -> nth 0%N s ((j + q) %% n)%N = nth 0%N s j) -> ~~ (n %| q * \sum_(i < n) i * nth 0%N t i)%N ->
  ((0 < sumn s)%N -> is_gray_code (sumn s - 1) (gray (sumn s - 1)%N)) -> (\prod_(x <- s) x.+1 <= fuel)%N ->
  rmap fst (compute_any gray fuel (generate_calculator (CalcFactory (compute_qft_matrix cis n) s t k))) = Ok 0.
Proof.
move=> R cis gray fuel n q s t k ok n0 zs zt e rot nd gr fu.
have ne : s != [::] by case: (s) zs n0 => [<-|].
rewrite (C16_factory_calculators_agree_lemma (m := n)) ?zs ?zt //; last exact: qft_square.
by rewrite (fourier_zero ok n0 zs zt e rot nd).
Qed.

Lemma C68_probability_lemma :
  forall (R : rcfType) (cis : R -> (ComplexField.complex_numFieldType R)) (H : eqType) (hash : seq nat -> H) (gray : nat -> seq nat) (fuel n q : nat) (s t : seq nat) (eta : R) (lost : int) (a : any_calc (ComplexField.complex_numFieldType R)),
  cis_ok cis -> (0 < n)%N -> size s = n -> size t = n -> sumn s = sumn t ->
  (forall j, (j < n)%N -> nth 0%N s ((j + q) %% n)%N = nth 0%N s j) -> ~~ (n %| q * \sum_(i < n) i * nth 0%N t i)%N ->
  gray_ok gray (sumn s) -> (\prod_(x <- s) x.+1 <= fuel)%N -> (forall t t', substate t s -> substate t' s -> hash t = hash t' -> t = t') ->
  exists b, fixed_probabilities hash gray fuel (Config (compute_qft_matrix cis n) s (sumn s) n lost (sumn s) eta) a [:: t] = Ok ([:: 0], b).
Proof.
move=> R cis H hash gray fuel n q s t eta lost a ok n0 zs zt e rot nd gr fu inj.
have at_ : all (is_state n (sumn s)) [:: t] by rewrite /= /is_state zt e !eqxx.
have [b E] := C21_fixed_loss_probabilities_lemma eta lost a (qft_square cis n0) zs n0 gr fu inj (leqnn _) at_.
exists b; rewrite E /= fixed_loss_full // /bs_prob (fourier_zero ok n0 zs zt e rot nd).
by rewrite /nsq /= expr0n addr0 mul0r.
Qed.

Lemma C68_sampler_lemma :
  forall (R : rcfType) (cis : R -> (ComplexField.complex_numFieldType R)) (gray : nat -> seq nat) (fuel n q : nat) (s t : seq nat) (k : nat) (g : gcc R),
  cis_ok cis -> (0 < n)%N -> size s = n -> sumn s = sumn t ->
  (forall j, (j < n)%N -> nth 0%N s ((j + q) %% n)%N = nth 0%N s j) -> ~~ (n %| q * \sum_(i < n) i * nth 0%N t i)%N ->
  gray_ok gray (sumn s) -> (\prod_(x <- s) x.+1 <= fuel)%N -> calc_matrix (g_calc g) = (compute_qft_matrix cis n) ->
  always (fun x => exists L g', [/\ x = Ok (L, g'), size L = k & t \notin L]) (gcc_simulate gray fuel s k g).
Proof.
move=> R cis gray fuel n q s t k g ok n0 zs e rot nd gr fu eg.
have u : unitary_on n (compute_qft_matrix cis n) s by apply: unitaryW; [exact: qft_unitary|rewrite zs].
apply: always_impl (C27_gcc_never_fails_lemma k u zs gr fu eg) => _ [L [g' [-> zL _ aL]]].
exists L, g'; split=> //; apply/negP=> /aL[/andP[/eqP zt _]].
by rewrite /bs_prob (fourier_zero ok n0 zs zt e rot nd) /nsq /= expr0n addr0 mul0r ltxx.
Qed.

Lemma C69_permanent_lemma :
  forall (F : numFieldType) (gray : nat -> seq nat) (fuel m1 m2 : nat) (A B : seq (seq F)) (s1 s2 t1 t2 : seq nat) (k k1 k2 : calc_type),
  is_square m1 A -> is_square m2 B -> (0 < m1)%N -> (0 < m2)%N -> size s1 = m1 -> size s2 = m2 -> size t1 = m1 -> size t2 = m2 -> (sumn s1 + sumn s2 = sumn t1 + sumn t2)%N ->
  gray_ok gray (sumn s1 + sumn s2) -> (\prod_(x <- s1 ++ s2) x.+1 <= fuel)%N ->
  rmap fst (compute_any gray fuel (generate_calculator (CalcFactory (side_by_side m1 m2 A B) (s1 ++ s2) (t1 ++ t2) k))) =
  (if sumn s1 == sumn t1 then
     let! x := rmap fst (compute_any gray fuel (generate_calculator (CalcFactory A s1 t1 k1))) in
     let! y := rmap fst (compute_any gray fuel (generate_calculator (CalcFactory B s2 t2 k2))) in Ok (x * y)
   else Ok 0).
Proof.
move=> F gray fuel m1 m2 A B s1 s2 t1 t2 k k1 k2 sA sB p1 p2 z1 z2 y1 y2 e gr fu.
have ne1 : s1 != [::] by case: (s1) z1 p1 => [<-|].
have ne2 : s2 != [::] by case: (s2) z2 p2 => [<-|].
have g1 (n : nat) : (n <= sumn s1 + sumn s2)%N -> (0 < n)%N -> is_gray_code (n - 1) (gray (n - 1)%N).
  by move=> le n0; apply: gr; lia.
move: fu; rewrite big_cat /= => fu.
have q1 : (0 < \prod_(x <- s1) x.+1)%N by apply: prodn_gt0.
have q2 : (0 < \prod_(x <- s2) x.+1)%N by apply: prodn_gt0.
rewrite (C16_factory_calculators_agree_lemma (m := (m1 + m2)%N)) ?size_cat ?z1 ?z2 ?y1 ?y2 ?sumn_cat ?big_cat //.
- rewrite bs_permanent_blocks //; case: eqP => // e1.
  have e2 : sumn s2 = sumn t2 by lia.
  rewrite (C16_factory_calculators_agree_lemma (m := m1)) ?z1 ?y1 //; last 2 first.
  + by move=> h; apply: g1; rewrite // leq_addr.
  + by apply: leq_trans fu; rewrite leq_pmulr.
  rewrite (C16_factory_calculators_agree_lemma (m := m2)) ?z2 ?y2 //.
  + by move=> h; apply: g1; rewrite // leq_addl.
  by apply: leq_trans fu; rewrite leq_pmull.
- exact: square_mk.
- by case: (s1) ne1.
by move=> h; apply: g1.
Qed.

Lemma C69_probability_lemma :
  forall (R : rcfType) (H : eqType) (hash : seq nat -> H) (gray : nat -> seq nat) (fuel m1 m2 : nat) (A B : seq (seq (ComplexField.complex_numFieldType R))) (s1 s2 t1 t2 : seq nat) (eta : R) (lost : int) (a a1 a2 : any_calc (ComplexField.complex_numFieldType R)),
  is_square m1 A -> is_square m2 B -> (0 < m1)%N -> (0 < m2)%N -> size s1 = m1 -> size s2 = m2 -> size t1 = m1 -> size t2 = m2 -> (sumn s1 + sumn s2 = sumn t1 + sumn t2)%N ->
  gray_ok gray (sumn s1 + sumn s2) -> (\prod_(x <- s1 ++ s2) x.+1 <= fuel)%N -> injective hash ->
  exists p b, fixed_probabilities hash gray fuel (Config (side_by_side m1 m2 A B) (s1 ++ s2) (sumn s1 + sumn s2) (m1 + m2) lost (sumn s1 + sumn s2) eta) a [:: t1 ++ t2] = Ok ([:: p], b) /\
  if sumn s1 == sumn t1 then exists p1 p2 b1 b2,
   [/\ fixed_probabilities hash gray fuel (Config A s1 (sumn s1) m1 lost (sumn s1) eta) a1 [:: t1] = Ok ([:: p1], b1),
       fixed_probabilities hash gray fuel (Config B s2 (sumn s2) m2 lost (sumn s2) eta) a2 [:: t2] = Ok ([:: p2], b2)
     & p = p1 * p2]
  else p = 0.
Proof.
move=> R H hash gray fuel m1 m2 A B s1 s2 t1 t2 eta lost a a1 a2 sA sB p1 p2 z1 z2 y1 y2 e gr fu inj.
have ij s t t' : substate t s -> substate t' s -> hash t = hash t' -> t = t' by move=> _ _; exact: inj.
have zs : size (s1 ++ s2) = (m1 + m2)%N by rewrite size_cat z1 z2.
have es : sumn (s1 ++ s2) = (sumn s1 + sumn s2)%N by rewrite sumn_cat.
have sq : is_square (m1 + m2) (side_by_side m1 m2 A B) by exact: square_mk.
have m0 : (0 < m1 + m2)%N by rewrite addn_gt0 p1.
have at_ : all (is_state (m1 + m2) (sumn s1 + sumn s2)) [:: t1 ++ t2] by rewrite /= /is_state size_cat y1 y2 sumn_cat e !eqxx.
have := @C21_fixed_loss_probabilities_lemma R H hash gray fuel _ _ (s1 ++ s2) eta lost (sumn s1 + sumn s2) a [:: t1 ++ t2] sq zs m0.
rewrite es => /(_ gr fu (ij _) (leqnn _) at_)[b E].
exists (bs_prob (side_by_side m1 m2 A B) (s1 ++ s2) (t1 ++ t2)), b; split.
  by rewrite E /= fixed_loss_full ?sumn_cat.
rewrite bs_prob_blocks //; case: eqP => // e1; have e2 : sumn s2 = sumn t2 by lia.
move: fu; rewrite big_cat /= => fu.
have q1 : (0 < \prod_(x <- s1) x.+1)%N by apply: prodn_gt0.
have q2 : (0 < \prod_(x <- s2) x.+1)%N by apply: prodn_gt0.
have f1 : (\prod_(x <- s1) x.+1 <= fuel)%N by apply: leq_trans fu; rewrite leq_pmulr.
have f2 : (\prod_(x <- s2) x.+1 <= fuel)%N by apply: leq_trans fu; rewrite leq_pmull.
have g1 : gray_ok gray (sumn s1) by move=> k kl; apply: gr; lia.
have g2 : gray_ok gray (sumn s2) by move=> k kl; apply: gr; lia.
have at1 : all (is_state m1 (sumn s1)) [:: t1] by rewrite /= /is_state y1 e1 !eqxx.
have at2 : all (is_state m2 (sumn s2)) [:: t2] by rewrite /= /is_state y2 e2 !eqxx.
have [b1 E1] := C21_fixed_loss_probabilities_lemma eta lost a1 sA z1 p1 g1 f1 (ij _) (leqnn _) at1.
have [b2 E2] := C21_fixed_loss_probabilities_lemma eta lost a2 sB z2 p2 g2 f2 (ij _) (leqnn _) at2.
by exists (bs_prob A s1 t1), (bs_prob B s2 t2), b1, b2; rewrite E1 E2 /= !fixed_loss_full.
Qed.

Lemma C69_uniform_losses_lemma :
  forall (R : rcfType) (H : eqType) (hash : seq nat -> H) (gray : nat -> seq nat) (fuel m1 m2 : nat) (A B : seq (seq (ComplexField.complex_numFieldType R))) (s1 s2 t1 t2 : seq nat) (eta : R) (lost : int) (left : nat) (a a1 a2 : any_calc (ComplexField.complex_numFieldType R)),
  is_square m1 A -> is_square m2 B -> (0 < m1)%N -> (0 < m2)%N -> size s1 = m1 -> size s2 = m2 -> size t1 = m1 -> size t2 = m2 -> (sumn t1 <= sumn s1)%N -> (sumn t2 <= sumn s2)%N ->
  gray_ok gray (sumn s1 + sumn s2) -> (\prod_(x <- s1 ++ s2) x.+1 <= fuel)%N -> injective hash ->
  exists p1 p2,
  [/\ uniform_probabilities hash gray fuel (new_uniform_calc (Config A s1 (sumn s1) m1 lost left eta) a1) [:: t1] = Ok [:: p1],
      uniform_probabilities hash gray fuel (new_uniform_calc (Config B s2 (sumn s2) m2 lost left eta) a2) [:: t2] = Ok [:: p2]
    & uniform_probabilities hash gray fuel (new_uniform_calc (Config (side_by_side m1 m2 A B) (s1 ++ s2) (sumn s1 + sumn s2) (m1 + m2) lost left eta) a) [:: t1 ++ t2] = Ok [:: p1 * p2]].
Proof.
move=> R H hash gray fuel m1 m2 A B s1 s2 t1 t2 eta lost left a a1 a2 sA sB p1 p2 z1 z2 y1 y2 l1 l2 gr fu inj.
have ij s t t' : substate t s -> substate t' s -> hash t = hash t' -> t = t' by move=> _ _; exact: inj.
have zs : size (s1 ++ s2) = (m1 + m2)%N by rewrite size_cat z1 z2.
have es : sumn (s1 ++ s2) = (sumn s1 + sumn s2)%N by rewrite sumn_cat.
have sq : is_square (m1 + m2) (side_by_side m1 m2 A B) by exact: square_mk.
have m0 : (0 < m1 + m2)%N by rewrite addn_gt0 p1.
have at_ : all (fun t => (size t == m1 + m2)%N && (sumn t <= sumn s1 + sumn s2)%N) [:: t1 ++ t2] by rewrite /= size_cat y1 y2 sumn_cat eqxx leq_add.
have := @C23_uniform_loss_probabilities_lemma R H hash gray fuel _ _ (s1 ++ s2) eta lost left a [:: t1 ++ t2] sq zs m0.
rewrite es => /(_ gr fu (ij _) at_) E.
exists (uniform_loss_prob A s1 eta t1), (uniform_loss_prob B s2 eta t2).
move: fu; rewrite big_cat /= => fu.
have q1 : (0 < \prod_(x <- s1) x.+1)%N by apply: prodn_gt0.
have q2 : (0 < \prod_(x <- s2) x.+1)%N by apply: prodn_gt0.
have f1 : (\prod_(x <- s1) x.+1 <= fuel)%N by apply: leq_trans fu; rewrite leq_pmulr.
have f2 : (\prod_(x <- s2) x.+1 <= fuel)%N by apply: leq_trans fu; rewrite leq_pmull.
have g1 : gray_ok gray (sumn s1) by move=> k kl; apply: gr; lia.
have g2 : gray_ok gray (sumn s2) by move=> k kl; apply: gr; lia.
rewrite (C23_uniform_loss_probabilities_lemma eta lost left a1 sA z1 p1 g1 f1 (ij _)) ?E /= ?y1 ?eqxx ?l1 //.
rewrite (C23_uniform_loss_probabilities_lemma eta lost left a2 sB z2 p2 g2 f2 (ij _)) /= ?y2 ?eqxx ?l2 //.
by rewrite uniform_blocks.
Qed.
