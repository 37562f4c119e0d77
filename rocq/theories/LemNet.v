(* Final forms of the lemmas behind the property theorems: C35-C37, C54 (networks with losses). *)
From mathcomp Require Import all_ssreflect all_algebra complex ring zify.
From Verif Require Import Base SpecStates Combi SpecPerm SpecBS BsMath BsComb BsNorm ModelStates ModelPerm ModelDist SpecProb ProbMath ModelGcc ModelGccB SpecGcc ModelNet SpecNet ProofGccB2 ProofNet1 ProofNet2 ProofNet3 ProofNet4 ProofNet5 ProofNet6.
Set Implicit Arguments.
Unset Strict Implicit.
Unset Printing Implicit Defensive.
Import Order.TTheory GRing.Theory Num.Theory.
Local Open Scope ring_scope.
Local Open Scope py_scope.

Lemma C35_svd_exists_lemma :
  forall (R : rcfType), exists svd : seq (seq (ComplexField.complex_numFieldType R)) -> res (seq (seq (ComplexField.complex_numFieldType R)) * seq R * seq (seq (ComplexField.complex_numFieldType R))), svd_ok svd.
Proof.
by move=> R; exists (@some_svd R); exact: some_svd_ok.
Qed.

Lemma C35_lossy_net_exact_lemma :
  forall (R : rcfType) (svd : seq (seq (ComplexField.complex_numFieldType R)) -> res (seq (seq (ComplexField.complex_numFieldType R)) * seq R * seq (seq (ComplexField.complex_numFieldType R)))) (fuel m : nat) (M : seq (seq (ComplexField.complex_numFieldType R))) (s : seq nat) (k : nat) (b : gccb R)
    (d : nat) (D : seq (seq (ComplexField.complex_numFieldType R))),
  svd_ok svd -> (0 < m)%N -> subunitary m M -> size s = m -> (\prod_(x <- s) x.+1 <= fuel)%N ->
  prepare_expanded svd M = Ok (calc_matrix (b_calc b)) ->
  dilation m d M D ->
  iid_samples (lossy_net_simulate fuel s k b) k [pred t | (size t == m) && (sumn t <= sumn s)%N]
    (traced_prob d D s).
Proof.
by move=> R svd fuel m M s k b d D sv m0 su ss fu nb dD; exact: (net_iid sv m0 su ss fu _ nb dD).
Qed.

Lemma C35_lossy_net_uniform_lemma :
  forall (R : rcfType) (svd : seq (seq (ComplexField.complex_numFieldType R)) -> res (seq (seq (ComplexField.complex_numFieldType R)) * seq R * seq (seq (ComplexField.complex_numFieldType R)))) (fuel m : nat) (M : seq (seq (ComplexField.complex_numFieldType R))) (s : seq nat) (k : nat) (b : gccb R) (V : seq (seq (ComplexField.complex_numFieldType R))) (eta : R),
  svd_ok svd -> (0 < m)%N -> 0 <= eta <= 1 -> unitary m V -> is_square m M ->
  (forall i j : nat, (i < m)%N -> (j < m)%N -> ent M i j = (Num.sqrt eta)%:C%C * ent V i j) ->
  size s = m -> (\prod_(x <- s) x.+1 <= fuel)%N ->
  prepare_expanded svd M = Ok (calc_matrix (b_calc b)) ->
  iid_samples (lossy_net_simulate fuel s k b) k [pred t | (size t == m) && (sumn t <= sumn s)%N]
    (uniform_loss_prob V s eta).
Proof.
move=> R svd fuel m M s k b V eta sv m0 /andP[e0 e1] uV sq h ss fu nb.
have x2 : (Num.sqrt eta) ^+ 2 = eta by rewrite sqr_sqrtr.
have su : subunitary m M by apply: (gram_subunitary (eta := (Num.sqrt eta) ^+ 2) sq); rewrite ?x2 //; rewrite -x2; exact: scaled_gram h uV.
have [E [eE sqE dE]] := expanded_dilation sv m0 su.
move=> L; apply: has_exp_eq (net_iid sv m0 su ss fu k nb dE L) _.
case: ifP => // /andP[_ /allP al]; apply: eq_big_seq => t /al /= /andP[/eqP st le].
by rewrite (traced_uniform h _ dE) ?x2 //; case: uV.
Qed.

Lemma C35_lossy_net_never_fails_lemma :
  forall (R : rcfType) (svd : seq (seq (ComplexField.complex_numFieldType R)) -> res (seq (seq (ComplexField.complex_numFieldType R)) * seq R * seq (seq (ComplexField.complex_numFieldType R)))) (fuel m : nat) (M : seq (seq (ComplexField.complex_numFieldType R))) (s : seq nat) (k : nat) (b : gccb R),
  svd_ok svd -> (0 < m)%N -> subunitary m M -> size s = m -> (\prod_(x <- s) x.+1 <= fuel)%N ->
  prepare_expanded svd M = Ok (calc_matrix (b_calc b)) ->
  always (fun x => exists L b', [/\ x = Ok (L, b'), size L = k,
      prepare_expanded svd M = Ok (calc_matrix (b_calc b'))
      & forall t, t \in L -> (size t == m) && (sumn t <= sumn s)%N])
    (lossy_net_simulate fuel s k b).
Proof.
by move=> R svd fuel m M s k b sv m0 su ss fu nb; exact: (net_always sv m0 su ss fu k nb).
Qed.

Lemma C35_lossy_net_construct_lemma :
  forall (R : rcfType) (svd : seq (seq (ComplexField.complex_numFieldType R)) -> res (seq (seq (ComplexField.complex_numFieldType R)) * seq R * seq (seq (ComplexField.complex_numFieldType R)))) (m : nat) (M : seq (seq (ComplexField.complex_numFieldType R))) (a : any_calc (ComplexField.complex_numFieldType R)) (b : gccb R),
  svd_ok svd -> (0 < m)%N -> is_square m M -> 
  exists E : seq (seq (ComplexField.complex_numFieldType R)), [/\ prepare_expanded svd M = Ok E,
    calc_matrix a = M -> exists b', [/\ new_lossy_net svd a = Ok (b', set_matrix E a),
        calc_matrix (set_matrix E a) = E & calc_matrix (b_calc b') = E]
  & exists b', lossy_net_set_new_matrix svd M b = Ok b' /\ calc_matrix (b_calc b') = E].
Proof.
move=> R svd m M a b sv m0 sq; have [E [eE _ _]] := expanded_corner sv m0 sq; exists E; split=> //.
  move=> e; exists (new_gccb (set_matrix E a)); rewrite /new_lossy_net e eE; split=> //; by case: (a).
by exists (b_set_new_matrix E b); rewrite /lossy_net_set_new_matrix eE; split=> //=; case: (b_calc b).
Qed.

Lemma C36_upper_left_block_lemma :
  forall (R : rcfType) (svd : seq (seq (ComplexField.complex_numFieldType R)) -> res (seq (seq (ComplexField.complex_numFieldType R)) * seq R * seq (seq (ComplexField.complex_numFieldType R)))) (m : nat) (M : seq (seq (ComplexField.complex_numFieldType R))),
  svd_ok svd -> (0 < m)%N -> is_square m M ->
  exists E, [/\ prepare_expanded svd M = Ok E, is_square (m + m) E
    & forall i j : nat, (i < m)%N -> (j < m)%N -> ent E i j = ent M i j].
Proof.
by move=> R svd m M sv m0 sq; exact: expanded_corner.
Qed.

Lemma C36_isometry_lemma :
  forall (R : rcfType) (svd : seq (seq (ComplexField.complex_numFieldType R)) -> res (seq (seq (ComplexField.complex_numFieldType R)) * seq R * seq (seq (ComplexField.complex_numFieldType R)))) (m : nat) (M : seq (seq (ComplexField.complex_numFieldType R))),
  svd_ok svd -> (0 < m)%N -> subunitary m M ->
  exists E, [/\ prepare_expanded svd M = Ok E, dilation m m M E
    & forall i i' : nat, (i < m)%N -> (i' < m)%N -> ortho_cols (m + m) E (m + i) (m + i')].
Proof.
move=> R svd m M sv m0 su; have [E [eE _ dE]] := expanded_dilation sv m0 su.
have [E' [eE' _ _ h]] := expanded_cols sv m0 su; move: eE'; rewrite eE => -[e].
by exists E; split=> //; rewrite e.
Qed.

Lemma C36_unitary_iff_lemma :
  forall (R : rcfType) (svd : seq (seq (ComplexField.complex_numFieldType R)) -> res (seq (seq (ComplexField.complex_numFieldType R)) * seq R * seq (seq (ComplexField.complex_numFieldType R)))) (m : nat) (M : seq (seq (ComplexField.complex_numFieldType R))),
  svd_ok svd -> (0 < m)%N -> subunitary m M ->
  exists E, prepare_expanded svd M = Ok E /\ (unitary (m + m) E <-> partial_isometry m M).
Proof.
by move=> R svd m M sv m0 su; exact: expanded_unitary.
Qed.

Lemma C36_always_unitary_refuted_lemma :
  forall (R : rcfType) (svd : seq (seq (ComplexField.complex_numFieldType R)) -> res (seq (seq (ComplexField.complex_numFieldType R)) * seq R * seq (seq (ComplexField.complex_numFieldType R)))), svd_ok svd ->
  exists (m : nat) (M E : seq (seq (ComplexField.complex_numFieldType R))), [/\ (0 < m)%N, subunitary m M, prepare_expanded svd M = Ok E & ~ unitary (m + m) E].
Proof.
move=> R svd sv; pose h : R := 2%:R^-1; pose M : seq (seq (ComplexField.complex_numFieldType R)) := [:: [:: h%:C%C]].
have h0 : h != 0 by rewrite invr_eq0 pnatr_eq0.
have eM : ent M (@ord0 0) 0 = h%:C%C by [].
have su : subunitary 1 M.
  apply: (gram_subunitary (eta := h ^+ 2)) => //.
    by rewrite expr_le1 // ?invr_ge0 ?ler0n // invf_le1 ?ltr0n // ler1n.
  by move=> [|//] [|//] _ _; rewrite big_ord1 eM conjc_real expr2 rmorphM mul1r.
have [E [eE iff]] := expanded_unitary sv (m := 1) isT su; exists 1%N, M, E; split=> // /iff /(_ 0%N 0%N isT isT).
rewrite !big_ord1 !eM conjc_real -!rmorphM => /(@complexI R) /eqP.
rewrite -subr_eq0 -{4}[h]mul1r -mulrBl mulf_eq0 (negPf h0) orbF subr_eq0 => /eqP e.
have : h * h < 1.
  by rewrite mulr_ilt1 ?invr_ge0 ?ler0n // invf_lt1 ?ltr0n // ltr1n.
by rewrite e ltxx.
Qed.

Lemma C37_lossy_network_lemma :
  forall (R : rcfType) (svd : seq (seq (ComplexField.complex_numFieldType R)) -> res (seq (seq (ComplexField.complex_numFieldType R)) * seq R * seq (seq (ComplexField.complex_numFieldType R)))) (m : nat) (M : seq (seq (ComplexField.complex_numFieldType R))) (v : seq (ComplexField.complex_numFieldType R)),
  svd_ok svd -> (0 < m)%N -> is_square m M -> size v = m ->
  exists E, [/\ lossy_network_init svd M = Ok E,
    lossy_network_simulate E v = lossless_network M v
  & lossless_network M v = Ok [seq \sum_(j < m) ent M i j * v`_j | i <- iota 0 m]].
Proof.
move=> R svd m M v sv m0 sq sz; have [E [e1 e2]] := lossy_networkE sv m0 sq sz; exists E; split=> //.
have rsq : is_rect m m M by [].
have [w [ew sw hw]] := dot_ok rsq sz.
rewrite /lossless_network ew; congr Ok; apply: (@eq_from_nth _ 0); first by rewrite size_map size_iota.
by move=> i; rewrite sw => il; rewrite (nth_map 0%N) ?size_iota // nth_iota // add0n; exact: hw.
Qed.

Lemma C54_transmissivities_lemma :
  forall (R : rcfType) (svd : seq (seq (ComplexField.complex_numFieldType R)) -> res (seq (seq (ComplexField.complex_numFieldType R)) * seq R * seq (seq (ComplexField.complex_numFieldType R)))) (m : nat) (M : seq (seq (ComplexField.complex_numFieldType R))),
  svd_ok svd -> (0 < m)%N -> is_square m M ->
  exists l, [/\ modes_transmissivities svd M = Ok l, size l = m, all (fun x => 0 <= x) l,
    sorted (fun x y => x <= y) l
  & \sum_(x <- l) x = \sum_(i < m) \sum_(j < m) nsq (ent M i j)].
Proof.
by move=> R svd m M sv m0 sq; exact: transmissivitiesE.
Qed.

Lemma C54_eigenvalues_lemma :
  forall (R : rcfType) (svd : seq (seq (ComplexField.complex_numFieldType R)) -> res (seq (seq (ComplexField.complex_numFieldType R)) * seq R * seq (seq (ComplexField.complex_numFieldType R)))) (m : nat) (M : seq (seq (ComplexField.complex_numFieldType R))),
  svd_ok svd -> (0 < m)%N -> is_square m M ->
  exists l, modes_transmissivities svd M = Ok l /\
    char_poly (\matrix_(i < m, j < m) (\sum_(k < m) conjc (ent M k i) * ent M k j : (ComplexField.complex_numFieldType R))) = \prod_(x <- l) ('X - (x%:C%C)%:P).
Proof.
by move=> R svd m M sv m0 sq; exact: transmissivities_char.
Qed.

Lemma C54_at_most_one_lemma :
  forall (R : rcfType) (svd : seq (seq (ComplexField.complex_numFieldType R)) -> res (seq (seq (ComplexField.complex_numFieldType R)) * seq R * seq (seq (ComplexField.complex_numFieldType R)))) (m : nat) (M : seq (seq (ComplexField.complex_numFieldType R))),
  svd_ok svd -> (0 < m)%N -> subunitary m M ->
  exists l, modes_transmissivities svd M = Ok l /\ all (fun x => x <= 1) l.
Proof.
move=> R svd m M sv m0 su; have [V [s [U [e isv]]]] := sv _ _ m0 su.1.
rewrite /modes_transmissivities e /=; eexists; split; first reflexivity.
apply/allP=> x /mapP[y]; rewrite mem_rev => /(nthP 0)[i il <-] ->.
have ss : size s = m by case: isv.
rewrite expr_le1 //; first by apply: (subunitary_svd su isv); rewrite -ss.
by case: isv => _ _ _ [_ /allP h] _; apply: h; rewrite mem_nth.
Qed.

Lemma C54_uniform_lemma :
  forall (R : rcfType) (svd : seq (seq (ComplexField.complex_numFieldType R)) -> res (seq (seq (ComplexField.complex_numFieldType R)) * seq R * seq (seq (ComplexField.complex_numFieldType R)))) (m : nat) (M V : seq (seq (ComplexField.complex_numFieldType R))) (eta : R),
  svd_ok svd -> (0 < m)%N -> 0 <= eta -> unitary m V -> is_square m M ->
  (forall i j : nat, (i < m)%N -> (j < m)%N -> ent M i j = (Num.sqrt eta)%:C%C * ent V i j) ->
  modes_transmissivities svd M = Ok (nseq m eta).
Proof.
move=> R svd m M V eta sv m0 e0 uV sq h; apply: (transmissivities_uniform sv m0 sq).
by rewrite -{1}(sqr_sqrtr e0); exact: scaled_gram h uV.
Qed.
