(* Property theorems: C35-C37, C54 (networks with losses).  Only statements; proofs elsewhere. *)
From mathcomp Require Import all_ssreflect all_algebra complex ring zify.
From Verif Require Import Base SpecStates Combi SpecPerm SpecBS BsMath BsComb BsNorm ModelStates ModelPerm ModelDist SpecProb ProbMath ModelGcc ModelGccB SpecGcc ModelNet SpecNet ProofNet6 LemNet.
Set Implicit Arguments.
Unset Strict Implicit.
Unset Printing Implicit Defensive.
Import Order.TTheory GRing.Theory Num.Theory.
Local Open Scope ring_scope.
Local Open Scope py_scope.

(* C35, C36, C37, C54: the decomposition routine they rely on exists *)
Theorem C35_svd_exists :
  forall (R : rcfType), exists svd : seq (seq (ComplexField.complex_numFieldType R)) -> res (seq (seq (ComplexField.complex_numFieldType R)) * seq R * seq (seq (ComplexField.complex_numFieldType R))), svd_ok svd.
Proof. exact C35_svd_exists_lemma. Qed.
Print Assumptions C35_svd_exists.

(* C35: whatever the object b did before, and for every way D of completing the lossy network to a lossless one *)
Theorem C35_lossy_net_exact :
  forall (R : rcfType) (svd : seq (seq (ComplexField.complex_numFieldType R)) -> res (seq (seq (ComplexField.complex_numFieldType R)) * seq R * seq (seq (ComplexField.complex_numFieldType R)))) (fuel m : nat) (M : seq (seq (ComplexField.complex_numFieldType R))) (s : seq nat) (k : nat) (b : gccb R)
    (d : nat) (D : seq (seq (ComplexField.complex_numFieldType R))),
  svd_ok svd -> (0 < m)%N -> subunitary m M -> size s = m -> (\prod_(x <- s) x.+1 <= fuel)%N ->
  prepare_expanded svd M = Ok (calc_matrix (b_calc b)) ->
  dilation m d M D ->
  iid_samples (lossy_net_simulate fuel s k b) k [pred t | (size t == m) && (sumn t <= sumn s)%N]
    (traced_prob d D s).
Proof. exact C35_lossy_net_exact_lemma. Qed.
Print Assumptions C35_lossy_net_exact.

(* C35: equal losses in all modes *)
Theorem C35_lossy_net_uniform :
  forall (R : rcfType) (svd : seq (seq (ComplexField.complex_numFieldType R)) -> res (seq (seq (ComplexField.complex_numFieldType R)) * seq R * seq (seq (ComplexField.complex_numFieldType R)))) (fuel m : nat) (M : seq (seq (ComplexField.complex_numFieldType R))) (s : seq nat) (k : nat) (b : gccb R) (V : seq (seq (ComplexField.complex_numFieldType R))) (eta : R),
  svd_ok svd -> (0 < m)%N -> 0 <= eta <= 1 -> unitary m V -> is_square m M ->
  (forall i j : nat, (i < m)%N -> (j < m)%N -> ent M i j = (Num.sqrt eta)%:C%C * ent V i j) ->
  size s = m -> (\prod_(x <- s) x.+1 <= fuel)%N ->
  prepare_expanded svd M = Ok (calc_matrix (b_calc b)) ->
  iid_samples (lossy_net_simulate fuel s k b) k [pred t | (size t == m) && (sumn t <= sumn s)%N]
    (uniform_loss_prob V s eta).
Proof. exact C35_lossy_net_uniform_lemma. Qed.
Print Assumptions C35_lossy_net_uniform.

(* C35: no run raises; the object can be used again *)
Theorem C35_lossy_net_never_fails :
  forall (R : rcfType) (svd : seq (seq (ComplexField.complex_numFieldType R)) -> res (seq (seq (ComplexField.complex_numFieldType R)) * seq R * seq (seq (ComplexField.complex_numFieldType R)))) (fuel m : nat) (M : seq (seq (ComplexField.complex_numFieldType R))) (s : seq nat) (k : nat) (b : gccb R),
  svd_ok svd -> (0 < m)%N -> subunitary m M -> size s = m -> (\prod_(x <- s) x.+1 <= fuel)%N ->
  prepare_expanded svd M = Ok (calc_matrix (b_calc b)) ->
  always (fun x => exists L b', [/\ x = Ok (L, b'), size L = k,
      prepare_expanded svd M = Ok (calc_matrix (b_calc b'))
      & forall t, t \in L -> (size t == m) && (sumn t <= sumn s)%N])
    (lossy_net_simulate fuel s k b).
Proof. exact C35_lossy_net_never_fails_lemma. Qed.
Print Assumptions C35_lossy_net_never_fails.

(* C35, C52: the constructor and set_new_matrix prepare the object, and the constructor replaces the matrix of the calculator of the caller *)
Theorem C35_lossy_net_construct :
  forall (R : rcfType) (svd : seq (seq (ComplexField.complex_numFieldType R)) -> res (seq (seq (ComplexField.complex_numFieldType R)) * seq R * seq (seq (ComplexField.complex_numFieldType R)))) (m : nat) (M : seq (seq (ComplexField.complex_numFieldType R))) (a : any_calc (ComplexField.complex_numFieldType R)) (b : gccb R),
  svd_ok svd -> (0 < m)%N -> is_square m M -> 
  exists E : seq (seq (ComplexField.complex_numFieldType R)), [/\ prepare_expanded svd M = Ok E,
    calc_matrix a = M -> exists b', [/\ new_lossy_net svd a = Ok (b', set_matrix E a),
        calc_matrix (set_matrix E a) = E & calc_matrix (b_calc b') = E]
  & exists b', lossy_net_set_new_matrix svd M b = Ok b' /\ calc_matrix (b_calc b') = E].
Proof. exact C35_lossy_net_construct_lemma. Qed.
Print Assumptions C35_lossy_net_construct.

(* C36: for every square matrix *)
Theorem C36_upper_left_block :
  forall (R : rcfType) (svd : seq (seq (ComplexField.complex_numFieldType R)) -> res (seq (seq (ComplexField.complex_numFieldType R)) * seq R * seq (seq (ComplexField.complex_numFieldType R)))) (m : nat) (M : seq (seq (ComplexField.complex_numFieldType R))),
  svd_ok svd -> (0 < m)%N -> is_square m M ->
  exists E, [/\ prepare_expanded svd M = Ok E, is_square (m + m) E
    & forall i j : nat, (i < m)%N -> (j < m)%N -> ent E i j = ent M i j].
Proof. exact C36_upper_left_block_lemma. Qed.
Print Assumptions C36_upper_left_block.

Example C35_example (R : rcfType) : (* one mode transmitting a quarter of the particles: the particle is lost three times out of four *)
  exists svd, exists E, prepare_expanded svd [:: [:: (Num.sqrt (4%:R^-1 : R))%:C%C]] = Ok E /\
  has_exp (on_ok (fun x => (x.1 == [:: [:: 0]]%N)%:R : R)) (lossy_net_simulate 2 [:: 1]%N 1 (new_gccb (generate_calculator (CalcFactory E [::] [::] RYSER))))
    (1 - 4%:R^-1).
Proof.
have [svd sv] := C35_svd_exists R; exists svd.
have q1 : 0 <= (4%:R^-1 : R) <= 1 by rewrite invr_ge0 ler0n invf_le1 ?ltr0n // ler1n.
have uV : unitary 1 [:: [:: 1 : ComplexField.complex_numFieldType R]].
  by split=> // -[|//] [|//] _ _; rewrite /ortho_cols big_ord1 (_ : ent _ _ _ = 1) // conjc1 mulr1.
have hM (i j : nat) : (i < 1)%N -> (j < 1)%N -> ent [:: [:: (Num.sqrt (4%:R^-1 : R))%:C%C]] i j = (Num.sqrt 4%:R^-1)%:C%C * ent [:: [:: 1]] i j :> ComplexField.complex_numFieldType R.
  by case: i j => [|//] [|//] _ _; rewrite /ent /= mulr1.
have [E [eE _ _]] := C36_upper_left_block sv (M := [:: [:: (Num.sqrt (4%:R^-1 : R))%:C%C]]) (m := 1) isT isT.
exists E; split=> //.
have pr : (\prod_(x <- [:: 1]) x.+1 <= 2)%N by rewrite big_seq1.
have eb : prepare_expanded svd [:: [:: (Num.sqrt (4%:R^-1 : R))%:C%C]] = Ok (calc_matrix (b_calc (new_gccb (generate_calculator (CalcFactory E [::] [::] RYSER))))) by [].
have H := @C35_lossy_net_uniform R svd 2 1 [:: [:: (Num.sqrt (4%:R^-1 : R))%:C%C]] [:: 1]%N 1 _ _ _ sv isT q1 uV isT hM erefl pr eb [:: [:: 0]]%N.
apply: has_exp_eq H _.
rewrite /= big_seq1 /uniform_loss_prob /binomial_weight [sumn _]/= [sumn _]/= bin0 expr0 !mul1r subn0 expr1.
rewrite /fixed_loss_prob bin0 divr1 -big_filter (_ : [seq T <- subs _ | _] = [:: [:: 0]%N]) // big_seq1.
rewrite [ways _ _](_ : _ = 1%N); last by rewrite /ways big_ord1.
by rewrite mul1r /bs_prob bs_permanent_vac // nsq1 /factprod !big_seq1 fact0 divr1 mulr1.
Qed.

(* C36: for a matrix lengthening no vector, the first m columns are orthonormal, and so are the last m ones *)
Theorem C36_isometry :
  forall (R : rcfType) (svd : seq (seq (ComplexField.complex_numFieldType R)) -> res (seq (seq (ComplexField.complex_numFieldType R)) * seq R * seq (seq (ComplexField.complex_numFieldType R)))) (m : nat) (M : seq (seq (ComplexField.complex_numFieldType R))),
  svd_ok svd -> (0 < m)%N -> subunitary m M ->
  exists E, [/\ prepare_expanded svd M = Ok E, dilation m m M E
    & forall i i' : nat, (i < m)%N -> (i' < m)%N -> ortho_cols (m + m) E (m + i) (m + i')].
Proof. exact C36_isometry_lemma. Qed.
Print Assumptions C36_isometry.

(* C36: when the returned matrix is unitary *)
Theorem C36_unitary_iff :
  forall (R : rcfType) (svd : seq (seq (ComplexField.complex_numFieldType R)) -> res (seq (seq (ComplexField.complex_numFieldType R)) * seq R * seq (seq (ComplexField.complex_numFieldType R)))) (m : nat) (M : seq (seq (ComplexField.complex_numFieldType R))),
  svd_ok svd -> (0 < m)%N -> subunitary m M ->
  exists E, prepare_expanded svd M = Ok E /\ (unitary (m + m) E <-> partial_isometry m M).
Proof. exact C36_unitary_iff_lemma. Qed.
Print Assumptions C36_unitary_iff.

(* C36: the documentation claims a unitary matrix *)
Theorem C36_always_unitary_refuted :
  forall (R : rcfType) (svd : seq (seq (ComplexField.complex_numFieldType R)) -> res (seq (seq (ComplexField.complex_numFieldType R)) * seq R * seq (seq (ComplexField.complex_numFieldType R)))), svd_ok svd ->
  exists (m : nat) (M E : seq (seq (ComplexField.complex_numFieldType R))), [/\ (0 < m)%N, subunitary m M, prepare_expanded svd M = Ok E & ~ unitary (m + m) E].
Proof. exact C36_always_unitary_refuted_lemma. Qed.
Print Assumptions C36_always_unitary_refuted.

(* C37: the evolution through a lossy network of a vector v *)
Theorem C37_lossy_network :
  forall (R : rcfType) (svd : seq (seq (ComplexField.complex_numFieldType R)) -> res (seq (seq (ComplexField.complex_numFieldType R)) * seq R * seq (seq (ComplexField.complex_numFieldType R)))) (m : nat) (M : seq (seq (ComplexField.complex_numFieldType R))) (v : seq (ComplexField.complex_numFieldType R)),
  svd_ok svd -> (0 < m)%N -> is_square m M -> size v = m ->
  exists E, [/\ lossy_network_init svd M = Ok E,
    lossy_network_simulate E v = lossless_network M v
  & lossless_network M v = Ok [seq \sum_(j < m) ent M i j * v`_j | i <- iota 0 m]].
Proof. exact C37_lossy_network_lemma. Qed.
Print Assumptions C37_lossy_network.

(* C54 *)
Theorem C54_transmissivities :
  forall (R : rcfType) (svd : seq (seq (ComplexField.complex_numFieldType R)) -> res (seq (seq (ComplexField.complex_numFieldType R)) * seq R * seq (seq (ComplexField.complex_numFieldType R)))) (m : nat) (M : seq (seq (ComplexField.complex_numFieldType R))),
  svd_ok svd -> (0 < m)%N -> is_square m M ->
  exists l, [/\ modes_transmissivities svd M = Ok l, size l = m, all (fun x => 0 <= x) l,
    sorted (fun x y => x <= y) l
  & \sum_(x <- l) x = \sum_(i < m) \sum_(j < m) nsq (ent M i j)].
Proof. exact C54_transmissivities_lemma. Qed.
Print Assumptions C54_transmissivities.

(* C54: they are the eigenvalues of M^* M, with multiplicities *)
Theorem C54_eigenvalues :
  forall (R : rcfType) (svd : seq (seq (ComplexField.complex_numFieldType R)) -> res (seq (seq (ComplexField.complex_numFieldType R)) * seq R * seq (seq (ComplexField.complex_numFieldType R)))) (m : nat) (M : seq (seq (ComplexField.complex_numFieldType R))),
  svd_ok svd -> (0 < m)%N -> is_square m M ->
  exists l, modes_transmissivities svd M = Ok l /\
    char_poly (\matrix_(i < m, j < m) (\sum_(k < m) conjc (ent M k i) * ent M k j : (ComplexField.complex_numFieldType R))) = \prod_(x <- l) ('X - (x%:C%C)%:P).
Proof. exact C54_eigenvalues_lemma. Qed.
Print Assumptions C54_eigenvalues.

(* C54: at most one exactly for the matrices lengthening no vector *)
Theorem C54_at_most_one :
  forall (R : rcfType) (svd : seq (seq (ComplexField.complex_numFieldType R)) -> res (seq (seq (ComplexField.complex_numFieldType R)) * seq R * seq (seq (ComplexField.complex_numFieldType R)))) (m : nat) (M : seq (seq (ComplexField.complex_numFieldType R))),
  svd_ok svd -> (0 < m)%N -> subunitary m M ->
  exists l, modes_transmissivities svd M = Ok l /\ all (fun x => x <= 1) l.
Proof. exact C54_at_most_one_lemma. Qed.
Print Assumptions C54_at_most_one.

(* C54: a network with equal losses; eta = 1 is the lossless case *)
Theorem C54_uniform :
  forall (R : rcfType) (svd : seq (seq (ComplexField.complex_numFieldType R)) -> res (seq (seq (ComplexField.complex_numFieldType R)) * seq R * seq (seq (ComplexField.complex_numFieldType R)))) (m : nat) (M V : seq (seq (ComplexField.complex_numFieldType R))) (eta : R),
  svd_ok svd -> (0 < m)%N -> 0 <= eta -> unitary m V -> is_square m M ->
  (forall i j : nat, (i < m)%N -> (j < m)%N -> ent M i j = (Num.sqrt eta)%:C%C * ent V i j) ->
  modes_transmissivities svd M = Ok (nseq m eta).
Proof. exact C54_uniform_lemma. Qed.
Print Assumptions C54_uniform.
