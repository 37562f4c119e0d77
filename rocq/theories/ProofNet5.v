(* The samples of the strategy for lossy networks. *)
From mathcomp Require Import all_ssreflect all_algebra complex.
From mathcomp Require Import ring zify.
From Verif Require Import Base SpecStates Combi SpecPerm PermMath SpecBS BsMath BsComb BsNorm.
From Verif Require Import ModelStates ProofStates1 LemStates ModelPerm ProofPerm6 LemPerm ModelDist ProofDist1.
From Verif Require Import SpecProb ProbMath ModelGcc ModelGccB SampMath ProofGcc2 ProofGcc3 ProofGccB2.
From Verif Require Import SpecGcc LemGcc ModelNet SpecNet ProofNet1 ProofNet2 ProofNet3 ProofNet4.
Set Implicit Arguments.
Unset Strict Implicit.
Unset Printing Implicit Defensive.
Import Order.TTheory GRing.Theory Num.Theory.
Local Open Scope ring_scope.
Local Open Scope py_scope.

Lemma decr_catl s z i : (i < size s)%N -> decr (s ++ z) i = decr s i ++ z.
Proof. by rewrite !decrE; elim: s i => [//|x s IH] [|i] //= il; rewrite -IH. Qed.

Lemma PerO_pad (F : comRingType) (u : nat -> nat -> F) rows s d :
  PerO u rows (s ++ nseq d 0%N) = PerO u rows s.
Proof.
elim: rows s => [//|a rows IH] s; rewrite !PerO_cons size_cat big_split_ord /= [X in _ + X]big1 ?addr0.
  by apply: eq_bigr => i _; rewrite nth_cat ltn_ord decr_catl // IH.
by move=> i _; rewrite nth_cat ltnNge leq_addr /= nth_nseq if_same !mul0r.
Qed.

Lemma factprod_zeros d : factprod (nseq d 0%N) = 1%N.
Proof. by rewrite /factprod big_nseq iter_muln_1 exp1n. Qed.

Lemma bs_prob_pad (R : rcfType) (E : seq (seq (ComplexField.complex_numFieldType R))) s t d : sumn s = sumn t ->
  bs_prob E (s ++ nseq d 0%N) t = bs_prob E s t.
Proof.
move=> e; rewrite /bs_prob factprod_cat factprod_zeros muln1 !bs_permanent_PerO ?PerO_pad //.
by rewrite sumn_cat sumn_nseq mul0n addn0.
Qed.

(* the first modes of a state *)
Lemma comps_split m d n :
  perm_eq (comps (m + d) n) (flatten [seq [seq t ++ r | r <- comps d (n - sumn t)] | t <- lcomps m n]).
Proof.
apply: uniq_perm; first exact: comps_uniq.
  have : all (fun t => size t == m) (lcomps m n) by apply/allP=> t; rewrite mem_lcomps => /andP[].
  elim: (lcomps m n) (lcomps_uniq m n) => [//|t l IH] /= /andP[tl ul] /andP[/eqP st al].
  rewrite cat_uniq IH // andbT map_inj_uniq ?comps_uniq /=; last first.
    by move=> r r' /eqP; rewrite eqseq_cat // eqxx => /eqP.
  apply/hasPn => x /flatten_mapP[t' t'l /mapP[r' _ ->]]; apply/negP=> /mapP[r _ /eqP].
  rewrite eqseq_cat ?st ?(eqP (allP al _ t'l)) // => /andP[/eqP e _].
  by move: tl; rewrite -e t'l.
move=> u; apply/idP/flatten_mapP => [|[t]].
  rewrite mem_comps => /andP[/eqP su /eqP eu]; exists (take m u).
    rewrite mem_lcomps size_take su; have -> : (if (m < m + d)%N then m else (m + d)%N) = m by case: ltnP; lia.
    by rewrite eqxx -eu -{2}(cat_take_drop m u) sumn_cat leq_addr.
  apply/mapP; exists (drop m u); last by rewrite cat_take_drop.
  rewrite mem_comps /is_state size_drop su addKn eqxx -eu -{2}(cat_take_drop m u) sumn_cat addKn.
  by rewrite eqxx.
rewrite mem_lcomps => /andP[/eqP st le] /mapP[r]; rewrite mem_comps => /andP[/eqP sr /eqP er] ->.
by rewrite mem_comps /is_state size_cat st sr eqxx sumn_cat er subnKC ?eqxx.
Qed.

Lemma big_comps_split (V : zmodType) m d n (F : seq nat -> V) :
  \sum_(u <- comps (m + d) n) F u = \sum_(t <- lcomps m n) \sum_(r <- comps d (n - sumn t)) F (t ++ r).
Proof.
rewrite (perm_big _ (comps_split m d n)) /= big_flatten big_map; apply: eq_bigr => t _.
by rewrite big_map.
Qed.

Lemma iid_exp_map (R : realFieldType) (X Y : Type) (S : seq X) (P : X -> R) (S' : seq Y) (P' : Y -> R) (h : X -> Y) :
  (forall F, \sum_(u <- S) P u * F (h u) = \sum_(t <- S') P' t * F t) ->
  forall k g, iid_exp S P k (fun L => g (map h L)) = iid_exp S' P' k g.
Proof.
move=> H; elim=> [//|k IH] g /=; rewrite -H; apply: eq_bigr => u _; congr (_ * _).
exact: (IH (fun L => g (h u :: L))).
Qed.

Section Samples.
Variable R : rcfType.
Notation C := (ComplexField.complex_numFieldType R).
Notation mat := (seq (seq C)).
Variables (svd : mat -> res (mat * seq R * mat)) (m : nat) (M : mat).
Hypotheses (sv : svd_ok svd) (m0 : (0 < m)%N) (su : subunitary m M).

Lemma expanded_dilation : exists E, [/\ prepare_expanded svd M = Ok E, is_square (m + m) E & dilation m m M E].
Proof.
have [E [e1 sq o _]] := expanded_cols sv m0 su; exists E; split=> //; split=> //.
have [E' [e2 _ c]] := expanded_corner sv m0 su.1.
by move: e2; rewrite e1 => -[->].
Qed.

Definition net_of (b : gccb R) := prepare_expanded svd M = Ok (calc_matrix (b_calc b)).

Variables (fuel : nat) (s : seq nat).
Hypotheses (ss : size s = m) (fu : (\prod_(x <- s) x.+1 <= fuel)%N).

Lemma pad_fuel : (\prod_(x <- s ++ nseq m 0%N) x.+1 <= fuel)%N.
Proof. by rewrite big_cat /= big_nseq iter_muln_1 exp1n muln1. Qed.

Lemma pad_on E : is_square (m + m) E -> dilation m m M E -> unitary_on (m + m) E (s ++ nseq m 0%N).
Proof.
move=> sq [_ o]; split=> // i i' p p'.
have lt j : (0 < nth 0%N (s ++ nseq m 0%N) j)%N -> (j < m)%N.
  by rewrite nth_cat ss; case: (ltnP j m) => // _; rewrite nth_nseq if_same.
by apply: o; exact: lt.
Qed.

Lemma net_exp k f b : net_of b ->
  has_exp (on_ok (fun x => f x.1)) (lossy_net_simulate fuel s k b)
    (iid_exp (lcomps m (sumn s)) (traced_prob m (calc_matrix (b_calc b)) s) k f).
Proof.
have [E [eE sqE dE]] := expanded_dilation; rewrite /net_of eE => -[e].
have e' : calc_matrix (b_calc b) = E by [].
have sz : size (s ++ nseq m 0%N) = (m + m)%N by rewrite size_cat ss size_nseq.
rewrite -e -(iid_exp_map (S := comps (m + m) (sumn s)) (P := bs_prob E (s ++ nseq m 0%N)) (h := take m)).
  rewrite /lossy_net_simulate ss.
  have := @gccb_simulate_exp R fuel (m + m) E (s ++ nseq m 0%N) (pad_on sqE dE) sz pad_fuel k (fun L => f (map (take m) L)) b e'.
  rewrite sumn_cat sumn_nseq mul0n addn0 => H.
  apply: has_exp_rbind H _.
  apply: always_impl (@gccb_simulate_always R fuel (m + m) E (s ++ nseq m 0%N) (pad_on sqE dE) sz pad_fuel k b e') => _ [L [b' [-> _ _ _]]].
  apply: has_exp_eq (@ExpRet _ _ _ _) _.
  by rewrite /=; congr f; apply: eq_map => t; rewrite trim_toE.
move=> F; rewrite big_comps_split; apply: eq_big_seq => t; rewrite mem_lcomps => /andP[/eqP st le].
rewrite /traced_prob mulr_suml; apply: eq_big_seq => r; rewrite mem_comps => /andP[_ /eqP er].
rewrite take_size_cat // bs_prob_pad // sumn_cat er; lia.
Qed.

Lemma net_always k b : net_of b ->
  always (fun x => exists L b', [/\ x = Ok (L, b'), size L = k, net_of b'
      & forall t, t \in L -> (size t == m) && (sumn t <= sumn s)%N])
    (lossy_net_simulate fuel s k b).
Proof.
have [E [eE sqE dE]] := expanded_dilation; rewrite /net_of eE => -[e].
have e' : calc_matrix (b_calc b) = E by [].
have sz : size (s ++ nseq m 0%N) = (m + m)%N by rewrite size_cat ss size_nseq.
rewrite /lossy_net_simulate ss; apply: always_rbind.
apply: always_impl (@gccb_simulate_always R fuel (m + m) E (s ++ nseq m 0%N) (pad_on sqE dE) sz pad_fuel k b e') => _ [L [b' [-> sL eb aL]]].
rewrite /=; eexists _, b'; split; rewrite ?size_map ?eb //.
move=> t /mapP[u uL ->]; have /andP[/eqP su' /eqP eu] := aL _ uL.
rewrite trim_toE size_take su'; have -> : (if (m < m + m)%N then m else (m + m)%N) = m by case: ltnP; lia.
rewrite eqxx /=.
by rewrite sumn_cat sumn_nseq mul0n addn0 in eu; rewrite -eu -{2}(cat_take_drop m u) sumn_cat leq_addr.
Qed.

Lemma net_iid k b d (D : mat) : net_of b -> dilation m d M D ->
  iid_samples (lossy_net_simulate fuel s k b) k [pred t | (size t == m) && (sumn t <= sumn s)%N]
    (traced_prob d D s).
Proof.
move=> nb dD.
have [E [eE sqE dE]] := expanded_dilation.
have e : calc_matrix (b_calc b) = E by move: nb; rewrite /net_of eE => -[].
apply: (@iid_of_exp _ _ _ _ (lcomps m (sumn s))); first exact: lcomps_uniq.
  by move=> t; rewrite mem_lcomps.
move=> f; apply: has_exp_eq (net_exp k f nb) _.
rewrite -[RHS](iid_exp_map (S := lcomps m (sumn s)) (P := traced_prob m E s) (h := id)).
  by rewrite e; apply: iid_exp_ext => L; rewrite map_id.
move=> F; apply: eq_big_seq => t; rewrite mem_lcomps => /andP[/eqP st le].
by rewrite (traced_dil dE dD).
Qed.
End Samples.
