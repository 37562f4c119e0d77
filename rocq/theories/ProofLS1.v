(* The lossy-state sampler: the possible inputs and their weights. *)
From mathcomp Require Import all_ssreflect all_algebra complex.
From mathcomp Require Import ring zify.
From Verif Require Import Base SpecStates Combi SpecPerm PermMath SpecBS BsMath BsComb BsNorm.
From Verif Require Import ModelStates LemStates ModelPerm ModelDist SpecProb ProbMath ModelGcc ModelGccB ProofSel SpecGcc ModelNet SpecNet.
From Verif Require Import ProofGccB2 ProofNet1 ProofBobs1 ProofBobs2 ProofBobs4 ModelBobs ModelLState SpecBobs SpecLState.
Set Implicit Arguments.
Unset Strict Implicit.
Unset Printing Implicit Defensive.
Import Order.TTheory GRing.Theory Num.Theory.
Local Open Scope ring_scope.
Local Open Scope py_scope.

(* distributing the samples among the threads *)
Lemma distributeE v b : (0 < b)%N ->
  distribute_uniformly v b = Ok (nseq (v %% b) (v %/ b).+1 ++ nseq (b - v %% b) (v %/ b)%N).
Proof.
move=> b0; rewrite /distribute_uniformly; case: eqP b0 => [->//|_] b0.
have H k : (k <= b)%N -> rfoldl (fun l i => let! x := py_get l (Posz i) in py_set l (Posz i) x.+1)
    (nseq b (v %/ b)%N) (iota 0 k) = Ok (nseq k (v %/ b).+1 ++ nseq (b - k) (v %/ b)%N).
  elim: k => [|k IH] kb; first by rewrite subn0.
  rewrite -addn1 iotaD rfoldl_cat IH ?(ltnW kb) // [rbind _ _]/= add0n.
  have -> : (b - k = (b - (k + 1)).+1)%N by lia.
  rewrite [nseq (_).+1 _]/= py_get_cat ?size_nseq // [rbind _ _]/= (py_set_cat _ _ _ (i := Posz k)) ?size_nseq // [rbind _ _]/=.
  rewrite addn1; congr Ok; move: (nseq (b - k.+1) _) => Z; by elim: (k) => //= i ->.
by rewrite H // ltnW // ltn_mod.
Qed.

Lemma distribute_spec v b : (0 < b)%N -> exists L, [/\ distribute_uniformly v b = Ok L, size L = b, sumn L = v
  & forall x y, x \in L -> y \in L -> (x <= y.+1)%N].
Proof.
move=> b0; exists (nseq (v %% b) (v %/ b).+1 ++ nseq (b - v %% b) (v %/ b)%N); rewrite distributeE //.
have lt : (v %% b < b)%N by rewrite ltn_mod.
split=> //; first by rewrite size_cat !size_nseq; lia.
  rewrite sumn_cat !sumn_nseq; apply: etrans (esym (divn_eq v b)).
  have e : ((v %/ b) * b = (v %/ b) * (v %% b) + (v %/ b) * (b - v %% b))%N by rewrite -mulnDr; congr (_ * _)%N; lia.
  by rewrite {}e mulSn; lia.
have H z : z \in nseq (v %% b) (v %/ b).+1 ++ nseq (b - v %% b) (v %/ b)%N -> (v %/ b <= z <= (v %/ b).+1)%N.
  by rewrite mem_cat !mem_nseq => /orP[] /andP[_ /eqP ->]; lia.
by move=> x y /H hx /H hy; lia.
Qed.

Section Weights.
Variables (R : rcfType) (H : eqType) (hash : seq nat -> H).
Variable p : seq nat.
Hypothesis inj : no_collision hash p.
Notation n := (sumn p).

Lemma exact_partsE : exists L, [/\ exact_parts hash p = Ok L, uniq L, L =i subs p & exists L', L = rcons L' p].
Proof.
rewrite /exact_parts; case: (posnP n) => [n0|np].
  have [h _] := C06_edge_lemma hash p 0; rewrite n0 [iota 0 1]/= /rfoldl h // [rbind _ _]/=.
  exists [:: p]; split=> //; last by exists [::].
  move=> t; rewrite mem_subs inE; apply/eqP/idP => [->|st]; first exact: substate_refl.
  by apply: (substate_sumn_eq st); have := substate_sumn st; lia.
have K k : exists L, [/\ rfoldl (fun acc l =>
      let! new := generate_lossy_n_particle_input_states hash p (Posz l) in
      Ok (acc ++ new)) [::] (iota 0 k) = Ok L, uniq L & forall t, (t \in L) = substate t p && (sumn t < k)%N].
  elim: k => [|k [L [e u h]]]; first by exists [::]; split=> // t; rewrite ltn0 andbF.
  have [L2 [e2 u2 h2 h3]] := C06_lemma hash k np.
  exists (L ++ L2); rewrite -addn1 iotaD rfoldl_cat e [rbind _ _]/= add0n e2 /=; split=> //.
    rewrite cat_uniq u u2 andbT; apply/hasPn => t tl; have [_ et] := h2 t tl.
    by rewrite /= h et ltnn andbF.
  move=> t; rewrite mem_cat h addn1 ltnS [(sumn t <= k)%N]leq_eqVlt andb_orr orbC; congr (_ || _).
  apply/idP/andP => [tl|[st /eqP et]]; first by have [-> ->] := h2 t tl.
  by apply: h3 => // a b sa sb _ _; exact: inj.
have [L [e u h]] := K n; have [L2 [e2 u2 h2 h3]] := C06_lemma hash n np.
have eL2 : L2 = [:: p].
  have all2 t : t \in L2 -> t = p by move=> /h2[st et]; exact: substate_sumn_eq st et.
  have : p \in L2.
    by apply: h3; rewrite ?substate_refl // => t t' st st' _ _; exact: inj.
  case: L2 u2 all2 {e2 h2 h3} => [//|a [|b L2]] /= u2 all2 _; first by rewrite (all2 a) ?mem_head.
  by move: u2; rewrite (all2 a) ?mem_head // (all2 b) ?inE ?eqxx ?orbT.
exists (L ++ L2); rewrite -addn1 iotaD rfoldl_cat e [rbind _ _]/= add0n e2 /= eL2; split=> //.
- rewrite cat_uniq u /= andbT orbF; apply/negP; rewrite h ltnn andbF //.
- move=> t; rewrite mem_cat h mem_subs inE; case st: (substate t p) => /=.
    case: ltngtP (substate_sumn st) => // et _; last by rewrite (substate_sumn_eq st et) eqxx.
  by apply/eqP => et; move: st; rewrite et substate_refl.
- by exists L; rewrite cats1.
Qed.

Lemma possible_weightsE (eta : R) k : possible_weights eta k = [seq binomial_weight k eta l | l <- iota 0 k.+1].
Proof. by []. Qed.

Variable eta : R.

Lemma exact_weightsE L L' : L =i subs p -> L = rcons L' p ->
  exact_weights eta L = Ok [seq left_weight eta p K | K <- L].
Proof.
move=> h eL; rewrite /exact_weights.
have -> : py_get L (-1) = Ok p.
  by rewrite eL /py_get /= size_rcons /= subn1 /= -cats1 drop_size_cat.
rewrite [rbind (Ok p) _]/= possible_weightsE; apply: rmapM_ok => K; rewrite h mem_subs => sK.
have le := substate_sumn sK.
have -> : py_get [seq binomial_weight n eta l | l <- iota 0 n.+1] (Posz (sumn K)) = Ok (binomial_weight n eta (sumn K)).
  by rewrite (py_get_nth 0) ?size_map ?size_iota ?ltnS // (nth_map 0%N) ?size_iota ?ltnS // nth_iota ?ltnS // add0n.
by rewrite [LHS]/=; congr Ok; rewrite /binomial_weight /left_weight -[X in X / _]mulrA mulrC mulKf // pnatr_eq0 -lt0n bin_gt0.
Qed.

Definition mode_total (k : nat) : R := \sum_(l < k.+1) eta ^+ l * (1 - eta) ^+ (k - l).

Lemma left_total : \sum_(K <- subs p) left_weight eta p K = \prod_(k <- p) mode_total k.
Proof.
elim: (p) => [|k q IH]; first by rewrite big_seq1 big_nil /left_weight !expr0 mul1r.
rewrite big_subs_cons big_cons -IH mulr_suml; apply: eq_bigr => l _; rewrite mulr_sumr; apply: eq_big_seq => K.
rewrite mem_subs => sK; rewrite /left_weight /= exprD.
have -> : (k + sumn q - (l + sumn K) = (k - l) + (sumn q - sumn K))%N by have := substate_sumn sK; have := ltn_ord l; lia.
by rewrite exprD; ring.
Qed.

Hypothesis eta01 : 0 <= eta <= 1.
Let e0 : 0 <= eta. Proof. by case/andP: eta01. Qed.
Let e1 : 0 <= 1 - eta. Proof. by case/andP: eta01 => _; rewrite subr_ge0. Qed.

Lemma left_weight_ge0 K : 0 <= left_weight eta p K.
Proof. by rewrite mulr_ge0 ?exprn_ge0. Qed.

Lemma mode_total_le1 k : 0 <= mode_total k <= 1.
Proof.
rewrite sumr_ge0 => [|l _]; last by rewrite mulr_ge0 ?exprn_ge0.
rewrite -(binomial_weight_sum k eta); apply: ler_sum => l _; rewrite /binomial_weight -mulrA.
by rewrite ler_pemull ?mulr_ge0 ?exprn_ge0 // ler1n bin_gt0 -ltnS.
Qed.

Lemma mode_total_1 k : (k <= 1)%N -> mode_total k = 1.
Proof.
by case: k => [|[|//]] _; rewrite /mode_total !big_ord_recr big_ord0 /= ?expr0 ?expr1; ring.
Qed.

Lemma mode_total_lt1 k : 0 < eta < 1 -> (1 < k)%N -> mode_total k < 1.
Proof.
move=> /andP[p0 p1] k1; rewrite -(binomial_weight_sum k eta).
have le l : (l <= k)%N -> eta ^+ l * (1 - eta) ^+ (k - l) <= binomial_weight k eta l.
  by move=> lk; rewrite /binomial_weight -mulrA ler_pemull ?mulr_ge0 ?exprn_ge0 // ler1n bin_gt0.
pose i1 : 'I_k.+1 := Ordinal (ltnW k1 : (1 < k.+1)%N).
rewrite /mode_total (bigD1 i1) // [X in _ < X](bigD1 i1) //=; apply: ltr_le_add.
  rewrite /binomial_weight bin1 -mulrA ltr_pmull ?ltr1n // mulr_gt0 ?exprn_gt0 ?subr_gt0 //.
by apply: ler_sum => l _; apply: le; rewrite -ltnS.
Qed.

Lemma left_total_1 : all (fun k => k <= 1)%N p -> \prod_(k <- p) mode_total k = 1.
Proof. by move=> /allP h; rewrite big1_seq // => k /andP[_ /h]; exact: mode_total_1. Qed.

Lemma left_total_lt1 : 0 < eta < 1 -> has (fun k => 1 < k)%N p -> \prod_(k <- p) mode_total k < 1.
Proof.
move=> h; elim: (p) => [//|k q IH] /= hq; rewrite big_cons.
have q1 : 0 <= \prod_(k <- q) mode_total k <= 1.
  elim: (q) => [|j r /andP[r0 r1]]; first by rewrite big_nil ler01 lexx.
  have /andP[j0 j1] := mode_total_le1 j.
  by rewrite big_cons mulr_ge0 //= (le_trans _ j1) // ler_pimulr.
case/orP: hq => [k1|hq].
  have lt := mode_total_lt1 h k1; have /andP[k0 _] := mode_total_le1 k.
  by apply: le_lt_trans lt; case/andP: q1 => _ q1; rewrite ler_pimulr.
apply: le_lt_trans (IH hq); have /andP[k0 k1'] := mode_total_le1 k.
by case/andP: q1 => q0 _; rewrite ler_pimull.
Qed.

Lemma left_distr L : uniq L -> L =i subs p -> all (fun k => k <= 1)%N p -> is_distr [seq left_weight eta p K | K <- L].
Proof.
move=> u h le1; split; first by apply/allP => _ /mapP[K _ ->]; exact: left_weight_ge0.
rewrite big_map (perm_big (subs p)) ?left_total ?left_total_1 //.
by apply: uniq_perm; rewrite ?subs_uniq.
Qed.
End Weights.

Section Choice.
Variables (R : rcfType) (T : eqType).

(* drawing the position of an entry of L *)
Lemma choice_always (L : seq T) (ws : seq R) : size ws = size L -> is_distr ws ->
  always (fun r => exists2 i, r = Ok i & (i < size L)%N) (np_choice_of (size L) ws).
Proof.
move=> sz d; rewrite /np_choice_of sz eqxx /= np_choiceE // => u u01; eexists; first reflexivity.
by rewrite choice_findE // -sz; have [] := search_pos1 d u01.
Qed.

Lemma choice_exp (L : seq T) (w : T -> R) x0 f : is_distr (map w L) ->
  has_exp (on_ok f) (np_choice_of (size L) (map w L)) (\sum_(i < size L) w (nth x0 L i) * f i).
Proof.
move=> d; rewrite /np_choice_of size_map eqxx /= np_choiceE //.
apply: has_exp_eq (has_exp_choice (val := fun i => f i) d _) _.
  by move=> i u _ _ _ ->; exact: ExpRet.
by rewrite size_map; apply: eq_bigr => i _; rewrite (nth_map x0).
Qed.
End Choice.
