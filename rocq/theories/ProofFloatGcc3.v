(* The samplers with rounded arithmetic. *)
From mathcomp Require Import all_ssreflect all_fingroup all_algebra complex.
From mathcomp Require Import ring zify.
From Verif Require Import Base SpecStates Combi SpecPerm PermMath SpecBS BsMath BsComb BsNorm.
From Verif Require Import ModelStates ProofStates1 LemStates ModelPerm ProofPerm6 LemPerm ModelDist ProofDist1
  SpecProb ProbMath ModelGcc ModelGccB SampMath ProofSel ProofGcc1 ProofGcc2 ProofGcc3
  ModelFloat ModelFloatDist SpecFloat SpecFloatGcc ProofFloat ProofFloat4 ProofFloatDist ProofFloatDist2
  ModelFloatGcc ProofFloatSel ProofFloatGcc1 ProofFloatGcc2.
Set Implicit Arguments.
Unset Strict Implicit.
Unset Printing Implicit Defensive.
Import Order.Theory GRing.Theory Num.Theory.
Local Open Scope ring_scope.
Local Open Scope py_scope.

(* ---- perturbed matrices ---- *)
Section Perturb.
Variable R : rcfType.
Notation CF := (ComplexField.complex_numFieldType R).
Variables (m : nat) (U V : seq (seq CF)) (eps : R).
Hypothesis e0 : 0 <= eps.
Hypothesis U1 : entries_bounded m U (1%:C)%C.
Hypothesis UV : forall j i, (j < m)%N -> (i < m)%N -> `|ent V j i - ent U j i| <= (eps%:C)%C.
Notation nearC := (near (eps%:C)%C).
Let eC0 : 0 <= (eps%:C)%C :> CF. Proof. by rewrite ler0c. Qed.

Lemma near_entry j i : (j < m)%N -> (i < m)%N -> nearC 1 (ent U j i) 1 (ent V j i).
Proof.
move=> jm im; split; first exact: U1.
by rewrite expr1 [1 + _]addrC addrK mulr1; apply: UV.
Qed.

Lemma near_prod (n : nat) (f g : 'I_n -> CF) : (forall i, nearC 1 (f i) 1 (g i)) ->
  nearC n (\prod_(i < n) f i) 1 (\prod_(i < n) g i).
Proof.
elim: n f g => [|n IH] f g h; first by rewrite !big_ord0; apply: near_exact; rewrite ?normr1.
rewrite !big_ord_recl -[X in near _ _ _ X _]mulr1.
have hn : nearC n (\prod_(i < n) f (lift ord0 i)) 1 (\prod_(i < n) g (lift ord0 i)) by apply: IH => i; apply: h.
by have := near_times (h ord0) hn; rewrite add1n.
Qed.

Lemma near_sums k (I : Type) (r : seq I) (f g : I -> CF) : (forall i, nearC k (f i) 1 (g i)) ->
  nearC k (\sum_(i <- r) f i) (\sum_(i <- r) 1) (\sum_(i <- r) g i).
Proof.
move=> h; elim: r => [|i r IH]; first by rewrite !big_nil; apply: near_exact; rewrite ?normr0.
by rewrite !big_cons; apply: near_plus.
Qed.

Lemma mode_lt s i : (size s <= m)%N -> (i < sumn s)%N -> (nth 0 (particle_modes s) i < m)%N.
Proof.
move=> sm im; apply: leq_trans sm.
have : nth 0%N (particle_modes s) i \in particle_modes s by rewrite mem_nth ?size_particle_modes.
by case/flattenP => l /mapP[j]; rewrite mem_iota => /= jl -> /nseqP[->].
Qed.

Lemma near_permanent s t : (size s <= m)%N -> (size t <= m)%N -> sumn s = sumn t ->
  nearC (sumn t) (bs_permanent U s t) ((sumn t)`!%:R) (bs_permanent V s t).
Proof.
move=> sm tm e; have -> : (sumn t)`!%:R = \sum_(p : 'S_(sumn t)) 1 :> CF by rewrite sumr_const card_Sn.
rewrite /bs_permanent /permanent.
apply: near_sums => p; apply: near_prod => i.
rewrite !mxE; apply: near_entry; apply: mode_lt => //.
by rewrite e.
Qed.

Lemma near_py_abs k (v w : CF) (a : R) : nearC k v (a%:C)%C w -> near eps k (py_abs v) a (py_abs w).
Proof.
rewrite /near ECE => -[]; rewrite !normE -rmorphM !lecR => va wv.
have p0 (z : CF) : 0 <= py_abs z by exact: sqrtr_ge0.
split; first by rewrite ger0_norm.
have H (x y : CF) : py_abs x - py_abs y <= py_abs (x - y).
  rewrite -lecR rmorphB /= -!normE; have := ler_sub_dist x y; exact.
apply: le_trans wv; rewrite ler_norml; apply/andP; split; last exact: H.
rewrite ler_oppl opprB.
have -> : py_abs (w - v) = py_abs (v - w) by apply: complexI; rewrite -!normE distrC.
exact: H.
Qed.

Lemma near_nsq s t : (size s <= m)%N -> (size t <= m)%N -> sumn s = sumn t ->
  `|nsq (bs_permanent V s t) - nsq (bs_permanent U s t)| <= ((1 + eps) ^+ (2 * sumn t) - 1) * (sumn t)`!%:R ^+ 2.
Proof.
move=> sm tm e; have := near_permanent sm tm e.
have -> : (sumn t)`!%:R = (((sumn t)`!%:R)%:C)%C :> CF by rewrite rmorph_nat.
by move/near_py_abs => /(near_exp e0 2) [_]; rewrite !py_abs_sq.
Qed.

Lemma qprob_perturb s t : size s = m -> size t = m -> (sumn t <= sumn s)%N ->
  `|qprob V s t - qprob U s t| <= ((1 + eps) ^+ (2 * sumn t) - 1) * (sumn t)`!%:R.
Proof.
move=> ss st le; set l := sumn t.
have c0 : 'C(sumn s, l)%:R != 0 :> R by rewrite pnatr_eq0 -lt0n bin_gt0.
have E (W : seq (seq CF)) : qprob W s t = \sum_(T <- subs s | sumn T == l)
    nsq (bs_permanent W T t) * ((factprod T)%:R^-1 * l`!%:R^-1 * wt R s l T).
  rewrite /qprob /qnum mulr_suml; apply: eq_bigr => T _.
  rewrite /wt -bin_ffact natrM invfM.
  move: (nsq _) ((factprod T)%:R^-1) (l`!%:R^-1) ('C(_, _)%:R^-1) ((ways s T)%:R) => x y z w v.
  ring.
rewrite !E -sumrB; apply: le_trans (ler_norm_sum _ _ _) _.
set K := ((1 + eps) ^+ (2 * l) - 1) * l`!%:R.
apply: (@le_trans _ _ (\sum_(T <- subs s | sumn T == l) K * wt R s l T)); last first.
  by rewrite -mulr_sumr -[X in _ * X]big_filter -/(lay s l) wt_sum // mulr1.
rewrite big_seq_cond [X in _ <= X]big_seq_cond; apply: ler_sum => T /andP[]; rewrite mem_subs => sT /eqP eT.
have /substateP[szT _] := sT.
have h := near_nsq (s := T) (t := t) _ _ eT; rewrite szT ss st in h; have {}h := h (leqnn _) (leqnn _).
set x := nsq _ in h *; set y := nsq _ in h *.
have f1 : 1 <= (factprod T)%:R :> R by have := @factprod_gt0 R T; rewrite ltr0n ler1n.
have f2 : 0 < l`!%:R :> R by rewrite ltr0n fact_gt0.
rewrite -mulrBl mulrA normrM (ger0_norm (wt_ge0 _ _ _ _)); apply: ler_wpmul2r; first exact: wt_ge0.
have i0 : 0 <= (factprod T)%:R^-1 / l`!%:R :> R by rewrite mulr_ge0 ?invr_ge0 ?ler0n.
rewrite normrM (ger0_norm i0).
apply: (@le_trans _ _ (((1 + eps) ^+ (2 * l) - 1) * l`!%:R ^+ 2 * l`!%:R^-1)); last first.
  by rewrite /K -mulrA expr2 mulfK // gt_eqF.
apply: ler_pmul => //; rewrite -[X in _ <= X]mul1r; apply: ler_wpmul2r; first by rewrite invr_ge0 ltW.
by rewrite invf_le1 // (lt_le_trans ltr01).
Qed.

End Perturb.

Section Sim.
Variable R : rcfType.
Notation CF := (ComplexField.complex_numFieldType R).
Variables (u eps : R) (A : arith CF) (B : arith R) (f_abs : CF -> R) (f_sum : seq R -> R) (N : nat).
Hypothesis u0 : 0 <= u.
Hypothesis accA : accurate (u%:C)%C A.
Hypothesis accB : accurate u B.
Hypothesis acc_abs : forall z, `|f_abs z - py_abs z| <= u * py_abs z.
Hypothesis acc_sum : accurate_sum u f_sum.
Hypothesis N0 : (0 < N)%N.
Variables (gray : nat -> seq nat) (fuel m : nat) (U V : seq (seq CF)) (s : seq nat).
Hypotheses (uU : unitary m U) (sqV : is_square m V) (ss : size s = m) (gr : gray_ok gray (sumn s)).
Hypothesis fu : (code_number s <= fuel)%N.
Hypothesis e0 : 0 <= eps.
Hypothesis UV : forall j i, (j < m)%N -> (i < m)%N -> `|ent V j i - ent U j i| <= (eps%:C)%C.
Hypothesis x4 : (1 + u) ^+ (2 * m + 1 + code_number s) <= 5%:R / 4%:R.

Let delta := entry_error u eps m s.

Lemma boundV : entries_bounded m V ((1 + eps)%:C)%C.
Proof.
move=> j i jm im; rewrite -[ent V j i](subrK (ent U j i)) addrC; apply: le_trans (ler_norm_add _ _) _.
by rewrite rmorphD; apply: ler_add; [apply: unitary_entries uU _ _ _ _|apply: UV].
Qed.

Lemma uon : unitary_on m U s.
Proof. by apply: (unitaryW uU); rewrite ss. Qed.

Lemma entry_good (a : any_calc CF) (wh : seq nat -> R) t : calc_matrix a = V -> s != [::] -> size t = m ->
  (sumn t <= sumn s)%N ->
  (forall T, T \in lay s (sumn t) ->
     near u (2 * m + 2 + 2 * (2 * m + 1 + code_number s)) (wt R s (sumn t) T) (wt R s (sumn t) T) (wh T) /\ 0 <= wh T) ->
  exists p a', [/\ fl_pmf_entry A B f_abs gray fuel a (lay s (sumn t)) (map wh (lay s (sumn t))) t = Ok (p, a'),
    calc_matrix a' = V, 0 <= p & `|p - qprob U s t| <= delta (sumn t)].
Proof.
move=> ea s0 st le H.
have [p [a' [E ea' p0 pq]]] := fl_pmf_entryE u0 accA accB acc_abs sqV ss gr fu boundV x4 ea s0 st le H.
exists p, a'; split=> //; rewrite -[p](subrK (qprob V s t)) -addrA.
apply: le_trans (ler_norm_add _ _) _; apply: ler_add; first exact: pq.
exact: (qprob_perturb e0 (unitary_entries uU) UV).
Qed.

Lemma entries_good (a : any_calc CF) (wh : seq nat -> R) (acc : seq R) l outs : calc_matrix a = V -> s != [::] ->
  (l <= sumn s)%N -> (forall t, t \in outs -> size t = m /\ sumn t = l) ->
  (forall T, T \in lay s l ->
     near u (2 * m + 2 + 2 * (2 * m + 1 + code_number s)) (wt R s l T) (wt R s l T) (wh T) /\ 0 <= wh T) ->
  exists ps a', [/\ rfoldl (fun st t =>
    let! pa := fl_pmf_entry A B f_abs gray fuel st.2 (lay s l) (map wh (lay s l)) t in
    Ok (rcons st.1 pa.1, pa.2)) (acc, a) outs = Ok (acc ++ ps, a'), calc_matrix a' = V, size ps = size outs,
    all (fun x => 0 <= x) ps & forall j, (j < size outs)%N -> `|ps`_j - qprob U s (nth [::] outs j)| <= delta l].
Proof.
move=> ea s0 le + H; elim: outs a acc ea => [|t outs IH] a acc ea Ho.
  by exists [::], a; rewrite cats0.
have [st et] := Ho _ (mem_head _ _).
have [|T|p [a1 [E1 ea1 p0 pq]]] := @entry_good a wh t ea s0 st; rewrite ?et //; first exact: H.
have [t' it|ps [a' [E ea' sp al hp]]] := IH a1 (rcons acc p) ea1 _.
  by apply: Ho; rewrite inE it orbT.
exists (p :: ps), a'; split=> //.
- rewrite et in E1; rewrite rfoldl_cons [(_, _).2]/= E1.
  by apply: etrans E _; rewrite -cats1 -catA.
- by rewrite /= sp.
- by rewrite /= p0.
by case=> [_|j jl]; [rewrite et in pq|apply: hp].
Qed.

(* ---- occupations ---- *)
Notation ok_a := (fun r : seq nat => size r = m).
Notation inv_a := (finv m U V s id incr ok_a delta).

Lemma fl_layer_a g : inv_a g -> (sumn (g_r g) < sumn s)%N ->
  exists pmf a', [/\ fl_new_layer A B f_abs f_sum gray fuel g = Ok (with_layer m incr g pmf a'),
    calc_matrix a' = V & good m U s id delta (g_r g) pmf].
Proof.
case=> i1 i2 i3 i4 i5 i6 i7 lt; rewrite /fl_new_layer i2 i3 labelE -/(lay s _).
have [wh [-> Hw]] := fl_layer_weightsE u0 accB acc_sum sqV ss fu x4 lt.
rewrite [rbind (Ok _) _]/= possible_output_statesE [rbind (Ok _) _]/=.
pose outs := [seq incr (g_r g) j | j <- iota 0 (size (g_r g))].
have so : size outs = m by rewrite size_map size_iota.
have [|ps [a' [-> ea sp al hp]]] := @entries_good (g_calc g) wh [::] _ outs i4 (nonempty lt) lt _ Hw.
  by move=> t /mapP[j]; rewrite mem_iota => /= jl ->; rewrite size_incr ?sumn_incr.
exists ps, a'; split=> //; first by rewrite [rbind (Ok _) _]/= /with_layer i2 i3 /ou i5.
split=> //; first by rewrite sp.
move=> j jm; have := hp j; rewrite so => /(_ jm).
by rewrite (nth_map 0%N) ?size_iota ?i5 // nth_iota.
Qed.

Lemma x4' : (1 + u) ^+ m.+1 - 1 <= 4%:R^-1.
Proof.
have h : (1 + u) ^+ m.+1 <= 5%:R / 4%:R by apply: (small u0 x4); lia.
rewrite -subr_ge0; have -> : 4%:R^-1 - ((1 + u) ^+ m.+1 - 1) = 5%:R / 4%:R - (1 + u) ^+ m.+1 :> R.
  by move: ((1 + u) ^+ m.+1) => z; field.
by rewrite subr_ge0.
Qed.

Lemma fuel_lt : (sumn s < fuel)%N.
Proof. exact: leq_trans (prod_gt s) fu. Qed.

Lemma start_fa g : calc_matrix (g_calc g) = V -> inv_a (reset_sample (nseq m 0%N) (gcc_start s g)).
Proof. by move=> e; split=> //=; rewrite size_nseq. Qed.

Lemma fl_gcc_simulate_exp k f g : (forall L, 0 <= f L <= 1) -> calc_matrix (g_calc g) = V ->
  exists v, [/\ has_exp (on_ok (fun z => f z.1)) (fl_gcc_simulate A B f_abs f_sum gray fuel N s k g) v,
     0 <= v <= 1
   & `|v - iid_exp (comps m (sumn s)) (bs_prob U s) k f| <= k%:R * gcc_error u eps N m s].
Proof.
move=> f01 e; apply: (@samples_exp R m U V s uon ss id incr sumn ok_a _ _ _ _ u B f_sum N u0 accB acc_sum N0
  x4' delta _ fl_layer_a fuel (nseq m 0%N) _ _ fuel_lt) => //.
- by move=> r j <- jm; rewrite size_incr.
- by rewrite size_nseq.
- by move=> g' [_ i2 _ _ _ _ _]; rewrite /fl_fill_r_sample [g_input g']i2 ss.
- exact: start_fa.
Qed.

(* ---- mode assignments ---- *)
Notation ok_m := (fun r : seq nat => all (fun i => i < m)%N r).
Notation occ_m := (occupation m).
Notation inv_m := (finv m U V s occ_m rcons ok_m delta).

Lemma fl_layer_m g : inv_m g -> (size (g_r g) < sumn s)%N ->
  exists pmf a', [/\ fl_ma_new_layer A B f_abs f_sum gray fuel g = Ok (with_layer m rcons g pmf a'),
    calc_matrix a' = V & good m U s occ_m delta (g_r g) pmf].
Proof.
case=> i1 i2 i3 i4 i5 i6 i7 lt; rewrite /fl_ma_new_layer i2 i3 labelE -/(lay s _).
have [wh [-> Hw]] := fl_layer_weightsE u0 accB acc_sum sqV ss fu x4 lt.
rewrite [rbind (Ok _) _]/=.
have m0 : (0 < m)%N by rewrite -ss; have := nonempty lt; case: (s).
pose outs := [seq incr (occ_m (g_r g)) j | j <- iota 0 m].
have so : size outs = m by rewrite size_map size_iota.
have [|ps [a' [E ea sp al hp]]] := @entries_good (g_calc g) wh [::] _ outs i4 (nonempty lt) lt _ Hw.
  by move=> t /mapP[j]; rewrite mem_iota => /= jl ->; rewrite size_incr ?sumn_incr ?size_occ ?sumn_occ.
have -> : rfoldl (fun st t =>
    let! t := mode_assignment_to_mode_occupation (map Posz t) (Posz (size s)) in
    let! pa := fl_pmf_entry A B f_abs gray fuel st.2 (lay s (size (g_r g)).+1)
       [seq wh T | T <- lay s (size (g_r g)).+1] t in
    Ok (rcons st.1 pa.1, pa.2)) ([::], g_calc g) (ma_possible_outputs s (g_r g)) =
    Ok ([::] ++ ps, a').
  rewrite -E /outs /ma_possible_outputs ss.
  have: all (fun i => i < m)%N (iota 0 m) by apply/allP => i; rewrite mem_iota.
  move: ([::], g_calc g); elim: (iota 0 m) => [//|j l IH] st /= /andP[jm al'].
  rewrite assignment_to_occupation_nat // ?all_rcons ?jm // [rbind (Ok _) _]/= occ_rcons //.
  by case: (fl_pmf_entry _ _ _ _ _ _ _ _ _) => [pa|e] //=; apply: IH.
exists ps, a'; split=> //; first by rewrite [rbind (Ok _) _]/= /with_layer i2 i3 /ou /ma_possible_outputs ss.
split=> //; first by rewrite sp.
move=> j jm; have := hp j; rewrite so sumn_occ // => /(_ jm).
by rewrite (nth_map 0%N) ?size_iota // nth_iota.
Qed.

Lemma fl_ma_simulate_exp k f g : (0 < m)%N -> (forall L, 0 <= f L <= 1) -> calc_matrix (g_calc g) = V ->
  exists v, [/\ has_exp (on_ok (fun z => f z.1)) (fl_ma_simulate A B f_abs f_sum gray fuel N s k g) v,
     0 <= v <= 1
   & `|v - iid_exp (comps m (sumn s)) (bs_prob U s) k f| <= k%:R * gcc_error u eps N m s].
Proof.
move=> m0 f01 e; apply: (@samples_exp R m U V s uon ss occ_m rcons size ok_m _ _ _ _ u B f_sum N u0 accB acc_sum N0
  x4' delta _ fl_layer_m fuel [::] _ _ fuel_lt) => //.
- by move=> r j; rewrite all_rcons => -> ->.
- by move=> r j _; exact: occ_rcons.
- by move=> r _; exact: size_occ.
- by move=> r /sumn_occ.
- exact: occ_nil.
- by move=> g' [_ i2 _ _ i5 _ _] _; rewrite i2 ss assignment_to_occupation_nat.
Qed.

End Sim.
