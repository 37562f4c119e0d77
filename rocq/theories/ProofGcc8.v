(* Collecting the distribution up to an accuracy: when the loop stops, and when it never does. *)
From mathcomp Require Import all_ssreflect all_algebra complex.
From mathcomp Require Import ring zify.
From Verif Require Import Base SpecStates Combi SpecPerm PermMath SpecBS BsMath BsComb BsNorm.
From Verif Require Import ModelStates ProofStates1 ProofStates4 LemStates ModelPerm ProofPerm6 LemPerm ModelDist ProofDist1.
From Verif Require Import SpecProb ProbMath ProbTame ModelGcc ModelGccB SampMath ProofSel ProofGcc1 ProofGcc2 ProofGcc3 ProofGccB2 ProofGcc6 ProofGcc7.
Set Implicit Arguments.
Unset Strict Implicit.
Unset Printing Implicit Defensive.
Import Order.TTheory GRing.Theory Num.Theory.
Local Open Scope ring_scope.
Local Open Scope py_scope.

Section S.
Variable R : rcfType.
Notation CF := (ComplexField.complex_numFieldType R).
Variables (gray : nat -> seq nat) (fuel m : nat) (U : seq (seq CF)) (s : seq nat).
Hypotheses (u : unitary_on m U s) (ss : size s = m) (gr : gray_ok gray (sumn s)).
Hypothesis fu : (\prod_(x <- s) x.+1 <= fuel)%N.
Variables (L : seq (seq nat)) (eta : R).
Hypothesis genL : generate_possible_states fuel (Posz (sumn s)) (Posz (size s)) true = Ok L.
Hypothesis memL : forall t, (t \in L) = (size t == m) && (sumn t <= sumn s)%N.
Hypothesis headL : nth [::] L 0 = nseq m 0%N.

Notation P := (uniform_loss_prob U s eta).
Notation F := (fixed_loss_prob U s).
Notation round := (round m U s L eta false).
Notation seen := (seen U s L eta).

(* the outcomes to wait for *)
Definition wanted := [seq t <- lcomps m (sumn s) | (0 < sumn t)%N && (P t != 0)].

Lemma wanted_in : {subset wanted <= lcomps m (sumn s)}.
Proof. by move=> t; rewrite mem_filter => /andP[]. Qed.
Lemma wanted_uniq : uniq wanted.
Proof. by rewrite filter_uniq ?lcomps_uniq. Qed.

Lemma L_nth i : (i < size L)%N -> size (nth [::] L i) = m /\ (sumn (nth [::] L i) <= sumn s)%N.
Proof using memL. by move=> il; have := mem_nth [::] il; rewrite memL => /andP[/eqP]. Qed.

Lemma wanted_nth i : (i < size L)%N -> (0 < sumn (nth [::] L i))%N -> P (nth [::] L i) != 0 -> nth [::] L i \in wanted.
Proof using memL.
move=> il h1 h2; rewrite mem_filter h1 h2 mem_lcomps; have [-> ->] := L_nth il; by rewrite eqxx.
Qed.

Hypothesis uniqL : uniq L.

Lemma permL : perm_eq L (lcomps m (sumn s)).
Proof using memL uniqL. by apply: uniq_perm; rewrite ?lcomps_uniq // => t; rewrite memL mem_lcomps. Qed.

Lemma sum_list (d : seq R) : size d = size L -> \sum_(p <- d) p = \sum_(i < size L) d`_i.
Proof. by move=> sd; rewrite (big_nth 0) big_mkord sd. Qed.
Lemma sum_L (h : seq nat -> R) : \sum_(i < size L) h (nth [::] L i) = \sum_(t <- lcomps m (sumn s)) h t.
Proof using memL uniqL. by rewrite -(perm_big _ permL) (big_nth [::]) big_mkord. Qed.

Lemma dist_full x : round x -> {in wanted, forall t, seen x t} -> \sum_(p <- ug_dist x) p = 1.
Proof using u memL uniqL.
move=> [B [c0 _]] H; have [d1 _ d3] := ui_d B; rewrite sum_list // -(uniform_loss_norm eta u) -big_lcomps -sum_L.
apply: eq_bigr => i _; have il := ltn_ord i; have [st _] := L_nth il.
have [[e|//] _] := d3 i il; rewrite /= in e.
have [n0|n0] := posnP (sumn (nth [::] L i)).
  have /seen2P/(_ i il) : seen x (nseq m 0%N) by [].
  have -> : nseq m 0%N = nth [::] L i; last by case.
  by move/eqP/natnseq0P: n0; rewrite st.
have [p0|p0] := eqVneq (P (nth [::] L i)) 0; first by rewrite p0 e /init.
by have /seen2P/(_ i il erefl) [] := H _ (wanted_nth il n0 p0).
Qed.

Lemma sum_F : \sum_(t <- lcomps m (sumn s)) (if (0 < sumn t)%N then F t else 0) = (sumn s)%:R.
Proof using u.
rewrite big_lcomps big_ord_recl big_seq big1 ?add0r => [|t]; last first.
  by rewrite mem_comps => /andP[_ /eqP ->].
rewrite (eq_bigr (fun=> 1)) => [|l _]; first by rewrite sumr_const card_ord.
rewrite -(@fixed_loss_norm _ m U s l.+1) // big_seq [RHS]big_seq; apply: eq_bigr => t.
by rewrite mem_comps => /andP[_ /eqP ->].
Qed.

Definition wanted_unw := [seq t <- lcomps m (sumn s) | (0 < sumn t)%N && (F t != 0)].

Lemma unw_in : {subset wanted_unw <= lcomps m (sumn s)}.
Proof. by move=> t; rewrite mem_filter => /andP[]. Qed.

Lemma unw_full x : round x -> {in wanted_unw, forall t, seen x t} ->
  (sumn s)%:R <= \sum_(p <- ug_unw x) p.
Proof using u memL uniqL.
move=> [B [c0 _]] H; have [_ d2 d3] := ui_d B; rewrite sum_list // -sum_F -(sum_L (fun t => if (0 < sumn t)%N then F t else 0)).
apply: ler_sum => i _; have il := ltn_ord i; have [st le] := L_nth il.
have [_ o2] := d3 i il; rewrite /= in o2.
case: ifP => n0; last by case: o2 => ->; rewrite /= ?fixed_loss_prob_ge0.
have [f0|f0] := eqVneq (F (nth [::] L i)) 0; first by case: o2 => ->; rewrite f0.
suff w : nth [::] L i \in wanted_unw by have /seen2P/(_ i il erefl) [_ ->] := H _ w.
by rewrite mem_filter n0 f0 mem_lcomps le st eqxx.
Qed.

Lemma stop_dist accuracy tol x : accuracy <= 1 -> 0 <= tol -> round x -> {in wanted, forall t, seen x t} ->
  Num.max (accuracy - py_sum (ug_dist x)) 0 <= tol.
Proof using u memL uniqL.
move=> a1 t0 Rx H; rewrite py_sumE dist_full // le_maxl t0 andbT; apply: le_trans t0; by rewrite subr_le0.
Qed.

Lemma stop_unw accuracy tol x : (0 < sumn s)%N -> accuracy <= 1 -> 0 <= tol -> round x ->
  {in wanted_unw, forall t, seen x t} -> Num.max (accuracy - py_sum (ug_unw x) / (sumn s)%:R) 0 <= tol.
Proof using u memL uniqL.
move=> n0 a1 t0 Rx H; rewrite py_sumE le_maxl t0 andbT; apply: le_trans t0; rewrite subr_le0.
by apply: le_trans a1 _; rewrite ler_pdivl_mulr ?ltr0n // mul1r; apply: unw_full.
Qed.

Lemma ret_exp (X Y : Type) (p : rprog R (res X)) (h : X -> Y) v : has_exp (on_ok (fun=> 1)) p v ->
  has_exp (on_ok (fun=> 1)) (draw! x := p in Ret (Ok (h x))) v.
Proof.
move=> H; apply: has_exp_rbind H _; apply: always_true => -[a|//].
exact: (ExpRet (on_ok (fun=> 1)) (Ok _)).
Qed.

Lemma bound_le x n w : 0 <= eta <= 1 ->
  1 - \sum_(t <- wanted | ~~ seen x t) (1 - P t) ^+ n <= w -> 1 - \sum_(t <- wanted) (1 - P t) ^+ n <= w.
Proof using u.
move=> e01; apply: le_trans; rewrite ler_add2l ler_opp2 [X in _ <= X](bigID (fun t => ~~ seen x t)) /= ler_addl.
rewrite big_seq_cond; apply: sumr_ge0 => t /andP[/wanted_in tw _]; apply: exprn_ge0; rewrite subr_ge0.
rewrite -(uniform_loss_norm eta u) -big_lcomps (perm_big _ (perm_to_rem tw)) big_cons ler_addl.
by apply: sumr_ge0 => y _; apply: uniform_loss_ge0.
Qed.

Lemma dist_ends accuracy tol n x : 0 <= eta <= 1 -> accuracy <= 1 -> 0 <= tol ->
  calc_matrix (g_calc (ug_gcc x)) = U -> ug_eta x = eta -> ug_missing x = false ->
  exists2 v, has_exp (on_ok (fun=> 1)) (compute_distribution gray fuel accuracy tol n.+1 s x) v
    & 1 - \sum_(t <- wanted) (1 - P t) ^+ n <= v.
Proof using u ss gr fu genL memL headL uniqL.
move=> e01 a1 t0 e1 e2 e3; have [x' [E Rx]] := start_round u ss genL memL headL uniqL e1 e2 e3.
have [v hv le] := bound u ss gr fu e01 n wanted_in wanted_uniq (fun y Ry H => stop_dist a1 t0 Ry H) Rx.
exists v; last exact: bound_le le.
by rewrite /compute_distribution E {1}/rpbind [pbind (Ret _) _]/=; apply: ret_exp.
Qed.

Lemma bound_le2 x n w : 0 <= eta <= 1 ->
  1 - \sum_(t <- wanted_unw | ~~ seen x t) (1 - eta ^+ sumn t * F t) ^+ n <= w ->
  1 - \sum_(t <- wanted_unw) (1 - eta ^+ sumn t * F t) ^+ n <= w.
Proof using u.
move=> e01; apply: le_trans; rewrite ler_add2l ler_opp2 [X in _ <= X](bigID (fun t => ~~ seen x t)) /= ler_addl.
rewrite big_seq_cond; apply: sumr_ge0 => t /andP[/unw_in]; rewrite mem_lcomps => /andP[/eqP st le] _.
apply: exprn_ge0; rewrite subr_ge0; apply: mulr_ile1.
- by case/andP: e01 => e0 _; exact: exprn_ge0.
- exact: fixed_loss_prob_ge0.
- by case/andP: e01 => e0 e1; exact: exprn_ile1.
have pe : perm_eq (comps m (sumn t)) (t :: rem t (comps m (sumn t))) by apply: perm_to_rem; rewrite mem_comps /is_state st !eqxx.
rewrite -(fixed_loss_norm u le) (perm_big _ pe) big_cons ler_addl.
by apply: sumr_ge0 => y _; apply: fixed_loss_prob_ge0.
Qed.

Lemma unw_ends accuracy tol n x : (0 < sumn s)%N -> 0 <= eta <= 1 -> accuracy <= 1 -> 0 <= tol ->
  calc_matrix (g_calc (ug_gcc x)) = U -> ug_eta x = eta -> ug_missing x = false ->
  exists2 v, has_exp (on_ok (fun=> 1)) (compute_unweighted gray fuel accuracy tol n.+1 s x) v
    & 1 - \sum_(t <- wanted_unw) (1 - eta ^+ sumn t * F t) ^+ n <= v.
Proof using u ss gr fu genL memL headL uniqL.
move=> n0 e01 a1 t0 e1 e2 e3; have [x' [E Rx]] := start_round u ss genL memL headL uniqL e1 e2 e3.
have [v hv le] := bound2 u ss gr fu e01 n unw_in (fun y Ry H => stop_unw n0 a1 t0 Ry H) Rx.
exists v; last exact: bound_le2 le.
by rewrite /compute_unweighted E {1}/rpbind [pbind (Ret _) _]/= eqn0Ngt n0 /=; apply: ret_exp.
Qed.
End S.

(* ---- when the loop never ends ---- *)
Section N.
Variable R : rcfType.
Notation CF := (ComplexField.complex_numFieldType R).
Variables (gray : nat -> seq nat) (fuel m : nat) (U : seq (seq CF)) (s : seq nat).
Hypotheses (u : unitary_on m U s) (ss : size s = m) (gr : gray_ok gray (sumn s)).
Hypothesis fu : (\prod_(x <- s) x.+1 <= fuel)%N.
Variables (L : seq (seq nat)) (eta : R).
Hypothesis genL : generate_possible_states fuel (Posz (sumn s)) (Posz (size s)) true = Ok L.
Hypothesis memL : forall t, (t \in L) = (size t == m) && (sumn t <= sumn s)%N.
Hypothesis headL : nth [::] L 0 = nseq m 0%N.
Hypothesis uniqL : uniq L.

Lemma never_stops (I : ugcc R -> Prop) (dist : ugcc R -> R) accuracy tol n x :
  (forall x, I x -> always (fun y => exists2 x', y = Ok x' & I x') (u_fill_r_sample gray fuel x)) ->
  (forall x, I x -> tol < accuracy - dist x) -> I x ->
  always (fun y => y = Err OutOfFuel) (accuracy_loop gray fuel dist accuracy tol n x).
Proof.
move=> st gt; elim: n x => [//|n IH] x Ix /=; rewrite leNgt lt_maxr (gt x Ix) /=.
by apply: always_rbind; apply: always_impl (st x Ix) => _ [x' -> Ix']; exact: IH.
Qed.

Lemma fill_zero i (x : ugcc R) : ug_eta x = 0 -> always (fun y => y = Ok x) (u_fill_loop gray fuel i x).
Proof. by move=> e; elim: i => //= i IH y /andP[y0 _]; rewrite e y0. Qed.

Lemma unw_zero accuracy tol n x : tol < accuracy -> (0 < sumn s)%N ->
  calc_matrix (g_calc (ug_gcc x)) = U -> ug_eta x = 0 ->
  always (fun y => y = Err OutOfFuel) (compute_unweighted gray fuel accuracy tol n s x).
Proof using u ss genL memL headL.
move=> lt n0 e1 e2; have [x' [E _]] := ugcc_startE u ss genL memL headL e1 e2 erefl.
rewrite /compute_unweighted E {1}/rpbind [pbind (Ret _) _]/= eqn0Ngt n0 /=.
apply: always_rbind.
apply: always_impl (@never_stops (fun y => ug_eta y = 0 /\ py_sum (ug_unw y) <= 0) _ accuracy tol n x' _ _ _).
- by move=> _ ->.
- move=> y [z le]; rewrite u_fillE; apply: always_impl (fill_zero _ _); last by [].
  by move=> _ ->; exists (u_reset y).
- move=> y [_ le]; apply: lt_le_trans lt _; rewrite ler_addl oppr_ge0.
  by rewrite ler_pdivr_mulr ?ltr0n // mul0r.
move: E; rewrite /ugcc_start genL e2 {1}/rbind; case: (py_get _ _) => [w|//].
rewrite {1}/rbind; case: (py_set _ _ _) => [d|//] [<-] /=; split=> //.
by rewrite py_sumE big_map -oppr_ge0 -sumrN; apply: sumr_ge0 => t _; case: ifP; rewrite ?opprK ?oppr0 ?ler01.
Qed.
Hypothesis e01 : 0 <= eta <= 1.

Lemma dist_missing accuracy tol n x t : tol < accuracy ->
  t \in L -> (0 < sumn t)%N -> unreachable m U s t ->
  calc_matrix (g_calc (ug_gcc x)) = U -> ug_eta x = eta -> ug_missing x = true ->
  always (fun y => y = Err OutOfFuel) (compute_distribution gray fuel accuracy tol n s x).
Proof using u ss gr fu genL memL headL uniqL e01.
move=> lt tL t0 ut e1 e2 e3; have [x' [E Rx]] := start_round u ss genL memL headL uniqL e1 e2 e3.
rewrite /compute_distribution E {1}/rpbind [pbind (Ret _) _]/=.
have il : (index t L < size L)%N by rewrite index_mem.
have et : nth [::] L (index t L) = t by rewrite nth_index.
apply: always_rbind.
apply: always_impl (@never_stops (fun y => round m U s L eta true y /\ (ug_dist y)`_(index t L) = -1) _ accuracy tol n x' _ _ _).
- by move=> _ ->.
- move=> y [Ry b]; apply: always_impl (round_always u ss gr fu Ry) => _ [y' [-> Ry' _ _ fz]].
  by exists y' => //; split=> //; have := fz t ut (index t L) il et; rewrite /udu /= b => -[].
- move=> y [[B _] b]; apply: lt_le_trans lt _; rewrite ler_addl oppr_ge0 py_sumE.
  have [d1 _ d3] := ui_d B; rewrite (sum_list (L := L)) //.
  apply: (@le_trans _ _ (\sum_(i < size L) (uniform_loss_prob U s eta (nth [::] L i) - (i == index t L :> nat)%:R))).
    apply: ler_sum => i _; case: eqP => [->|_].
      by rewrite b ler_subr_addr addNr; apply: uniform_loss_ge0.
    have [[->|->] _] := d3 i (ltn_ord i); last by rewrite subr0.
    by rewrite subr0 /init; apply: le_trans (uniform_loss_ge0 _ _ _ e01); rewrite oppr_le0 ler01.
  rewrite sumrB (sum_L memL uniqL) big_lcomps (uniform_loss_norm eta u) (bigD1 (Ordinal il)) //= eqxx big1 ?addr0 ?subrr //.
  by move=> i ni; case: eqP => // e; move/eqP: ni; case; apply: val_inj.
split=> //.
move: E; rewrite /ugcc_start genL e2 e3 bwsE {1}/rbind.
rewrite (py_get_nth 0) ?size_map ?size_iota // {1}/rbind (py_set_nth 0) ?size_map ?(L0 ss memL) //.
rewrite {1}/rbind => -[<-] /=; rewrite nth_set_nth /= (nth_map [::]) //; case: eqP => // z.
by move: t0; rewrite -et z headL sumn_nseq.
Qed.

Lemma loop_inv (I : ugcc R -> Prop) (dist : ugcc R -> R) accuracy tol n x :
  (forall x, I x -> always (fun y => exists2 x', y = Ok x' & I x') (u_fill_r_sample gray fuel x)) -> I x ->
  always (fun y => y = Err OutOfFuel \/ exists x', [/\ y = Ok x', I x' & accuracy - dist x' <= tol])
    (accuracy_loop gray fuel dist accuracy tol n x).
Proof.
move=> st; elim: n x => [|n IH] x Ix /=; first by left.
case: ifP => h /=; first by right; exists x; split=> //; move: h; rewrite le_maxl => /andP[].
by apply: always_rbind; apply: always_impl (st x Ix) => _ [x' -> Ix']; exact: IH.
Qed.

Lemma unreachable_vac : unreachable m U s (nseq m 0%N).
Proof.
by move=> r j sr jm e; have := congr1 sumn e; rewrite sumn_incr ?sr // sumn_nseq mul0n.
Qed.

Lemma unw_exact n x : (0 < sumn s)%N ->
  calc_matrix (g_calc (ug_gcc x)) = U -> ug_eta x = eta -> ug_missing x = false ->
  always (fun y => y = Err OutOfFuel \/ exists x', y = Ok ([seq if sumn t == 0%N then 0 else fixed_loss_prob U s t | t <- L], x'))
    (compute_unweighted gray fuel 1 0 n s x).
Proof using u ss gr fu genL memL headL uniqL.
move=> n0 e1 e2 e3; have [x' [E Rx]] := start_round u ss genL memL headL uniqL e1 e2 e3.
rewrite /compute_unweighted E {1}/rpbind [pbind (Ret _) _]/= eqn0Ngt n0 /=.
apply: always_rbind.
apply: always_impl (@loop_inv (fun y => round m U s L eta false y /\ (ug_unw y)`_0 = 0) (fun y => py_sum (ug_unw y) / (sumn s)%:R) 1 0 n x' _ _).
- move=> _ [->|[y [-> [[B _] v0] le]]]; [by left|right]; exists y; congr (Ok (_, _)).
  have [_ d2 d3] := ui_d B; rewrite /= in d2 d3.
  have vac j : (j < size L)%N -> (sumn (nth [::] L j) == 0%N) = (j == 0%N).
    move=> jl; apply/idP/eqP => [/natnseq0P e|->]; last by rewrite headL sumn_nseq.
    have /eqP sz : size (nth [::] L j) == m by have := mem_nth [::] jl; rewrite memL => /andP[].
    by apply/eqP; rewrite -(nth_uniq [::] jl (L0 ss memL) uniqL) headL e sz.
  pose g t := if sumn t == 0%N then 0 else fixed_loss_prob U s t.
  have dle j : (j < size L)%N -> (ug_unw y)`_j <= g (nth [::] L j).
    move=> jl; rewrite /g vac //; case: eqP => [->|_]; first by rewrite v0.
    by have [_ [->|->]] := d3 j jl; rewrite //= fixed_loss_prob_ge0.
  have tot : \sum_(j < size L) g (nth [::] L j) = (sumn s)%:R.
    rewrite (sum_L memL uniqL) -(sum_F u); apply: eq_bigr => t _; rewrite /g eqn0Ngt.
    by case: (0 < sumn t)%N.
  have eq0 : \sum_(j < size L) (g (nth [::] L j) - (ug_unw y)`_j) == 0.
    rewrite eq_le sumr_ge0 ?andbT => [|j _]; last by rewrite subr_ge0 dle.
    rewrite sumrB tot -(sum_list d2) subr_le0; move: le; rewrite py_sumE subr_le0.
    by rewrite ler_pdivl_mulr ?ltr0n // mul1r.
  rewrite psumr_eq0 in eq0; last by move=> j _; rewrite subr_ge0 dle.
  apply: (@eq_from_nth _ 0); first by rewrite size_map.
  move=> j jl; rewrite d2 in jl; rewrite (nth_map [::]) //; apply/esym/eqP; rewrite -subr_eq0.
  by have := allP eq0 (Ordinal jl); rewrite mem_index_enum => /(_ isT).
- move=> y [Ry b]; apply: always_impl (round_always u ss gr fu Ry) => _ [y' [-> Ry' _ _ fz]].
  exists y' => //; split=> //; have := fz _ unreachable_vac 0%N (L0 ss memL) headL.
  by rewrite /udu /= b => -[].
split=> //.
move: E; rewrite /ugcc_start genL e2 e3 bwsE {1}/rbind.
rewrite (py_get_nth 0) ?size_map ?size_iota // {1}/rbind (py_set_nth 0) ?size_map ?(L0 ss memL) //.
by rewrite {1}/rbind => -[<-] /=; rewrite (nth_map [::]) ?(L0 ss memL).
Qed.

End N.
