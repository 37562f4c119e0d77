(* Version A with uniform losses and rounded arithmetic: k samples, the
   distributions up to an accuracy, exact operations. *)
From mathcomp Require Import all_ssreflect all_algebra complex.
From mathcomp Require Import ring zify.
From Verif Require Import Base SpecStates Combi SpecPerm PermMath SpecBS BsMath BsComb BsNorm.
From Verif Require Import ModelStates ProofStates1 ProofStates4 LemStates ModelPerm ProofPerm6 LemPerm ModelDist ProofDist1
  SpecProb ProbMath ModelGcc ModelGccB SampMath ProofSel ProofGcc1 ProofGcc2 ProofGcc3 ProofGccB2 ProofGcc6
  ModelFloat ModelFloatDist SpecFloat SpecFloatGcc ProofFloat ProofFloat4 ProofFloatDist ProofFloatDist2
  ModelFloatGcc ProofFloatSel ProofFloatGcc1 ProofFloatGcc2 ProofFloatGcc3 ModelFloatGccU SpecFloatGccU ProofFloatGccU1 ProofFloatGccU2 ProofFloatGcc4.
Set Implicit Arguments.
Unset Strict Implicit.
Unset Printing Implicit Defensive.
Import Order.TTheory GRing.Theory Num.Theory.
Local Open Scope ring_scope.
Local Open Scope py_scope.

Section U.
Variable R : rcfType.
Notation CF := (ComplexField.complex_numFieldType R).
Variables (u eps : R) (A : arith CF) (B : arith R) (f_abs : CF -> R) (f_sum : seq R -> R) (N : nat).
Hypothesis u0 : 0 <= u.
Hypothesis accA : accurate (u%:C)%C A.
Hypothesis accB : accurate u B.
Hypothesis acc_abs : forall z, `|f_abs z - py_abs z| <= u * py_abs z.
Hypothesis acc_sum : accurate_sum u f_sum.
Hypothesis N0 : (0 < N)%N.
Variables (gray : nat -> seq nat) (fuel m : nat) (U V : seq (seq CF)) (s : seq nat).
Hypotheses (uU : unitary m U) (sqV : is_square m V) (ss : size s = m) (gr : gray_ok gray (sumn s)).
Hypothesis fu : (code_number s <= fuel)%N.
Hypothesis e0 : 0 <= eps.
Hypothesis UV : forall j i, (j < m)%N -> (i < m)%N -> `|ent V j i - ent U j i| <= (eps%:C)%C.
Hypothesis x4 : (1 + u) ^+ (2 * m + 1 + code_number s) <= 5%:R / 4%:R.
Variables (L : seq (seq nat)) (eta : R) (mis : bool).
Hypothesis genL : generate_possible_states fuel (Posz (sumn s)) (Posz (size s)) true = Ok L.
Hypothesis memL : forall t, (t \in L) = (size t == m) && (sumn t <= sumn s)%N.
Hypothesis headL : nth [::] L 0 = nseq m 0%N.
Hypothesis eta01 : 0 <= eta <= 1.

Notation n := (sumn s).
Let delta := entry_error u eps m s.
Notation ok_a := (fun r : seq nat => size r = m).
Notation inv_a := (finv m U V s id incr ok_a delta).
Let un : unitary_on m U s := uon uU ss.
Notation init := (init R mis).
Notation fbws := (fl_bin_weights B n eta).


Notation finvU := (fuinv u eps B m U V s L eta mis).

(* ---- between samples ---- *)
Definition fu_reset (x : ugcc R) := set_ug x (reset_sample (nseq (size (calc_matrix (g_calc (ug_gcc x)))) 0%N) (ug_gcc x))
   (ug_dist x, ug_unw x).
Definition fu_between (x : ugcc R) := finvU (fu_reset x).

Lemma sizeV : size V = m.
Proof. by case/andP: sqV => /eqP. Qed.

Lemma fu_r0 x : fu_between x -> g_r (ug_gcc (fu_reset x)) = nseq m 0%N.
Proof. by move=> I; have e := fi_mat (fu_g I); rewrite /= in e; rewrite /= e sizeV. Qed.

Lemma fu_good x : finvU x -> fu_between x.
Proof.
case=> i1 i2 i3 i5 [g1 g2 g3 g4 g5 g6 g7]; split=> //=; split=> //=.
by rewrite size_nseq g4 sizeV.
Qed.

Lemma fu_nE x : fu_between x -> g_n (ug_gcc x) = n.
Proof. by move=> I; have := fi_n (fu_g I). Qed.

Lemma fu_fillE x : fl_u_fill_r_sample A B f_abs f_sum gray fuel N x =
  fl_u_fill_loop A B f_abs f_sum gray fuel N (g_n (ug_gcc x)) (fu_reset x).
Proof. by []. Qed.

Notation fill := (fl_u_fill_r_sample A B f_abs f_sum gray fuel N).

Lemma fu_fill_always x : fu_between x ->
  always (fun y => y = Err IndexError \/ exists x', [/\ y = Ok x', fu_between x' & (g_r (ug_gcc x') \in L)]) (fill x).
Proof.
move=> I; rewrite fu_fillE (fu_nE I).
have le : (sumn (g_r (ug_gcc (fu_reset x))) + n <= n)%N by rewrite fu_r0 // sumn_nseq.
apply: always_impl (fl_u_fill_always u0 accA accB acc_abs acc_sum N0 uU sqV ss gr fu e0 UV x4 eta01 I le) => _ [->|[x' [-> I' le']]]; first by left.
right; exists x'; split=> //; first exact: fu_good.
by rewrite memL le' andbT; apply/eqP; exact: fi_ok (fu_g I').
Qed.

Lemma sizeL : (0 < size L)%N.
Proof.
have : nseq m 0%N \in L by rewrite memL size_nseq eqxx sumn_nseq.
by case: (L).
Qed.

Lemma fl_ugcc_startE x : calc_matrix (g_calc (ug_gcc x)) = V -> ug_eta x = eta -> ug_missing x = mis ->
  exists x', fl_ugcc_start B fuel s x = Ok x' /\ fu_between x'.
Proof.
move=> e1 e2 e3; rewrite /fl_ugcc_start genL e2 e3 {1}/rbind.
rewrite (py_get_nth 0) ?size_bw // {1}/rbind (py_set_nth 0) ?size_map ?sizeL //.
rewrite {1}/rbind; eexists; split; first by [].
split=> //=; last by split=> //=; rewrite size_nseq e1 sizeV.
split=> /=; rewrite ?size_setn ?size_map ?sizeL // => i il.
rewrite nth_set_nth /= !(nth_map [::]) //; split; last by left.
case: eqP => [->|_]; [right|by left].
have v0 : sumn (nseq m 0%N) = 0%N by rewrite sumn_nseq.
rewrite headL /uniform_loss_prob v0.
rewrite (@fixed_loss_vac R m U s) ?mulr1 ?size_nseq //.
apply: le_trans (fl_bin_weights_near u0 accB eta01 (leq0n _)) _.
exact: weighted_ge.
Qed.

(* ---- k samples ---- *)
Notation D := (ugcc_error u eps N m s).
Notation iidU := (iid_exp (lcomps m n) (uniform_loss_prob U s eta)).
Notation out := (fun x : ugcc R => Ok (g_r (ug_gcc x))).

Lemma fu_samples_exp k f x : (forall L, 0 <= f L <= 1) -> fu_between x ->
  exists v, [/\ has_exp (on_ok (fun z => f z.1)) (sample_loop fill out k x) v, 0 <= v <= 1
   & `|v - iidU k f| <= k%:R * D].
Proof.
elim: k f x => [|k IH] f x f01 I.
  exists (f [::]); split=> //; last by rewrite /= subrr normr0 mul0r.
  exact: (@ExpRet _ _ (on_ok _) (Ok ([::], x))).
pose E t := iidU k (fun L => f (t :: L)).
pose cont (x : ugcc R) := draw! t := Ret (Ok (g_r (ug_gcc x))) in draw! y := sample_loop fill out k x in
  Ret (Ok (t :: y.1, y.2)) : rprog R (res (seq (seq nat) * ugcc R)).
have Hcont x' : finvU x' -> (sumn (g_r (ug_gcc x')) <= n)%N -> exists v,
    [/\ has_exp (on_ok (fun z => f z.1)) (cont x') v, 0 <= v <= 1 & `|v - E (g_r (ug_gcc x'))| <= k%:R * D].
  move=> I' _; have [v [Hv v01 ve]] := IH (fun L => f (g_r (ug_gcc x') :: L)) x' (fun L => f01 _) (fu_good I').
  exists v; split=> //; rewrite /cont /rpbind [pbind (Ret _) _]/=.
  apply: has_exp_bind Hv _; apply: always_true => [[y|e']] /=; by constructor.
have er := fu_r0 I; have le : (sumn (g_r (ug_gcc (fu_reset x))) + n <= n)%N by rewrite er sumn_nseq.
have [v [Hv v01]] := fl_u_fill_exp u0 accA accB acc_abs acc_sum N0 uU sqV ss gr fu e0 UV x4 eta01
  (F := on_ok (fun z => f z.1)) (fun e => erefl) Hcont I le.
have q1 : qprob U s (nseq m 0%N) = 1 by rewrite -[in LHS]ss qprob0.
cbv zeta; rewrite er q1 mul1r mulr1 path_errorE sumn_nseq mul0n => H.
exists v; split=> //; first by rewrite /= fu_fillE (fu_nE I).
have Ew : upath m U s eta E n (nseq m 0%N) = iidU k.+1 f.
  have := @mix_exp_start R m U s ss eta E; rewrite -big_lcomps /mix_exp => e.
  rewrite /= -/(E _) -e /upath; apply: eq_bigr => l _; by rewrite /cond_exp q1 divr1.
rewrite Ew in H; apply: le_trans H _; rewrite le_eqVlt; apply/orP; left; apply/eqP.
have -> : k.+1%:R = k%:R + 1 :> R by rewrite -addn1 natrD.
rewrite /ugcc_error /gcc_error; under eq_bigr do rewrite add0n.
rewrite -/delta; move: (\sum_(i < n) _) (sel_error _ _ _) (N%:R^-1) => a b c.
ring.
Qed.

Lemma fl_ugcc_simulate_exp k f x : (forall L, 0 <= f L <= 1) ->
  calc_matrix (g_calc (ug_gcc x)) = V -> ug_eta x = eta -> ug_missing x = mis ->
  exists v, [/\ has_exp (on_ok (fun z => f z.1)) (fl_ugcc_simulate A B f_abs f_sum gray fuel N s k x) v, 0 <= v <= 1
   & `|v - iidU k f| <= k%:R * D].
Proof.
move=> f01 e1 e2 e3; have [x' [E I]] := fl_ugcc_startE e1 e2 e3.
by rewrite /fl_ugcc_simulate E {1}/rpbind [pbind (Ret _) _]/=; exact: fu_samples_exp.
Qed.

Lemma fu_samples_always k x : fu_between x ->
  always (fun y => y = Err IndexError \/ exists S x', [/\ y = Ok (S, x'), fu_between x', size S = k & all (mem L) S])
    (sample_loop fill out k x).
Proof.
elim: k x => [|k IH] x I; first by right; exists [::], x.
rewrite /=; apply: always_rbind; apply: always_impl (fu_fill_always I) => _ [->|[x' [-> I' t]]]; first by left.
apply: always_rbind => /=; apply: always_rbind; apply: always_impl (IH x' I') => _ [->|[S [x2 [-> I2 sS aS]]]]; first by left.
by right; exists (g_r (ug_gcc x') :: S), x2; split=> //=; rewrite ?sS ?t.
Qed.

Notation recorded x := (fdinv u eps m U s L eta mis (ug_dist x, ug_unw x)).

Lemma fl_ugcc_simulate_always k x :
  calc_matrix (g_calc (ug_gcc x)) = V -> ug_eta x = eta -> ug_missing x = mis ->
  always (fun y => y = Err IndexError \/ exists S x', [/\ y = Ok (S, x'), recorded x', size S = k & all (mem L) S])
    (fl_ugcc_simulate A B f_abs f_sum gray fuel N s k x).
Proof.
move=> e1 e2 e3; have [x' [E I]] := fl_ugcc_startE e1 e2 e3.
rewrite /fl_ugcc_simulate E {1}/rpbind [pbind (Ret _) _]/=.
apply: always_impl (fu_samples_always k I) => _ [->|[S [x2 [-> I2 sS aS]]]]; first by left.
by right; exists S, x2; split=> //; exact: (fu_d I2).
Qed.

Lemma fl_accuracy_always dist accuracy tol j x : fu_between x ->
  always (fun y => y = Err OutOfFuel \/ y = Err IndexError \/ exists x', [/\ y = Ok x', fu_between x'
     & Num.max (f_sub B accuracy (dist x')) 0 <= tol]) (fl_accuracy_loop A B f_abs f_sum gray fuel N dist accuracy tol j x).
Proof.
elim: j x => [|j IH] x I /=; first by left.
case: ifP => h /=; first by right; right; exists x.
apply: always_rbind; apply: always_impl (fu_fill_always I) => _ [->|[x' [-> I' _]]]; first by right; left.
exact: IH.
Qed.

Lemma fl_dist_always accuracy tol j x :
  calc_matrix (g_calc (ug_gcc x)) = V -> ug_eta x = eta -> ug_missing x = mis ->
  always (fun y => y = Err OutOfFuel \/ y = Err IndexError \/ exists x', [/\ y = Ok (ug_dist x', x'), recorded x'
      & Num.max (f_sub B accuracy (f_sum (ug_dist x'))) 0 <= tol])
    (fl_compute_distribution A B f_abs f_sum gray fuel N accuracy tol j s x).
Proof.
move=> e1 e2 e3; have [x' [E I]] := fl_ugcc_startE e1 e2 e3.
rewrite /fl_compute_distribution E {1}/rpbind [pbind (Ret _) _]/=.
apply: always_rbind; apply: always_impl (fl_accuracy_always (fun x => f_sum (ug_dist x)) accuracy tol j I).
move=> _ [->|[->|[x2 [-> I2 h]]]]; [by left|by right; left|].
by right; right; exists x2; split=> //; exact: (fu_d I2).
Qed.

Lemma fl_unw_always accuracy tol j x : (0 < n)%N ->
  calc_matrix (g_calc (ug_gcc x)) = V -> ug_eta x = eta -> ug_missing x = mis ->
  always (fun y => y = Err OutOfFuel \/ y = Err IndexError \/ exists x', [/\ y = Ok (ug_unw x', x'), recorded x'
      & Num.max (f_sub B accuracy (f_div B (f_sum (ug_unw x')) (Posz n))) 0 <= tol])
    (fl_compute_unweighted A B f_abs f_sum gray fuel N accuracy tol j s x).
Proof.
move=> n0 e1 e2 e3; have [x' [E I]] := fl_ugcc_startE e1 e2 e3.
rewrite /fl_compute_unweighted E {1}/rpbind [pbind (Ret _) _]/= eqn0Ngt n0 /=.
apply: always_rbind; apply: always_impl (fl_accuracy_always (fun x => f_div B (f_sum (ug_unw x)) (Posz n)) accuracy tol j I).
move=> _ [->|[->|[x2 [-> I2 h]]]]; [by left|by right; left|].
by right; right; exists x2; split=> //; exact: (fu_d I2).
Qed.

Lemma fl_unw_empty accuracy tol j x : n = 0%N ->
  calc_matrix (g_calc (ug_gcc x)) = V -> ug_eta x = eta -> ug_missing x = mis ->
  fl_compute_unweighted A B f_abs f_sum gray fuel N accuracy tol j s x = Ret (Err ZeroDivisionError).
Proof.
move=> n0 e1 e2 e3; have [x' [E I]] := fl_ugcc_startE e1 e2 e3.
by rewrite /fl_compute_unweighted E {1}/rpbind [pbind (Ret _) _]/= n0.
Qed.
End U.

Section Exact.
Variable R : rcfType.
Notation CF := (ComplexField.complex_numFieldType R).
Variables (gray : nat -> seq nat) (fuel : nat).
Notation A := (exact_arith CF).
Notation B := (exact_arith R).

Lemma fl_ugcc_start_exact s (x : ugcc R) : fl_ugcc_start B fuel s x = ugcc_start fuel s x.
Proof. by []. Qed.

Lemma fl_record_output_exact (x : ugcc R) t p du : fl_record_output B x t p du = record_output x t p du.
Proof. by []. Qed.

Lemma fl_u_new_layer_exact (x : ugcc R) : fl_u_new_layer A B (@py_abs R) (@py_sum R) gray fuel x = u_new_layer gray fuel x.
Proof.
rewrite /fl_u_new_layer /u_new_layer; cbv zeta; rewrite fl_layer_weights_exact; apply: rbind_ext => ws.
apply: rbind_ext => outs; apply: rbind_ext2; last by move=> y; reflexivity.
apply: rfoldl_ext => -[[y a] du] z; cbv beta iota zeta; apply: rbind_ext2; first exact: fl_pmf_entry_exact.
by move=> pa; reflexivity.
Qed.

End Exact.
