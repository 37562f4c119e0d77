(* The strategy for different losses in rounded arithmetic: the network and the
   sample behind it. *)
From mathcomp Require Import all_ssreflect all_algebra complex.
From mathcomp Require Import ring zify.
From Verif Require Import Base SpecStates Combi SpecPerm PermMath SpecBS BsMath BsComb BsNorm SpecProb ProbMath ModelStates ProofStates1 ModelPerm ModelDist ModelGcc ModelGccB ProofGcc3 ProofSel SpecGcc LemGcc ModelNet SpecNet ProofGccB2
  ProofNet1 ProofNet2 ProofNet3 ProofNet4 ProofNet5 ProofNet7 ModelBobs SpecBobs ProofBobs2 ProofBobs3 ProofBobs4 ProofBobs5.
From Verif Require Import ModelFloat SpecFloat ModelFloatGcc ModelFloatGccB SpecFloatSub SpecFloatGcc SpecFloatGccB ProofFloat ProofFloat4 ProofFloatSel ProofFloatGcc2 ProofFloatDist2 ProofFloatGccB2 ProofFloatGccB3 ModelFloatNet SpecFloatNet
  ProofFloatNet1 ProofFloatNet2 ProofFloatNet3 ProofFloatNet4 ProofFloatNet5
  SpecFloatFixed ProofFloatFixed1 ProofFloatFixed2 ProofFloatFixed3 ModelFloatLState SpecFloatLState ProofFloatLState1 ProofFloatLState2 ProofFloatLState4 ModelFloatBobs SpecFloatBobs ProofFloatBobs1.
Set Implicit Arguments.
Unset Strict Implicit.
Unset Printing Implicit Defensive.
Import Order.TTheory GRing.Theory Num.Theory.
Local Open Scope ring_scope.
Local Open Scope py_scope.

Section Network.
Variable R : rcfType.
Notation C := (ComplexField.complex_numFieldType R).
Notation mat := (seq (seq C)).
Variables (u c eps : R) (A : arith C) (B : arith R) (f_sqrt : R -> R) (f_dot : seq C -> seq C -> C).
Variables (cis f_cis : R -> C) (f_root : nat -> nat -> C).
Hypotheses (u0 : 0 <= u) (u8 : u <= 8%:R^-1) (c0 : 0 <= c) (e0 : 0 <= eps).
Hypotheses (accA : accurate (u%:C)%C A) (accB : accurate u B) (acc_sqrt : accurate_sqrt u f_sqrt).
Hypothesis accD : accurate_dot (u%:C)%C f_dot.
Hypotheses (ok : cis_ok cis) (acc_cis : accurate_cis c cis f_cis) (acc_root : accurate_root c cis f_root).
Variables (m k : nat).
Hypotheses (m0 : (0 < m)%N) (km : (k <= m)%N).
Variables (M0 V : mat).
Hypotheses (su : subunitary m M0) (sqV : is_square m V) (cl : close m eps V M0).
Variable Q : mat.
Hypothesis eQ : fl_qft_matrix_first A B f_sqrt f_root k m = Ok Q.
Notation ne := (approx_net_error u c eps m).

Definition fl_bobs_calc (d : seq R) : res mat :=
  let! P := fl_phases_matrix_first f_cis k m d in
  let! X := fl_matmul f_dot V P in
  fl_matmul f_dot X Q.

Lemma fl_bobs_step d : exists Y, [/\ fl_bobs_calc d = Ok Y, is_square m Y, subunitary m (approx_net cis m M0 k d)
    & close m ne Y (approx_net cis m M0 k d)].
Proof.
have [sN bN] := su.
have [Q' [eQ' sQ hQ]] := fl_fourierE u0 u8 c0 accA accB acc_sqrt ok acc_root km; have {eQ'}e : Q' = Q by move: eQ'; rewrite eQ => -[].
rewrite {Q'}e in sQ hQ.
have [P [eP sP hP]] := phasesE f_cis km d.
rewrite /fl_bobs_calc -[fl_phases_matrix_first _ _ _ _]/(phases_matrix_first f_cis k m d) eP [rbind (Ok _) _]/=.
have [Z [eZ sZ hZ]] := approx_calcE ok m0 km d sN.
have [P0 [eP0 sP0 hP0]] := phasesE cis km d; have [Q0 [eQ0 sQ0 uQ0 hQ0]] := fourierE ok km.
have [X0 [eX0 rX0 mX0]] := matmul_ok sN sP0 m0; have [Y0 [eY0 rY0 mY0]] := matmul_ok rX0 sQ0 m0.
have eYZ : Y0 = Z by move: eZ; rewrite /approx_calc eQ0 eP0 /= eX0 /= eY0 => -[].
have b1 : msmall (mxof m m M0).
  by move=> i j; rewrite mxE; exact: (subunitary_entries su (ltn_ord i) (ltn_ord j)).
have b2 : msmall (mxof m m P0).
  move=> i j; rewrite mxE hP0 //; case: eqP => _; last by rewrite normr0 ler01.
  by case: ifP => _; rewrite ?(norm_cis ok) ?normr1.
have b3 : msmall (mxof m m Q0) by move=> i j; rewrite mxE; exact: (unitary_entries uQ0 (ltn_ord i) (ltn_ord j)).
have c1 : mclose eps (mxof m m V) (mxof m m M0).
  by move=> i j; rewrite !mxE; apply: cl.
have c2 : mclose c (mxof m m P) (mxof m m P0).
  move=> i j; rewrite !mxE hP // hP0 //; case: eqP => _; last by rewrite subrr normr0 ler0c.
  by case: ifP => _; [exact: acc_cis|rewrite subrr normr0 ler0c].
have c3 : mclose (fourier_error u c) (mxof m m Q) (mxof m m Q0).
  by move=> i j; rewrite !mxE hQ0 //; apply: hQ.
have [X [eX rX cX]] := fl_mul_close u0 accD m0 sqV sP e0 c0 b1 b2 c1 c2.
have b4 : msmall (mxof m m M0 *m mxof m m P0).
  move=> i j; rewrite mxE (bigD1 j) //= big1 ?addr0 => [|a ne']; last first.
    by rewrite [X in _ * X]mxE hP0 // ifF ?mulr0 //; apply/negbTE; move: ne'; rewrite -val_eqE.
  rewrite normrM -[X in _ <= X]mulr1; apply: ler_pmul; [exact: normr_ge0|exact: normr_ge0|exact: b1|exact: b2].
have [Y [eY rY cY]] := fl_mul_close u0 accD m0 rX sQ (product_error_ge0 u0 m e0 c0) (fourier_error_ge0 u0 c0) b4 b3 cX c3.
exists Y; rewrite eX [rbind (Ok _) _]/= eY; split=> //.
  split; first exact: rect_tab.
  by move=> v; exact: (approx_norm ok km d v bN).
move=> i j il jl; have := cY (Ordinal il) (Ordinal jl); rewrite -mX0 -mY0 !mxE /= eYZ hZ //.
Qed.
End Network.

(* the sample behind the network *)
Section Tail.
Variable R : rcfType.
Notation C := (ComplexField.complex_numFieldType R).
Notation mat := (seq (seq C)).
Variables (u d e e1 : R) (A : arith C) (B : arith R) (f_sqrt : R -> R) (f_dot : seq C -> seq C -> C).
Variables (f_abs : C -> R) (f_sum f_check : seq R -> R) (f_search : R -> seq R -> nat) (fuel N : nat).
Variable svd : mat -> res (mat * seq R * mat).
Hypotheses (u0 : 0 <= u) (d0 : 0 <= d) (e0 : 0 <= e) (e10 : 0 <= e1).
Hypotheses (accA : accurate (u%:C)%C A) (accB : accurate u B) (acc_sqrt : accurate_sqrt u f_sqrt).
Hypothesis accD : accurate_dot (u%:C)%C f_dot.
Hypothesis acc_abs : forall z, `|f_abs z - py_abs z| <= u * py_abs z.
Hypotheses (acc_sum : accurate_sum u f_sum) (acc_check : accurate_sum u f_check) (srch : right_search f_search) (N0 : (0 < N)%N).
Variables (m : nat) (K : seq nat).
Hypotheses (m0 : (0 < m)%N) (sK : size K = m) (fu : (code_number K <= fuel)%N).
Hypothesis small : (9 * (m + m) + 4)%:R * u <= (2%:R ^+ 27)^-1.
Hypothesis stab : stable_svd svd m e d e1.

Definition fl_bobs_tail (M : mat) (l : seq (option nat)) (h : gccb R) : rprog R (res (seq nat * gccb R)) :=
  draw! h := Ret (fl_lossy_net_set_new_matrix B f_sqrt f_dot svd M h) in
  draw! s := Ret (rmapM (fun o => if o is Some n then Ok n else Err TypeError) l) in
  draw! y := fl_lossy_net_simulate B A f_abs f_sum f_check f_search fuel N s 1 h in
  draw! t := Ret (py_get y.1 0) in
  Ret (Ok (t, y.2)).

Variables (Y : Type) (f : Y -> R) (cont : seq nat * gccb R -> rprog R (res Y)) (E : seq nat -> R) (del : R).
Hypothesis E01 : forall t, 0 <= E t <= 1.
Hypothesis del0 : 0 <= del.
Hypothesis Hcont : forall t g, napx (on_ok f) (cont (t, g)) (E t) del.
Notation F := (on_ok f).
Variables (M X : mat).
Hypotheses (sqM : is_square m M) (su : subunitary m X) (cl : close m e M X).

Lemma bobs_tail_none l h : None \in l -> has_exp F (rpbind (fl_bobs_tail M l h) cont) 0.
Proof.
move=> nl; have [V [s [U [M1 [eM ns su1 cl1]]]]] := stab sqM su cl.
have [G [G0 [eG sqG [sqG0 bG0] dG c]]] := fl_prepare_ok u0 d0 accB acc_sqrt accD m0 eM ns su1.
rewrite /fl_bobs_tail /fl_lossy_net_set_new_matrix eG [rbind (Ok _) _]/= rpbind_ok.
suff [er ->] : exists er, rmapM (fun o => if o is Some n then Ok n else Err TypeError) l = Err er :> res (seq nat).
  by exact: (@ExpRet _ _ F (Err er)).
elim: l nl => [//|[n|] l IH]; last by exists TypeError.
by rewrite inE /= => /IH[er ->]; exists er.
Qed.

Lemma bobs_tail_napx dd (D : mat) h : dilation m dd X D ->
  napx F (rpbind (fl_bobs_tail M (map Some K) h) cont)
    (\sum_(t <- lcomps m (sumn K)) traced_prob dd D K t * E t) (tail_error u d (e + e1) N m K + del).
Proof.
move=> dD; have [V [s [U [M1 [eM ns su1 cl1]]]]] := stab sqM su cl.
have [G [G0 [eG sqG [sqG0 bG0] dG c]]] := fl_prepare_ok u0 d0 accB acc_sqrt accD m0 eM ns su1.
rewrite /fl_bobs_tail /fl_lossy_net_set_new_matrix eG rmapM_Some [rbind (Ok _) _]/= !rpbind_ok.
apply: napxA; rewrite /fl_lossy_net_simulate sK; apply: napxA; rewrite /fl_gccb_simulate.
set pad := K ++ nseq m 0%N; set b := b_start _ _.
have eb : calc_matrix (b_calc b) = G by rewrite /b /b_set_new_matrix /=; case: (b_calc h).
rewrite [sample_loop _ _ _ _]/=; apply: napxA.
have sz : size pad = (m + m)%N by rewrite size_cat sK size_nseq.
have fu' : (code_number pad <= fuel)%N by rewrite /code_number pad_fuel.
have es : sumn pad = sumn K by rewrite sumn_cat sumn_nseq mul0n addn0.
pose ct (b' : gccb R) : rprog R (res Y) := cont (trim_to m (b_r b'), b').
have Hc b' : fbinv (m + m) G pad b' -> sumn (b_r b') = sumn pad ->
    exists v, [/\ has_exp F (ct b') v, 0 <= v <= 1 & `|v - E (trim_to m (b_r b'))| <= del].
  by move=> _ _; exact: Hcont.
have uo := conj (pad_on sK sqG0 dG) bG0.
have [v [Hv v01 hv]] := fb_run u0 accA accB acc_abs acc_sum acc_check srch N0 uo sqG sz fu' (expand_error_ge0 u0 d0 m) c small
  (F := F) (E := fun t => E (trim_to m t)) (fun e => erefl) (leqnn _) Hc (b := b) erefl erefl eb.
exists v; split=> //.
have eS : \sum_(t <- comps (m + m) (sumn pad)) fixed_loss_prob G0 pad t * E (trim_to m t) =
          \sum_(t <- lcomps m (sumn K)) traced_prob m G0 K t * E t.
  rewrite es big_comps_split; apply: eq_big_seq => x; rewrite mem_lcomps => /andP[/eqP sx le].
  rewrite /traced_prob mulr_suml; apply: eq_big_seq => r; rewrite mem_comps => /andP[_ /eqP er].
  have exr : sumn (x ++ r) = sumn K by rewrite sumn_cat er subnKC.
  by rewrite fixed_loss_full ?es // trim_toE take_size_cat // bs_prob_pad.
rewrite eS es in hv.
apply: le_trans (ler_dist_add (\sum_(t <- lcomps m (sumn K)) traced_prob m G0 K t * E t) _ _) _.
rewrite /tail_error addrAC; apply: ler_add => //.
have f01 (L : seq (seq nat)) : 0 <= E (head [::] L) <= 1 by [].
have ee0 : 0 <= e + e1 by rewrite addr_ge0.
have cc : close m (e + e1) M1 X.
  move=> i j il jl; rewrite rmorphD [(e%:C)%C + _]addrC.
  by apply: le_trans (ler_dist_add (ent M i j) _ _) _; apply: ler_add; [rewrite distrC; exact: cl1|exact: cl].
have := traced_iid 1 m0 ee0 su1 su cc dG dD sK f01.
by rewrite /= mul1r.
Qed.
End Tail.
