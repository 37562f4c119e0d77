(* The strategy with an approximated state in rounded arithmetic: the network. *)
From mathcomp Require Import all_ssreflect all_algebra complex.
From mathcomp Require Import ring zify.
From Verif Require Import Base SpecStates Combi SpecPerm PermMath SpecBS BsMath SpecProb ProbMath ModelStates ModelPerm ModelDist ModelGcc ModelGccB ModelNet SpecNet
  ProofNet1 ProofNet2 ProofNet7 ModelBobs SpecBobs ProofBobs3 ModelLState SpecLState ProofLS1 ProofLS2 ProofFixed1 ProofFixed2.
From Verif Require Import ModelFloat SpecFloat ModelFloatGccB SpecFloatGccB ProofFloat ProofFloatGcc1 ProofFloatGcc3 ProofFloatDist2 ModelFloatNet SpecFloatNet
  ProofFloatNet1 ProofFloatNet2 ProofFloatNet3 ProofFloatNet4 ProofFloatNet5 ModelFloatFixed SpecFloatFixed ProofFloatSub ProofFloatDist ProofFloatFixed2 ModelFloatLState SpecFloatLState.
Set Implicit Arguments.
Unset Strict Implicit.
Unset Printing Implicit Defensive.
Import Order.TTheory GRing.Theory Num.Theory.
Local Open Scope ring_scope.
Local Open Scope py_scope.

Section Network.
Variable R : rcfType.
Notation C := (ComplexField.complex_numFieldType R).
Notation mat := (seq (seq C)).
Variables (u c eps : R) (A : arith C) (B : arith R) (f_sqrt : R -> R) (f_dot : seq C -> seq C -> C).
Variables (cis f_cis : R -> C) (f_root : nat -> nat -> C).
Hypotheses (u0 : 0 <= u) (u8 : u <= 8%:R^-1) (c0 : 0 <= c) (e0 : 0 <= eps).
Hypotheses (accA : accurate (u%:C)%C A) (accB : accurate u B) (acc_sqrt : accurate_sqrt u f_sqrt).
Hypothesis accD : accurate_dot (u%:C)%C f_dot.
Hypotheses (ok : cis_ok cis) (acc_cis : accurate_cis c cis f_cis) (acc_root : accurate_root c cis f_root).
Variables (m k : nat).
Hypotheses (m0 : (0 < m)%N) (km : (k <= m)%N).

Lemma fourier_error_ge : c <= fourier_error u c.
Proof.
rewrite /fourier_error ler_subr_addr addrC -[X in X <= _]mul1r ler_wpmul2r ?addr_ge0 ?ler01 //.
by rewrite exprn_ege1 // ler_addl.
Qed.

Lemma fourier_error_ge0 : 0 <= fourier_error u c. Proof. exact: le_trans fourier_error_ge. Qed.

Lemma norm_cis x : `|cis x| = 1.
Proof. by have [_ h _] := ok; rewrite normE /py_abs -/(nsq (cis x)) h sqrtr1. Qed.

Lemma fl_qft_ent n i j : (0 < n)%N ->
  `|f_fdiv A (f_root n (i * j)) (f_sqrt (f_int B (Posz n)))%:C%C - cis (1 / n%:R) ^+ (i * j) / (Num.sqrt n%:R)%:C%C|
    <= ((fourier_error u c)%:C)%C.
Proof.
move=> n0; set z := f_root _ _; set z0 := cis _ ^+ _; set r := f_sqrt _; set r0 := Num.sqrt _.
have rn : `|r - r0| <= ((1 + u) ^+ 2 - 1) * `|r0| := root_near u0 u8 accB acc_sqrt n0.
have r1 : 1 <= r0 by rewrite -[X in X <= _]sqrtr1 ler_sqrt ?ler1n // ltr0n.
have rp : r0 != 0 by rewrite gt_eqF // (lt_le_trans ltr01).
have uC : 0 <= (u%:C)%C :> C by rewrite ler0c.
have pC (x : R) : `|(x%:C)%C : C| = (`|x|%:C)%C := normC x.
have h : `|(r%:C)%C - (r0%:C)%C : C| <= ((1 + (u%:C)%C) ^+ 2 - 1) * `|(r0%:C)%C : C|.
  have -> : (1 + (u%:C)%C) ^+ 2 - 1 = (((1 + u) ^+ 2 - 1)%:C)%C :> C by rewrite rmorphB rmorphX rmorphD rmorph1.
  by rewrite -rmorphB !pC -rmorphM lecR.
have h2 : (1 + (u%:C)%C) ^+ 2 <= 3%:R / 2%:R :> C.
  have -> : (1 + (u%:C)%C) ^+ 2 = (((1 + u) ^+ 2)%:C)%C :> C by rewrite rmorphX rmorphD rmorph1.
  have -> : 3%:R / 2%:R = ((3%:R / 2%:R)%:C)%C :> C by rewrite rmorphM fmorphV !rmorph_nat.
  by rewrite lecR; exact: u2_small.
have q0 : (r0%:C)%C != 0 :> C by rewrite fmorph_eq0.
have [_ [_ n1]] := near_fdivK uC accA h2 q0 h (near_exact uC 0 (lexx `|z|)).
rewrite [(0 + 2 * 2).+1]/= in n1.
have zz : `|z - z0| <= (c%:C)%C by exact: acc_root.
have nz0 : `|z0| = 1 by rewrite normrX norm_cis expr1n.
have nz : `|z| <= 1 + (c%:C)%C.
  by rewrite -[z](subrK z0) addrC; apply: le_trans (ler_norm_add _ _) _; rewrite nz0 ler_add2l.
have i0 : 0 <= `|(r0%:C)%C : C|^-1 by rewrite invr_ge0.
have i1 : `|(r0%:C)%C : C|^-1 <= 1.
  by rewrite pC ger0_norm ?(le_trans ler01) // -fmorphV (lecR _ 1) invf_le1 // (lt_le_trans ltr01).
apply: le_trans (ler_dist_add (z / (r0%:C)%C) _ _) _.
have E : ((fourier_error u c)%:C)%C = (1 + (u%:C)%C) ^+ 5 * (1 + (c%:C)%C) - 1 :> C.
  by rewrite /fourier_error rmorphB rmorphM rmorphX !rmorphD !rmorph1.
have cC : 0 <= (c%:C)%C :> C by rewrite ler0c.
rewrite E; have -> : (1 + (u%:C)%C) ^+ 5 * (1 + (c%:C)%C) - 1 = ((1 + (u%:C)%C) ^+ 5 - 1) * (1 + (c%:C)%C) + (c%:C)%C.
  by move: ((1 + _) ^+ 5) (c%:C)%C => a b; ring.
apply: ler_add.
  apply: le_trans n1 _; apply: ler_wpmul2l; first by rewrite subr_ge0 exprn_ege1 // ler_addl.
  by rewrite -[X in _ <= X]mulr1; apply: ler_pmul.
rewrite -mulrBl normrM normfV -[X in _ <= X]mulr1; apply: ler_pmul => //.
Qed.

Lemma qft_powE n i j : (0 < n)%N -> (i < n)%N -> (j < n)%N ->
  ent (compute_qft_matrix cis n) i j = cis (1 / n%:R) ^+ (i * j) / (Num.sqrt n%:R)%:C%C.
Proof. by move=> n0 il jl; rewrite qft_ent // -(wX ok). Qed.

(* the Fourier matrix *)
Lemma fl_fourierE : exists Q, [/\ fl_qft_matrix_first A B f_sqrt f_root k m = Ok Q, is_square m Q
  & forall i j : nat, (i < m)%N -> (j < m)%N -> `|ent Q i j - fourier_of cis k i j| <= ((fourier_error u c)%:C)%C].
Proof.
rewrite /fl_qft_matrix_first ltnNge km /=; eexists; split; first by reflexivity.
  by rewrite cornerE; exact: rect_tab.
have [Q [eQ sQ hQ]] := qft_firstE cis km; have [Q' [eQ' _ _ hQ']] := fourierE ok km.
have e : Q = Q' by move: eQ; rewrite eQ' => -[].
move=> i j il jl; rewrite -hQ' // -e hQ // cornerE ent_tab //.
have [/andP[ik jk]|_] := boolP ((i < k)%N && (j < k)%N); last first.
  have := congr1 (fun X : 'M_m => X (Ordinal il) (Ordinal jl)) (mxof_eye C m).
  rewrite !mxE -val_eqE /= => ->.
  by rewrite subrr normr0 ler0c fourier_error_ge0.
have k0 : (0 < k)%N by apply: leq_ltn_trans ik.
rewrite (qft_powE k0) // /fl_qft_matrix ent_tab //.
exact: fl_qft_ent.
Qed.

Variables (U V : mat).
Hypotheses (uU : unitary m U) (sqV : is_square m V) (cl : close m eps V U).
Variable Q : mat.
Hypothesis eQ : fl_qft_matrix_first A B f_sqrt f_root k m = Ok Q.
Notation ne := (approx_net_error u c eps m).

Lemma approx_net_error_ge0 : 0 <= ne.
Proof. by rewrite !product_error_ge0 ?fourier_error_ge0. Qed.

Lemma fl_columnsE sigma : sigma \in permutations (iota 0 m) -> np_columns V sigma = Ok (permuted m V sigma).
Proof.
move=> p; have ps : size sigma = m by move: p; rewrite mem_permutations => /perm_size ->; rewrite size_iota.
have /andP[/eqP sU /allP aU] := sqV; rewrite /np_columns.
have -> : permuted m V sigma = [seq [seq row`_j | j <- sigma] | row <- V].
  apply: (@eq_from_nth _ [::]); first by rewrite !size_map size_iota.
  rewrite size_map size_iota => i il; rewrite (nth_map 0%N) ?size_iota // (nth_map [::]) ?sU // nth_iota // add0n.
  apply: (@eq_from_nth _ 0); first by rewrite !size_map size_iota.
  rewrite size_map size_iota => j jl; rewrite (nth_map 0%N) ?size_iota // (nth_map 0%N) ?ps // nth_iota // add0n.
apply: rmapM_ok => row /aU /eqP srow; apply: rmapM_ok => j jl; apply: py_get_nth.
by move: p; rewrite srow mem_permutations => /perm_mem/(_ j); rewrite jl mem_iota.
Qed.

Definition fl_net_calc (d : seq R) (sigma : seq nat) : res mat :=
  let! P := fl_phases_matrix_first f_cis k m d in
  let! W := np_columns V sigma in
  let! X := fl_matmul f_dot W P in
  fl_matmul f_dot X Q.

Lemma fl_net_step d sigma : sigma \in permutations (iota 0 m) ->
  exists Y, [/\ fl_net_calc d sigma = Ok Y, is_square m Y, unitary m (approx_net cis m (permuted m U sigma) k d)
    & close m ne Y (approx_net cis m (permuted m U sigma) k d)].
Proof.
move=> p; have uN := permuted_unitary uU p; have [sN _] := uN.
have [Q' [eQ' sQ hQ]] := fl_fourierE; have {eQ'}e : Q' = Q by move: eQ'; rewrite eQ => -[].
rewrite {Q'}e in sQ hQ.
have [P [eP sP hP]] := phasesE f_cis km d.
rewrite /fl_net_calc -[fl_phases_matrix_first _ _ _ _]/(phases_matrix_first f_cis k m d) eP fl_columnsE // [rbind (Ok _) _]/=.
have [Z [eZ sZ hZ]] := approx_calcE ok m0 km d sN.
have [P0 [eP0 sP0 hP0]] := phasesE cis km d; have [Q0 [eQ0 sQ0 uQ0 hQ0]] := fourierE ok km.
have [X0 [eX0 rX0 mX0]] := matmul_ok sN sP0 m0; have [Y0 [eY0 rY0 mY0]] := matmul_ok rX0 sQ0 m0.
have eYZ : Y0 = Z by move: eZ; rewrite /approx_calc eQ0 eP0 /= eX0 /= eY0 => -[].
have rV : is_rect m m (permuted m V sigma) by exact: rect_tab.
have b1 : msmall (mxof m m (permuted m U sigma)).
  by move=> i j; rewrite mxE; exact: (unitary_entries uN (ltn_ord i) (ltn_ord j)).
have b2 : msmall (mxof m m P0).
  move=> i j; rewrite mxE hP0 //; case: eqP => _; last by rewrite normr0 ler01.
  by case: ifP => _; rewrite ?norm_cis ?normr1.
have b3 : msmall (mxof m m Q0) by move=> i j; rewrite mxE; exact: (unitary_entries uQ0 (ltn_ord i) (ltn_ord j)).
have c1 : mclose eps (mxof m m (permuted m V sigma)) (mxof m m (permuted m U sigma)).
  by move=> i j; rewrite !mxE !ent_tab //; apply: cl; rewrite ?(perm_nth_lt p).
have c2 : mclose c (mxof m m P) (mxof m m P0).
  move=> i j; rewrite !mxE hP // hP0 //; case: eqP => _; last by rewrite subrr normr0 ler0c.
  by case: ifP => _; [exact: acc_cis|rewrite subrr normr0 ler0c].
have c3 : mclose (fourier_error u c) (mxof m m Q) (mxof m m Q0).
  by move=> i j; rewrite !mxE hQ0 //; apply: hQ.
have [X [eX rX cX]] := fl_mul_close u0 accD m0 rV sP e0 c0 b1 b2 c1 c2.
have b4 : msmall (mxof m m (permuted m U sigma) *m mxof m m P0).
  move=> i j; rewrite mxE (bigD1 j) //= big1 ?addr0 => [|a ne']; last first.
    by rewrite [X in _ * X]mxE hP0 // ifF ?mulr0 //; apply/negbTE; move: ne'; rewrite -val_eqE.
  rewrite normrM -[X in _ <= X]mulr1; apply: ler_pmul; [exact: normr_ge0|exact: normr_ge0|exact: b1|exact: b2].
have [Y [eY rY cY]] := fl_mul_close u0 accD m0 rX sQ (product_error_ge0 u0 m e0 c0) fourier_error_ge0 b4 b3 cX c3.
exists Y; rewrite eX [rbind (Ok _) _]/= eY; split=> //.
  by apply: (approx_unitary (d := d) ok m0 km uN) => //; exact: rect_tab.
move=> i j il jl; have := cY (Ordinal il) (Ordinal jl); rewrite -mX0 -mY0 !mxE /= eYZ hZ //.
Qed.
End Network.
