(* The expanded matrix, the networks and the samples with rounded arithmetic. *)
From mathcomp Require Import all_ssreflect all_algebra complex.
From mathcomp Require Import ring zify.
From Verif Require Import Base SpecStates Combi SpecPerm PermMath SpecBS BsMath BsComb BsNorm.
From Verif Require Import ModelStates ProofStates1 LemStates ModelPerm ProofPerm6 LemPerm ModelDist ProofDist1
  SpecProb ProbMath ModelGcc ModelGccB SampMath ProofGcc2 ProofGcc3 ProofGccB2
  ModelNet SpecNet ProofNet1 ProofNet2 ProofNet3 ProofNet4 ProofNet5 ModelFloat SpecFloat SpecFloatGcc SpecFloatSub SpecFloatGccB
  ModelFloatGcc ModelFloatGccB ProofFloat ProofFloat4 ProofFloatDist2 ProofFloatGccB1 ProofFloatGccB3 ProofFloatDist 
  ModelFloatNet SpecFloatNet ProofFloatNet1 ProofFloatNet2.
Set Implicit Arguments.
Unset Strict Implicit.
Unset Printing Implicit Defensive.
Import Order.TTheory GRing.Theory Num.Theory.
Local Open Scope ring_scope.
Local Open Scope py_scope.

Section Expanded.
Variables (R : rcfType) (u d : R).
Notation C := (ComplexField.complex_numFieldType R).
Notation mat := (seq (seq C)).
Hypotheses (u0 : 0 <= u) (d0 : 0 <= d).
Variables (B : arith R) (f_sqrt : R -> R) (f_dot : seq C -> seq C -> C).
Hypothesis accB : accurate u B.
Hypothesis acc_sqrt : accurate_sqrt u f_sqrt.
Hypothesis accD : accurate_dot (u%:C)%C f_dot.
Variables (svd : mat -> res (mat * seq R * mat)) (m : nat) (M M0 V U : mat) (s : seq R).
Hypotheses (m0 : (0 < m)%N) (eM : svd M = Ok (V, s, U)) (ns : near_svd m d M0 V s U) (su : subunitary m M0).

Notation h := (loss_root_error u d).
Let h0 : 0 <= h := loss_root_error_ge0 u0 d0.
Let dh : d <= h := loss_root_error_ge u0 d0.

Lemma expand_error_ge0 : 0 <= expand_error u d m.
Proof. by rewrite !product_error_ge0. Qed.

Lemma fl_prepare_ok : exists E E0 : mat, [/\ fl_prepare_expanded B f_sqrt f_dot svd M = Ok E, is_square (m + m) E,
  is_square (m + m) E0 /\ entries_bounded (m + m) E0 (1%:C)%C, dilation m m M0 E0 & close (m + m) (expand_error u d m) E E0].
Proof.
case: ns => sqV sqU ss [V0 [s0 [U0 [isv cV cU cs]]]].
have ss0 : size s0 = m by case: isv.
have s00 i : (i < m)%N -> 0 <= s0`_i.
  by move=> im; case: isv => _ _ e [_ /allP H] _; apply: H; rewrite mem_nth ?e.
have s01 i : (i < m)%N -> 0 <= s0`_i <= 1 by move=> im; rewrite s00 // (subunitary_svd su isv).
have [E0 [eE0 sqE0 mE0]] := prepare_ok m0 (erefl : (fun=> Ok (V0, s0, U0)) M0 = _) isv.
have sl (k : 'I_m) : s0`_k ^+ 2 + lossv s0 k ^+ 2 = 1.
  by have /andP[a b] := s01 _ (ltn_ord k); apply: lossv_sq.
have lossE i : (i < m)%N -> lossv s0 i = Num.sqrt (1 - s0`_i ^+ 2).
  by move=> im; have /andP[a b] := s01 _ im; rewrite /lossv ltNge subr_ge0 expr_le1 // b.
have gram i i' : (i < m)%N -> (i' < m)%N -> ortho_cols (m + m) E0 i i' /\ ortho_cols (m + m) E0 (m + i) (m + i').
  move=> il il'; have uV : adj (mxof m m V0) *m mxof m m V0 = 1%:M by case: isv => /unitaryP[].
  have uU : adj (mxof m m U0) *m mxof m m U0 = 1%:M by case: isv => _ /unitaryP[].
  split.
    apply/(gram_cols sqE0 (lshift m (Ordinal il)) (lshift m (Ordinal il'))).
    by rewrite mE0 expand_gram // block_mxEul !mxE (inj_eq (@lshift_inj _ _)).
  apply/(gram_cols sqE0 (rshift m (Ordinal il)) (rshift m (Ordinal il'))).
  by rewrite mE0 expand_gram // block_mxEdr !mxE (inj_eq (@rshift_inj _ _)).
have dil : dilation m m M0 E0.
  split=> [i j il jl|i i' il il']; last by have [] := gram i i' il il'.
  have := congr1 (fun X : 'M_(m + m) => X (lshift m (Ordinal il)) (lshift m (Ordinal jl))) mE0.
  by rewrite expandE block_mxEul -(svd_mx isv) !mxE.
have small : entries_bounded (m + m) E0 (1%:C)%C.
  move=> j i jm im; have o : ortho_cols (m + m) E0 i i.
    case: (ltnP i m) => im'; first by have [] := gram i i im' im'.
    have lt : (i - m < m)%N by rewrite ltn_subLR.
    by have [_] := gram _ _ lt lt; rewrite subnKC.
  move: o; rewrite /ortho_cols eqxx => o.
  have E1 : \sum_(j < m + m) nsq (ent E0 j i) = 1.
    apply: (@complexI R); rewrite rmorph_sum /= -[RHS]o; apply: eq_bigr => k _.
    by case: (ent E0 k i) => a b; rewrite /nsq /conjc; simpc; congr (_ +i* _)%C; ring.
  have le1 : nsq (ent E0 j i) <= 1.
    rewrite -E1 (bigD1 (Ordinal jm)) //= ler_addl sumr_ge0 // => k _.
    by rewrite addr_ge0 ?sqr_ge0.
  by rewrite (normE (ent E0 j i)) lecR -[X in _ <= X](@sqrtr1 R) ler_sqrt // ltr01.
have sV : size V = m by case/andP: sqV => /eqP.
rewrite /fl_prepare_expanded eM [rbind _ _]/= /=.
have rZ := zeros_rect sqV; have mZ := mxof_zeros m m V; have rI := eye_rect C m; have mI := mxof_eye C m.
rewrite sV; have [X [-> rX mX]] := block_ok sqV rZ rZ rI m0.
rewrite [rbind (Ok _) _]/=; have [Y [-> rY mY]] := block_ok sqU rZ rZ rI m0.
rewrite [rbind (Ok _) _]/=.
have rS : is_rect m m (np_diag [seq x%:C%C : C | x <- s]).
  by have := diag_rect [seq x%:C%C : C | x <- s]; rewrite size_map ss.
set L := fl_loss_expansion _ _ _.
have rL : is_rect m m L.
  rewrite /L /fl_loss_expansion; move: (diag_rect [seq (f_sqrt x)%:C%C : C | x <- [seq if x < 0 then 0 else x | x <- [seq f_sub B 1 x | x <- [seq f_pow B x 2 | x <- s]]]]).
  by rewrite !size_map ss.
have mS : mxof m m (np_diag [seq x%:C%C : C | x <- s]) = rdiag (fun i : 'I_m => s`_i).
  rewrite mxof_diag ?size_map //; congr diag_mx; apply/rowP=> i; rewrite !mxE (nth_map 0) ?ss //.
pose lo i := f_sqrt (if f_sub B 1 (f_pow B s`_i 2) < 0 then 0 else f_sub B 1 (f_pow B s`_i 2)).
have mL : mxof m m L = rdiag (fun i : 'I_m => lo i).
  rewrite /L /fl_loss_expansion mxof_diag ?size_map //; congr diag_mx; apply/rowP=> i; rewrite !mxE.
  by rewrite !(nth_map 0) ?size_map ?ss.
have [K [-> rK mK]] := block_ok rS rL rL rS m0.
have mm0 : (0 < m + m)%N by rewrite addn_gt0 m0.
rewrite [rbind (Ok _) _]/=.
have isvV : msmall (mxof m m V0).
  by move=> i j; rewrite mxE; case: isv => /unitary_entries H *; apply: H.
have isvU : msmall (mxof m m U0).
  by move=> i j; rewrite mxE; case: isv => _ /unitary_entries H *; apply: H.
have n1 (i : 'I_m) : `|s0`_i| <= 1 by have /andP[a b] := s01 _ (ltn_ord i); rewrite ger0_norm.
have n2 (i : 'I_m) : `|lossv s0 i| <= 1.
  rewrite lossE // ger0_norm ?sqrtr_ge0 // -[X in _ <= X](sqrtr1 R); apply: ler_wsqrtr.
  by rewrite ler_subl_addl ler_addr sqr_ge0.
set S0 := rdiag (fun i : 'I_m => s0`_i); set L0 := rdiag (fun i : 'I_m => lossv s0 i).
have cX : mclose d (mxof (m + m) (m + m) X) (block_mx (mxof m m V0) 0 0 1%:M).
  rewrite mX mZ mI; apply: mclose_block; try exact: mclose_refl.
  by move=> i j; rewrite !mxE; apply: cV.
have cY : mclose d (mxof (m + m) (m + m) Y) (block_mx (mxof m m U0) 0 0 1%:M).
  rewrite mY mZ mI; apply: mclose_block; try exact: mclose_refl.
  by move=> i j; rewrite !mxE; apply: cU.
have cS : mclose h (rdiag (fun i : 'I_m => s`_i)) S0.
  by apply: mclose_rdiag => // i; apply: le_trans dh; apply: cs.
have cL : mclose h (rdiag (fun i : 'I_m => lo i)) L0.
  by apply: mclose_rdiag => // i; rewrite lossE //; apply: (loss_root u0 d0 accB acc_sqrt (s01 _ _) (cs _ _) erefl).
have cK : mclose h (mxof (m + m) (m + m) K) (block_mx S0 L0 L0 S0).
  by rewrite mK mS mL; apply: mclose_block.
have sX := msmall_block isvV (@msmall0 R m) (@msmall0 R m) (@msmall1 R m).
have sY := msmall_block isvU (@msmall0 R m) (@msmall0 R m) (@msmall1 R m).
have sS : msmall S0 by exact: msmall_rdiag.
have sL : msmall L0 by exact: msmall_rdiag.
have sK := msmall_block sS sL sL sS.
have [P [-> rP cP]] := fl_mul_close u0 accD mm0 rX rK d0 h0 sX sK cX cK.
have sP : msmall (block_mx (mxof m m V0) 0 0 1%:M *m block_mx S0 L0 L0 S0).
  rewrite mulmx_block !mul0mx !mul1mx !addr0 !add0r.
  by apply: msmall_block; rewrite /S0 /L0; [apply: msmall_mul_rdiag|apply: msmall_mul_rdiag|apply: msmall_rdiag|apply: msmall_rdiag].
have pe0 : 0 <= product_error u (m + m) d h by rewrite product_error_ge0.
rewrite [rbind (Ok _) _]/=; have [Q [-> rQ cQ]] := fl_mul_close u0 accD mm0 rP rY pe0 d0 sP sY cP cY.
exists Q, E0; split=> // i j il jl.
have := cQ (Ordinal il) (Ordinal jl); have := congr1 (fun X : 'M_(m + m) => X (Ordinal il) (Ordinal jl)) mE0.
rewrite /expand -/S0 -/L0 => <-; rewrite !mxofE.
by [].
Qed.

Lemma fl_expanded_corner i j : (i < m)%N -> (j < m)%N -> exists E, fl_prepare_expanded B f_sqrt f_dot svd M = Ok E /\
  `|ent E i j - ent M0 i j| <= ((expand_error u d m)%:C)%C.
Proof.
move=> il jl; have [E [E0 [e _ _ [c _] H]]] := fl_prepare_ok; exists E; split=> //.
by rewrite -c //; apply: H; rewrite ltn_addr.
Qed.

Lemma fl_transmissivities_ok : exists l, [/\ fl_modes_transmissivities B svd M = Ok l, size l = m &
  forall V0 s0 U0, is_svd m M0 V0 s0 U0 -> (forall i : nat, (i < m)%N -> `|s`_i - s0`_i| <= d) ->
  forall i : nat, (i < m)%N -> `|l`_i - s0`_(m.-1 - i) ^+ 2| <= square_sv_error u d].
Proof.
rewrite /fl_modes_transmissivities eM [rbind _ _]/=; have [_ _ ss _] := ns.
eexists; split; first by reflexivity.
  by rewrite size_map size_rev.
move=> V0 s0 U0 isv cs i im; rewrite (nth_map 0) ?size_rev ?ss // nth_rev ?ss //.
have -> : (m - i.+1)%N = (m.-1 - i)%N by lia.
have lt : (m.-1 - i < m)%N by lia.
apply: square_sv => //; last exact: cs.
case: (isv) => _ _ e [_ /allP H] _; rewrite (subunitary_svd su isv) // andbT.
by apply: H; rewrite mem_nth ?e.
Qed.

(* samples *)
Variables (A : arith C) (f_abs : C -> R) (f_sum f_check : seq R -> R) (f_search : R -> seq R -> nat) (fuel N : nat).
Hypothesis accA : accurate (u%:C)%C A.
Hypothesis acc_abs : forall z, `|f_abs z - py_abs z| <= u * py_abs z.
Hypothesis acc_sum : accurate_sum u f_sum.
Hypothesis acc_check : accurate_sum u f_check.
Hypothesis srch : right_search f_search.
Hypothesis N0 : (0 < N)%N.
Variables t : seq nat.
Hypotheses (st : size t = m) (fu : (code_number t <= fuel)%N).
Hypothesis small : (9 * (m + m) + 4)%:R * u <= (2%:R ^+ 27)^-1.

Lemma fl_lossy_net_exp k f b dd (D : mat) : (forall L, 0 <= f L <= 1) ->
  fl_prepare_expanded B f_sqrt f_dot svd M = Ok (calc_matrix (b_calc b)) -> dilation m dd M0 D ->
  exists v, [/\ has_exp (on_ok (fun z => f z.1)) (fl_lossy_net_simulate B A f_abs f_sum f_check f_search fuel N t k b) v,
   0 <= v <= 1 & `|v - iid_exp (lcomps m (sumn t)) (traced_prob dd D t) k f| <=
     k%:R * gccb_error u (expand_error u d m) N (m + m) (t ++ nseq m 0%N) (sumn t)].
Proof.
move=> f01 eb dD; have [E [E0 [eE sqE [sqE0 bE0] dE c]]] := fl_prepare_ok.
have e : calc_matrix (b_calc b) = E by move: eb; rewrite eE => -[].
have sz : size (t ++ nseq m 0%N) = (m + m)%N by rewrite size_cat st size_nseq.
have on := pad_on st sqE0 dE.
have fu' : (code_number (t ++ nseq m 0%N) <= fuel)%N by rewrite /code_number pad_fuel.
have f01' L : 0 <= f [seq take m x | x <- L] <= 1 by [].
have [v [Hv v01 hv]] := fl_gccb_simulate_exp u0 accA accB acc_abs acc_sum acc_check srch N0 (conj on bE0) sqE sz fu'
  expand_error_ge0 c small k f01' e.
have es : sumn (t ++ nseq m 0%N) = sumn t by rewrite sumn_cat sumn_nseq mul0n addn0.
rewrite es in hv; exists v; split=> //.
  rewrite /fl_lossy_net_simulate st; apply: has_exp_bind Hv _.
  apply: always_true => [[y|e']] /=; last by constructor.
  apply: has_exp_eq (@ExpRet _ _ _ _) _; rewrite /=; congr f; apply: eq_map => x; rewrite trim_toE //.
have -> : iid_exp (lcomps m (sumn t)) (traced_prob dd D t) k f = iid_exp (lcomps m (sumn t)) (traced_prob m E0 t) k f.
  rewrite -[RHS](iid_exp_map (S := lcomps m (sumn t)) (P := traced_prob dd D t) (h := id)).
    by apply: iid_exp_ext => L; rewrite map_id.
  move=> F; apply: eq_big_seq => x; rewrite mem_lcomps => /andP[/eqP sx le].
  by rewrite (traced_dil dD dE).
rewrite -(iid_exp_map (S := comps (m + m) (sumn t)) (P := bs_prob E0 (t ++ nseq m 0%N)) (h := take m)) //.
move=> F; rewrite big_comps_split; apply: eq_big_seq => x; rewrite mem_lcomps => /andP[/eqP sx le].
rewrite /traced_prob mulr_suml; apply: eq_big_seq => r; rewrite mem_comps => /andP[_ /eqP er].
rewrite take_size_cat // bs_prob_pad // sumn_cat er; lia.
Qed.

End Expanded.
