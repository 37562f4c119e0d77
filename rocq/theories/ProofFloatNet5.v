(* Rounded networks: sums of products, exact operations, the error with respect
   to the given matrix. *)
From mathcomp Require Import all_ssreflect all_algebra complex.
From mathcomp Require Import ring zify.
From Verif Require Import Base SpecStates Combi SpecPerm PermMath SpecBS BsMath BsComb BsNorm.
From Verif Require Import ModelStates ProofStates1 LemStates ModelPerm ProofPerm6 LemPerm ModelDist ProofDist1
  SpecProb ProbMath ModelGcc ModelGccB SampMath ProofGcc2 ProofGcc3 ProofGccB2 ProofPert3 ProofSample1
  ModelNet SpecNet ProofNet1 ProofNet2 ProofNet3 ProofNet4 ProofNet5 LemNet
  ModelFloat SpecFloat SpecFloatGcc SpecFloatSub SpecFloatGccB
  ModelFloatGcc ModelFloatGccB ProofFloat ProofFloat4 ProofFloatDist2
  ModelFloatNet SpecFloatNet ProofFloatNet1 ProofFloatNet2 ProofFloatNet3 ProofFloatNet4.
Set Implicit Arguments.
Unset Strict Implicit.
Unset Printing Implicit Defensive.
Import Order.TTheory GRing.Theory Num.Theory.
Local Open Scope ring_scope.
Local Open Scope py_scope.

(* products with one rounding each, added up by an accurate sum *)
Lemma dot_of_sum (F : numFieldType) (u : F) (A : arith F) (f_sum : seq F -> F) : 0 <= u -> accurate u A -> accurate_sum u f_sum ->
  accurate_dot u (fun x y => f_sum [seq f_mul A z.1 z.2 | z <- zip x y]).
Proof.
move=> u0 aA aS x y e; set l := [seq _ | z <- _].
have sl : size l = size x by rewrite size_map size1_zip ?e.
have lE : forall k : 'I_(size x), l`_k = f_mul A x`_k y`_k.
  by move=> k; rewrite (nth_map (0, 0)) ?size1_zip ?e // nth_zip.
have S1 : \sum_(z <- l) z = \sum_(k < size x) f_mul A x`_k y`_k.
  by rewrite (big_nth 0) big_mkord sl; apply: eq_bigr => k _; rewrite lE.
have S2 : \sum_(z <- l) `|z| <= (1 + u) * \sum_(k < size x) `|x`_k * y`_k|.
  rewrite (big_nth 0) big_mkord sl mulr_sumr; apply: ler_sum => k _; rewrite lE.
  rewrite -[f_mul _ _ _](subrK (x`_k * y`_k)) addrC; apply: le_trans (ler_norm_add _ _) _.
  by rewrite mulrDl mul1r ler_add2l; apply: acc_mul.
apply: le_trans (ler_dist_add (\sum_(z <- l) z) _ _) _.
have h2 : `|\sum_(z <- l) z - \sum_(k < size x) x`_k * y`_k| <= u * \sum_(k < size x) `|x`_k * y`_k|.
  rewrite S1 -sumrB mulr_sumr; apply: le_trans (ler_norm_sum _ _ _) _.
  by apply: ler_sum => k _; apply: acc_mul.
have h1 : `|f_sum l - \sum_(z <- l) z| <= ((1 + u) ^+ size x - 1) * ((1 + u) * \sum_(k < size x) `|x`_k * y`_k|).
  by apply: le_trans (aS l) _; rewrite sl; apply: ler_wpmul2l => //; rewrite E0.
apply: le_trans (ler_add h1 h2) _; rewrite le_eqVlt; apply/orP; left; apply/eqP; rewrite exprS.
by move: (_ ^+ size x) (\sum_(k < size x) _) => a b; ring.
Qed.

Section Exact.
Variable R : rcfType.
Notation C := (ComplexField.complex_numFieldType R).
Notation mat := (seq (seq C)).
Variable svd : mat -> res (mat * seq R * mat).


Lemma fl_matmul_exact (P Q : mat) : fl_matmul (@exact_dot C) P Q = np_matmul P Q.
Proof.
rewrite /fl_matmul /np_matmul; case: ifP => // _; congr Ok; apply: eq_map => row; apply: eq_map => j.
rewrite foldl_sum /exact_dot size_map size_iota; set y := [seq _ | k <- _].
transitivity (\sum_(k < size Q) row`_k * np_get Q k j).
  by apply: eq_bigr => k _; rewrite /y (nth_map 0%N) ?size_iota // nth_iota.
by rewrite -[X in iota 0 X]subn0 -/(index_iota 0 _) big_mkord.
Qed.

Lemma fl_dot_exact (P : mat) v : fl_dot (@exact_dot C) P v = np_dot P v.
Proof.
rewrite /fl_dot /np_dot; case: ifP => // _; congr Ok; apply: eq_map => row.
by rewrite foldl_sum /exact_dot -[X in iota 0 X]subn0 -/(index_iota 0 _) big_mkord.
Qed.

Lemma fl_prepare_exact M : fl_prepare_expanded (exact_arith R) Num.sqrt (@exact_dot C) svd M = prepare_expanded svd M.
Proof.
rewrite /fl_prepare_expanded /prepare_expanded; case: (svd M) => [[[V s] U]|e] //=.
case: (np_block _ _ _ _) => //= EV; case: (np_block _ _ _ _) => //= EU.
rewrite -[fl_loss_expansion _ _ _]/(loss_expansion _); case: (np_block _ _ _ _) => //= ES.
by rewrite fl_matmul_exact; case: (np_matmul _ _) => //= X; rewrite fl_matmul_exact.
Qed.

Lemma fl_network_exact (E : mat) v : fl_lossy_network_simulate (@exact_dot C) E v = lossy_network_simulate E v.
Proof.
rewrite /fl_lossy_network_simulate /lossy_network_simulate; case: ifP => // _.
by case: (np_vstack _ _) => //= ex; rewrite fl_matmul_exact.
Qed.

End Exact.

Section Networks.
Variables (R : rcfType) (u : R).
Notation C := (ComplexField.complex_numFieldType R).
Notation mat := (seq (seq C)).
Hypothesis u0 : 0 <= u.
Variable f_dot : seq C -> seq C -> C.
Hypothesis accD : accurate_dot (u%:C)%C f_dot.

Lemma fl_lossless_ok m (M : mat) v : is_square m M -> size v = m ->
  exists w, [/\ fl_lossless_network f_dot M v = Ok w, size w = m & forall i : nat, (i < m)%N ->
    `|w`_i - \sum_(j < m) ent M i j * v`_j| <= (((1 + u) ^+ m.+1 - 1)%:C)%C * \sum_(j < m) `|ent M i j * v`_j|].
Proof.
move=> sq sv; have /andP[/eqP sM /allP aM] := sq; rewrite /fl_lossless_network /fl_dot sv.
have -> : all (fun row => size row == m) M by apply/allP.
eexists; split; [by reflexivity|by rewrite size_map|move=> i im].
rewrite (nth_map [::]) ?sM //; have sr := rect_row sq im.
have := @accD (nth [::] M i) v; rewrite sr sv => /(_ erefl).
have -> : (((1 + u) ^+ m.+1 - 1)%:C)%C = (1 + (u%:C)%C) ^+ m.+1 - 1 :> C by rewrite rmorphB rmorphX rmorphD rmorph1.
by [].
Qed.

Lemma fl_lossy_ok m (M0 E E0 : mat) (e : R) v : (0 < m)%N -> 0 <= e -> is_square (m + m) E ->
  entries_bounded (m + m) E0 (1%:C)%C -> (forall i j : nat, (i < m)%N -> (j < m)%N -> ent E0 i j = ent M0 i j) ->
  close (m + m) e E E0 -> size v = m ->
  exists w, [/\ fl_lossy_network_simulate f_dot E v = Ok w, size w = m & forall i : nat, (i < m)%N ->
    `|w`_i - \sum_(j < m) ent M0 i j * v`_j| <= (((1 + u) ^+ (m + m).+1 * (1 + e) - 1)%:C)%C * \sum_(j < m) `|v`_j|].
Proof.
move=> m0 e0 sqE b0 cor c sz.
have sE : size E = (m + m)%N by case/andP: sqE => /eqP.
rewrite /fl_lossy_network_simulate sE addnn doubleK sz eqxx /= -addnn.
have rc : is_rect m 1 [seq [:: x] | x <- v].
  by rewrite /is_rect size_map sz eqxx; apply/allP=> row /mapP[x _ ->].
have rz : is_rect m 1 [seq [:: 0 : C] | _ <- v].
  by rewrite /is_rect size_map sz eqxx; apply/allP=> row /mapP[x _ ->].
have [X [-> rX mX]] := vstack_ok rc rz m0 m0; rewrite [rbind (Ok _) _]/=.
have mm0 : (0 < m + m)%N by rewrite addn_gt0 m0.
have [Y [-> rY hY]] := fl_matmul_ok accD sqE rX mm0; rewrite [rbind (Ok _) _]/=.
rewrite trim_toE.
have sY : size Y = (m + m)%N by case/andP: rY => /eqP.
have st : size (take m Y) = m by rewrite size_takel // sY leq_addr.
have fl : flatten (take m Y) = [seq nth 0 r 0 | r <- take m Y].
  have : all (fun r => size r == 1%N) (take m Y).
    by case/andP: rY => _ /allP h; apply/allP=> r /mem_take /h.
  elim: (take m Y) => [//|r l IH] /= /andP[/eqP sr /IH ->].
  by case: r sr => [|x [|]].
eexists; split; [by reflexivity|by rewrite fl size_map st|move=> i im].
rewrite fl (nth_map [::]) ?st // nth_take // -/(ent Y i 0).
have Xl (l : 'I_m) : ent X l 0 = v`_l.
  have := congr1 (fun X : 'M_(m + m, 1) => X (lshift m l) 0) mX.
  by rewrite col_mxEu !mxofE /= => ->; rewrite /ent (nth_map 0) ?sz.
have Xr (l : 'I_m) : ent X (m + l) 0 = 0.
  have := congr1 (fun X : 'M_(m + m, 1) => X (rshift m l) 0) mX.
  by rewrite col_mxEd !mxofE /= => ->; rewrite /ent (nth_map 0) ?sz.
have i2 : (i < m + m)%N by rewrite ltn_addr.
have S1 : \sum_(l < m + m) ent E i l * ent X l 0 = \sum_(l < m) ent E i l * v`_l.
  rewrite big_split_ord /= [Z in _ + Z]big1 ?addr0 => [|l _]; last by rewrite Xr mulr0.
  by apply: eq_bigr => l _; rewrite Xl.
have S2 : \sum_(l < m + m) `|ent E i l * ent X l 0| = \sum_(l < m) `|ent E i l * v`_l|.
  rewrite big_split_ord /= [Z in _ + Z]big1 ?addr0 => [|l _]; last by rewrite Xr mulr0 normr0.
  by apply: eq_bigr => l _; rewrite Xl.
have := hY i 0%N i2 isT; rewrite S1 S2.
move=> h1; set S := \sum_(j < m) `|v`_j|.
have eC : 0 <= (e%:C)%C :> C by rewrite ler0c.
have h2 : \sum_(l < m) `|ent E i l * v`_l| <= (1 + (e%:C)%C) * S.
  rewrite mulr_sumr; apply: ler_sum => l _; rewrite normrM ler_wpmul2r //.
  have l2 : (l < m + m)%N by rewrite ltn_addr.
  rewrite -[ent E i l](subrK (ent E0 i l)) addrC; apply: le_trans (ler_norm_add _ _) _.
  by apply: ler_add; [apply: b0|apply: c].
have h3 : `|\sum_(l < m) ent E i l * v`_l - \sum_(j < m) ent M0 i j * v`_j| <= (e%:C)%C * S.
  rewrite -sumrB mulr_sumr; apply: le_trans (ler_norm_sum _ _ _) _; apply: ler_sum => l _.
  rewrite -mulrBl normrM ler_wpmul2r // -cor //; apply: c; rewrite ltn_addr //.
apply: le_trans (ler_dist_add (\sum_(l < m) ent E i l * v`_l) _ _) _.
have h4 : `|ent Y i 0 - \sum_(l < m) ent E i l * v`_l| <= ((((1 + u) ^+ (m + m).+1)%:C)%C - 1) * ((1 + (e%:C)%C) * S).
  apply: le_trans h1 _; apply: ler_wpmul2l => //.
  by rewrite -(rmorph1 (ComplexField.real_complex_rmorphism R)) -rmorphB ler0c subr_ge0 exprn_ege1 // ler_addl.
apply: le_trans (ler_add h4 h3) _.
have -> : (((1 + u) ^+ (m + m).+1 * (1 + e) - 1)%:C)%C = (((1 + u) ^+ (m + m).+1)%:C)%C * (1 + (e%:C)%C) - 1 :> C.
  by rewrite rmorphB rmorphM rmorphD !rmorph1.
rewrite le_eqVlt; apply/orP; left; apply/eqP.
by move: (((1 + u) ^+ (m + m).+1)%:C)%C ((e%:C)%C) => a b; ring.
Qed.

End Networks.

Section Forward.
Variable R : rcfType.
Notation C := (ComplexField.complex_numFieldType R).
Notation mat := (seq (seq C)).

Lemma traced_ge0 d (D : mat) s t : 0 <= traced_prob d D s t.
Proof. by apply: sumr_ge0 => r _; apply: bs_prob_ge0. Qed.

Lemma traced_norm m d (M D : mat) s : (0 < m)%N -> subunitary m M -> dilation m d M D -> size s = m ->
  \sum_(t <- lcomps m (sumn s)) traced_prob d D s t = 1.
Proof.
move=> m0 su dD ss; have [svd sv] := C35_svd_exists_lemma R.
have [E [_ sqE dE]] := expanded_dilation sv m0 su.
have es : sumn (s ++ nseq m 0%N) = sumn s by rewrite sumn_cat sumn_nseq mul0n addn0.
rewrite -(bs_prob_norm (pad_on ss sqE dE)) es big_comps_split; apply: eq_big_seq => t; rewrite mem_lcomps => /andP[/eqP st le].
rewrite (traced_dil dD dE) //; apply: eq_big_seq => r; rewrite mem_comps => /andP[_ /eqP er].
by rewrite bs_prob_pad // sumn_cat er subnKC.
Qed.

Lemma traced_iid m (M0 M : mat) (eps : R) d d0 (D D0 : mat) s k f : (0 < m)%N -> 0 <= eps ->
  subunitary m M -> subunitary m M0 -> close m eps M M0 -> dilation m d M D -> dilation m d0 M0 D0 -> size s = m ->
  (forall L, 0 <= f L <= 1) ->
  `|iid_exp (lcomps m (sumn s)) (traced_prob d D s) k f - iid_exp (lcomps m (sumn s)) (traced_prob d0 D0 s) k f| <=
    k%:R * network_error eps m s.
Proof.
move=> m0 e0 su su0 c dD dD0 ss f01; apply: iid_exp_tv => //.
- by move=> t _; apply: traced_ge0.
- by move=> t _; apply: traced_ge0.
- exact: traced_norm dD ss.
- exact: traced_norm dD0 ss.
by apply: traced_distance c dD dD0 ss => //; exact: subunitary_entries.
Qed.

End Forward.
