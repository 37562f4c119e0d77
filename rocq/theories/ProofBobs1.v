(* Extraction of the uniform losses. *)
From mathcomp Require Import all_ssreflect all_algebra complex.
From mathcomp Require Import ring zify.
From Verif Require Import Base SpecStates Combi SpecPerm PermMath SpecBS BsMath BsComb BsNorm.
From Verif Require Import ModelStates ModelPerm ModelDist SpecProb ProbMath ModelGcc ModelGccB SpecGcc ModelNet SpecNet.
From Verif Require Import ProofNet1 ProofNet2 ProofNet3 ModelBobs.
Set Implicit Arguments.
Unset Strict Implicit.
Unset Printing Implicit Defensive.
Import Order.TTheory GRing.Theory Num.Theory.
Local Open Scope ring_scope.
Local Open Scope py_scope.

Lemma sorted_top (R : realDomainType) (s : seq R) k : sorted (fun x y => y <= x) s -> (k < size s)%N -> s`_k <= s`_0.
Proof.
case: s k => [|x l] [|k] //= so kl.
have : all (fun y => y <= x) l by apply: (order_path_min _ so) => a b c h1 h2; exact: le_trans h2 h1.
by move/(all_nthP 0); apply.
Qed.

Section Norm.
Variable R : rcfType.
Notation C := R[i].
Notation mat := (seq (seq C)).

Lemma unitary_norm m (U : mat) (v : nat -> C) : unitary m U -> image_norm m U v = vec_norm m v.
Proof.
move=> [_ o]; rewrite /vec_norm -(@nsq_comb R m m U v); last by move=> i i' il il' _ _; apply: o.
by apply: eq_bigr => i _; congr nsq; apply: eq_bigr => j _; rewrite mulrC.
Qed.

Lemma nsq_real (x : R) : nsq (x%:C%C) = x ^+ 2.
Proof. by rewrite /nsq /= [0 ^+ 2]expr0n addr0. Qed.

Lemma svd_norm m (M V U : mat) s (v : nat -> C) : is_svd m M V s U ->
  image_norm m M v = \sum_(k < m) s`_k ^+ 2 * nsq (\sum_(j < m) ent U k j * v j).
Proof.
case=> [[_ oV] _ _ _ e].
transitivity (\sum_(k < m) nsq ((s`_k)%:C%C * \sum_(j < m) ent U k j * v j)); last first.
  by apply: eq_bigr => k _; rewrite nsqM nsq_real.
rewrite -(@nsq_comb R m m V (fun k => (s`_k)%:C%C * \sum_(j < m) ent U k j * v j)); last by move=> i i' il il' _ _; apply: oV.
apply: eq_bigr => i _; congr nsq.
transitivity (\sum_(j < m) \sum_(k < m) ent V i k * (s`_k)%:C%C * ent U k j * v j).
  by apply: eq_bigr => j _; rewrite e // mulr_suml.
rewrite exchange_big; apply: eq_bigr => k _; rewrite mulr_sumr mulr_suml; apply: eq_bigr => j _.
by rewrite [RHS]mulrC !mulrA.
Qed.

Lemma unitary_row m (U : mat) k0 : unitary m U -> (k0 < m)%N ->
  vec_norm m (fun j => conjc (ent U k0 j)) = 1 /\
  forall k : nat, (k < m)%N -> \sum_(j < m) ent U k j * conjc (ent U k0 j) = (k == k0)%:R.
Proof.
move=> /unitaryP[_ uU] il; have H (k : nat) (kl : (k < m)%N) : \sum_(j < m) ent U k j * conjc (ent U k0 j) = (k == k0)%:R.
  have := congr1 (fun X : 'M_m => X (Ordinal kl) (Ordinal il)) (adj_mul1C uU); rewrite !mxE -val_eqE /= => <-.
  by apply: eq_bigr => j _; rewrite adjE !mxE.
split=> //; apply: (@complexI R); rewrite rmorph_sum rmorph1.
have h := H k0 il; rewrite eqxx in h; apply: etrans h; apply: eq_bigr => j _.
by rewrite /= nsqE conjcK.
Qed.

(* the largest singular value *)
Lemma svd_top m (M V U : mat) s : (0 < m)%N -> is_svd m M V s U ->
  (forall v, image_norm m M v <= s`_0 ^+ 2 * vec_norm m v) /\
  (exists v, vec_norm m v = 1 /\ image_norm m M v = s`_0 ^+ 2).
Proof.
move=> m0 isv; case: (isv) => _ uU ss [so /allP s0] _.
have sge k : (k < m)%N -> 0 <= s`_k by move=> kl; apply: s0; rewrite mem_nth ?ss.
split=> [v|].
  rewrite (svd_norm v isv) -(unitary_norm v uU) mulr_sumr; apply: ler_sum => k _.
  rewrite ler_wpmul2r ?nsq_ge0 // ler_expn2r ?nnegrE ?sge //.
  by apply: sorted_top; rewrite ?ss.
have [n1 r] := unitary_row uU m0.
exists (fun j => conjc (ent U 0 j)); split=> //.
rewrite (svd_norm _ isv) (bigD1 (Ordinal m0)) //= r // eqxx nsq1 mulr1 big1 ?addr0 // => k ne.
by rewrite r // -[_ == 0%N]/(k == Ordinal m0) (negPf ne) nsq0 mulr0.
Qed.
End Norm.

Section Extract.
Variable R : rcfType.
Notation C := (ComplexField.complex_numFieldType R).
Notation mat := (seq (seq C)).
Variables (svd : mat -> res (mat * seq R * mat)) (m : nat) (M : mat).
Hypotheses (sv : svd_ok svd) (m0 : (0 < m)%N) (sq : is_square m M).
Hypothesis nz : exists i j, [/\ (i < m)%N, (j < m)%N & ent M i j != 0].

Lemma foldl_min (x : R) (l : seq R) : all (fun y => x <= y) l -> foldl Num.min x l = x.
Proof. by elim: l => //= y l IH /andP[h1 h2]; rewrite min_l // IH. Qed.

Lemma extractE : exists l N, [/\ extract_losses svd M = Ok (l, N), is_square m N, l < 1
  & [/\ forall i j, (i < m)%N -> (j < m)%N -> ent M i j = (Num.sqrt (1 - l))%:C%C * ent N i j,
     forall v, image_norm m M v <= (1 - l) * vec_norm m v
   & exists v, vec_norm m v = 1 /\ image_norm m M v = 1 - l]].
Proof.
have [V [s [U [e isv]]]] := sv m0 sq.
have [top att] := svd_top m0 isv.
case: (isv) => [[sqV _] [sqU _] ss [so /allP s0] eM].
have sge k : (k < m)%N -> 0 <= s`_k by move=> kl; apply: s0; rewrite mem_nth ?ss.
have sle k : (k < m)%N -> s`_k <= s`_0 by move=> kl; apply: sorted_top; rewrite ?ss.
have p0 : 0 < s`_0.
  rewrite lt_neqAle sge // andbT eq_sym; apply/eqP=> z.
  case: nz => i [j [il jl]]; rewrite eM // big1 ?eqxx // => k _.
  have -> : s`_k = 0 by apply/eqP; rewrite eq_le sge // andbT; have := sle k (ltn_ord k); rewrite z.
  by rewrite rmorph0 mulr0 mul0r.
have p2 : 0 < s`_0 ^+ 2 by rewrite exprn_gt0.
have emin : py_min [seq 1 - t | t <- [seq x ^+ 2 | x <- s]] = Ok (1 - s`_0 ^+ 2).
  case: s ss {so s0 e isv top att eM p0 p2} sge sle => [|x l] ss sge sle; first by have := m0; rewrite -ss.
  rewrite /= foldl_min //; apply/allP => y /mapP[_ /mapP[z zl ->] ->].
  have [k kl <-] : exists2 k, (k < size l)%N & l`_k = z by exists (index z l); rewrite ?nth_index ?index_mem.
  rewrite ler_add2l ler_opp2 ler_expn2r ?nnegrE.
  - by [].
  - by have := sge k.+1; apply; rewrite -ss.
  - by have := sge 0%N; apply.
  - by have := sle k.+1; apply; rewrite -ss.
rewrite /extract_losses e [rbind _ _]/= /= emin [rbind _ _]/= /=.
set dg := np_diag _.
have sd : size [seq x%:C%C : C | x <- [seq Num.sqrt t | t <- [seq t / (1 - (1 - s`_0 ^+ 2)) | t <- [seq x ^+ 2 | x <- s]]]] = m.
  by rewrite !size_map.
have rD : is_rect m m dg by have := diag_rect [seq x%:C%C : C | x <- [seq Num.sqrt t | t <- [seq t / (1 - (1 - s`_0 ^+ 2)) | t <- [seq x ^+ 2 | x <- s]]]]; rewrite sd.
have mD : mxof m m dg = rdiag (fun i : 'I_m => s`_i / s`_0).
  rewrite /dg mxof_diag //; congr diag_mx; apply/rowP=> i; rewrite !mxE.
  rewrite (nth_map 0) ?size_map ?ss // (nth_map 0) ?size_map ?ss // (nth_map 0) ?size_map ?ss // (nth_map 0) ?ss //.
  by rewrite opprB addrCA subrr addr0 -expr_div_n sqrtr_sqr ger0_norm // divr_ge0 ?sge // ltW.
have [X [-> rX mX]] := matmul_ok sqV rD m0; rewrite [rbind (Ok _) _]/=.
have [Y [-> rY mY]] := matmul_ok rX sqU m0; rewrite [rbind (Ok _) _]/=.
exists (1 - s`_0 ^+ 2), Y; split=> //; first by rewrite ltr_subl_addr ltr_addl.
rewrite opprB addrCA subrr addr0; split=> // i j il jl.
rewrite sqrtr_sqr ger0_norm ?sge //.
have := congr1 (fun A : 'M_m => A (Ordinal il) (Ordinal jl)) mY; rewrite !mxE /= => ->.
rewrite eM // mulr_sumr; apply: eq_bigr => k _; rewrite mX mD mul_mx_diag !mxE /=.
have -> : (s`_k)%:C%C = (s`_0)%:C%C * (s`_k / s`_0)%:C%C :> C by rewrite -rmorphM mulrCA divff ?mulr1 // gt_eqF.
by rewrite mulrCA -!mulrA.
Qed.
End Extract.
