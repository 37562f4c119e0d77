(* Random phases: averages over a grid, and the limit. *)
From mathcomp Require Import all_ssreflect all_algebra complex.
From mathcomp Require Import ring zify.
From Verif Require Import Base SpecProb ProbMath SpecStates Combi SpecPerm SpecBS BsMath SpecNet SpecLim ModelGcc ModelBobs ProofLim1.
Set Implicit Arguments.
Unset Strict Implicit.
Unset Printing Implicit Defensive.
Import Order.TTheory GRing.Theory Num.Theory.
Local Open Scope ring_scope.
Local Open Scope py_scope.

Section Lipschitz.
Variable R : rcfType.
Implicit Types F G : seq R -> R.

Definition lipb F : Prop := exists B K : R, [/\ 0 <= B, 0 <= K, forall d, `|F d| <= B &
  forall d d' e, 0 <= e -> (forall i, `|d`_i - d'`_i| <= e) -> `|F d - F d'| <= K * e].

Lemma lipb_ext F G : F =1 G -> lipb F -> lipb G.
Proof. by move=> e [B [K [B0 K0 b k]]]; exists B, K; split=> // [d|d d' x]; rewrite -!e //; exact: k. Qed.

Lemma lipb_const c : lipb (fun=> c).
Proof. by exists `|c|, 0; split=> // d d' e _ _; rewrite subrr normr0 mul0r. Qed.

Lemma lipb_add F G : lipb F -> lipb G -> lipb (fun d => F d + G d).
Proof.
move=> [B [K [B0 K0 b k]]] [B' [K' [B0' K0' b' k']]]; exists (B + B'), (K + K'); split; rewrite ?addr_ge0 //.
  by move=> d; apply: le_trans (ler_norm_add _ _) (ler_add (b d) (b' d)).
move=> d d' e e0 h; have -> : F d + G d - (F d' + G d') = (F d - F d') + (G d - G d') by ring.
by apply: le_trans (ler_norm_add _ _) _; rewrite mulrDl ler_add ?k ?k'.
Qed.

Lemma lipb_mul F G : lipb F -> lipb G -> lipb (fun d => F d * G d).
Proof.
move=> [B [K [B0 K0 b k]]] [B' [K' [B0' K0' b' k']]]; exists (B * B'), (K * B' + B * K'); split; rewrite ?addr_ge0 ?mulr_ge0 //.
  by move=> d; rewrite normrM ler_pmul.
move=> d d' e e0 h; have -> : F d * G d - F d' * G d' = (F d - F d') * G d + F d' * (G d - G d') by ring.
apply: le_trans (ler_norm_add _ _) _; rewrite !normrM mulrDl ler_add //.
  by rewrite mulrAC ler_pmul ?k.
by rewrite -mulrA ler_pmul ?k'.
Qed.

Lemma lipb_opp F : lipb F -> lipb (fun d => - F d).
Proof. by move=> h; apply: lipb_ext (lipb_mul (lipb_const (-1)) h) => d; rewrite mulN1r. Qed.

Lemma lipb_exp F n : lipb F -> lipb (fun d => F d ^+ n).
Proof. by move=> h; elim: n => [|n IH]; [exact: lipb_const|apply: lipb_ext (lipb_mul h IH) => d; rewrite exprS]. Qed.

Lemma lipb_sum (I : Type) (r : seq I) (P : pred I) (F : I -> seq R -> R) : (forall i, lipb (F i)) -> lipb (fun d => \sum_(i <- r | P i) F i d).
Proof.
move=> h; elim: r => [|i r IH]; first by apply: lipb_ext (lipb_const 0) => d; rewrite big_nil.
have [pi|pi] := boolP (P i); last by apply: lipb_ext IH => d; rewrite big_cons (negPf pi).
by apply: lipb_ext (lipb_add (h i) IH) => d; rewrite big_cons pi.
Qed.

Lemma lipb_prod (I : Type) (r : seq I) (P : pred I) (F : I -> seq R -> R) : (forall i, lipb (F i)) -> lipb (fun d => \prod_(i <- r | P i) F i d).
Proof.
move=> h; elim: r => [|i r IH]; first by apply: lipb_ext (lipb_const 1) => d; rewrite big_nil.
have [pi|pi] := boolP (P i); last by apply: lipb_ext IH => d; rewrite big_cons (negPf pi).
by apply: lipb_ext (lipb_mul (h i) IH) => d; rewrite big_cons pi.
Qed.

Notation C := (ComplexField.complex_numFieldType R).
Definition clipb (F : seq R -> C) : Prop := lipb (fun d => complex.Re (F d)) /\ lipb (fun d => complex.Im (F d)).

Lemma clipb_ext (F G : seq R -> C) : F =1 G -> clipb F -> clipb G.
Proof. by move=> e [a b]; split; [apply: lipb_ext a|apply: lipb_ext b] => d; rewrite e. Qed.
Lemma clipb_const c : clipb (fun=> c). Proof. by split; exact: lipb_const. Qed.
Lemma clipb_add (F G : seq R -> C) : clipb F -> clipb G -> clipb (fun d => F d + G d).
Proof. by move=> [a b] [a' b']; split; [apply: lipb_ext (lipb_add a a')|apply: lipb_ext (lipb_add b b')] => d; rewrite raddfD. Qed.
Lemma clipb_mul (F G : seq R -> C) : clipb F -> clipb G -> clipb (fun d => F d * G d).
Proof.
move=> [a b] [a' b']; split.
  by apply: lipb_ext (lipb_add (lipb_mul a a') (lipb_opp (lipb_mul b b'))) => d; case: (F d) (G d) => [x y] [z w].
by apply: lipb_ext (lipb_add (lipb_mul a b') (lipb_mul b a')) => d; case: (F d) (G d) => [x y] [z w] /=; rewrite [X in _ + X]mulrC.
Qed.
Lemma clipb_sum (I : Type) (r : seq I) (P : pred I) (F : I -> seq R -> C) : (forall i, clipb (F i)) -> clipb (fun d => \sum_(i <- r | P i) F i d).
Proof.
move=> h; elim: r => [|i r IH]; first by apply: clipb_ext (clipb_const 0) => d; rewrite big_nil.
have [pi|pi] := boolP (P i); last by apply: clipb_ext IH => d; rewrite big_cons (negPf pi).
by apply: clipb_ext (clipb_add (h i) IH) => d; rewrite big_cons pi.
Qed.
Lemma clipb_prod (I : Type) (r : seq I) (P : pred I) (F : I -> seq R -> C) : (forall i, clipb (F i)) -> clipb (fun d => \prod_(i <- r | P i) F i d).
Proof.
move=> h; elim: r => [|i r IH]; first by apply: clipb_ext (clipb_const 1) => d; rewrite big_nil.
have [pi|pi] := boolP (P i); last by apply: clipb_ext IH => d; rewrite big_cons (negPf pi).
by apply: clipb_ext (clipb_mul (h i) IH) => d; rewrite big_cons pi.
Qed.
Lemma clipb_nsq (F : seq R -> C) : clipb F -> lipb (fun d => nsq (F d)).
Proof. by move=> [a b]; exact: lipb_add (lipb_exp 2 a) (lipb_exp 2 b). Qed.

Variable cis : R -> C.
Hypotheses (ok : cis_ok cis) (lip : cis_lipschitz cis).

Lemma clipb_cis j : clipb (fun d => cis d`_j).
Proof.
case: lip => K hK; have c1 x : complex.Re (cis x) ^+ 2 + complex.Im (cis x) ^+ 2 = 1 by case: ok => _ /(_ x).
have le1 (x y : R) : x ^+ 2 + y ^+ 2 = 1 -> `|x| <= 1.
  move=> h; rewrite -(@ler_pexpn2r _ 2) ?nnegrE // expr1n real_normK ?num_real // -h ler_addl; exact: sqr_ge0.
have le2 (x y e c : R) : 0 <= e -> x ^+ 2 + y ^+ 2 <= (K * c) ^+ 2 -> `|c| <= e -> `|x| <= `|K| * e.
  move=> e0 h ce; apply: (@le_trans _ _ (`|K * c|)); last by rewrite normrM ler_wpmul2l.
  rewrite -(@ler_pexpn2r _ 2) ?nnegrE // !real_normK ?num_real //; apply: le_trans h; rewrite ler_addl; exact: sqr_ge0.
split; exists 1, `|K|.
  split; [exact: ler01|exact: normr_ge0|by move=> d; exact: le1 (c1 _)|move=> d d' e e0 h].
  by have := hK d`_j d'`_j; rewrite /nsq !raddfB /= => le; exact: le2 e0 le (h j).
split; [exact: ler01|exact: normr_ge0|move=> d|move=> d d' e e0 h].
  by apply: (le1 _ (complex.Re (cis d`_j))); rewrite addrC.
by have := hK d`_j d'`_j; rewrite /nsq !raddfB /= addrC => le; exact: le2 e0 le (h j).
Qed.
End Lipschitz.

Section Grid.
Variable R : rcfType.

(* the points whose m coordinates are multiples of 1/N *)
Fixpoint grid (m N : nat) : seq (seq R) :=
  if m is m'.+1 then flatten [seq [seq (i%:R / N%:R) :: d | d <- grid m' N] | i <- iota 0 N] else [:: [::]].

Lemma big_grid (V : zmodType) m N (F : seq R -> V) :
  \sum_(d <- grid m.+1 N) F d = \sum_(i < N) \sum_(d <- grid m N) F ((i%:R / N%:R) :: d).
Proof.
rewrite /= big_flatten big_map -{1}[N]subn0 -/(index_iota 0 N) big_mkord.
by apply: eq_bigr => a _; rewrite big_map.
Qed.

Definition grid_mean m N (F : seq R -> R) : R := \sum_(d <- grid m N) F d / N%:R ^+ m.

Lemma grid_meanS m N F : (0 < N)%N -> grid_mean m.+1 N F = (\sum_(i < N) grid_mean m N (fun d => F ((i%:R / N%:R) :: d))) / N%:R.
Proof.
move=> N0; rewrite /grid_mean -mulr_suml big_grid mulr_suml [RHS]mulr_suml; apply: eq_bigr => i _.
by rewrite mulr_suml [RHS]mulr_suml; apply: eq_bigr => d _; rewrite -mulrA -invfM exprSr.
Qed.

Lemma np_rand_near m N (F G : seq R -> R) e : (0 < N)%N ->
  (forall d d', (forall i, `|d`_i - d'`_i| <= N%:R^-1) -> `|F d - G d'| <= e) ->
  near_exp (on_ok F) (@np_rand R m) (grid_mean m N G) e.
Proof.
move=> N0; have nR : (N%:R : R) != 0 by rewrite pnatr_eq0 -lt0n.
elim: m F G => [|m IH] F G h.
  constructor; rewrite /grid_mean big_seq1 expr0 divr1; apply: h => i; by rewrite !nth_nil subrr normr0 invr_ge0 ler0n.
pose w := nseq N (N%:R^-1 : R).
have nw i : (i < N)%N -> w`_i = N%:R^-1 by move=> il; rewrite nth_nseq il.
have cw i : (i <= N)%N -> cum w i = i%:R / N%:R.
  elim: i => [|i IHi] il; first by rewrite cum0 mul0r.
  by rewrite cumS IHi ?(ltnW il) // nw // -{2}[_^-1]mul1r -mulrDl mulrSr.
have dw : is_distr w.
  split; first by apply/allP => y /nseqP[-> _]; rewrite invr_ge0 ler0n.
  by rewrite -cum_size size_nseq cw // divff.
rewrite [np_rand _]/= grid_meanS //.
apply: (NearUnif (v := fun i => grid_mean m N (fun d => G ((i%:R / N%:R) :: d))) (e := fun=> e) dw).
  move=> i u; rewrite size_nseq => il /andP[l1 l2]; rewrite -!/(cum _ _) !cw // ?(ltnW il) // in l1 l2.
  have -> : e = e + 0 by rewrite addr0.
  apply: near_bind (lexx _) (IH (fun d => F (u :: d)) _ _) _.
    move=> d d' hd; apply: h => -[|j] //=.
    rewrite ger0_norm ?subr_ge0 ?(ltW l1) // ler_subl_addr; apply: le_trans (ltW l2) _.
    by rewrite mulrSr mulrDl mul1r addrC.
  by apply: always_true => -[d|er] /=; constructor; rewrite subrr normr0.
rewrite size_nseq.
have -> : \sum_(i < N) w`_i * grid_mean m N (fun d => G ((i%:R / N%:R) :: d)) = (\sum_(i < N) grid_mean m N (fun d => G ((i%:R / N%:R) :: d))) / N%:R.
  by rewrite mulr_suml; apply: eq_bigr => i _; rewrite nw // mulrC.
rewrite subrr normr0 add0r; under eq_bigr => i _ do rewrite nw //.
by rewrite sumr_const card_ord -[_ *+ N]mulr_natl mulrA divff // mul1r.
Qed.

(* the mean over fine grids is the mean over random phases *)
Lemma np_rand_lim m F v N0 : Num.archimedean_axiom R -> lipb F ->
  (forall N, (N0 <= N)%N -> (0 < N)%N -> grid_mean m N F = v) -> lim_exp (on_ok F) (@np_rand R m) v.
Proof.
move=> arch [B [K [_ K0 _ kF]]] H e e0.
have [N1 hN] := arch (K / e).
have hN' : K / e < (maxn N1.+1 N0)%:R.
  apply: le_lt_trans (ler_norm _) _; apply: lt_le_trans hN _; rewrite ler_nat; apply: leq_trans (leqnSn _) (leq_maxl _ _).
have p : (0 < maxn N1.+1 N0)%N by rewrite leq_max.
rewrite -(H _ (leq_maxr _ _) p); apply: np_rand_near => // d d' hd.
have i0 : 0 <= (maxn N1.+1 N0)%:R^-1 :> R by rewrite invr_ge0 ler0n.
apply: le_trans (kF d d' _ i0 hd) _.
rewrite ler_pdivr_mulr ?ltr0n // mulrC; apply: ltW; by rewrite ltr_pdivr_mulr in hN'.
Qed.

(* characters *)
Variable cis : R -> ComplexField.complex_numFieldType R.
Hypothesis ok : cis_ok cis.
Notation C := (ComplexField.complex_numFieldType R).

Definition charac (a b : seq nat) (d : seq R) : C :=
  \prod_(j < size a) (cis d`_j ^+ nth 0%N a j * conjc (cis d`_j) ^+ nth 0%N b j).

Lemma charac_cons x a y b u d : charac (x :: a) (y :: b) (u :: d) = cis u ^+ x * conjc (cis u) ^+ y * charac a b d.
Proof. by rewrite /charac big_ord_recl. Qed.

Lemma cis0 : cis 0 = 1.
Proof. by case: ok => _ _ /(_ 1%N 0%N isT) => -[_ /(_ (dvdn0 _))]; rewrite mul0r. Qed.

Lemma cis_nat (x : R) k : cis (k%:R * x) = cis x ^+ k.
Proof.
case: ok => add _ _; elim: k => [|k IH]; first by rewrite mul0r cis0.
by rewrite mulrSr mulrDl mul1r add IH exprSr.
Qed.

Lemma cis_conj x : cis x * conjc (cis x) = 1.
Proof. by case: ok => _ /(_ x) h _; rewrite mulrC -nsqE h. Qed.

Lemma char_sum1 N k : (0 < k < N)%N -> \sum_(i < N) cis (i%:R / N%:R) ^+ k = 0.
Proof.
move=> /andP[k0 kN]; have N0 : (0 < N)%N := leq_ltn_trans (leq0n k) kN.
have e i : cis (i%:R / N%:R) ^+ k = cis (k%:R / N%:R) ^+ i.
  by rewrite -!cis_nat; congr cis; rewrite mulrCA.
under eq_bigr => i _ do rewrite e.
set z := cis _; have zN : z ^+ N = 1 by rewrite -cis_nat mulrC divfK ?pnatr_eq0 -?lt0n // -[k%:R]mulr1 cis_nat -(divr1 1) ; case: ok => _ _ h; rewrite (proj2 (h 1%N 1%N isT)) // expr1n.
have z1 : z != 1 by apply/eqP => /(proj1 ((let: And3 _ _ h := ok in h) N k N0)) /dvdn_leq -/(_ k0); rewrite leqNgt kN.
apply: (mulfI (x := z - 1)); first by rewrite subr_eq0.
by rewrite -subrX1 zN subrr mulr0.
Qed.

Lemma char_sum N a b : (a < N)%N -> (b < N)%N ->
  \sum_(i < N) (cis (i%:R / N%:R) ^+ a * conjc (cis (i%:R / N%:R)) ^+ b) = (a == b)%:R * N%:R.
Proof.
have red x c k : cis x ^+ (c + k) * conjc (cis x) ^+ c = cis x ^+ k by rewrite exprD mulrAC -exprMn cis_conj expr1n mul1r.
have red' x c k : cis x ^+ c * conjc (cis x) ^+ (c + k) = conjc (cis x ^+ k) by rewrite exprD mulrA -exprMn cis_conj expr1n mul1r -rmorphX.
move=> aN bN; case: (ltngtP a b) => [lt|lt|->].
- rewrite mul0r -(subnKC (ltnW lt)); under eq_bigr => i _ do rewrite red'.
  rewrite -rmorph_sum /= char_sum1 ?rmorph0 // subn_gt0 lt /=; exact: leq_ltn_trans (leq_subr _ _) bN.
- rewrite mul0r -(subnKC (ltnW lt)); under eq_bigr => i _ do rewrite red.
  rewrite char_sum1 // subn_gt0 lt /=; exact: leq_ltn_trans (leq_subr _ _) aN.
under eq_bigr => i _ do rewrite -exprMn cis_conj expr1n.
by rewrite sumr_const card_ord mul1r.
Qed.

Lemma grid_charac m N a b : size a = m -> size b = m -> all (fun x => x < N)%N a -> all (fun x => x < N)%N b -> 
  \sum_(d <- grid m N) charac a b d = (a == b)%:R * N%:R ^+ m.
Proof.
elim: m a b => [|m IH] [|x a] [|y b] // => [_ _ _ _|[sa] [sb] /andP[xN aN] /andP[yN bN]].
  by rewrite big_seq1 /charac big_ord0 mul1r.
rewrite big_grid.
transitivity (\sum_(i < N) (cis (i%:R / N%:R) ^+ x * conjc (cis (i%:R / N%:R)) ^+ y) * ((a == b)%:R * N%:R ^+ m)).
  apply: eq_bigr => i _; rewrite -IH // mulr_sumr; apply: eq_bigr => d _; exact: charac_cons.
by rewrite -mulr_suml char_sum // eqseq_cons exprS; case: (x == y); rewrite ?mul0r ?mul1r // mulrCA.
Qed.
End Grid.
