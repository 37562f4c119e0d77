(* The strategies with independent particles in rounded arithmetic: networks,
   uniform losses, exact arithmetic. *)
From mathcomp Require Import all_ssreflect all_algebra complex.
From mathcomp Require Import ring zify.
From Verif Require Import Base SpecStates Combi SpecPerm PermMath SpecBS BsMath BsComb BsNorm SpecProb ProbMath ModelStates ProofSel.
From Verif Require Import ModelGcc ModelGccB ModelNet SpecNet LemNet ProofGcc3 ProofGccB1 ProofGccB2 SpecGcc LemGcc ModelBobs ProofBobs4 ProofBobs5.
From Verif Require Import SpecFixed ModelFixed ProofFixed1 ProofFixed2 ProofFixed3.
From Verif Require Import ModelFloat SpecFloat ModelFloatDist ModelFloatGcc ModelFloatGccB SpecFloatSub SpecFloatGcc SpecFloatGccB ProofFloat ProofFloat4 ProofFloatGcc1 ProofFloatGcc3 ProofFloatNet4 ProofFloatSub  ProofFloatSel ProofFloatGcc1 ProofFloatSub2 ProofFloatDist ProofFloatSelB ProofFloatGccB3
  ModelFloatNet SpecFloatNet ProofFloatNet3 ProofFloatNet4 ProofFloatNet5 LemFloatNet ModelFloatFixed SpecFloatFixed ProofFloatFixed1 ProofFloatFixed2 ProofFloatFixed3.
Set Implicit Arguments.
Unset Strict Implicit.
Unset Printing Implicit Defensive.
Import Order.TTheory GRing.Theory Num.Theory.
Local Open Scope ring_scope.
Local Open Scope py_scope.

(* choice among nearly normalised weights *)
Section Choice.
Variable R : rcfType.
Variables (u : R) (B : arith R) (f_check : seq R -> R) (f_search : R -> seq R -> nat) (N : nat).
Hypothesis u0 : 0 <= u.
Hypothesis accB : accurate u B.
Hypothesis acc_check : accurate_sum u f_check.
Hypothesis srch : right_search f_search.
Hypothesis N0 : (0 < N)%N.
Notation near := (near u).
Variables w p : seq R.
Hypothesis dw : is_distr w.
Hypothesis sp : size p = size w.
Notation m := (size w).
Hypothesis small : (9 * m + 4)%:R * u <= (2%:R ^+ 27)^-1.
Hypothesis p_near : forall i, (i < m)%N -> near (2 * m + 1) w`_i w`_i p`_i.
Notation y := ((1 + u) ^+ (9 * m + 4) - 1).

Let w0 : all (fun x => 0 <= x) w. Proof. by case: dw. Qed.
Let w1 : \sum_(x <- w) x = 1. Proof. by case: dw. Qed.
Let nonneg k (v x : R) (h : (k <= 9 * m + 4)%N) := @near_nonneg R u u0 w small k v x h.

Lemma sp_nn : all (fun x => 0 <= x) p.
Proof.
apply/(all_nthP 0) => i; rewrite sp => im.
by apply: nonneg (p_near im); lia.
Qed.

Lemma sp_psum j : (j <= m)%N -> near (2 * m + 1 + j) (cum w j) (cum w j) (fl_partial_sum B p j).
Proof.
elim: j => [|j IH] jm.
  by rewrite cum0 /fl_partial_sum take0; apply: near_exact; rewrite ?normr0.
rewrite /fl_partial_sum (take_nth 0) ?sp // -cats1 foldl_cat /= -/(fl_partial_sum B p j).
rewrite cumS addnS; apply: near_add => //; first exact: IH (ltnW jm).
by apply: near_k (p_near jm) => //; lia.
Qed.

Lemma sp_cdf j : (j < m)%N -> near (9 * m + 4) (cum w j.+1) (cum w j.+1) (fl_choice_cdf B p)`_j.
Proof.
move=> jm; rewrite /fl_choice_cdf sp (nth_map 0%N) ?size_iota // nth_iota // add0n.
have [_ h1] := sp_psum (leqnn m); rewrite cum_all w1 -[X in _ * X](normr1 R) in h1.
have m3 : (1 + u) ^+ (2 * m + 1 + m) <= 3%:R / 2%:R by apply: (pow_half u0 small); lia.
have [_] := near_fdivK u0 accB m3 (oner_neq0 _) h1 (sp_psum jm).
by rewrite normr1 !divr1; apply: near_k => //; lia.
Qed.

Lemma sp_size_cdf : size (fl_choice_cdf B p) = m.
Proof. by rewrite size_map size_iota sp. Qed.

Definition sidx (k : nat) : nat := f_search (k%:R / N%:R) (fl_choice_cdf B p).

Lemma sp_choice : fl_np_choice B f_check f_search N p = Int N (fun k => Ret (Ok (sidx k))).
Proof.
rewrite /fl_np_choice.
have -> : has (fun x => x < 0) p = false.
  by apply/negbTE; rewrite -all_predC; apply: sub_all sp_nn => x /=; rewrite -leNgt.
suff -> : (choice_tol R < `|f_sub B (f_check p) 1|) = false by [].
apply/negbTE; rewrite -leNgt.
have h : near (2 * m + 1 + m) 1 1 (f_check p).
  have := @near_sum R u f_check u0 acc_check (2 * m + 1) _ (iota 0 m) (fun i => w`_i) (fun i => w`_i) (fun i => p`_i) _.
  have -> : [seq p`_i | i <- iota 0 m] = p by rewrite -{1}sp; exact: mkseq_nth.
  rewrite size_iota.
  have -> : \sum_(i <- iota 0 m) w`_i = 1 by rewrite -w1 [RHS](big_nth 0) /index_iota subn0.
  by apply=> i; rewrite mem_iota => /= im; apply: p_near.
apply: le_trans (y_small u0 small).
have a := acc_sub accB (f_check p) 1; case: h => _ h; rewrite mulr1 in h.
have -> : f_sub B (f_check p) 1 = (f_sub B (f_check p) 1 - (f_check p - 1)) + (f_check p - 1) by rewrite subrK.
apply: le_trans (ler_norm_add _ _) _; apply: le_trans (ler_add a (lexx _)) _.
rewrite -[X in _ + X]mul1r -mulrDl [u + 1]addrC.
apply: le_trans (ler_wpmul2l _ h) _; first by rewrite addr_ge0 ?ler01.
rewrite mulrBr mulr1 -exprS; apply: ler_sub; first by apply: E_le => //; lia.
by rewrite ler_addl.
Qed.

Lemma sp_cum i : (i <= m)%N -> 0 <= cum w i <= 1.
Proof. by move=> im; rewrite cum_nn //= -w1 -cum_all; apply: cum_mono. Qed.

Lemma sidx_upper i k : (i <= m)%N -> (sidx k < i)%N -> k%:R / N%:R <= cum w i + y.
Proof.
move=> im lt; have [_ _] := srch (k%:R / N%:R) (fl_choice_cdf B p); rewrite -/(sidx k) sp_size_cdf.
have cm : (sidx k < m)%N by apply: leq_trans lt im.
move=> /(_ cm) h; apply: le_trans (ltW h) _.
have [_] := sp_cdf cm; rewrite ler_norml => /andP[_ h']; rewrite ler_subl_addr in h'.
apply: le_trans h' _; rewrite addrC; apply: ler_add; first exact: cum_mono.
rewrite -[X in _ <= X]mulr1; apply: ler_wpmul2l; first exact: E0.
by have /andP[] := sp_cum cm.
Qed.

Lemma sidx_lower i k : (i <= m)%N -> (i <= sidx k)%N -> cum w i - y <= k%:R / N%:R.
Proof.
move=> im le; have [cm h _] := srch (k%:R / N%:R) (fl_choice_cdf B p); rewrite -/(sidx k) sp_size_cdf in cm h.
case: (posnP i) => [->|i0].
  rewrite cum0 sub0r; apply: (@le_trans _ _ 0); first by rewrite oppr_le0 E0.
  by rewrite divr_ge0 ?ler0n.
have s0 : (0 < sidx k)%N by apply: leq_trans i0 le.
apply: le_trans (h s0); case E: (sidx k) s0 le cm => [//|j] _ le cm.
have [_] := sp_cdf cm; rewrite ler_norml => /andP[h1 _]; rewrite ler_subr_addr in h1.
apply: le_trans h1; rewrite addrC; apply: ler_add; last exact: cum_mono.
rewrite ler_opp2 -[X in _ <= X]mulr1; apply: ler_wpmul2l; first exact: E0.
by have /andP[] := sp_cum cm.
Qed.

Lemma sidx_le k : (sidx k <= m)%N.
Proof. by have [] := srch (k%:R / N%:R) (fl_choice_cdf B p); rewrite -/(sidx k) sp_size_cdf. Qed.

Lemma sp_avg (V : nat -> R) : (forall i, (i <= m)%N -> 0 <= V i <= 1) ->
  `|(\sum_(k < N) V (sidx k)) / N%:R - \sum_(i < m) w`_i * V i| <= (m + m.+1)%:R * choice_error u N m.
Proof.
move=> V01; have := @grid_avg R N m sidx (cum w) y N0 (E0 u0 _) sp_cum sidx_upper sidx_lower sidx_le V V01.
rewrite cum_all w1 subrr mul0r addr0.
suff -> : \sum_(i < m) (cum w i.+1 - cum w i) * V i = \sum_(i < m) w`_i * V i by [].
by apply: eq_bigr => i _; rewrite cumS addrC addKr.
Qed.
End Choice.

(* networks *)
Section Nets.
Variable R : rcfType.
Notation C := (ComplexField.complex_numFieldType R).
Notation mat := (seq (seq C)).
Variables (u : R) (B : arith R) (f_sqrt : R -> R) (f_dot : seq C -> seq C -> C) (svd : mat -> res (mat * seq R * mat)).
Hypotheses (u0 : 0 <= u) (accB : accurate u B) (acc_sqrt : accurate_sqrt u f_sqrt) (acc_dot : accurate_dot (u%:C)%C f_dot).

Lemma lossless_accurate m (M M0 : mat) eps : 0 <= eps -> is_square m M -> entries_bounded m M0 (1%:C)%C -> close m eps M M0 ->
  accurate_network f_dot m M0 (lossless_error u eps m) (LosslessNetwork M).
Proof.
move=> e0 sq b0 cl v sv; have [w [e1 e2 e3]] := fl_lossless_ok acc_dot sq sv.
exists w; split=> // i im; apply: le_trans (ler_dist_add (\sum_(j < m) ent M i j * v`_j) _ _) _.
have h1 : \sum_(j < m) `|ent M i j * v`_j| <= ((1 + eps)%:C)%C * \sum_(j < m) `|v`_j|.
  rewrite mulr_sumr; apply: ler_sum => j _; rewrite normrM ler_wpmul2r ?normr_ge0 //.
  have -> : ent M i j = ent M0 i j + (ent M i j - ent M0 i j) by rewrite addrC subrK.
  apply: le_trans (ler_norm_add _ _) _; rewrite rmorphD; apply: ler_add; first exact: b0.
  exact: cl.
have h2 : `|\sum_(j < m) ent M i j * v`_j - \sum_(j < m) ent M0 i j * v`_j| <= (eps%:C)%C * \sum_(j < m) `|v`_j|.
  rewrite -sumrB mulr_sumr; apply: le_trans (ler_norm_sum _ _ _) _; apply: ler_sum => j _.
  by rewrite -mulrBl normrM ler_wpmul2r ?normr_ge0 // cl.
apply: le_trans (ler_add (e3 i im) h2) _.
have z0 : 0 <= (((1 + u) ^+ m.+1 - 1)%:C)%C :> C by rewrite lecR E0.
apply: le_trans (ler_add (ler_wpmul2l z0 h1) (lexx _)) _.
rewrite mulrA -mulrDl -rmorphM -rmorphD /lossless_error le_eqVlt; apply/orP; left; apply/eqP; congr (_%:C%C * _).
by move: ((1 + u) ^+ m.+1) => z; ring.
Qed.

Variables (d : R) (m : nat) (M M0 V U : mat) (s : seq R).
Hypotheses (d0 : 0 <= d) (m0 : (0 < m)%N) (eM : svd M = Ok (V, s, U)) (nM : near_svd m d M0 V s U) (sub : subunitary m M0).

Lemma lossy_accurate E : fl_prepare_expanded B f_sqrt f_dot svd M = Ok E ->
  accurate_network f_dot m M0 (lossy_error u d m) (LossyNetwork E).
Proof.
move=> e v sv.
exact: (@C83_lossy_network_lemma R u d B f_sqrt f_dot svd m M M0 V U s E v u0 d0 accB acc_sqrt acc_dot m0 eM nM sub e sv).
Qed.

Lemma fl_new_fixedE l : exists2 y, fl_new_fixed B f_sqrt f_dot svd M l m None = Ok y &
  [/\ fx_left y = l, fx_modes y = m & accurate_network f_dot m M0 (lossy_error u d m) (fx_net y)].
Proof.
have [E [E0 [e _ _ _ _]]] := @C83_expanded_matrix_lemma R u d B f_sqrt f_dot svd m M M0 V U s u0 d0 accB acc_sqrt acc_dot m0 eM nM sub.
rewrite /fl_new_fixed e; eexists; first reflexivity.
by split=> //; apply: lossy_accurate.
Qed.
End Nets.

Section Uniform.
Variable R : rcfType.
Notation C := (ComplexField.complex_numFieldType R).
Notation mat := (seq (seq C)).
Variables (u c d : R) (A : arith C) (B : arith R) (f_sqrt : R -> R) (f_dot : seq C -> seq C -> C) (cis f_cis : R -> C).
Variables (svd : mat -> res (mat * seq R * mat)) (f_check : seq R -> R) (f_search : R -> seq R -> nat).
Hypotheses (u0 : 0 <= u) (c0 : 0 <= c) (d0 : 0 <= d).
Hypotheses (accA : accurate (u%:C)%C A) (accB : accurate u B) (acc_sqrt : accurate_sqrt u f_sqrt).
Hypothesis acc_dot : accurate_dot (u%:C)%C f_dot.
Hypotheses (acc_check : accurate_sum u f_check) (srch : right_search f_search).
Hypotheses (ok : cis_ok cis) (acc_cis : accurate_cis c cis f_cis).
Variables (m : nat) (M M0 V U : mat) (sv : seq R).
Hypotheses (m0 : (0 < m)%N) (eM : svd M = Ok (V, sv, U)) (nM : near_svd m d M0 V sv U) (sub : subunitary m M0).
Variables (N : nat) (s : seq nat) (rand : nat -> rprog R (res (seq R))) (eta : R).
Hypotheses (N0 : (0 < N)%N) (eta01 : 0 <= eta <= 1).
Notation n := (sumn s).
Notation nu := (lossy_error u d m).
Notation w := [seq binomial_weight n eta l | l <- iota 0 n.+1].
Notation ws := (fl_separable_weights B eta n).
Hypothesis small : (9 * n.+1 + 4)%:R * u <= (2%:R ^+ 27)^-1.

Let sw : size w = n.+1. Proof. by rewrite size_map size_iota. Qed.
Let sws : size ws = size w. Proof. by rewrite !size_map. Qed.
Let dw : is_distr w := bw_distr eta01 n.
Let small' : (9 * size w + 4)%:R * u <= (2%:R ^+ 27)^-1. Proof. by rewrite sw. Qed.

Lemma u_small8 : u <= 8%:R^-1.
Proof.
apply: (@le_trans _ _ ((9 * n.+1 + 4)%:R * u)).
  by rewrite -[X in X <= _]mul1r ler_wpmul2r // ler1n addn_gt0 orbT.
apply: le_trans small _; rewrite lef_pinv ?posrE ?exprn_gt0 ?ltr0n // -[8%N]/(2 ^ 3)%N natrX.
by rewrite ler_eexpn2l ?ltr1n.
Qed.

Lemma nu_ge0 : 0 <= nu.
Proof. by rewrite /lossy_error subr_ge0 -[X in X <= _]mulr1; apply: ler_pmul; rewrite ?ler01 ?E1 // ler_addl expand_error_ge0. Qed.

Lemma sep_near i : (i < size w)%N -> near u (2 * size w + 1) w`_i w`_i ws`_i.
Proof.
rewrite sw => im; rewrite !(nth_map 0%N) ?size_iota // nth_iota // add0n /binomial_weight [_%:R * _]mulrC.
have /andP[h0 h1] := eta01.
have n1 : near u 1 ('C(n, i)%:R) ('C(n, i)%:R) (f_int B (Posz 'C(n, i))).
  by have := near_int u0 accB (Posz 'C(n, i)); rewrite -pmulrn ger0_norm ?ler0n.
have n2 : near u (i * 1) (eta ^+ i) (eta ^+ i) (f_pow B eta i).
  by apply: near_pow => //; apply: near_exact; rewrite // ger0_norm.
have d0' : 0 <= 1 - eta by rewrite subr_ge0.
have n3 : near u 1 (1 - eta) (1 - eta) (f_sub B 1 eta).
  apply: (@near_round1 _ _ u0 0 _ _ (1 - eta)); last exact: acc_sub.
  by apply: near_exact; rewrite // ger0_norm.
have n4 := near_pow u0 accB (n - i) n3.
have := near_mul u0 accB (near_mul u0 accB n2 n1) n4.
by apply: near_k => //; lia.
Qed.

Notation si := (sidx B f_search N ws).

Lemma sep_choice : fl_np_choice B f_check f_search N ws = Int N (fun k => Ret (Ok (si k))).
Proof. exact (sp_choice f_search u0 accB acc_check N0 dw sws small' sep_near). Qed.

Lemma fl_uniform_always :
  always (fun r => exists d, r = Ok d) (rand m) ->
  always (fun y => exists t, [/\ y = Ok t, size t = m & (sumn t <= n.+1)%N])
    (fl_uniform_sample A B f_sqrt f_dot svd f_cis rand N f_check f_search (Uniform M m eta) s).
Proof.
move=> HA; rewrite /fl_uniform_sample [un_eta _]/= [un_matrix _]/= [un_modes _]/= sep_choice => k kN.
have lt : (si k <= n.+1)%N by have := sidx_le B N srch sws k; rewrite sw.
move: (si k) lt => l lt; rewrite /rpbind /=.
have [y e [yl ym yn]] := fl_new_fixedE u0 accB acc_sqrt acc_dot d0 m0 eM nM sub l.
move: e; rewrite /fl_new_fixed => ->.
apply: always_bind; apply: always_impl (fl_fixed_simulate_always A B f_sqrt f_cis m0 N s yl ym yn 1 HA) => _ [L [-> sL h]].
case: L sL h => [//|t [|]//] _ h; have [st le _] := h t (mem_head _ _).
by exists t; split=> //; exact: leq_trans le lt.
Qed.

Section Law.
Variables (S : seq (seq R)) (W : seq R -> R).
Hypothesis HA : always (fun r => exists2 d, r = Ok d & d \in S) (rand m).
Hypothesis HE : forall f, has_exp (on_ok f) (rand m) (\sum_(d <- S) W d * f d).

Lemma uniform_lawE f : \sum_(t <- lcomps m n) uniform_law cis m M0 n eta S W t * f t =
  \sum_(l < n.+1) binomial_weight n eta l * \sum_(t <- lcomps m l) fixed_law cis m M0 n l S W t * f t.
Proof.
under eq_bigr => t _ do rewrite /uniform_law big_mkcond mulr_suml.
rewrite exchange_big; apply: eq_bigr => l _ /=; rewrite mulr_sumr.
have ln : (l <= n)%N by rewrite -ltnS.
rewrite (lcomps_sum _ _ ln) [RHS]big_mkcond.
by apply: eq_bigr => t _; case: ifP => _; rewrite ?mul0r // mulrA.
Qed.

Let nl l : (l <= n)%N -> (0 < n)%N || (l == 0%N).
Proof. by case: (n) => //; rewrite leqn0 => ->. Qed.

Lemma uniform_law_bound h e : (forall t, `|h t| <= e) -> `|\sum_(t <- lcomps m n) uniform_law cis m M0 n eta S W t * h t| <= e.
Proof.
move=> he; rewrite uniform_lawE; apply: le_trans (ler_norm_sum _ _ _) _.
rewrite -[X in _ <= X]mul1r -(binomial_weight_sum n eta) mulr_suml; apply: ler_sum => l _.
have g0 := binomial_weight_ge0 n l eta01; rewrite normrM (ger0_norm g0) ler_wpmul2l //.
have ln : (l <= n)%N by rewrite -ltnS.
exact: (fixed_law_bound ok sub HE (nl ln)).
Qed.

Variable E : mat.
Hypothesis eE : fl_prepare_expanded B f_sqrt f_dot svd M = Ok E.
Let fy l := Fixed l m (LossyNetwork E).
Let yn l : accurate_network f_dot m M0 nu (fx_net (fy l)) := lossy_accurate u0 accB acc_sqrt acc_dot d0 m0 eM nM sub eE.

Definition unifv (l : nat) (f : seq nat -> R) : R :=
  \sum_(d <- S) W d * fixedv B f_dot m N l (fy l) s f (fstate A B f_sqrt f_cis m n d).

Lemma unifv_exp l f : has_exp (on_ok f) (fl_fixed_sample A B f_sqrt f_dot f_cis rand N (fy l) s) (unifv l f).
Proof. exact (fl_fixed_exp A B f_sqrt f_cis m0 (l := l) (x := fy l) s N0 erefl erefl (yn l) HA HE f). Qed.

Lemma unifv_01 l f : (forall t, 0 <= f t <= 1) -> 0 <= unifv l f <= 1.
Proof. by move=> f01; apply: (exp_01 (unifv_exp l f)); exact: on_ok01. Qed.

Definition univ (f : seq nat -> R) : R := (\sum_(k < N) unifv (si k) f) / N%:R.

Lemma fl_uniform_exp f :
  has_exp (on_ok f) (fl_uniform_sample A B f_sqrt f_dot svd f_cis rand N f_check f_search (Uniform M m eta) s) (univ f).
Proof.
rewrite /fl_uniform_sample [un_eta _]/= [un_matrix _]/= [un_modes _]/= sep_choice.
apply: (@ExpInt _ _ _ N _ (fun k => unifv (si k) f)) => // k kN; move: (si k) => l.
rewrite /rpbind /= /fl_new_fixed eE /= -/(fy l).
have H := loopv_exp (unifv_exp l) 1 (fun L => on_ok f (py_get L 0)) [::].
have H2 : has_exp (on_ok (fun y => on_ok f (py_get y.1 0))) (fl_fixed_simulate A B f_sqrt f_dot f_cis rand N s 1 (fy l)) (unifv l f).
  by apply: has_exp_rbind H _; apply: always_true => -[y|] //=; exact: ExpRet.
by apply: has_exp_rbind H2 _; apply: always_true => -[a|//]; exact: ExpRet.
Qed.

Lemma fl_uniform_near f : (forall t, 0 <= f t <= 1) ->
  `|univ f - \sum_(t <- lcomps m n) uniform_law cis m M0 n eta S W t * f t| <= uniform_error u c nu N m n.
Proof.
move=> f01; have := @sp_avg R u B f_search N u0 accB srch N0 w ws dw sws small' sep_near (fun l => unifv l f) (fun l _ => unifv_01 l f01).
rewrite sw -/(univ f) => h.
apply: le_trans (ler_dist_add (\sum_(i < n.+1) w`_i * unifv i f) _ _) _; apply: ler_add => //.
rewrite uniform_lawE -sumrB; apply: le_trans (ler_norm_sum _ _ _) _.
rewrite -[X in _ <= X]mul1r -(binomial_weight_sum n eta) mulr_suml; apply: ler_sum => l _.
have g0 := binomial_weight_ge0 n l eta01.
rewrite (nth_map 0%N) ?size_iota // nth_iota // add0n -mulrBr normrM (ger0_norm g0) ler_wpmul2l //.
have ln : (l <= n)%N by rewrite -ltnS.
apply: le_trans (fl_fixed_near u0 u_small8 c0 nu_ge0 accA accB acc_sqrt ok acc_cis m0 sub N0 (yn l) HE (nl ln) f01) _.
rewrite /fixed_error ler_wpmul2r ?ler_nat //.
have e0 (a b : R) k : 0 <= a -> 0 <= b -> 0 <= (1 + a) ^+ k * (1 + b) - 1.
  by move=> a0 b0; rewrite subr_ge0 -[X in X <= _]mulr1; apply: ler_pmul; rewrite ?ler01 ?E1 // ler_addl.
have ae : 0 <= amplitude_error u c nu m := amp_error_ge0 u0 c0 nu_ge0 m.
have i0 : 0 <= intensity_error u c nu m.
  rewrite /intensity_error -[(1 + amplitude_error _ _ _ _) ^+ 2](subrK 1) [_ - 1 + 1]addrC.
  by apply: e0 => //; exact: E0.
by rewrite /place_error mulr_ge0 ?ler0n // addr_ge0 ?invr_ge0 ?ler0n // e0 // mulr_ge0 ?ler0n.
Qed.
End Law.

Section Top.
Variables (S : seq (seq R)) (W : seq R -> R).
Hypothesis HA : always (fun r => exists2 d, r = Ok d & d \in S) (rand m).
Hypothesis HE : forall f, has_exp (on_ok f) (rand m) (\sum_(d <- S) W d * f d).

Lemma fl_uniform_simulate_exp k f : (forall L, 0 <= f L <= 1) ->
  exists v, [/\ has_exp (on_ok (fun y => f y.1))
      (fl_uniform_simulate A B f_sqrt f_dot svd f_cis rand N f_check f_search s k (Uniform M m eta)) v, 0 <= v <= 1
   & `|v - iid_exp (lcomps m n) (uniform_law cis m M0 n eta S W) k f| <= k%:R * uniform_error u c nu N m n].
Proof.
move=> f01.
have [E [E0 [eE _ _ _ _]]] := @C83_expanded_matrix_lemma R u d B f_sqrt f_dot svd m M M0 V U sv u0 d0 accB acc_sqrt acc_dot m0 eM nM sub.
have HV := fl_uniform_exp HA HE eE.
exists (loopv (univ S W E) k f); split.
- apply: has_exp_rbind (loopv_exp HV k f [::]) _.
  by apply: always_true => -[y|] //=; exact: ExpRet.
- exact: (loopv_01 HV).
- by apply: (loopv_near HV) => //; [exact: (fl_uniform_near HA HE eE)|exact: uniform_law_bound].
Qed.
End Top.

Lemma fl_uniform_simulate_always k :
  always (fun r => exists d, r = Ok d) (rand m) ->
  always (fun y => exists L, [/\ y = Ok (L, Uniform M m eta), size L = k & forall t, t \in L -> size t = m /\ (sumn t <= n.+1)%N])
    (fl_uniform_simulate A B f_sqrt f_dot svd f_cis rand N f_check f_search s k (Uniform M m eta)).
Proof.
move=> HA.
have H := @sample_loop_always R _ _
  (fun _ => fl_uniform_sample A B f_sqrt f_dot svd f_cis rand N f_check f_search (Uniform M m eta) s) (fun t => Ok t) (fun=> True)
  (fun t => size t = m /\ (sumn t <= n.+1)%N) k [::].
apply: always_rbind; apply: always_impl (H _ _) => //.
  by move=> _ [L [g [-> sL _ h]]]; exists L; split=> //= t /aux_in/h.
by move=> _ _; apply: always_impl (fl_uniform_always HA) => _ [t [-> a b]]; exists t, t.
Qed.
End Uniform.
