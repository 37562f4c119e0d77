(* The strategy for different losses in rounded arithmetic: the particles left. *)
From mathcomp Require Import all_ssreflect all_algebra complex.
From mathcomp Require Import ring zify.
From Verif Require Import Base SpecStates Combi SpecPerm PermMath SpecBS BsMath BsComb BsNorm SpecProb ProbMath ModelStates ModelPerm ModelDist ModelGcc ModelGccB ProofGcc3 ProofSel SpecGcc LemGcc ModelNet SpecNet ProofGccB2
  ProofNet1 ProofNet2 ModelBobs SpecBobs ProofBobs2 ProofBobs3 ProofBobs4 ProofBobs5.
From Verif Require Import ModelFloat SpecFloat ModelFloatGcc ModelFloatGccB SpecFloatSub SpecFloatGcc SpecFloatGccB ProofFloat ProofFloat4 ProofFloatSel ProofFloatGcc2 ProofFloatDist2 ProofFloatGccB2 ProofFloatGccB3 ModelFloatNet SpecFloatNet
  SpecFloatFixed ProofFloatFixed1 ProofFloatFixed3 ModelFloatLState SpecFloatLState ProofFloatLState1 ProofFloatLState4 ModelFloatBobs SpecFloatBobs.
Set Implicit Arguments.
Unset Strict Implicit.
Unset Printing Implicit Defensive.
Import Order.TTheory GRing.Theory Num.Theory.
Local Open Scope ring_scope.
Local Open Scope py_scope.

Section Own.
Variable R : rcfType.
Variables (u : R) (B : arith R) (N n : nat) (eta : R).
Hypothesis u0 : 0 <= u.
Hypothesis accB : accurate u B.
Hypothesis N0 : (0 < N)%N.
Hypothesis eta01 : 0 <= eta <= 1.
Definition own_ws : seq R := [seq f_mul B (f_mul B (f_pow B eta l) (f_int B (Posz 'C(n, l)))) (f_pow B (f_sub B 1 eta) (n - l))
           | l <- iota 0 n.+1].
Notation ws := own_ws.
Notation w := [seq binomial_weight n eta l | l <- iota 0 n.+1].
Notation near := (near u).
Notation y := ((1 + u) ^+ (3 * n + 4) - 1).

Lemma size_own : size ws = n.+1. Proof. by rewrite size_map size_iota. Qed.

Lemma own_near i : (i < n.+1)%N -> near (2 * n + 3) w`_i w`_i ws`_i.
Proof.
move=> im; rewrite !(nth_map 0%N) ?size_iota // nth_iota // add0n /binomial_weight.
have /andP[h0 h1] := eta01.
have n1 : near 1 ('C(n, i)%:R) ('C(n, i)%:R) (f_int B (Posz 'C(n, i))).
  by have := near_int u0 accB (Posz 'C(n, i)); rewrite -pmulrn ger0_norm ?ler0n.
have n2 : near (i * 1) (eta ^+ i) (eta ^+ i) (f_pow B eta i).
  by apply: near_pow => //; apply: near_exact; rewrite // ger0_norm.
have d0 : 0 <= 1 - eta by rewrite subr_ge0.
have n3 : near 1 (1 - eta) (1 - eta) (f_sub B 1 eta).
  apply: (@near_round1 _ _ u0 0 _ _ (1 - eta)); last exact: acc_sub.
  by apply: near_exact; rewrite // ger0_norm.
have n4 := near_pow u0 accB (n - i) n3.
have := near_mul u0 accB (near_mul u0 accB n2 n1) n4; rewrite [eta ^+ i * _]mulrC.
by apply: near_k => //; lia.
Qed.

Lemma own_psum j : (j <= n.+1)%N -> near (2 * n + 3 + j) (cum w j) (cum w j) (foldl (f_add B) 0 (take j ws)).
Proof.
elim: j => [|j IH] jm; first by rewrite cum0 take0; apply: near_exact; rewrite ?normr0.
rewrite (take_nth 0) ?size_own // -cats1 foldl_cat [foldl _ _ [:: _]]/=.
rewrite cumS addnS; apply: near_add => //; first exact: IH (ltnW jm).
by apply: near_k (own_near jm) => //; lia.
Qed.

Lemma own_dist j : (j <= n.+1)%N -> `|foldl (f_add B) 0 (take j ws) - cum w j| <= y.
Proof.
move=> jm; have H : near (3 * n + 4) (cum w j) (cum w j) (foldl (f_add B) 0 (take j ws)).
  by apply: near_k (own_psum jm) => //; lia.
case: H => _ h; apply: le_trans h _; rewrite -[X in _ <= X]mulr1; apply: ler_wpmul2l; first exact: E0.
by have /andP[] := cum_le1 eta01 jm.
Qed.

Definition oidx (k : nat) : nat := fl_cum_search B (k%:R / N%:R) 0 0 ws.

Lemma oidx_upper i k : (i <= n.+1)%N -> (oidx k < i)%N -> k%:R / N%:R <= cum w i + y.
Proof.
move=> im lt; have cm : (oidx k < n.+1)%N by apply: leq_trans lt im.
have h : k%:R / N%:R < foldl (f_add B) 0 (take (oidx k).+1 ws).
  by apply: (@search_lt R u B N u0 N0 _ 0 0%N ws) => //; rewrite size_own.
apply: ltW; apply: lt_le_trans h _; have := own_dist cm; rewrite ler_norml => /andP[_]; rewrite ler_subl_addl => h.
apply: le_trans h _; apply: ler_add => //; apply: (cum_mono (w_nn n eta01)) => //.
by rewrite size_w.
Qed.

Lemma oidx_lower i k : (i <= n.+1)%N -> (i <= oidx k)%N -> cum w i - y <= k%:R / N%:R.
Proof.
case: i => [|i] im le.
  rewrite cum0 sub0r; apply: (@le_trans _ _ 0); first by rewrite oppr_le0 E0.
  by rewrite divr_ge0 ?ler0n.
case: (leP (cum w i.+1 - y) (k%:R / N%:R)) => // h.
have hl : k%:R / N%:R < foldl (f_add B) 0 (take i.+1 ws).
  apply: lt_le_trans h _; have := own_dist im; rewrite ler_norml => /andP[+ _].
  by rewrite ler_subr_addr addrC.
have is_ : (i < size ws)%N by rewrite size_own.
by have := search_le 0 is_ hl; rewrite add0n leqNgt -/(oidx k) le.
Qed.

Lemma choice_idx k a b l : fl_choice_loop B k b (iota a (size l)) l =
  if (fl_cum_search B k b a l < a + size l)%N then Some (fl_cum_search B k b a l) else None.
Proof.
elim: l a b => [|v l IH] a b /=; first by rewrite addn0 ltnn.
by case: ifP => _; rewrite ?IH ?addnS ?addSn // leq_addr.
Qed.

Lemma search_bound k b a l : (fl_cum_search B k b a l <= a + size l)%N.
Proof.
elim: l a b => [|v l IH] a b /=; first by rewrite addn0.
by case: ifP => _; [exact: leq_addr|apply: leq_trans (IH _ _) _; rewrite addSn addnS].
Qed.

Variables (Y : Type) (f : Y -> R).
Notation F := (on_ok f).

Lemma napx_own (g : option nat -> rprog R (res Y)) (E e : nat -> R) :
  has_exp F (g None) 0 -> (forall i, (i < n.+1)%N -> napx F (g (Some i)) (E i) (e i)) ->
  napx F (rpbind (fl_own_choice B N (iota 0 n.+1) ws) g)
    (\sum_(i < n.+1) binomial_weight n eta i * E i)
    ((n.+1 + n.+2)%:R * left_error u N n + \sum_(i < n.+1) binomial_weight n eta i * e i).
Proof.
move=> Hn H; have [V HV] := choose_seq 0 H.
pose v i := if (i < n.+1)%N then V i else 0.
have v01 i : (i <= n.+1)%N -> 0 <= v i <= 1.
  by move=> _; rewrite /v; case: ifP => il; [have [] := HV i il|rewrite lexx ler01].
have il k : (oidx k <= n.+1)%N by have := search_bound (k%:R / N%:R) 0 0 ws; rewrite size_own.
have w1 : cum w n.+1 = 1 by rewrite -[X in cum _ X](size_w n eta) cum_all w_sum.
have wE i : (i < n.+1)%N -> cum w i.+1 - cum w i = binomial_weight n eta i.
  by move=> im; rewrite cumS addrC addKr (nth_map 0%N) ?size_iota // nth_iota.
rewrite /fl_own_choice size_iota size_own eqxx [~~ true]/=.
exists ((\sum_(k < N) v (oidx k)) / N%:R); split.
- apply: (@ExpInt _ _ F N _ (fun k => v (oidx k))) => // k kN.
  suff : has_exp F (g (fl_choice_loop B (k%:R / N%:R) 0 (iota 0 n.+1) ws)) (v (oidx k)) by [].
  rewrite -[X in iota 0 X]size_own choice_idx add0n size_own -/(oidx k) /v.
  by case: ifP => lt //; have [] := HV _ lt.
- apply/andP; split.
    by rewrite divr_ge0 ?ler0n ?sumr_ge0 // => k _; have /andP[] := v01 _ (il k).
  rewrite ler_pdivr_mulr ?ltr0n // mul1r -[X in _ <= X%:R](card_ord N) -sum1_card natr_sum.
  by apply: ler_sum => k _; have /andP[] := v01 _ (il k).
apply: le_trans (ler_dist_add (\sum_(i < n.+1) binomial_weight n eta i * v i) _ _) _; apply: ler_add.
  have := grid_avg N0 (E0 u0 _) (fun i im => cum_le1 eta01 im) oidx_upper oidx_lower il v01.
  rewrite w1 subrr mul0r addr0 (eq_bigr (fun i : 'I_n.+1 => binomial_weight n eta i * v i)) // => i _.
  by rewrite wE.
rewrite -sumrB; apply: le_trans (ler_norm_sum _ _ _) _; apply: ler_sum => i _.
have w0 : 0 <= binomial_weight n eta i.
  by have /andP[a b] := eta01; rewrite /binomial_weight !mulr_ge0 ?exprn_ge0 ?ler0n // subr_ge0.
rewrite -mulrBr normrM (ger0_norm w0); apply: ler_wpmul2l => //.
by have [_ _] := HV i (ltn_ord i); rewrite /v ltn_ord.
Qed.
End Own.

(* the whole state *)
Section Modes.
Variable R : rcfType.
Variables (u : R) (B : arith R) (N : nat) (l : R).
Hypothesis u0 : 0 <= u.
Hypothesis accB : accurate u B.
Hypothesis N0 : (0 < N)%N.
Notation eta := (f_sub B 1 l).
Hypothesis eta01 : 0 <= eta <= 1.
Variables (Y : Type) (f : Y -> R).
Notation F := (on_ok f).
Notation lk := (1 - eta).

Lemma lk01 : 0 <= lk <= 1.
Proof. by move/andP: eta01 => [h1 h2]; rewrite subr_ge0 h2 ler_subl_addr ler_addl. Qed.

Lemma fl_own_weightsE mx n : (0 < n)%N -> (n <= mx)%N -> dget_res (fl_own_weights B l mx) n = Ok (own_ws B n eta).
Proof.
move=> n0 le; rewrite /dget_res /fl_own_weights (dget_tab (fun n => [seq _ | l0 <- iota 0 n.+1])) ?iota_uniq //.
by rewrite mem_iota n0 /= add1n ltnS.
Qed.

Lemma left_error_ge0 n : 0 <= left_error u N n.
Proof. by rewrite /left_error addr_ge0 ?E0 // ?invr_ge0 ler0n. Qed.

Lemma own_error_ge0 s : 0 <= own_error u N s.
Proof. by rewrite sumr_ge0 // => n _; rewrite mulr_ge0 ?ler0n ?left_error_ge0. Qed.

Lemma napx_modes mx s (g : seq (option nat) -> rprog R (res Y)) (E e : seq nat -> R) :
  all (fun n => n <= mx)%N s ->
  (forall L, None \in L -> has_exp F (g L) 0) ->
  (forall K, substate K s -> napx F (g (map Some K)) (E K) (e K)) ->
  napx F (rpbind (fl_lossy_modes B N (fl_own_weights B l mx) s) g)
    (\sum_(K <- subs s) thin_weight lk s K * E K)
    (own_error u N s + \sum_(K <- subs s) thin_weight lk s K * e K).
Proof.
elim: s g E e => [|n s IH] g E e al Hn H.
  have -> : subs [::] = [:: [::]] by [].
  rewrite !big_seq1 /own_error big_nil add0r /thin_weight ways_self /= !expr0 !mulr1 !mul1r.
  exact: (H [::]).
move: al => /= /andP[nm al]; rewrite !big_subs_cons.
have HN (L0 : seq (option nat) -> rprog R (res Y)) t : all (fun n => n <= mx)%N t -> (forall L, has_exp F (L0 L) 0) ->
   has_exp F (rpbind (fl_lossy_modes B N (fl_own_weights B l mx) t) L0) 0.
  elim: t L0 {IH Hn H} => [|c t IHt] L0 /=; first by move=> _ h; exact: h.
  move=> /andP[cm at_] hL.
  have S x : has_exp F (rpbind (rpbind (fl_lossy_modes B N (fl_own_weights B l mx) t) (fun L => Ret (Ok (x :: L)))) L0) 0.
    by apply: has_exp_rpbindA; apply: IHt => // L; exact: hL.
  apply: has_exp_rpbindA; case: eqP => [_|/eqP c0]; first exact: S.
  rewrite fl_own_weightsE ?lt0n // rpbind_ok -[0%N :: iota 1 c]/(iota 0 c.+1) /fl_own_choice size_iota size_own eqxx [~~ true]/=.
  apply: has_exp_eq (@ExpInt _ _ F N _ (fun=> 0) N0 _) _; first by move=> k _; exact: S.
  by rewrite big1 // mul0r.
have S i : (i < n.+1)%N -> napx F (rpbind (rpbind (fl_lossy_modes B N (fl_own_weights B l mx) s) (fun L => Ret (Ok (Some i :: L)))) g)
    (\sum_(K <- subs s) thin_weight lk s K * E (i :: K))
    (own_error u N s + \sum_(K <- subs s) thin_weight lk s K * e (i :: K)).
  move=> il; apply: napxA; apply: (IH (fun L => g (Some i :: L)) (fun K => E (i :: K)) (fun K => e (i :: K))) => //.
    by move=> L h; apply: Hn; rewrite inE h orbT.
  by move=> K sK; apply: (H (i :: K)); rewrite substate_cons sK andbT.
have SN : has_exp F (rpbind (rpbind (fl_lossy_modes B N (fl_own_weights B l mx) s) (fun L => Ret (Ok (None :: L)))) g) 0.
  by apply: has_exp_rpbindA; apply: HN => // L; apply: Hn; rewrite mem_head.
have sumE (G : seq nat -> R) : \sum_(k < n.+1) \sum_(K <- subs s) thin_weight lk (n :: s) (val k :: K) * G (val k :: K) =
  \sum_(k < n.+1) binomial_weight n eta k * \sum_(K <- subs s) thin_weight lk s K * G (val k :: K).
  apply: eq_bigr => k _; rewrite mulr_sumr; apply: eq_big_seq => K; rewrite mem_subs => sK.
  have kn : (val k <= n)%N by have := ltn_ord k.
  by rewrite (thin_weight_cons lk01 kn sK) subKr mulrA.
have bw1 : \sum_(k < n.+1) binomial_weight n eta k = 1.
  by rewrite -[RHS](w_sum n eta01) big_map -[X in iota _ X](subn0 n.+1) -/(index_iota _ _) big_mkord.
have erE : own_error u N (n :: s) + \sum_(k < n.+1) binomial_weight n eta k * (\sum_(K <- subs s) thin_weight lk s K * e (val k :: K)) =
  (n.+1 + n.+2)%:R * left_error u N n + \sum_(k < n.+1) binomial_weight n eta k * (own_error u N s + \sum_(K <- subs s) thin_weight lk s K * e (val k :: K)).
  rewrite /own_error big_cons -/(own_error u N s) -addrA; congr (_ + _).
  by under [RHS]eq_bigr => k _ do rewrite mulrDr; rewrite big_split /= -mulr_suml bw1 mul1r.
rewrite !sumE erE; apply: napxA; case: eqP => [n0|/eqP n0].
  rewrite /= in S *; apply: napx_eq (S 0%N _) _ _ => //.
    by rewrite n0 big_ord1 /binomial_weight bin0 expr0 subnn expr0 !mulr1 mul1r.
  rewrite n0 big_ord1 /binomial_weight bin0 expr0 subnn expr0 !mulr1 mul1r ler_addr.
  by rewrite mulr_ge0 ?ler0n ?left_error_ge0.
rewrite fl_own_weightsE ?lt0n // rpbind_ok.
exact: (napx_own u0 accB N0 eta01 SN S).
Qed.
End Modes.
