(* Version B of the samplers with rounded arithmetic: k samples, uniform losses. *)
From mathcomp Require Import all_ssreflect all_fingroup all_algebra complex.
From mathcomp Require Import ring zify.
From Verif Require Import Base SpecStates Combi SpecPerm PermMath SpecBS BsMath BsComb BsNorm.
From Verif Require Import ModelStates ProofStates1 LemStates ModelPerm ProofPerm6 LemPerm ModelDist ProofDist1
  SpecProb ProbMath ModelGcc ModelGccB SampMath ProofSel ProofGcc1 ProofGcc2 ProofGcc3 ProofGccB1 ProofGccB2
  ModelFloat ModelFloatDist SpecFloat SpecFloatSub SpecFloatGcc SpecFloatGccB ProofFloat ProofFloat4 ProofFloatDist
  ProofFloatDist2 ModelFloatSub ModelFloatGcc ModelFloatGccB ProofFloatSub2 ProofFloatSel ProofFloatGcc1 ProofFloatGcc2
  ProofFloatGcc3 ProofFloatSelB ProofFloatGccB1 ProofFloatGccB2.
Set Implicit Arguments.
Unset Strict Implicit.
Unset Printing Implicit Defensive.
Import Order.Theory GRing.Theory Num.Theory.
Local Open Scope ring_scope.
Local Open Scope py_scope.

Lemma has_exp_rpbindA (R : rcfType) (X Y Z : Type) (F : res Z -> R) (p : rprog R (res X)) (g : X -> rprog R (res Y))
    (h : Y -> rprog R (res Z)) v :
  has_exp F (rpbind p (fun a => rpbind (g a) h)) v -> has_exp F (rpbind (rpbind p g) h) v.
Proof.
apply: (@same_run_exp _ _ _ eq) => [|a b ->] //.
have refl D (q : rprog R D) : same_run eq q q by elim: q => [a|k IH|n k IH] //=.
by elim: p => [[a|e]|k IH|n k IH] /=; [exact: refl|by []|by move=> x _; apply: IH|by split=> // i _; apply: IH].
Qed.

(* the number of particles left *)
Section Left.
Variable R : rcfType.
Variables (u : R) (B : arith R) (N n : nat) (eta : R).
Hypothesis u0 : 0 <= u.
Hypothesis accB : accurate u B.
Hypothesis N0 : (0 < N)%N.
Hypothesis eta01 : 0 <= eta <= 1.
Notation ws := (fl_ub_weights B n eta).
Notation w := [seq binomial_weight n eta l | l <- iota 0 n.+1].
Notation near := (near u).
Notation y := ((1 + u) ^+ (3 * n + 4) - 1).

Lemma size_w : size w = n.+1. Proof. by rewrite size_map size_iota. Qed.
Lemma size_ws : size ws = n.+1. Proof. by rewrite size_map size_iota. Qed.
Lemma w_nn : all (fun x => 0 <= x) w.
Proof. by have [] := bw_distr eta01 n. Qed.
Lemma w_sum : \sum_(x <- w) x = 1.
Proof. by have [] := bw_distr eta01 n. Qed.

Lemma ws_near i : (i < n.+1)%N -> near (2 * n + 3) w`_i w`_i ws`_i.
Proof.
move=> im; rewrite !(nth_map 0%N) ?size_iota // nth_iota // add0n /binomial_weight.
have /andP[h0 h1] := eta01.
have n1 : near 1 ('C(n, i)%:R) ('C(n, i)%:R) (f_int B (Posz 'C(n, i))).
  by have := near_int u0 accB (Posz 'C(n, i)); rewrite -pmulrn ger0_norm ?ler0n.
have n2 : near (i * 1) (eta ^+ i) (eta ^+ i) (f_pow B eta i).
  by apply: near_pow => //; apply: near_exact; rewrite // ger0_norm.
have d0 : 0 <= 1 - eta by rewrite subr_ge0.
have n3 : near 1 (1 - eta) (1 - eta) (f_sub B 1 eta).
  apply: (@near_round1 _ _ u0 0 _ _ (1 - eta)); last exact: acc_sub.
  by apply: near_exact; rewrite // ger0_norm.
have n4 := near_pow u0 accB (n - i) n3.
have := near_mul u0 accB (near_mul u0 accB n1 n2) n4.
by apply: near_k => //; lia.
Qed.

Lemma ws_psum j : (j <= n.+1)%N -> near (2 * n + 3 + j) (cum w j) (cum w j) (foldl (f_add B) 0 (take j ws)).
Proof.
elim: j => [|j IH] jm; first by rewrite cum0 take0; apply: near_exact; rewrite ?normr0.
rewrite (take_nth 0) ?size_ws // -cats1 foldl_cat [foldl _ _ [:: _]]/=.
rewrite cumS addnS; apply: near_add => //; first exact: IH (ltnW jm).
by apply: near_k (ws_near jm) => //; lia.
Qed.

Lemma cum_le1 i : (i <= n.+1)%N -> 0 <= cum w i <= 1.
Proof.
move=> im; rewrite (cum_nn w_nn) ?size_w //= -w_sum -(cum_all w).
by apply: (cum_mono w_nn); rewrite ?size_w.
Qed.

Lemma ws_dist j : (j <= n.+1)%N -> `|foldl (f_add B) 0 (take j ws) - cum w j| <= y.
Proof.
move=> jm; have H : near (3 * n + 4) (cum w j) (cum w j) (foldl (f_add B) 0 (take j ws)).
  by apply: near_k (ws_psum jm) => //; lia.
case: H => _ h; apply: le_trans h _; rewrite -[X in _ <= X]mulr1; apply: ler_wpmul2l; first exact: E0.
by have /andP[] := cum_le1 jm.
Qed.

Definition lidx (k : nat) : nat := fl_cum_search B (k%:R / N%:R) 0 0 ws.

Lemma lidx_upper i k : (i <= n.+1)%N -> (lidx k < i)%N -> k%:R / N%:R < cum w i + y.
Proof.
move=> im lt; have cm : (lidx k < n.+1)%N by apply: leq_trans lt im.
have h : k%:R / N%:R < foldl (f_add B) 0 (take (lidx k).+1 ws).
  by apply: (@search_lt R u B N u0 N0 _ 0 0%N ws) => //; rewrite size_ws.
apply: lt_le_trans h _; have := ws_dist cm; rewrite ler_norml => /andP[_]; rewrite ler_subl_addl => h.
apply: le_trans h _; apply: ler_add => //; apply: (cum_mono w_nn) => //.
by rewrite size_w.
Qed.

Lemma lidx_lower i k : (i <= n.+1)%N -> (i <= lidx k)%N -> cum w i - y <= k%:R / N%:R.
Proof.
case: i => [|i] im le.
  rewrite cum0 sub0r; apply: (@le_trans _ _ 0); first by rewrite oppr_le0 E0.
  by rewrite divr_ge0 ?ler0n.
case: (leP (cum w i.+1 - y) (k%:R / N%:R)) => // h.
have hl : k%:R / N%:R < foldl (f_add B) 0 (take i.+1 ws).
  apply: lt_le_trans h _; have := ws_dist im; rewrite ler_norml => /andP[+ _].
  by rewrite ler_subr_addr addrC.
have is_ : (i < size ws)%N by rewrite size_ws.
by have := search_le 0 is_ hl; rewrite add0n leqNgt -/(lidx k) le.
Qed.

Definition lsel (k : nat) : option nat := Some (lidx k).

Lemma lsel_near i : (i <= n.+1)%N -> `|(selo N lsel i)%:R / N%:R - cum w i| <= left_error u N n.
Proof.
move=> im; have NR : 0 < N%:R :> R by rewrite ltr0n.
have sE : selo N lsel i = (\sum_(k < N) (lidx k < i)%N)%N by [].
set f := cum w i; have /andP[f0 f1] := cum_le1 im; rewrite -/f in f0 f1.
have y0 : 0 <= y by exact: E0.
rewrite ler_norml; apply/andP; split.
- rewrite ler_subr_addl ler_pdivl_mulr //.
  apply: (@le_trans _ _ (N%:R * (f - y))).
    rewrite mulrC; apply: ler_wpmul2l; first exact: ltW.
    rewrite ler_add2l ler_opp2 /left_error.
    by rewrite ler_addl invr_ge0 ltW.
  apply: (@le_trans _ _ (below (N%:R * (f - y)) N)%:R).
    apply: below_ge; rewrite -[X in _ <= X]mulr1 ler_wpmul2l ?ler0n // ler_subl_addr.
    by apply: le_trans f1 _; rewrite ler_addl.
  rewrite ler_nat sE; apply: leq_sum => k _; case: (ltP _ (N%:R * _)) => //= h.
  case: (ltnP (lidx k) i) => // le; have := lidx_lower im le.
  by rewrite -/f ler_pdivl_mulr // [_ * N%:R]mulrC leNgt h.
- rewrite ler_subl_addl ler_pdivr_mulr //.
  apply: (@le_trans _ _ (N%:R * (f + y) + 1)); last first.
    suff -> : (f + left_error u N n) * N%:R = N%:R * (f + y) + 1 by [].
    by rewrite /left_error; move: y (gt_eqF NR) => z /negbT nz; field.
  apply: (@le_trans _ _ (below (N%:R * (f + y)) N)%:R).
    rewrite ler_nat sE; apply: leq_sum => k _; case: (ltnP (lidx k) i) => // le.
    have := lidx_upper im le; rewrite -/f ltr_pdivr_mulr // [_ * N%:R]mulrC => ->.
    by [].
  apply: below_le; apply: (@le_trans _ _ 0); first by rewrite oppr_le0 ler01.
  by rewrite mulr_ge0 ?ler0n // addr_ge0.
Qed.

Lemma left_near i : (i < n.+1)%N -> `|ph R N lsel i - binomial_weight n eta i| <= 2%:R * left_error u N n.
Proof.
move=> im; have S1 := w_sum; have S0 : 0 < \sum_(x <- w) x by rewrite S1 ltr01.
have ns : 0 < \sum_(x <- w) x -> forall i, (i <= n.+1)%N ->
    `|(selo N lsel i)%:R / N%:R - cum w i / \sum_(x <- w) x| <= left_error u N n.
  by move=> _ i' im'; rewrite S1 divr1; apply: lsel_near.
have := @ph_near R N n.+1 lsel w (left_error u N n) ns i im S0.
by rewrite S1 divr1 (nth_map 0%N) ?size_iota // nth_iota.
Qed.

Lemma lidx_le k : (lidx k <= n.+1)%N.
Proof.
have G v acc i l : (fl_cum_search B v acc i l <= i + size l)%N.
  by elim: l acc i => [|x l IH] acc i /=; [rewrite addn0|case: ifP => _; [rewrite leq_addr|rewrite addnS -addSn]].
by have := G (k%:R / N%:R) 0 0%N ws; rewrite size_ws.
Qed.

Lemma left_error_ge0 : 0 <= left_error u N n.
Proof. by rewrite addr_ge0 ?invr_ge0 ?ler0n // E0. Qed.

End Left.

Section Top.
Variable R : rcfType.
Notation CF := (ComplexField.complex_numFieldType R).
Variables (u eps : R) (A : arith CF) (B : arith R) (f_abs : CF -> R) (f_sum f_check : seq R -> R).
Variables (f_search : R -> seq R -> nat) (N : nat).
Hypothesis u0 : 0 <= u.
Hypothesis accA : accurate (u%:C)%C A.
Hypothesis accB : accurate u B.
Hypothesis acc_abs : forall z, `|f_abs z - py_abs z| <= u * py_abs z.
Hypothesis acc_sum : accurate_sum u f_sum.
Hypothesis acc_check : accurate_sum u f_check.
Hypothesis srch : right_search f_search.
Hypothesis N0 : (0 < N)%N.
Variables (fuel m : nat) (U V : seq (seq CF)) (s : seq nat).
Hypotheses (uU : unitary_on m U s /\ entries_bounded m U (1%:C)%C) (sqV : is_square m V) (ss : size s = m).
Hypothesis fu : (code_number s <= fuel)%N.
Hypothesis e0 : 0 <= eps.
Hypothesis UV : forall j i, (j < m)%N -> (i < m)%N -> `|ent V j i - ent U j i| <= (eps%:C)%C.
Hypothesis small : (9 * m + 4)%:R * u <= (2%:R ^+ 27)^-1.
Notation loop := (fl_b_fill_loop A B f_abs f_sum f_check f_search fuel N).
Notation inv := (fbinv m V s).
Notation err := (gccb_error u eps N m s).

Definition btw (b : gccb R) := [/\ b_n b = sumn s, b_input b = s & calc_matrix (b_calc b) = V].

Lemma inv_btw b : inv b -> btw b.
Proof. by move=> I; split; [exact: fb_n I|exact: fb_in I|exact: fb_mat I]. Qed.

Lemma fl_gccb_exp k f b : (forall L, 0 <= f L <= 1) -> btw b ->
  exists v, [/\ has_exp (on_ok (fun z => f z.1))
      (sample_loop (fl_b_fill A B f_abs f_sum f_check f_search fuel N) (fun b => Ok (b_r b)) k b) v, 0 <= v <= 1
   & `|v - iid_exp (comps m (sumn s)) (bs_prob U s) k f| <= k%:R * err (sumn s)].
Proof.
elim: k f b => [|k IH] f b f01 [b1 b2 b3].
  exists (f [::]); split=> //; last by rewrite /= subrr normr0 mul0r.
  exact: (@ExpRet _ _ (on_ok _) (Ok ([::], b))).
set sl := sample_loop _ _ _ in IH.
pose E t := iid_exp (comps m (sumn s)) (bs_prob U s) k (fun L => f (t :: L)).
pose cont (b : gccb R) := draw! x := Ret (Ok (b_r b)) in draw! y := sl b in
  Ret (Ok (x :: y.1, y.2)) : rprog R (res (seq (seq nat) * gccb R)).
have Hcont b' : inv b' -> sumn (b_r b') = sumn s -> exists v,
    [/\ has_exp (on_ok (fun z => f z.1)) (cont b') v, 0 <= v <= 1 & `|v - E (b_r b')| <= k%:R * err (sumn s)].
  move=> I' e; have [v [Hv v01 ve]] := IH (fun L => f (b_r b' :: L)) b' (fun L => f01 _) (inv_btw I').
  exists v; split=> //; rewrite /cont; cbn [rpbind pbind].
  apply: has_exp_bind Hv _; apply: always_true => [[y|e']] /=; by constructor.
have [v [Hv v01 h]] := fb_run u0 accA accB acc_abs acc_sum acc_check srch N0 uU sqV ss fu e0 UV small
  (F := on_ok (fun z => f z.1)) (fun e => erefl) (leqnn _) Hcont b1 b2 b3.
exists v; split=> //.
  have -> : sample_loop (fl_b_fill A B f_abs f_sum f_check f_search fuel N) (fun b => Ok (b_r b)) k.+1 b
    = rpbind (loop fuel (b_n b) (b_reset b)) cont by [].
  by rewrite b1.
have Ew : \sum_(t <- comps m (sumn s)) fixed_loss_prob U s t * E t
    = iid_exp (comps m (sumn s)) (bs_prob U s) k.+1 f.
  by apply: eq_big_seq => t; rewrite mem_comps => /andP[_ /eqP et]; rewrite fixed_loss_full.
rewrite Ew in h; apply: le_trans h _; rewrite le_eqVlt; apply/orP; left; apply/eqP.
have -> : k.+1%:R = k%:R + 1 :> R by rewrite -addn1 natrD.
by rewrite mulrDl mul1r addrC.
Qed.

Lemma fl_gccb_simulate_exp k f b : (forall L, 0 <= f L <= 1) -> calc_matrix (b_calc b) = V ->
  exists v, [/\ has_exp (on_ok (fun z => f z.1)) (fl_gccb_simulate A B f_abs f_sum f_check f_search fuel N s k b) v,
   0 <= v <= 1 & `|v - iid_exp (comps m (sumn s)) (bs_prob U s) k f| <= k%:R * err (sumn s)].
Proof. by move=> f01 e; apply: fl_gccb_exp. Qed.

(* uniform losses *)
Variable eta : R.
Hypothesis eta01 : 0 <= eta <= 1.
Notation n := (sumn s).

Lemma err_mono l l' : (l <= l')%N -> err l <= err l'.
Proof.
move=> le; rewrite /gccb_error -(big_mkord xpredT (fun i => m%:R ^+ i * (2%:R * m%:R *
  (square_error u eps m s i + choice_error u N m * (m%:R * i.+1`!%:R ^+ 2))))).
rewrite -(big_mkord xpredT (fun i => m%:R ^+ i * (2%:R * m%:R *
  (square_error u eps m s i + choice_error u N m * (m%:R * i.+1`!%:R ^+ 2))))).
rewrite [X in _ <= X](big_cat_nat _ _ _ (leq0n l) le) /= ler_addl; apply: sumr_ge0 => i _.
have c0 : 0 <= choice_error u N m by rewrite addr_ge0 ?invr_ge0 ?ler0n // E0.
have s0 : 0 <= square_error u eps m s i.
  by rewrite /square_error; apply: addr_ge0; apply: mulr_ge0; rewrite ?E0 ?exprn_even_ge0.
by rewrite !mulr_ge0 ?exprn_ge0 ?ler0n // addr_ge0 // !mulr_ge0 ?exprn_ge0 ?ler0n.
Qed.

Definition ubtw (x : ugccb R) := [/\ btw (ub_b x), ub_eta x = eta & ub_weights x = fl_ub_weights B n eta].

Lemma fl_ugccb_exp k f x : (forall L, 0 <= f L <= 1) -> ubtw x ->
  exists v, [/\ has_exp (on_ok (fun z => f z.1))
      (sample_loop (fl_ub_fill A B f_abs f_sum f_check f_search fuel N) (fun x => Ok (b_r (ub_b x))) k x) v, 0 <= v <= 1
   & `|v - iid_exp (lcomps m n) (uniform_loss_prob U s eta) k f| <= k%:R * ugccb_error u eps N m s].
Proof.
elim: k f x => [|k IH] f x f01 [[b1 b2 b3] xe xw].
  exists (f [::]); split=> //; last by rewrite /= subrr normr0 mul0r.
  exact: (@ExpRet _ _ (on_ok _) (Ok ([::], x))).
set sl := sample_loop _ _ _ in IH.
set F := on_ok (fun z : seq (seq nat) * ugccb R => f z.1).
pose E t := iid_exp (lcomps m n) (uniform_loss_prob U s eta) k (fun L => f (t :: L)).
pose cont l (b : gccb R) := (draw! x := Ret (Ok (UGccB b (ub_eta x) (ub_weights x) l)) in
  draw! t := Ret (Ok (b_r (ub_b x))) in draw! y := sl x in
  Ret (Ok (t :: y.1, y.2))) : rprog R (res (seq (seq nat) * ugccb R)).
have Hcont l b' : inv b' -> exists v,
    [/\ has_exp F (cont l b') v, 0 <= v <= 1 & `|v - E (b_r b')| <= k%:R * ugccb_error u eps N m s].
  move=> I'; have [|v [Hv v01 ve]] := IH (fun L => f (b_r b' :: L)) (UGccB b' (ub_eta x) (ub_weights x) l) (fun L => f01 _).
    by split=> //; exact: inv_btw.
  exists v; split=> //; rewrite /cont; cbn [rpbind pbind ub_b].
  apply: has_exp_bind Hv _; apply: always_true => [[y|e']] /=; by constructor.
pose rest l := rpbind (loop fuel l (b_reset (ub_b x))) (cont l).
pose S l := \sum_(t <- comps m l) fixed_loss_prob U s t * E t.
have HS l : (l < n.+1)%N -> exists v, [/\ has_exp F (rest l) v, 0 <= v <= 1 &
    `|v - S l| <= err n + k%:R * ugccb_error u eps N m s].
  rewrite ltnS => ln; have [v [Hv v01 h]] := fb_run u0 accA accB acc_abs acc_sum acc_check srch N0 uU sqV ss fu e0 UV small
    (F := F) (fun e => erefl) ln (fun b' I' _ => Hcont l b' I') b1 b2 b3.
  by exists v; split=> //; apply: le_trans h _; rewrite ler_add2r err_mono.
have [W HW] := choose_seq 0 HS.
have Hout : has_exp F (rest n.+1) 0.
  rewrite /rest; apply: (fb_loop_fail f_search u0 accA accB acc_abs acc_sum acc_check N0 uU sqV ss fu e0 UV small
    (F := F) _ (fun e => erefl)); rewrite ?ltnSn //; exact: (fb_reset ss b1 b2 b3).
pose ls := lsel B N n eta.
pose W' o := if o is Some j then if (j < n.+1)%N then W j else 0 else 0.
have avg : (\sum_(k < N) W' (ls k)) / N%:R = \sum_(l < n.+1) ph R N ls l * W l.
  apply: (@ph_average R N n.+1 ls W W') => //= j jm; first by rewrite jm.
  by rewrite ltnNge jm.
have P0 l : 0 <= ph R N ls l by rewrite /ph divr_ge0 ?ler0n.
exists (\sum_(l < n.+1) ph R N ls l * W l); split.
- have -> : sample_loop (fl_ub_fill A B f_abs f_sum f_check f_search fuel N) (fun x => Ok (b_r (ub_b x))) k.+1 x
    = Int N (fun k' => rpbind (rpbind (loop fuel (fl_cum_search B (k'%:R / N%:R) 0 0 (ub_weights x)) (b_reset (ub_b x)))
         (fun b => Ret (Ok (UGccB b (ub_eta x) (ub_weights x) (fl_cum_search B (k'%:R / N%:R) 0 0 (ub_weights x))))))
        (fun x => draw! t := Ret (Ok (b_r (ub_b x))) in draw! y := sl x in Ret (Ok (t :: y.1, y.2)))) by [].
  rewrite -avg; apply: (@ExpInt _ _ F N _ (fun k => W' (ls k))) => // k' kN.
  apply: has_exp_rpbindA.
  have -> : fl_cum_search B (k'%:R / N%:R) 0 0 (ub_weights x) = lidx B N n eta k' by rewrite xw.
  rewrite -[X in has_exp _ X _]/(rest _) /W' /ls /lsel.
  have := lidx_le B N n eta k'; rewrite leq_eqVlt => /orP[/eqP ->|lt].
    by rewrite ltnn.
  by rewrite lt; have [] := HW _ lt.
- apply/andP; split.
    by apply: sumr_ge0 => j _; have [_ /andP[w0 _] _] := HW j (ltn_ord j); rewrite mulr_ge0.
  apply: le_trans (@ph_sum R N n.+1 ls N0); apply: ler_sum => j _.
  have [_ /andP[_ w1] _] := HW j (ltn_ord j).
  by rewrite -[X in _ <= X]mulr1 ler_wpmul2l.
have -> : iid_exp (lcomps m n) (uniform_loss_prob U s eta) k.+1 f = \sum_(l < n.+1) binomial_weight n eta l * S l.
  rewrite /= big_lcomps; apply: eq_bigr => l _; rewrite mulr_sumr.
  apply: eq_big_seq => t; rewrite mem_comps => /andP[_ /eqP e].
  by rewrite /uniform_loss_prob e mulrA.
rewrite -sumrB; apply: le_trans (ler_norm_sum _ _ _) _.
set er := err n + _ in HW.
apply: (@le_trans _ _ (\sum_(l < n.+1) (2%:R * left_error u N n + binomial_weight n eta l * er))).
  apply: ler_sum => l _; have [_ /andP[w0 w1] wS] := HW l (ltn_ord l).
  have -> : ph R N ls l * W l - binomial_weight n eta l * S l =
     (ph R N ls l - binomial_weight n eta l) * W l + binomial_weight n eta l * (W l - S l) by ring.
  apply: le_trans (ler_norm_add _ _) _; apply: ler_add; rewrite normrM.
    rewrite (ger0_norm w0) -[X in _ <= X]mulr1; apply: ler_pmul => //.
    exact: left_near.
  by rewrite ger0_norm ?binomial_weight_ge0 // ler_wpmul2l ?binomial_weight_ge0.
rewrite big_split /= sumr_const card_ord -mulr_suml binomial_weight_sum mul1r /er.
have -> : k.+1%:R = k%:R + 1 :> R by rewrite -addn1 natrD.
rewrite le_eqVlt; apply/orP; left; apply/eqP; rewrite /ugccb_error -[_ *+ n.+1]mulr_natl.
by move: (err n) (left_error _ _ _) (n.+1%:R) (k%:R) => b c d e; ring.
Qed.

Lemma fl_ugccb_simulate_exp k f x : (forall L, 0 <= f L <= 1) -> calc_matrix (b_calc (ub_b x)) = V -> ub_eta x = eta ->
  exists v, [/\ has_exp (on_ok (fun z => f z.1)) (fl_ugccb_simulate A B f_abs f_sum f_check f_search fuel N s k x) v,
   0 <= v <= 1 & `|v - iid_exp (lcomps m n) (uniform_loss_prob U s eta) k f| <= k%:R * ugccb_error u eps N m s].
Proof. by move=> f01 e1 e2; apply: fl_ugccb_exp => //; split=> //=; rewrite e2. Qed.

End Top.
