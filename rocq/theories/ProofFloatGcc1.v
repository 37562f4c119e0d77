(* Rounding errors of one layer of the sampler. *)
From mathcomp Require Import all_ssreflect all_algebra complex.
From mathcomp Require Import ring zify.
From Verif Require Import Base SpecStates Combi SpecPerm PermMath SpecBS BsMath BsComb BsNorm.
From Verif Require Import ModelStates LemStates ModelPerm ProofPerm6 LemPerm ModelDist ProofDist1
  SpecProb ProbMath ModelGcc ModelGccB SampMath ProofSel ProofGcc1
  ModelFloat ModelFloatDist SpecFloat SpecFloatGcc ProofFloat ProofFloat4 ProofFloatDist ProofFloatDist2
  ModelFloatGcc ProofFloatSel.
Set Implicit Arguments.
Unset Strict Implicit.
Unset Printing Implicit Defensive.
Import Order.Theory GRing.Theory Num.Theory.
Local Open Scope ring_scope.
Local Open Scope py_scope.

(* the calculators keep their matrix *)
Section Public.
Variables (F : numFieldType) (A : arith F).

Lemma fl_loop_matrix fuel k c c' : fl_permanent_loop A fuel k c = Ok c' -> c_matrix c = c_matrix c'.
Proof.
elim: fuel c => [|fuel IH] c /=; case: (py_get _ _) => [x|e] //=; case: (py_get _ _) => [y|e] //=;
  case: ifP => _ //; try by case=> <-.
case: (update_guan_code _) => [g|e] //=; case: ifP => _; first by case=> <-.
case: (fl_update_sums _ _ _ _ _) => [d|e] //=; case: (fl_update_binomials _ _ _ _) => [b|e] //=.
rewrite /fl_update_permanent /=; case: (rfoldl _ _ _) => [v|e] //= /IH.
by [].
Qed.

Lemma fl_compute_matrix gray fuel (a a' : any_calc F) v :
  fl_compute_any A gray fuel a = Ok (v, a') -> calc_matrix a' = calc_matrix a.
Proof.
case: a => [M s t|M s t|k c] /=.
- by case: (fl_classic_permanent _ _ _ _ _) => [x|e] //= [_ <-].
- by case: (fl_glynn_permanent _ _ _ _ _) => [x|e] //= [_ <-].
case E: (fl_compute_permanent _ _ _ _) => [c'|e] //= [_ <-] /=.
move: E; rewrite /fl_compute_permanent; case: (can_calculate _ _ _) => [[]|e] //=.
rewrite /fl_init_computation; case: (fl_init_sums _ _ _ _ _) => [d|e] //=.
by rewrite /fl_update_permanent /=; case: (rfoldl _ _ _) => [x|e] //= /fl_loop_matrix.
Qed.

End Public.

Section Layer.
Variable R : rcfType.
Notation CF := (ComplexField.complex_numFieldType R).
Variables (u : R) (A : arith CF) (B : arith R) (f_abs : CF -> R) (f_sum : seq R -> R).
Hypothesis u0 : 0 <= u.
Hypothesis accA : accurate (u%:C)%C A.
Hypothesis accB : accurate u B.
Hypothesis acc_abs : forall z, `|f_abs z - py_abs z| <= u * py_abs z.
Hypothesis acc_sum : forall l, `|f_sum l - \sum_(x <- l) x| <= ((1 + u) ^+ size l - 1) * \sum_(x <- l) `|x|.
Notation near := (near u).

(* ---- divisions by a number close to one ---- *)
Lemma near_fdiv j k (v a w d : R) : (1 + u) ^+ j <= 3%:R / 2%:R -> `|d - 1| <= (1 + u) ^+ j - 1 ->
  near k v a w -> near (k + 2 * j).+1 v a (f_fdiv B w d).
Proof.
move=> j3 d1 H; set y := (1 + u) ^+ j in j3 d1.
have y1 : 1 <= y := E1 u0 j.
have yp : 0 <= y := le_trans ler01 y1.
move: d1; rewrite ler_norml => /andP[dl dh].
have dl' : 2%:R - y <= d.
  by rewrite -subr_ge0; move: dl; rewrite -subr_ge0; have -> : d - 1 - - (y - 1) = d - (2%:R - y) by ring.
have dh' : d <= y by move: dh; rewrite ler_add2r.
have p0 : 0 < 2%:R - y.
  rewrite subr_gt0; apply: le_lt_trans j3 _; rewrite ltr_pdivr_mulr ?ltr0n // -natrM ltr_nat //.
have d0 : 0 < d by apply: lt_le_trans dl'.
have I : near (2 * j) 1 1 d^-1.
  split; first by rewrite normr1.
  rewrite mulr1 mulnC exprM -/y.
  have yd : 1 <= y ^+ 2 * d.
    apply: (@le_trans _ _ (y ^+ 2 * (2%:R - y))); last by apply: ler_wpmul2l => //; apply: exprn_ge0.
    rewrite -subr_ge0; have -> : y ^+ 2 * (2%:R - y) - 1 = (y - 1) * (1 + y - y ^+ 2) by ring.
    apply: mulr_ge0; first by rewrite subr_ge0.
    have -> : 1 + y - y ^+ 2 = 4%:R^-1 + (3%:R / 2%:R - y) * (y + 2%:R^-1).
      by field.
    apply: addr_ge0; first by rewrite invr_ge0 ler0n.
    by apply: mulr_ge0; [rewrite subr_ge0|apply: addr_ge0 => //; rewrite invr_ge0 ler0n].
  rewrite ler_norml; apply/andP; split.
    have h : y^-1 <= d^-1 by rewrite lef_pinv // posrE // (lt_le_trans ltr01).
    apply: (@le_trans _ _ (y^-1 - 1)); last by rewrite ler_add2r.
    have y0 : 0 < y by apply: lt_le_trans y1.
    rewrite -subr_ge0; have -> : y^-1 - 1 - - (y ^+ 2 - 1) = (y - 1) * ((y ^+ 2 - 1) + y) / y.
      by have := gt_eqF y0; move: (y) => z /negbT nz; field.
    rewrite divr_ge0 // mulr_ge0 ?subr_ge0 // addr_ge0 // subr_ge0 exprn_ege1 //.
  by rewrite ler_add2r -[X in X <= _]mul1r ler_pdivr_mulr.
have := near_times H I; rewrite !mulr1 => T; apply: (near_round1 u0) T _.
by apply: (acc_fdiv accB); rewrite gt_eqF.
Qed.

Lemma near_sum k (T : eqType) (L : seq T) (v a w : T -> R) : (forall t, t \in L -> near k (v t) (a t) (w t)) ->
  near (k + size L) (\sum_(t <- L) v t) (\sum_(t <- L) a t) (f_sum (map w L)).
Proof.
move=> H.
have n1 : near k (\sum_(t <- L) v t) (\sum_(t <- L) a t) (\sum_(t <- L) w t).
  elim: L H => [|t L IH] H; first by rewrite !big_nil; apply: near_exact; rewrite ?normr0.
  rewrite !big_cons; apply: near_plus; first by apply: H; rewrite inE eqxx.
  by apply: IH => t' i; apply: H; rewrite inE i orbT.
have nw : \sum_(t <- L) `|w t| <= (1 + u) ^+ k * \sum_(t <- L) a t.
  by rewrite mulr_sumr big_seq [X in _ <= X]big_seq; apply: ler_sum => t /H /near_norm; apply.
have := acc_sum (map w L); rewrite !big_map size_map => h.
have a0 := near_ge0 n1; case: n1 => va wv; split=> //.
set x1 := (1 + u) ^+ size L in h; set x2 := (1 + u) ^+ k in nw wv.
rewrite exprD -/x1 -/x2.
have -> : f_sum [seq w i | i <- L] - \sum_(t <- L) v t =
  (f_sum [seq w i | i <- L] - \sum_(t <- L) w t) + (\sum_(t <- L) w t - \sum_(t <- L) v t) by ring.
apply: le_trans (ler_norm_add _ _) _.
set a1 := \sum_(t <- L) a t in nw wv a0 *.
have -> : (x2 * x1 - 1) * a1 = (x1 - 1) * (x2 * a1) + (x2 - 1) * a1 by ring.
apply: ler_add => //; apply: le_trans h _; apply: ler_wpmul2l => //; exact: E0.
Qed.

Section Fixed.
Variables (gray : nat -> seq nat) (fuel m : nat) (U : seq (seq CF)) (s : seq nat) (mu : R).
Hypotheses (sqU : is_square m U) (ss : size s = m) (gr : gray_ok gray (sumn s)).
Hypothesis fu : (code_number s <= fuel)%N.
Hypothesis mub : entries_bounded m U (mu%:C)%C.
Notation c := (code_number s).
Notation j := (2 * m + 1 + c)%N.
Hypothesis x4 : (1 + u) ^+ j <= 5%:R / 4%:R.

Lemma small k : (k <= j)%N -> (1 + u) ^+ k <= 5%:R / 4%:R.
Proof. by move=> kj; apply: le_trans x4; apply: E_le. Qed.

Lemma u_small : u <= 4%:R^-1.
Proof.
have h : (1 + u) ^+ 1 <= 5%:R / 4%:R by apply: small; lia.
move: h; rewrite expr1 -subr_ge0 => h; rewrite -subr_ge0.
by have <- : 5%:R / 4%:R - (1 + u) = 4%:R^-1 - u :> R by field.
Qed.

Lemma u_one : u <= 1.
Proof. by apply: le_trans u_small _; rewrite invf_le1 ?ltr0n // ler1n. Qed.

Definition wt (l : nat) (T : seq nat) : R := (ways s T)%:R / 'C(sumn s, l)%:R.

Lemma wt_ge0 l T : 0 <= wt l T. Proof. by rewrite divr_ge0 ?ler0n. Qed.

Lemma wt_sum l : (l <= sumn s)%N -> \sum_(T <- lay s l) wt l T = 1.
Proof.
move=> ln; have c0 : 'C(sumn s, l)%:R != 0 :> R by rewrite pnatr_eq0 -lt0n bin_gt0.
by rewrite /wt big_filter -mulr_suml vandermonde divff.
Qed.

Lemma lay_size l : (size (lay s l) <= c)%N.
Proof. by rewrite size_filter (leq_trans (count_size _ _)) // size_subs. Qed.

Lemma fl_calculate_weightE T : substate T s ->
  exists w, fl_calculate_weight B s [seq Posz (nth 0%N s i - nth 0%N T i) | i <- iota 0 (size s)] = Ok w
   /\ near (2 * m + 1) (wt (sumn T) T) (wt (sumn T) T) w.
Proof.
move=> sT; have /substateP[sz l] := sT; rewrite /fl_calculate_weight.
rewrite (map_comp Posz (fun i => nth 0 s i - nth 0 T i)%N) foldl_posz sumn_sub // [rbind (py_factorial _) _]/=.
have le := substate_sumn sT.
have -> : Posz (sumn s) - Posz (sumn s - sumn T) = Posz (sumn T) by rewrite subzn ?leq_subr // subKn.
rewrite [rbind (py_factorial _) _]/=.
set ab := (_ * _)%N; pose w0 : R := ab%:R / (sumn s)`!%:R.
have f0 k : k`!%:R != 0 :> R by rewrite pnatr_eq0 -lt0n fact_gt0.
have nq : near 1 w0 w0 (f_quot B (Posz ab) (Posz (sumn s)`!)).
  have z0 : Posz (sumn s)`! != 0 by have := fact_gt0 (sumn s); lia.
  have := near_quot u0 accB (Posz ab) z0; rewrite ger0_norm // divr_ge0 ?ler0n //.
have H k : (k <= size s)%N -> exists w, rfoldl (fun w i => let! x := py_get s (Posz i) in
    let! k0 := py_get (map Posz [seq (nth 0 s i - nth 0 T i)%N | i <- iota 0 (size s)]) (Posz i) in
    Ok (f_mul B w (fl_binom B x k0))) (f_quot B (Posz ab) (Posz (sumn s)`!)) (iota 0 k) = Ok w /\
    near (2 * k + 1) (w0 * (\prod_(i < k) 'C(nth 0 s i, nth 0 T i))%N%:R)
      (w0 * (\prod_(i < k) 'C(nth 0 s i, nth 0 T i))%N%:R) w.
  elim: k => [|k IH] kl; first by exists (f_quot B (Posz ab) (Posz (sumn s)`!)); rewrite big_ord0 !mulr1.
  have [w [E nw]] := IH (ltnW kl).
  have -> : iota 0 k.+1 = iota 0 k ++ [:: k] by rewrite -addn1 iotaD.
  rewrite rfoldl_cat E [rbind (Ok _) _]/=.
  rewrite (py_get_nth 0%N) //= (py_get_nth 0) ?size_map ?size_iota //=.
  rewrite (nth_map 0%N) ?size_map ?size_iota // (nth_map 0%N) ?size_iota // nth_iota // add0n.
  exists (f_mul B w (f_int B (Posz 'C(nth 0 s k, nth 0 s k - nth 0 T k)%N))); split=> //.
  rewrite bin_sub // big_ord_recr /= natrM mulrA.
  have := near_mul u0 accB nw (near_int u0 accB (Posz 'C(nth 0 s k, nth 0 T k)%N)).
  rewrite normr_nat -pmulrn => nn; apply: near_k nn => //; lia.
have [w [E nw]] := H _ (leqnn _).
exists w; split=> //; move: nw; rewrite -/(ways s T) ss.
suff -> : w0 * (ways s T)%:R = wt (sumn T) T by [].
have c0 : 'C(sumn s, sumn T)%:R != 0 :> R by rewrite pnatr_eq0 -lt0n bin_gt0.
rewrite mulrC /wt; congr (_ * _); apply: (mulIf c0); rewrite mulVf //.
apply: (mulIf (f0 (sumn s))); rewrite mul1r /w0 mulrAC divfK // -natrM.
by rewrite /ab mulnC [(_ * (sumn T)`!)%N]mulnC bin_fact.
Qed.

Lemma near_nn k (v w : R) : (k <= j)%N -> near k v v w -> 0 <= w.
Proof.
move=> kj H; have v0 := near_ge0 H; case: H => _.
rewrite -{2}(ger0_norm v0); apply: sign_le => //.
rewrite ler_subl_addr; apply: le_trans (small kj) _.
by rewrite -[1 + 1]/(2%:R : R) ler_pdivr_mulr ?ltr0n // -natrM ler_nat.
Qed.

Lemma fl_layer_weightsE l : (l <= sumn s)%N ->
  exists wh : seq nat -> R, fl_layer_weights B f_sum s (lay s l) = Ok (map wh (lay s l)) /\
   forall T, T \in lay s l -> near (2 * m + 2 + 2 * j) (wt l T) (wt l T) (wh T) /\ 0 <= wh T.
Proof.
move=> ln; rewrite /fl_layer_weights.
have A1 L : {subset L <= lay s l} -> rmapM (k_vector s) L =
  Ok [seq [seq Posz (nth 0%N s i - nth 0%N T i) | i <- iota 0 (size s)] | T <- L].
  elim: L => [//|T L IH] sub /=.
  have [sT _] := mem_lay (sub T (mem_head _ _)).
  by rewrite k_vectorE //= IH // => T' i; apply: sub; rewrite inE i orbT.
pose kv T := [seq Posz (nth 0%N s i - nth 0%N T i) | i <- iota 0 (size s)].
pose wr T := if fl_calculate_weight B s (kv T) is Ok w then w else 0.
have Hw T : T \in lay s l -> fl_calculate_weight B s (kv T) = Ok (wr T) /\ near (2 * m + 1) (wt l T) (wt l T) (wr T).
  by move=> /mem_lay [sT eT]; rewrite /wr; have [w [-> nw]] := fl_calculate_weightE sT; rewrite -eT.
have B1 L : {subset L <= lay s l} -> rmapM (fl_calculate_weight B s) (map kv L) = Ok (map wr L).
  elim: L => [//|T L IH] sub /=.
  have [-> _] := Hw _ (sub T (mem_head _ _)).
  by rewrite /= IH // => T' i; apply: sub; rewrite inE i orbT.
rewrite A1 // [rbind (Ok _) _]/= B1 // [rbind (Ok _) _]/=.
have [nS1 nS2] : near j 1 1 (f_sum (map wr (lay s l))).
  have H := near_sum (fun T i => (Hw T i).2); rewrite !wt_sum // in H.
  by apply: near_k H => //; rewrite leq_add2l; apply: lay_size.
exists (fun T => f_fdiv B (wr T) (f_sum (map wr (lay s l)))); split.
  have: lay s l <> [::].
    by move=> e; have := wt_sum ln; rewrite e big_nil => /esym/eqP; rewrite oner_eq0.
  case e: (lay s l) => [//|T L] _ /=; congr (Ok (_ :: _)).
  by rewrite -map_comp.
move=> T i; rewrite mulr1 in nS2; set S := f_sum _ in nS2 *.
have S0 : 0 < S.
  move: nS2; rewrite ler_norml => /andP[h _]; rewrite -subr_gt0 subr0.
  have : 1 - ((1 + u) ^+ j - 1) <= S by rewrite ler_subl_addr -ler_subl_addl; move: h; rewrite ler_oppl opprB => h; apply: le_trans h _.
  apply: lt_le_trans; rewrite subr_gt0; apply: (@le_lt_trans _ _ (5%:R / 4%:R - 1)); first by rewrite ler_add2r.
  by rewrite ltr_subl_addr -[1 + 1]/(2%:R : R) ltr_pdivr_mulr ?ltr0n // -natrM ltr_nat.
have [_ nw] := Hw _ i; split.
  apply: near_k (near_fdiv _ nS2 nw) => //; first by lia.
  apply: le_trans x4 _; rewrite ler_pdivr_mulr ?ltr0n // mulrAC ler_pdivl_mulr ?ltr0n // -!natrM ler_nat //.
have w0 : 0 <= wr T by apply: near_nn nw; lia.
apply: (sign_le u_one) (acc_fdiv accB _ _); last by rewrite gt_eqF.
by rewrite divr_ge0 // ltW.
Qed.

Notation G l := (any_scale l mu).
Definition kout l : nat := (2 * (any_roundings m l + 2) + m + 1)%N.

Lemma fl_outputs_probabilityE (a : any_calc CF) T t : calc_matrix a = U -> substate T s -> s != [::] ->
  size t = m -> sumn T = sumn t ->
  exists p a', [/\ fl_outputs_probability A B f_abs gray fuel a T t = Ok (p, a'), calc_matrix a' = U,
     near (kout (sumn t)) (nsq (bs_permanent U T t) / (factprod T)%:R / (sumn T)`!%:R) (G (sumn t) ^+ 2) p
   & 0 <= p].
Proof using u0 accA accB acc_abs sqU ss gr fu mub x4.
move=> ea sT s0 st e; have [szT _] := substateP _ _ sT.
rewrite /fl_outputs_probability; set b := set_output _ _.
have [v [b' [E nv]]] : exists v b', fl_compute_any A gray fuel b = Ok (v, b') /\
    ProofFloat.near (u%:C)%C (any_roundings (size T) (sumn T)) (bs_permanent U T t)
      (any_scale (sumn T) (mu%:C)%C) v.
  apply: (fl_anyE (uC0 u0) accA sqU _ _ _ _ mub).
  - by rewrite szT ss.
  - by rewrite szT ss.
  - by move: s0; rewrite -!size_eq0 szT.
  - by [].
  - by move=> k kl; apply: gr; apply: leq_trans kl (substate_sumn sT).
  - exact: leq_trans (prod_subs sT) fu.
  - by rewrite /b core_set.
  - by rewrite /b; case: (a).
  - by rewrite /b; case: (a).
have eb : calc_matrix b' = U by rewrite (fl_compute_matrix E) /b core_set.
rewrite E [rbind (Ok _) _]/=; rewrite szT ss e scaleC in nv.
do 2!eexists; split; [by []|exact: eb| |].
- have n1 := fl_foldl_div u0 accB T (near_pow u0 accB 2 (near_abs u0 acc_abs nv)).
  have j0 : Posz (sumn T)`! != 0 by have := fact_gt0 (sumn T); lia.
  have := near_div u0 accB j0 n1; rewrite normr_nat py_abs_sq -pmulrn => n2.
  apply: near_mono n2 => //; first by rewrite /kout szT ss; lia.
  have f1 : 1 <= (factprod T)%:R :> R by have := @factprod_gt0 R T; rewrite ltr0n ler1n.
  have f2 : 1 <= (sumn T)`!%:R :> R by rewrite ler1n fact_gt0.
  rewrite -mulrA -invfM ler_pdivr_mulr ?(lt_le_trans ltr01) // ?mulr_ege1 //.
  by rewrite ler_pemulr ?sqr_ge0 // mulr_ege1.
have u4 : 2%:R * u <= 2%:R^-1.
  rewrite -ler_pdivl_mull ?ltr0n //; apply: le_trans u_small _.
  by rewrite -invfM -natrM.
apply: (sign_le u_one) (acc_div accB _ _); last by have := fact_gt0 (sumn T); lia.
rewrite divr_ge0 // -?pmulrn ?ler0n //; apply: (foldl_ge0 u0 accB u4); apply: (pow_ge0 u0 accB) => //.
have p0 : 0 <= py_abs v by exact: sqrtr_ge0.
by apply: (sign_le u_one p0); rewrite (ger0_norm p0).
Qed.

Lemma fl_pmf_entryE (a : any_calc CF) (wh : seq nat -> R) t : calc_matrix a = U -> s != [::] -> size t = m ->
  (sumn t <= sumn s)%N ->
  (forall T, T \in lay s (sumn t) ->
     near (2 * m + 2 + 2 * j) (wt (sumn t) T) (wt (sumn t) T) (wh T) /\ 0 <= wh T) ->
  exists p a', [/\ fl_pmf_entry A B f_abs gray fuel a (lay s (sumn t)) (map wh (lay s (sumn t))) t = Ok (p, a'),
    calc_matrix a' = U, 0 <= p & `|p - qprob U s t| <= ((1 + u) ^+ layer_roundings m s (sumn t) - 1) * G (sumn t) ^+ 2].
Proof using u0 accA accB acc_abs sqU ss gr fu mub x4.
move=> ea s0 st le Hwh; rewrite /fl_pmf_entry.
set Ts := lay _ _; set ws := map _ _; set l := sumn t.
pose term T := nsq (bs_permanent U T t) / (factprod T)%:R / (sumn T)`!%:R * wt l T.
have H k : (k <= size Ts)%N -> exists p a', [/\ rfoldl (fun st i =>
    let! T := py_get Ts (Posz i) in
    let! pa := fl_outputs_probability A B f_abs gray fuel st.2 T t in
    let! w := py_get ws (Posz i) in
    Ok (f_add B st.1 (f_mul B pa.1 w), pa.2)) (0, a) (iota 0 k) = Ok (p, a'),
    calc_matrix a' = U, 0 <= p &
    near (kout l + (2 * m + 2 + 2 * j) + 1 + k) (\sum_(T <- take k Ts) term T)
      (\sum_(T <- take k Ts) (G l ^+ 2 * wt l T)) p].
  elim: k => [|k IH] kl.
    by exists 0, a; rewrite take0 !big_nil; split=> //; apply: near_exact; rewrite ?normr0.
  have [p [a' [E ea' p0 np]]] := IH (ltnW kl).
  have -> : iota 0 k.+1 = iota 0 k ++ [:: k] by rewrite -addn1 iotaD.
  rewrite rfoldl_cat E [rbind (Ok _) _]/= (take_nth [::]) // -cats1 !big_cat !big_seq1 /=.
  rewrite (py_get_nth [::]) // [rbind (Ok _) _]/=.
  have iT := mem_nth [::] kl.
  have [sT eT] := mem_lay iT; have [nw w0] := Hwh _ iT.
  have [q [a2 [E2 ea2 nq q0]]] := fl_outputs_probabilityE ea' sT s0 st eT.
  rewrite E2 [rbind (Ok _) _]/= (py_get_nth 0) ?size_map //= (nth_map [::]) //.
  do 2!eexists; split; [by []|by []| |].
    apply: (sign_le u_one) (acc_add accB _ _); apply: addr_ge0 => //.
    by apply: (sign_le u_one) (acc_mul accB _ _); apply: mulr_ge0.
  rewrite addnS; apply: near_add => //.
  by apply: near_k (near_mul u0 accB nq nw) => //; rewrite -/l; lia.
have [p [a' [E ea' p0 np]]] := H _ (leqnn _).
exists p, a'; split=> //; move: np; rewrite take_size.
have -> : \sum_(T <- Ts) term T = qprob U s t.
  rewrite /Ts big_filter /qprob /qnum mulr_suml; apply: eq_bigr => T /eqP eT.
  rewrite /term /wt eT -bin_ffact natrM invfM -/l.
  move: (nsq _) ((factprod T)%:R^-1) (l`!%:R^-1) ('C(_, _)%:R^-1) ((ways s T)%:R) => x y z w v.
  ring.
rewrite -mulr_sumr wt_sum // mulr1 => np.
have [] // : near (layer_roundings m s l) (qprob U s t) (G l ^+ 2) p.
by apply: near_k np => //; rewrite /layer_roundings /kout; have := lay_size l; rewrite -/Ts; lia.
Qed.

End Fixed.
End Layer.
