(* Version A with uniform losses and rounded arithmetic: samples and lists. *)
From mathcomp Require Import all_ssreflect all_algebra complex.
From mathcomp Require Import ring zify.
From Verif Require Import Base SpecStates Combi SpecPerm PermMath SpecBS BsMath BsComb BsNorm.
From Verif Require Import ModelStates ProofStates1 ProofStates4 LemStates ModelPerm ProofPerm6 LemPerm ModelDist ProofDist1
  SpecProb ProbMath ModelGcc ModelGccB SampMath ProofSel ProofGcc1 ProofGcc2 ProofGcc3 ProofGccB2 ProofGcc6
  ModelFloat ModelFloatDist SpecFloat SpecFloatGcc ProofFloat ProofFloat4 ProofFloatDist ProofFloatDist2
  ModelFloatGcc ProofFloatSel ProofFloatGcc1 ProofFloatGcc2 ProofFloatGcc3 ModelFloatGccU SpecFloatGccU ProofFloatGccU1.
Set Implicit Arguments.
Unset Strict Implicit.
Unset Printing Implicit Defensive.
Import Order.TTheory GRing.Theory Num.Theory.
Local Open Scope ring_scope.
Local Open Scope py_scope.

Section U.
Variable R : rcfType.
Notation CF := (ComplexField.complex_numFieldType R).
Variables (u eps : R) (A : arith CF) (B : arith R) (f_abs : CF -> R) (f_sum : seq R -> R) (N : nat).
Hypothesis u0 : 0 <= u.
Hypothesis accA : accurate (u%:C)%C A.
Hypothesis accB : accurate u B.
Hypothesis acc_abs : forall z, `|f_abs z - py_abs z| <= u * py_abs z.
Hypothesis acc_sum : accurate_sum u f_sum.
Hypothesis N0 : (0 < N)%N.
Variables (gray : nat -> seq nat) (fuel m : nat) (U V : seq (seq CF)) (s : seq nat).
Hypotheses (uU : unitary m U) (sqV : is_square m V) (ss : size s = m) (gr : gray_ok gray (sumn s)).
Hypothesis fu : (code_number s <= fuel)%N.
Hypothesis e0 : 0 <= eps.
Hypothesis UV : forall j i, (j < m)%N -> (i < m)%N -> `|ent V j i - ent U j i| <= (eps%:C)%C.
Hypothesis x4 : (1 + u) ^+ (2 * m + 1 + code_number s) <= 5%:R / 4%:R.
Variables (L : seq (seq nat)) (eta : R) (mis : bool).
Hypothesis genL : generate_possible_states fuel (Posz (sumn s)) (Posz (size s)) true = Ok L.
Hypothesis memL : forall t, (t \in L) = (size t == m) && (sumn t <= sumn s)%N.
Hypothesis headL : nth [::] L 0 = nseq m 0%N.
Hypothesis eta01 : 0 <= eta <= 1.

Notation n := (sumn s).
Let delta := entry_error u eps m s.
Notation ok_a := (fun r : seq nat => size r = m).
Notation inv_a := (finv m U V s id incr ok_a delta).
Let un : unitary_on m U s := uon uU ss.
Notation init := (init R mis).
Notation fbws := (fl_bin_weights B n eta).

Lemma delta_ge0 l : 0 <= delta l.
Proof.
have h0 : 0 <= (1 + u) ^+ layer_roundings m s l - 1 := E0 u0 _.
have h1 : 0 <= (1 + eps) ^+ (2 * l) - 1 := E0 e0 _.
apply: addr_ge0; apply: mulr_ge0 => //; [exact: sqr_ge0|exact: ler0n].
Qed.

Lemma recorded_ge0 l : 0 <= recorded_error u eps m s l.
Proof.
rewrite subr_ge0 -[X in X <= _]mulr1; apply: ler_pmul; rewrite ?ler01 //; first exact: (E1 u0).
by rewrite ler_addl mulr_ge0 ?ler0n ?delta_ge0.
Qed.

Lemma weighted_ge l : bin_weight_error u n <= weighted_error u eps m s l.
Proof.
have f0 : 0 <= bin_weight_error u n := E0 u0 _.
have r0 := recorded_ge0 l; rewrite /weighted_error; move: (bin_weight_error _ _) (recorded_error _ _ _ _ _) f0 r0 => f e f0 r0.
rewrite ler_subr_addl -[X in X <= _]mul1r; apply: ler_pmul; rewrite ?ler_addl ?addr_ge0 ?ler01 //.
by rewrite -[X in X <= _]mul1r; apply: ler_wpmul2r; rewrite ?addr_ge0 ?ler01 // ler_addl.
Qed.

Lemma fixed_le1 t : size t = m -> (sumn t <= n)%N -> 0 <= fixed_loss_prob U s t <= 1.
Proof.
move=> st le; rewrite fixed_loss_prob_ge0 /= -(fixed_loss_norm un le).
have mem : t \in comps m (sumn t) by rewrite mem_comps /is_state st !eqxx.
rewrite (big_rem _ mem) ler_addl sumr_ge0 // => *; exact: fixed_loss_prob_ge0.
Qed.

Lemma bw_le1 l : (l <= n)%N -> 0 <= binomial_weight n eta l <= 1.
Proof.
move=> ln; have [nn sm] := bw_distr eta01 n.
have mem : binomial_weight n eta l \in [seq binomial_weight n eta l | l <- iota 0 n.+1] by apply: map_f; rewrite mem_iota.
move: nn sm mem; move: [seq _ | _ <- _] => W nn <- mem; rewrite (allP nn) //= (big_rem _ mem) ler_addl.
by rewrite big_seq_cond sumr_ge0 // => y /andP[yW _]; exact: (allP nn _ (seq.mem_rem yW)).
Qed.

(* every entry is untouched or accurate *)
Definition fdinv (du : seq R * seq R) : Prop :=
  [/\ size du.1 = size L, size du.2 = size L &
      forall i, (i < size L)%N ->
        (du.1`_i = init \/ `|du.1`_i - uniform_loss_prob U s eta (nth [::] L i)| <= weighted_error u eps m s (sumn (nth [::] L i))) /\
        (du.2`_i = init \/ `|du.2`_i - fixed_loss_prob U s (nth [::] L i)| <= recorded_error u eps m s (sumn (nth [::] L i)))].

Lemma fl_record_inv (x : ugcc R) t p du : ug_outs x = L -> ug_weights x = fbws ->
  size t = m -> (sumn t <= n)%N -> 0 <= p -> `|p - qprob U s t| <= delta (sumn t) -> fdinv du ->
  exists du', fl_record_output B x t p du = Ok du' /\ fdinv du'.
Proof.
move=> eL ew st le p0 pq; rewrite /fl_record_output eL; apply: rfoldl_inv => {}du i /In_mem.
rewrite mem_iota add0n /= => il [d1 d2 d3].
rewrite (py_get_nth [::]) // [rbind (Ok _) _]/=; case: eqP => [et|_]; last by exists du.
rewrite (py_set_nth 0) ?d2 // [rbind (Ok _) _]/= ew.
rewrite (py_get_nth 0) ?size_bw // [rbind (Ok _) _]/= (py_set_nth 0) ?d1 //=.
have F01 := fixed_le1 st le.
have h1 : `|fl_recorded B t p - fixed_loss_prob U s t| <= recorded_error u eps m s (sumn t).
  rewrite qprob_fixed //; apply: (fl_recorded_near u0 accB) => //.
  by rewrite -qprob_fixed.
have h2 := fl_bin_weights_near u0 accB eta01 le.
eexists; split; first by []; split=> /=; rewrite ?size_setn ?d1 ?d2 //.
move=> j jl; rewrite !nth_set_nth /=; have [o1 o2] := d3 j jl; case: eqP => // ->.
rewrite -et; split; right; last exact: h1.
rewrite /uniform_loss_prob [_ * fixed_loss_prob _ _ _]mulrC.
apply: product_close (acc_mul accB _ _) => //; exact: bw_le1.
Qed.

Record fuinv (x : ugcc R) : Prop := FUInv {
  fu_outs : ug_outs x = L;
  fu_w : ug_weights x = fbws;
  fu_eta : ug_eta x = eta;
  fu_d : fdinv (ug_dist x, ug_unw x);
  fu_g : inv_a (ug_gcc x)
}.

Lemma fl_u_entriesE (x : ugcc R) (a : any_calc CF) (wh : seq nat -> R) acc l outs du : fuinv x ->
  calc_matrix a = V -> s != [::] -> (l <= n)%N ->
  (forall t, t \in outs -> size t = m /\ sumn t = l) ->
  (forall T, T \in lay s l ->
     near u (2 * m + 2 + 2 * (2 * m + 1 + code_number s)) (wt R s l T) (wt R s l T) (wh T) /\ 0 <= wh T) -> fdinv du ->
  exists ps a' du', [/\ rfoldl (fun st t =>
    let: (pmf, a, du) := st in
    let! pa := fl_pmf_entry A B f_abs gray fuel a (lay s l) (map wh (lay s l)) t in
    let! du := fl_record_output B x t pa.1 du in
    Ok (rcons pmf pa.1, pa.2, du)) (acc, a, du) outs = Ok (acc ++ ps, a', du'),
    calc_matrix a' = V /\ fdinv du', size ps = size outs,
    all (fun x => 0 <= x) ps & forall j, (j < size outs)%N -> `|ps`_j - qprob U s (nth [::] outs j)| <= delta l].
Proof.
move=> I + s0 le + H; elim: outs acc a du => [|t outs IH] acc a du ea Ho d; first by exists [::], a, du; rewrite cats0.
have [st et] := Ho t (mem_head _ _).
have [|T|p [a1 [E1 ea1 p0 pq]]] := @entry_good R u eps A B f_abs u0 accA accB acc_abs gray fuel m U V s uU sqV ss gr fu e0 UV x4 a wh t ea s0 st; rewrite ?et //; first exact: H.
rewrite et in E1; rewrite rfoldl_cons E1 [rbind (Ok _) _]/=.
have let' : (sumn t <= n)%N by rewrite et.
rewrite -/delta in pq.
have [du1 [-> d1]] := fl_record_inv (fu_outs I) (fu_w I) st let' p0 pq d.
rewrite ![rbind (Ok _) _]/=.
have [t' it|ps [a' [du' [E [ea' d'] sp al hp]]]] := IH (rcons acc p) a1 du1 ea1 _ d1.
  by apply: Ho; rewrite inE it orbT.
exists (p :: ps), a', du'; split=> //.
- by rewrite E -cats1 -catA.
- by rewrite /= sp.
- by rewrite /= p0.
by case=> [_|j jl]; [rewrite et in pq|apply: hp].
Qed.

Lemma fl_u_ensureE x : fuinv x -> (sumn (g_r (ug_gcc x)) < n)%N ->
  exists x' pmf, [/\ fl_u_ensure_layer A B f_abs f_sum gray fuel x = Ok x', fuinv x', g_r (ug_gcc x') = g_r (ug_gcc x),
    dget (g_pmfs (ug_gcc x')) (g_r (ug_gcc x')) = Some pmf & good m U s id delta (g_r (ug_gcc x')) pmf].
Proof.
move=> I lt; have [i1 i2 i3 i5 ig] := I; rewrite /fl_u_ensure_layer; case E: (dget _ _) => [pmf|].
  by exists x, pmf; split=> //; rewrite -(fi_key ig) //; have [] := fi_cache ig E.
have [g1 g2 g3 g4 g5 g6 g7] := ig.
rewrite /fl_u_new_layer g2 g3 labelE -/(lay s _).
have [wh [-> Hw]] := fl_layer_weightsE u0 accB acc_sum sqV ss fu x4 lt.
rewrite [rbind (Ok _) _]/= possible_output_statesE [rbind (Ok _) _]/=.
pose r := g_r (ug_gcc x).
have sr : size r = m := g5.
have [|ps [a' [du' [-> [ea d'] sp al hp]]]] := fl_u_entriesE (outs := [seq incr r j | j <- iota 0 (size r)]) [::]
   I g4 (nonempty lt) lt _ Hw i5.
  by move=> t /mapP[j]; rewrite mem_iota => /= jl ->; rewrite size_incr ?sumn_incr.
rewrite size_map size_iota sr in sp hp.
have gp : good m U s id delta r ps.
  split=> // j jm; have := hp j jm; by rewrite (nth_map 0%N) ?size_iota ?sr // nth_iota.
rewrite [rbind (Ok _) _]/=; do 2!eexists; split; first by [].
- split=> //=.
  have := flayer_inv (m := m) (U := U) (V := V) (s := s) (occ := id) (ext := incr) ig ea gp.
  by rewrite /with_layer /ou -/r g5 g2 g3.
- by [].
- by rewrite /= dget_dset g6 eqxx.
- exact: gp.
Qed.

Lemma fu_moved x g' : fuinv x -> inv_a g' -> fuinv (set_ug x g' (ug_dist x, ug_unw x)).
Proof. by case. Qed.

Let x4s : (1 + u) ^+ m.+1 - 1 <= 4%:R^-1.
Proof.
have h : (1 + u) ^+ m.+1 <= 5%:R / 4%:R by apply: (small u0 x4); lia.
rewrite -subr_ge0; have -> : 4%:R^-1 - ((1 + u) ^+ m.+1 - 1) = 5%:R / 4%:R - (1 + u) ^+ m.+1 :> R.
  by move: ((1 + u) ^+ m.+1) => z; field.
by rewrite subr_ge0.
Qed.

(* ---- all runs ---- *)
Lemma fl_u_fill_always i x : fuinv x -> (sumn (g_r (ug_gcc x)) + i <= n)%N ->
  always (fun y => y = Err IndexError \/ exists x', [/\ y = Ok x', fuinv x' & (sumn (g_r (ug_gcc x')) <= n)%N])
    (fl_u_fill_loop A B f_abs f_sum gray fuel N i x).
Proof.
elim: i x => [|i IH] x I le; first by right; exists x; rewrite addn0 in le.
move=> /= k kN; case: ifP => _; first by apply: IH => //; lia.
have lt : (sumn (g_r (ug_gcc x)) < n)%N by lia.
have [x' [pmf [-> I' er Ep gp]]] := fl_u_ensureE I lt; rewrite {1}/rpbind [pbind (Ret _) _]/=.
rewrite -er in lt le; have [sp _ _] := gp.
apply: always_rbind => k2 k2N /=; rewrite (fl_sample_withE B f_sum N k2 (fu_g I') Ep sp); case: ifP => im; last by left.
apply: IH; last by rewrite /= sumn_incr ?(fi_ok (fu_g I')) //; lia.
apply: fu_moved => //; apply: fmoved_inv (fu_g I') im => r j <- jm; by rewrite size_incr.
Qed.

(* ---- expectations ---- *)
Variables (Y : Type) (F : res Y -> R) (cont : ugcc R -> rprog R (res Y)) (E : seq nat -> R) (ee : R).
Hypothesis FErr : forall e, F (Err e) = 0.
Hypothesis Hcont : forall x, fuinv x -> (sumn (g_r (ug_gcc x)) <= n)%N ->
  exists v, [/\ has_exp F (cont x) v, 0 <= v <= 1 & `|v - E (g_r (ug_gcc x))| <= ee].

Notation gm := (2%:R * m%:R * sel_error u N m).
Notation loop := (fl_u_fill_loop A B f_abs f_sum gray fuel N).

Definition upath i r : R := \sum_(l < i.+1) binomial_weight i eta l * wpath m U s E l r.

Lemma upathS i r : upath i.+1 r = (1 - eta) * upath i r + eta * \sum_(j < m) upath i (incr r j).
Proof.
rewrite /upath (binomial_mix ss eta i (fun l => wpath m U s E l r)); congr (_ + _ * _); rewrite exchange_big /=; apply: eq_bigr => l _.
by rewrite -mulr_sumr.
Qed.

Lemma path_error_ge0 l d : 0 <= path_error m delta l d.
Proof. by elim: d l => [|d IH] l //=; rewrite addr_ge0 ?mulr_ge0 ?ler0n ?delta_ge0. Qed.

Lemma path_error_mono l d : path_error m delta l d <= path_error m delta l d.+1.
Proof.
elim: d l => [|d IH] l; first exact: path_error_ge0.
rewrite /=; apply: ler_add => //; apply: ler_wpmul2l; [exact: ler0n|exact: IH].
Qed.

(* the fraction of random numbers below eta *)
Definition kept : R := (\sum_(k < N) (k%:R / N%:R < eta)%R)%N%:R / N%:R.

Lemma kept_near : `|kept - eta| <= N%:R^-1.
Proof.
have /andP[h0 h1] := eta01; have NR : 0 < N%:R :> R by rewrite ltr0n.
have -> : kept = (below (eta * N%:R) N)%:R / N%:R.
  by congr (_%:R / _); apply: eq_bigr => k _; rewrite ltr_pdivr_mulr.
have lo : eta * N%:R <= N%:R by rewrite -[X in _ <= X]mul1r; apply: ler_wpmul2r => //; rewrite ltW.
have a := below_ge lo; have b : (below (eta * N%:R) N)%:R <= eta * N%:R + 1.
  apply: below_le; apply: (@le_trans _ _ 0); first by rewrite oppr_le0 ler01.
  by rewrite mulr_ge0 // ltW.
rewrite ler_norml; apply/andP; split.
  rewrite ler_subr_addl -ler_subr_addr opprK; apply: (@le_trans _ _ ((below (eta * N%:R) N)%:R / N%:R)).
    by rewrite ler_pdivl_mulr.
  by rewrite ler_addl invr_ge0 ltW.
by rewrite ler_subl_addl ler_pdivr_mulr // mulrDl mulVf // gt_eqF.
Qed.

Lemma kept_01 : 0 <= kept <= 1.
Proof.
have NR : 0 < N%:R :> R by rewrite ltr0n.
rewrite divr_ge0 ?ler0n //= ler_pdivr_mulr // mul1r ler_nat.
apply: (@leq_trans (\sum_(k < N) 1)); first by apply: leq_sum => k _; case: (_ < _).
by rewrite sum_nat_const card_ord muln1.
Qed.

Lemma fl_u_fill_exp i x : fuinv x -> (sumn (g_r (ug_gcc x)) + i <= n)%N ->
  exists v, [/\ has_exp F (rpbind (loop i x) cont) v, 0 <= v <= 1 &
    let r := g_r (ug_gcc x) in let q := qprob U s r in
    `|q * v - upath i r| <= path_error m delta (sumn r) i + (i%:R * (gm + N%:R^-1) + ee) * q].
Proof.
elim: i x => [|i IH] x I le.
  rewrite addn0 in le; have [v [Hv v01 ve]] := Hcont I le; exists v; split=> //=.
  rewrite /upath big_ord_recl big_ord0 addr0 /binomial_weight bin0 !expr0 !mul1r mul0r !add0r /wpath /=.
  rewrite [E _ * _]mulrC -mulrBr normrM (ger0_norm (qprob_ge0 _ _ _)) mulrC.
  by apply: ler_wpmul2r => //; apply: qprob_ge0.
have lt : (sumn (g_r (ug_gcc x)) < n)%N by lia.
have [vs [Hs /andP[s0 s1]]] : exists v, [/\ has_exp F (rpbind (loop i x) cont) v, 0 <= v <= 1 &
    let r := g_r (ug_gcc x) in let q := qprob U s r in
    `|q * v - upath i r| <= path_error m delta (sumn r) i + (i%:R * (gm + N%:R^-1) + ee) * q].
  by apply: IH => //; lia.
have [x' [pmf [Ex I' er Ep gp]]] := fl_u_ensureE I lt.
rewrite -er in le lt *; set g' := ug_gcc x' in le lt Ep gp er *; move: (gp) => [sp p0 pd].
rewrite [let r := _ in _]/=; set r := g_r g' in le lt pd Ep gp er *; move=> bs.
have ig := fu_g I'; have sr : size r = m := fi_ok ig.
have S j : (j < m)%N -> exists v, [/\ has_exp F (rpbind (loop i (set_ug x' (fmoved incr g' pmf j) (ug_dist x', ug_unw x'))) cont) v,
    0 <= v <= 1 & let q := qprob U s (incr r j) in
    `|q * v - upath i (incr r j)| <= path_error m delta (sumn r).+1 i + (i%:R * (gm + N%:R^-1) + ee) * q].
  move=> jm; set xj := set_ug _ _ _.
  have Ij : fuinv xj by apply: fu_moved => //; apply: fmoved_inv ig jm => r' j' <- jm'; rewrite size_incr.
  have er' : g_r (ug_gcc xj) = incr r j by [].
  have lj : (sumn (g_r (ug_gcc xj)) + i <= n)%N by rewrite er' sumn_incr ?sr //; lia.
  by have := IH xj Ij lj; cbv zeta; rewrite er' sumn_incr ?sr.
have [W HW] := choose_seq 0 S; clear S IH.
pose W' j := if (j < m)%N then W j else 0.
have W0 j : 0 <= W' j by rewrite /W'; case: ifP => // im; have [_ /andP[]] := HW _ im.
have W1 j : W' j <= 1 by rewrite /W'; case: ifP => [im|_]; rewrite ?ler01 //; have [_ /andP[]] := HW _ im.
have avg := @draw_average R B f_sum N pmf W'; rewrite sp in avg.
have x4' : (1 + u) ^+ (size pmf).+1 - 1 <= 4%:R^-1 by rewrite sp.
pose vm := \sum_(j < m) phat B f_sum N pmf j * W' j.
have Hm : has_exp F (rpbind (rpbind (fl_sample_from_latest_pmf B f_sum N g')
    (fun g => loop i (set_ug x' g (ug_dist x', ug_unw x')))) cont) vm.
  rewrite /vm -avg; last by move=> j; rewrite /W' leqNgt => /negbTE ->.
  apply: (@ExpInt _ _ F N _ (fun k => W' (idx B f_sum N pmf k))) => // k kN.
  rewrite (fl_sample_withE B f_sum N k ig Ep sp) /W'.
  case: ifP => im; first by have [] := HW _ im.
  by rewrite -(FErr IndexError); constructor.
have m0 : 0 <= vm by apply: sumr_ge0 => j _; apply: mulr_ge0 => //; apply: phat_ge0.
have m1 : vm <= 1.
  have := @phat_sum R B f_sum N N0 pmf; rewrite sp => h; apply: le_trans h.
  by apply: ler_sum => j _; rewrite -[X in _ <= X]mulr1; apply: ler_wpmul2l => //; apply: phat_ge0.
set q := qprob U s r in bs *.
have q0 : 0 <= q := qprob_ge0 _ _ _.
pose qi j := qprob U s (incr r j).
have qE : q = \sum_(j < m) qi j by rewrite /q -(qprob_step un ss sr lt).
have bm : `|q * vm - \sum_(j < m) upath i (incr r j)| <=
   path_error m delta (sumn r) i.+1 + (gm + i%:R * (gm + N%:R^-1) + ee) * q.
  rewrite /vm mulr_sumr -sumrB.
  have sb := @sel_bound R u B f_sum N u0 accB acc_sum N0 pmf p0 x4' qi (delta (sumn r).+1).
  rewrite sp -qE in sb; have {}sb := sb (fun i => qprob_ge0 _ _ _) pd.
  have T (j : 'I_m) : `|q * (phat B f_sum N pmf j * W' j) - upath i (incr r j)| <=
     `|q * phat B f_sum N pmf j - qi j| + (path_error m delta (sumn r).+1 i + (i%:R * (gm + N%:R^-1) + ee) * qi j).
    have -> : q * (phat B f_sum N pmf j * W' j) - upath i (incr r j) =
       (q * phat B f_sum N pmf j - qi j) * W' j + (qi j * W' j - upath i (incr r j)) by ring.
    apply: le_trans (ler_norm_add _ _) _; apply: ler_add.
      by rewrite normrM (ger0_norm (W0 j)) -[X in _ <= X]mulr1; apply: ler_wpmul2l.
    by have [_ _] := HW j (ltn_ord j); rewrite /W' ltn_ord.
  apply: le_trans (ler_norm_sum _ _ _) _; apply: le_trans (ler_sum _ (fun i _ => T i)) _.
  rewrite !big_split /= -mulr_sumr -qE sumr_const card_ord -[_ *+ m]mulr_natl.
  apply: le_trans (ler_add sb (lexx _)) _.
  have -> : gam u N pmf = sel_error u N m by rewrite /gam /sel_error sp.
  rewrite le_eqVlt; apply/orP; left; apply/eqP.
  move: (sel_error _ _ _) (delta _) (path_error _ _ _ _) (m%:R : R) (i%:R * _) => a b c y z.
  ring.
have NR : 0 < N%:R :> R by rewrite ltr0n.
exists ((1 - kept) * vs + kept * vm); have /andP[k0 k1] := kept_01; have kc : 0 <= 1 - kept by rewrite subr_ge0.
split.
- have -> : (1 - kept) * vs + kept * vm =
      (\sum_(k < N) (if eta <= k%:R / N%:R then vs else vm)) / N%:R.
    have -> : \sum_(k < N) (if eta <= k%:R / N%:R then vs else vm) =
        \sum_(k < N) (vs + ((k%:R / N%:R < eta)%R)%:R * (vm - vs)).
      apply: eq_bigr => k _; case: ltP => _; first by rewrite mul1r addrC subrK.
      by rewrite mul0r addr0.
    rewrite big_split /= sumr_const card_ord -mulr_suml -natr_sum -[vs *+ N]mulr_natl /kept.
    move: (_%:R : R) => z; field; by rewrite gt_eqF.
  rewrite [loop _ _]/=; apply: (@ExpInt _ _ F N _ (fun k => if eta <= k%:R / N%:R then vs else vm)) => // k kN.
  rewrite (fu_eta I); case: ifP => _; first exact: Hs.
  by rewrite Ex; exact: Hm.
- apply/andP; split; first by apply: addr_ge0; apply: mulr_ge0 => //.
  have e1 : (1 - kept) * 1 + kept * 1 = 1 :> R by rewrite !mulr1 subrK.
  by rewrite -[X in _ <= X]e1; apply: ler_add; apply: ler_wpmul2l.
have /andP[h0 h1] := eta01; have hc : 0 <= 1 - eta by rewrite subr_ge0.
cbv zeta; rewrite upathS.
have -> : q * ((1 - kept) * vs + kept * vm) - ((1 - eta) * upath i r + eta * \sum_(j < m) upath i (incr r j)) =
   (kept - eta) * ((vm - vs) * q) + ((1 - eta) * (q * vs - upath i r) + eta * (q * vm - \sum_(j < m) upath i (incr r j))) by ring.
have b1 : `|(kept - eta) * ((vm - vs) * q)| <= N%:R^-1 * q.
  rewrite normrM; apply: ler_pmul => //; first exact: kept_near.
  rewrite normrM (ger0_norm q0) -[X in _ <= X]mul1r; apply: ler_wpmul2r => //.
  rewrite ler_norml; apply/andP; split; last by rewrite ler_subl_addr (le_trans m1) // ler_addl.
  by rewrite ler_subr_addr addrC ler_subl_addr (le_trans s1) // ler_addr.
apply: le_trans (ler_norm_add _ _) _; apply: (@le_trans _ _ (N%:R^-1 * q +
   ((1 - eta) * (path_error m delta (sumn r) i.+1 + (gm + i%:R * (gm + N%:R^-1) + ee) * q) +
    eta * (path_error m delta (sumn r) i.+1 + (gm + i%:R * (gm + N%:R^-1) + ee) * q)))).
  apply: ler_add => //; apply: le_trans (ler_norm_add _ _) _.
  rewrite !normrM (ger0_norm hc) (ger0_norm h0); apply: ler_add; apply: ler_wpmul2l => //.
  apply: le_trans bs _; apply: ler_add; first exact: path_error_mono.
  apply: ler_wpmul2r => //; rewrite -addrA ler_addr mulr_ge0 ?mulr_ge0 ?ler0n //.
  by rewrite addr_ge0 ?mulr_ge0 ?ler0n ?invr_ge0 ?ler0n //; exact: (E0 u0).
rewrite le_eqVlt; apply/orP; left; apply/eqP.
have -> : i.+1%:R = i%:R + 1 :> R by rewrite -addn1 natrD.
move: (path_error _ _ _ _) (2%:R * _ * sel_error _ _ _) (i%:R : R) (N%:R^-1) => a b c y.
by rewrite -/q; ring.
Qed.

End U.
