(* Version B of the samplers with rounded arithmetic: the law of the samples. *)
From mathcomp Require Import all_ssreflect all_fingroup all_algebra complex.
From mathcomp Require Import ring zify.
From Verif Require Import Base SpecStates Combi SpecPerm PermMath SpecBS BsMath BsComb BsNorm.
From Verif Require Import ModelStates ProofStates1 LemStates ModelPerm ProofPerm6 LemPerm ModelDist ProofDist1
  SpecProb ProbMath ModelGcc ModelGccB SampMath ProofSel ProofGcc1 ProofGcc2 ProofGcc3 ProofGccB1
  ModelFloat ModelFloatDist SpecFloat SpecFloatSub SpecFloatGcc SpecFloatGccB ProofFloat ProofFloat4 ProofFloatDist
  ProofFloatDist2 ModelFloatSub ModelFloatGcc ModelFloatGccB ProofFloatSub2 ProofFloatGcc1 ProofFloatGcc2 ProofFloatGcc3
  ProofFloatSelB ProofFloatGccB1.
Set Implicit Arguments.
Unset Strict Implicit.
Unset Printing Implicit Defensive.
Import Order.Theory GRing.Theory Num.Theory.
Local Open Scope ring_scope.
Local Open Scope py_scope.

(* one step of the error recursion *)
Lemma mix_bound (R : rcfType) m (q p W X : 'I_m -> R) (a E D eps : R) : let t := \sum_(j < m) q j in
  0 <= a -> a <= t -> 0 <= D -> (forall j, 0 <= q j) -> \sum_(j < m) `|t * p j - q j| <= E ->
  (forall j, 0 <= W j <= 1) -> (forall j, q j * `|W j - X j| <= D + eps * q j) ->
  a * `|\sum_(j < m) p j * W j - \sum_(j < m) q j / t * X j| <= E + m%:R * D + eps * a.
Proof.
move=> t a0 at_ D0 q0 hE hW hX.
have E0 : 0 <= E by apply: le_trans hE; apply: sumr_ge0.
have c0 : 0 <= E + m%:R * D by rewrite addr_ge0 // mulr_ge0 ?ler0n.
have [e|ne] := eqVneq t 0.
  have -> : a = 0 by apply/eqP; rewrite eq_le a0 andbT -e.
  by rewrite mul0r mulr0 addr0.
have tp : 0 < t by rewrite lt_def ne /t sumr_ge0.
have H : t * `|\sum_(j < m) p j * W j - \sum_(j < m) q j / t * X j| <= E + m%:R * D + eps * t.
  rewrite -{1}(gtr0_norm tp) -normrM mulrBr !mulr_sumr -sumrB.
  apply: (@le_trans _ _ (\sum_(j < m) (`|t * p j - q j| + (D + eps * q j)))).
    apply: le_trans (ler_norm_sum _ _ _) _; apply: ler_sum => j _.
    have -> : t * (p j * W j) - t * (q j / t * X j) = (t * p j - q j) * W j + q j * (W j - X j).
      by rewrite [t * (_ / _ * _)]mulrA [t * (_ / _)]mulrCA divff // mulr1; ring.
    apply: le_trans (ler_norm_add _ _) _; apply: ler_add; rewrite normrM.
      have /andP[W0 W1] := hW j; rewrite (ger0_norm W0) -[X in _ <= X]mulr1.
      exact: ler_wpmul2l.
    by rewrite (ger0_norm (q0 j)); apply: hX.
  rewrite !big_split /= sumr_const card_ord -mulr_sumr -/t -[D *+ m]mulr_natl -addrA.
  by rewrite ler_add2r.
set Z := `|_| in H *.
have -> : a * Z = a / t * (t * Z) by rewrite mulrA divfK.
have f0 : 0 <= a / t by rewrite divr_ge0 // ltW.
apply: le_trans (ler_wpmul2l f0 H) _; rewrite mulrDr; apply: ler_add; last first.
  by rewrite mulrCA divfK.
by rewrite -[X in _ <= X]mul1r ler_wpmul2r // ler_pdivr_mulr // mul1r.
Qed.

Section Path.
Variable R : rcfType.
Variables (m : nat) (e : nat -> R).
Fixpoint bpath (l d : nat) : R := if d is d'.+1 then e l + m%:R * bpath l.+1 d' else 0.

Lemma bpathE l d : bpath l d = \sum_(i < d) m%:R ^+ i * e (l + i)%N.
Proof.
elim: d l => [|d IH] l /=; first by rewrite big_ord0.
rewrite big_ord_recl IH expr0 mul1r addn0; congr (_ + _); rewrite mulr_sumr; apply: eq_bigr => i _.
by rewrite lift0 exprS addSnnS mulrA.
Qed.

Lemma bpath_ge0 l d : (forall l, 0 <= e l) -> 0 <= bpath l d.
Proof.
move=> e0; elim: d l => [|d IH] l //=.
by rewrite addr_ge0 // mulr_ge0 ?ler0n.
Qed.
End Path.

Section Law.
Variable R : rcfType.
Notation CF := (ComplexField.complex_numFieldType R).
Variables (u eps : R) (A : arith CF) (B : arith R) (f_abs : CF -> R) (f_sum f_check : seq R -> R).
Variables (f_search : R -> seq R -> nat) (N : nat).
Hypothesis u0 : 0 <= u.
Hypothesis accA : accurate (u%:C)%C A.
Hypothesis accB : accurate u B.
Hypothesis acc_abs : forall z, `|f_abs z - py_abs z| <= u * py_abs z.
Hypothesis acc_sum : accurate_sum u f_sum.
Hypothesis acc_check : accurate_sum u f_check.
Hypothesis srch : right_search f_search.
Hypothesis N0 : (0 < N)%N.
Variables (fuel m : nat) (U V : seq (seq CF)) (s : seq nat).
Hypotheses (uU : unitary_on m U s /\ entries_bounded m U (1%:C)%C) (sqV : is_square m V) (ss : size s = m).
Hypothesis fu : (code_number s <= fuel)%N.
Hypothesis e0 : 0 <= eps.
Hypothesis UV : forall j i, (j < m)%N -> (i < m)%N -> `|ent V j i - ent U j i| <= (eps%:C)%C.
Hypothesis small : (9 * m + 4)%:R * u <= (2%:R ^+ 27)^-1.

Notation phi T r := (nsq (bs_permanent U T r)).

Lemma u4 : u <= 4%:R^-1.
Proof.
apply: (@le_trans _ _ ((9 * m + 4)%:R * u)).
  by rewrite -[X in X <= _]mul1r ler_wpmul2r // ler1n addn_gt0 orbT.
apply: le_trans small _; rewrite lef_pinv ?posrE ?exprn_gt0 ?ltr0n //.
have -> : 4%:R = 2%:R ^+ 2 :> R by rewrite -natrX.
by rewrite ler_eexpn2l ?ltr1n.
Qed.

Record fbinv (b : gccb R) : Prop := FBInv {
  fb_n : b_n b = sumn s;
  fb_in : b_input b = s;
  fb_mat : calc_matrix (b_calc b) = V;
  fb_sub : substate (b_current b) s;
  fb_r : size (b_r b) = m;
  fb_sum : sumn (b_current b) = sumn (b_r b);
  fb_all : all (fun i => i < m)%N (b_working b);
  fb_work : forall i, (i < m)%N -> count_mem i (b_working b) = (nth 0 s i - nth 0 (b_current b) i)%N
}.

Lemma fb_size b : fbinv b -> size (b_working b) = (sumn s - sumn (b_current b))%N.
Proof using ss.
move=> I; rewrite -(sumn_subn (fb_sub I)) ss.
have := sum_count (fun=> 1 : R) (fb_all I); rewrite sumr_const card_ord.
move=> H; apply/eqP; rewrite -(eqr_nat R) natr_sum -mulr_natr mul1r in H *; rewrite H.
by apply/eqP; apply: eq_bigr => i _; rewrite mulr1 (fb_work I).
Qed.

Lemma fb_substate b i : fbinv b -> (i < size (b_working b))%N ->
  substate (incr (b_current b) (nth 0%N (b_working b) i)) s /\ (nth 0%N (b_working b) i < m)%N.
Proof using ss.
move=> I il; have wm : (nth 0%N (b_working b) i < m)%N by apply: (allP (fb_all I)); rewrite mem_nth.
split=> //; have /substateP[sz l] := fb_sub I; apply/substateP; rewrite size_incr ?sz ?ss //; split=> // k.
rewrite nth_incr; case: eqP => [->|_] //.
by rewrite -subn_gt0 -(fb_work I) // -has_count has_pred1 mem_nth.
Qed.

Definition fb_moved (b : gccb R) i j pmf :=
  let T := incr (b_current b) (nth 0%N (b_working b) i) in
  GccB (incr (b_r b) j) (b_n b) (set_input T (b_calc b)) (b_input b) T (pop_rest (b_working b) i) pmf.

Lemma fb_movedE b i j pmf : fbinv b -> (i < size (b_working b))%N -> (j < m)%N -> fbinv (fb_moved b i j pmf).
Proof using ss.
move=> I il jm; have [sT wm] := fb_substate I il.
have /substateP[sz l] := fb_sub I.
split=> //=.
- exact: fb_n I.
- exact: fb_in I.
- by rewrite -(fb_mat I); case: (b_calc b).
- by rewrite size_incr (fb_r I).
- by rewrite !sumn_incr ?sz ?ss ?(fb_r I) // (fb_sum I).
- apply/allP => x; rewrite mem_cat => /orP[] /(@mem_subseq _ _ _ _); move/allP: (fb_all I) => al.
    by move=> h; apply: al; apply: h; exact: take_subseq.
  by move=> h; apply: al; apply: h; exact: drop_subseq.
- move=> k km; rewrite count_rest // nth_incr (fb_work I) // [_ == k]eq_sym; case: eqP => [->|_]; last by rewrite subn0.
  by rewrite subn1 subnS.
Qed.

Lemma fb_reset b : b_n b = sumn s -> b_input b = s -> calc_matrix (b_calc b) = V -> fbinv (b_reset b).
Proof using ss.
move=> en ei ea.
split=> //=; rewrite ?ei ?size_nseq //.
- apply/substateP; rewrite size_nseq; split=> // i; rewrite nth_nseq; by case: ifP.
- apply/allP => i iw; rewrite ltnNge; apply/negP => mi.
  by move: iw; rewrite -has_pred1 has_count occ_assign_count nth_default ?ss.
- by move=> i im; rewrite occ_assign_count nth_nseq ss im subn0.
Qed.

Lemma phi_le_tot T r i : substate (incr T i) s -> size T = m -> (i < m)%N -> size r = m ->
  sumn T = sumn r -> phi T r <= tot m U (incr T i) r.
Proof.
move=> sT szT im sr e; have uu : unitary_on m U s := uU.1.
rewrite /tot (marginal (unitary_on_substate uu sT)) //; last by rewrite sumn_incr ?szT // e.
rewrite size_incr ?szT // (bigD1 (Ordinal im)) //= decr_incr ?szT // nth_incr eqxx.
rewrite ler_paddr ?sumr_ge0 // => [k _|]; first by rewrite mulr_ge0 ?exprn_ge0 ?ler0n ?nsq_ge0.
by rewrite -[X in X <= _]mul1r ler_wpmul2r ?nsq_ge0 // exprn_ege1 // ler1n.
Qed.

Lemma phi_max T r : size T = m -> size r = m -> sumn T = sumn r -> phi T r <= (sumn r)`!%:R ^+ 2.
Proof.
move=> sT sr e; have UU j i : (j < m)%N -> (i < m)%N -> `|ent U j i - ent U j i| <= ((0%:R : R)%:C)%C :> CF.
  by move=> _ _; rewrite subrr normr0 lexx.
have := near_permanent (lexx (0 : R)) uU.2 UU (s := T) (t := r); rewrite sT sr => /(_ (leqnn m) (leqnn m) e) [h _].
rewrite -py_abs_sq; apply: ler_expn2r; rewrite ?nnegrE ?ler0n ?sqrtr_ge0 //.
by rewrite -lecR rmorph_nat -normE.
Qed.

Lemma tot_max T r : size T = m -> size r = m -> sumn T = (sumn r).+1 ->
  tot m U T r <= m%:R * (sumn r).+1`!%:R ^+ 2.
Proof.
move=> sT sr e; rewrite /tot; apply: (@le_trans _ _ (\sum_(j < m) (sumn r).+1`!%:R ^+ 2)).
  apply: ler_sum => j _; have := @phi_max T (incr r j) sT.
  by rewrite size_incr ?sumn_incr ?sr //; apply.
by rewrite sumr_const card_ord mulr_natl.
Qed.

Definition layer_error (l : nat) : R := 2%:R * m%:R *
  (square_error u eps m s l + choice_error u N m * (m%:R * l.+1`!%:R ^+ 2)).

Lemma square_error_ge0 l : 0 <= square_error u eps m s l.
Proof.
rewrite /square_error addr_ge0 // mulr_ge0 ?E0 //; last by rewrite exprn_ge0 ?ler0n.
exact: sqr_ge0.
Qed.

Lemma ce_ge0 : 0 <= choice_error u N m.
Proof. by rewrite addr_ge0 ?E0 // invr_ge0 ler0n. Qed.

Lemma layer_error_ge0 l : 0 <= layer_error l.
Proof.
rewrite /layer_error mulr_ge0 ?mulr_ge0 ?ler0n // addr_ge0 ?square_error_ge0 //.
by rewrite mulr_ge0 ?ce_ge0 // mulr_ge0 ?ler0n ?exprn_ge0 ?ler0n.
Qed.

Variables (Y : Type) (F : res Y -> R) (cont : gccb R -> rprog R (res Y)) (E : seq nat -> R) (eta : R) (target : nat).
Hypothesis FErr : forall e, F (Err e) = 0.
Hypothesis ts : (target <= sumn s)%N.
Hypothesis Hcont : forall b, fbinv b -> sumn (b_r b) = target ->
  exists v, [/\ has_exp F (cont b) v, 0 <= v <= 1 & `|v - E (b_r b)| <= eta].

Notation loop := (fl_b_fill_loop A B f_abs f_sum f_check f_search fuel N).

Definition fb_tail (k : gccb R -> rprog R (res (gccb R))) (b : gccb R) : rprog R (res (gccb R)) :=
  draw! b := Ret (fl_compute_pmf A B f_abs f_sum fuel b) in
  draw! b := fl_sample_from_pmf B f_check f_search N b in k b.

Lemma loopE n b : loop n.+1 target b =
  if (sumn (b_r b) < target)%N then rpbind (update_current_input b) (fb_tail (loop n target))
  else Ret (Ok b).
Proof. by []. Qed.

Lemma fb_round_exp k b i : fbinv b -> (i < size (b_working b))%N ->
  let T := incr (b_current b) (nth 0%N (b_working b) i) in let l := sumn (b_r b) in
  exists w, [/\ size w = m, all (fun x => 0 <= x) w,
    forall j, (j < m)%N -> `|w`_j - phi T (incr (b_r b) j)| <= square_error u eps m s l &
    forall W, (forall j, (j < m)%N -> has_exp F (rpbind (k (fb_moved b i j (fl_normalised B f_sum w))) cont) (W j)) ->
      has_exp F (rpbind (rpbind (Ret (b_popped b i)) (fb_tail k)) cont)
        (\sum_(j < m) ph R N (chosen B f_sum f_search N w) j * W j)].
Proof.
move=> I il T l; have [sT wm] := fb_substate I il; have /substateP[sz _] := fb_sub I.
have sr := fb_r I; have szT : size T = m by rewrite size_incr ?sz ss.
have eT : sumn T = l.+1 by rewrite sumn_incr ?sz ?ss // (fb_sum I).
rewrite -/T in sT.
set b1 := GccB (b_r b) (b_n b) (b_calc b) (b_input b) T (pop_rest (b_working b) i) (b_pmf b).
have pE : b_popped b i = Ok b1.
  rewrite /b_popped /py_pop (py_get_nth 0%N) // /=.
  by have := @incr_atE (b_current b) (nth 0%N (b_working b) i); rewrite sz ss => /(_ wm) ->.
have [w [Ew sw w0 hw]] := @fl_compute_pmfE R u eps A B f_abs f_sum u0 u4 accA accB acc_abs fuel m U V s
  uU sqV ss fu e0 UV b1 (fb_mat I) sT sr eT.
exists w; split=> // W HW.
have sm' : (9 * size w + 4)%:R * u <= (2%:R ^+ 27)^-1 by rewrite sw.
pose sl := chosen B f_sum f_search N w.
pose W' o := if o is Some j then if (j < m)%N then W j else 0 else 0.
have avg : (\sum_(k < N) W' (sl k)) / N%:R = \sum_(j < m) ph R N sl j * W j.
  apply: (@ph_average R N m sl W W') => //= j jm; first by rewrite jm.
  by rewrite ltnNge jm.
rewrite pE /fb_tail; cbn [rpbind pbind]; rewrite Ew; cbn [rpbind pbind].
rewrite /fl_sample_from_pmf [b_pmf _]/= [b_input _]/= size_map sw (fb_in I) ss eqxx [~~ true]/=.
have [z|z] := eqVneq (\sum_(x <- w) x) 0.
  rewrite (fl_choice_zero f_search N u0 accB acc_sum acc_check w0 sm' z) /rpbind [pbind _ _]/=.
  have -> : \sum_(j < m) ph R N (chosen B f_sum f_search N w) j * W j = F (Err ValueError).
    by rewrite FErr big1 // => j _; rewrite (@ph_zero R N _ w) ?mul0r // => _ k'; rewrite /chosen z eqxx.
  by constructor.
have S0 : 0 < \sum_(x <- w) x by rewrite lt_def z /= big_seq_cond sumr_ge0 // => y /andP[/(allP w0)].
rewrite (fl_choice_pos f_search u0 accB acc_sum acc_check N0 w0 sm' S0) /rpbind [pbind _ _]/=.
rewrite -avg; apply: (@ExpInt _ _ F N _ (fun k => W' (sl k))) => // k' kN.
rewrite /sl /chosen (negPf z) /W'; set j := cidx _ _ _ _ _ _; case: (ltnP j m) => jm.
  rewrite incr_atE ?sr //=; have := HW j jm.
  by rewrite /rpbind /fb_moved -/T (fb_in I).
have -> : incr_at (b_r b) j = Err IndexError by rewrite /incr_at /py_get /= sr ltnNge jm.
by rewrite /= -(FErr IndexError); constructor.
Qed.

Lemma fb_round n b i : fbinv b -> (i < size (b_working b))%N -> (sumn (b_r b) < target)%N ->
  let T := incr (b_current b) (nth 0%N (b_working b) i) in let l := sumn (b_r b) in
  (forall b', fbinv b' -> sumn (b_r b') = l.+1 ->
    exists v, [/\ has_exp F (rpbind (loop n target b') cont) v, 0 <= v <= 1 &
     phi (b_current b') (b_r b') * `|v - bexp m U s E (target - l.+1) (b_current b') (b_r b')| <=
       bpath m layer_error l.+1 (target - l.+1) + eta * phi (b_current b') (b_r b')]) ->
  exists v, [/\ has_exp F (rpbind (rpbind (Ret (b_popped b i)) (fb_tail (loop n target))) cont) v, 0 <= v <= 1 &
    phi (b_current b) (b_r b) * `|v - \sum_(j < m) phi T (incr (b_r b) j) / tot m U T (b_r b) *
        bexp m U s E (target - l.+1) T (incr (b_r b) j)| <=
       layer_error l + m%:R * bpath m layer_error l.+1 (target - l.+1) + eta * phi (b_current b) (b_r b)].
Proof.
move=> I il lt T l IH; have [sT wm] := fb_substate I il; have /substateP[sz _] := fb_sub I.
have sr := fb_r I; have szT : size T = m by rewrite size_incr ?sz ss.
have eT : sumn T = l.+1 by rewrite sumn_incr ?sz ?ss // (fb_sum I).
rewrite -/T in sT.
have [w [sw w0 hw Hw]] := fb_round_exp (loop n target) I il; rewrite -/T -/l in hw Hw.
have sm' : (9 * size w + 4)%:R * u <= (2%:R ^+ 27)^-1 by rewrite sw.
set pmf := fl_normalised B f_sum w in Hw.
have HS j : (j < m)%N -> exists v,
   [/\ has_exp F (rpbind (loop n target (fb_moved b i j pmf)) cont) v, 0 <= v <= 1 &
     phi T (incr (b_r b) j) * `|v - bexp m U s E (target - l.+1) T (incr (b_r b) j)| <=
       bpath m layer_error l.+1 (target - l.+1) + eta * phi T (incr (b_r b) j)].
  move=> jm; have := IH _ (fb_movedE pmf I il jm); rewrite [b_r _]/= [b_current _]/= sumn_incr ?sr //.
  by apply.
have [W HW] := choose_seq 0 HS.
pose sl := chosen B f_sum f_search N w.
exists (\sum_(j < m) ph R N sl j * W j); split.
- by apply: Hw => j jm; have [] := HW j jm.
- apply/andP; split.
    by apply: sumr_ge0 => j _; have [_ /andP[w0' _] _] := HW j (ltn_ord j); rewrite mulr_ge0 ?ph_ge0.
  apply: le_trans (ph_sum R m sl N0); apply: ler_sum => j _.
  by have [_ /andP[_ w1] _] := HW j (ltn_ord j); rewrite -[X in _ <= X]mulr1 ler_wpmul2l ?ph_ge0.
have gE : choice_error u N (size w) = choice_error u N m by rewrite sw.
have zero : \sum_(x <- w) x = 0 -> forall k, sl k = None by move=> z k; rewrite /sl /chosen z eqxx.
have nsel : 0 < \sum_(x <- w) x -> forall i0, (i0 <= m)%N ->
    `|(selo N sl i0)%:R / N%:R - cum w i0 / (\sum_(x <- w) x)| <= choice_error u N m.
  move=> S0 i0 im; rewrite -gE; apply: (chosen_near u0 accB acc_sum srch N0 w0 sm' S0).
  by rewrite sw.
have pb := ph_bound sw w0 ce_ge0 zero nsel (fun j => nsq_ge0 (bs_permanent U T (incr (b_r b) j))) hw.
rewrite -/(tot m U T (b_r b)) in pb.
have le_tot : phi (b_current b) (b_r b) <= tot m U T (b_r b).
  by apply: phi_le_tot => //; [rewrite sz|exact: fb_sum I].
have mb := @mix_bound R m (fun j => phi T (incr (b_r b) j)) (fun j => ph R N sl j) (fun j => W j)
  (fun j => bexp m U s E (target - l.+1) T (incr (b_r b) j)) (phi (b_current b) (b_r b)) (layer_error l)
  (bpath m layer_error l.+1 (target - l.+1)) eta.
apply: mb => //.
- exact: nsq_ge0.
- by apply: bpath_ge0; exact: layer_error_ge0.
- by move=> j; exact: nsq_ge0.
- apply: le_trans pb _.
  have -> : layer_error l = 2%:R * m%:R * choice_error u N m * (m%:R * l.+1`!%:R ^+ 2) +
      2%:R * m%:R * square_error u eps m s l.
    rewrite /layer_error; move: (choice_error _ _ _) (square_error _ _ _ _ _) (m%:R : R) (_%:R ^+ 2) => x y z t.
    by ring.
  rewrite ler_add2r; apply: ler_wpmul2l; first by rewrite mulr_ge0 ?mulr_ge0 ?ler0n ?ce_ge0.
  exact: tot_max.
- by move=> j; have [] := HW j (ltn_ord j).
- by move=> j; have [] := HW j (ltn_ord j).
Qed.

Lemma fb_loop_exp n b : fbinv b -> (sumn (b_r b) <= target)%N -> (target - sumn (b_r b) < n)%N ->
  let l := sumn (b_r b) in
  exists v, [/\ has_exp F (rpbind (loop n target b) cont) v, 0 <= v <= 1 &
    phi (b_current b) (b_r b) * `|v - bexp m U s E (target - l) (b_current b) (b_r b)| <=
      bpath m layer_error l (target - l) + eta * phi (b_current b) (b_r b)].
Proof.
elim: n b => [//|n IH] b I le ln l; rewrite loopE; case: ltnP => lt; last first.
  have e : sumn (b_r b) = target by apply/eqP; rewrite eqn_leq le lt.
  have [v [Hv v01 ve]] := Hcont I e; exists v; split=> //; rewrite /l e subnn /= add0r mulrC.
  by apply: ler_wpmul2r => //; exact: nsq_ge0.
have sw := fb_size I; rewrite (fb_sum I) in sw.
have w0 : (0 < size (b_working b))%N by rewrite sw subn_gt0; apply: leq_trans lt ts.
rewrite /update_current_input; case Ew: (b_working b) w0 sw => [//|x0 w'] w0 sw; rewrite -Ew in w0 sw *.
rewrite -(subnSK lt) -/l.
pose val i := \sum_(j < m) phi (incr (b_current b) i) (incr (b_r b) j)
   / tot m U (incr (b_current b) i) (b_r b) *
   bexp m U s E (target - l.+1) (incr (b_current b) i) (incr (b_r b) j).
have H i : (i < size (b_working b))%N -> exists v,
   [/\ has_exp F (rpbind (rpbind (Ret (b_popped b i)) (fb_tail (loop n target))) cont) v, 0 <= v <= 1 &
    phi (b_current b) (b_r b) * `|v - val (nth 0%N (b_working b) i)| <=
       bpath m layer_error l (target - l.+1).+1 + eta * phi (b_current b) (b_r b)].
  move=> il; apply: fb_round => // b' I' e'; have := IH b' I'; rewrite e' -/l; apply; lia.
have [W HW] := choose_seq 0 H.
set n' := size _ in w0 sw H HW *.
have nR : 0 < n'%:R :> R by rewrite ltr0n.
have bE : bexp m U s E (target - l.+1).+1 (b_current b) (b_r b) =
   (\sum_(i < n') val (nth 0%N (b_working b) i)) / n'%:R.
  rewrite (sum_count val (fb_all I)) /= mulr_suml; apply: eq_bigr => i _.
  by rewrite (fb_work I) // sw (fb_sum I) mulrAC.
exists ((\sum_(i < n') W i) / n'%:R); split.
- apply: (@ExpInt _ _ F n' _ W) => // i il; have [+ _ _] := HW i il.
  by [].
- apply/andP; split.
    by rewrite divr_ge0 ?ler0n ?sumr_ge0 // => i _; have [_ /andP[]] := HW i (ltn_ord i).
  rewrite ler_pdivr_mulr // mul1r -[X in _ <= X%:R](card_ord n') -sum1_card natr_sum.
  by apply: ler_sum => i _; have [_ /andP[]] := HW i (ltn_ord i).
rewrite bE -mulrBl -sumrB normrM (ger0_norm (_ : 0 <= n'%:R^-1)) ?invr_ge0 ?ler0n // mulrA.
rewrite ler_pdivr_mulr //; apply: le_trans (ler_wpmul2l (nsq_ge0 _) (ler_norm_sum _ _ _)) _.
rewrite mulr_sumr [X in _ <= X]mulr_natr -[X in _ *+ X]card_ord -sumr_const.
by apply: ler_sum => i _; have [_ _] := HW i (ltn_ord i).
Qed.

(* more particles than there are *)
Lemma fb_loop_fail t n b : fbinv b -> (sumn s < t)%N -> has_exp F (rpbind (loop n t b) cont) 0.
Proof.
have X e : has_exp F (rpbind (Ret (Err e)) cont) 0 by rewrite -[0](FErr e); constructor.
move=> + st; elim: n b => [|n IH] b I; first exact: X.
have lt : (sumn (b_r b) < t)%N by apply: leq_ltn_trans st; rewrite -(fb_sum I) substate_sumn ?(fb_sub I).
have -> : loop n.+1 t b = rpbind (update_current_input b) (fb_tail (loop n t)) by rewrite /= lt.
rewrite /update_current_input; case Ew: (b_working b) => [|x0 w']; first exact: X.
rewrite -Ew; set n' := size _; have n0 : (0 < n')%N by rewrite /n' Ew.
have -> : 0 = (\sum_(i < n') 0) / n'%:R :> R by rewrite big1 // mul0r.
apply: (@ExpInt _ _ F n' _ (fun=> 0)) => // i il.
have [w [_ _ _ H]] := fb_round_exp (loop n t) I il.
have := H (fun=> 0); rewrite big1 => [|j _]; last by rewrite mulr0.
by apply=> j jm; apply: IH; apply: fb_movedE.
Qed.

(* a whole sample from a fresh start *)
Lemma fb_run b : b_n b = sumn s -> b_input b = s -> calc_matrix (b_calc b) = V ->
  exists v, [/\ has_exp F (rpbind (loop fuel target (b_reset b)) cont) v, 0 <= v <= 1 &
    `|v - \sum_(t <- comps m target) fixed_loss_prob U s t * E t| <= gccb_error u eps N m s target + eta].
Proof.
move=> en e1 e2; have I := fb_reset en e1 e2.
have z : sumn (b_r (b_reset b)) = 0%N by rewrite /= sumn_nseq.
have [||v [Hv v01 h]] := @fb_loop_exp fuel (b_reset b) I.
- by rewrite z.
- by rewrite z subn0; apply: leq_ltn_trans ts (leq_trans (prod_gt s) fu).
exists v; split=> //; move: h; rewrite z subn0 /= e1 ss bexp_start //; last exact: uU.1.
rewrite bs_permanent_vac ?sumn_nseq // nsq1 mul1r mulr1 bpathE.
by [].
Qed.

End Law.
