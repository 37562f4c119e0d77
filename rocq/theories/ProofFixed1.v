(* Independent particles. *)
From mathcomp Require Import all_ssreflect all_algebra complex.
From mathcomp Require Import ring zify.
From Verif Require Import Base SpecStates Combi SpecPerm PermMath SpecBS BsMath SpecProb ProbMath ModelStates ProofSel.
From Verif Require Import ModelGcc ModelGccB ModelNet ProofGccB1 ProofGccB2 SpecFixed ModelFixed.
Set Implicit Arguments.
Unset Strict Implicit.
Unset Printing Implicit Defensive.
Import Order.TTheory GRing.Theory Num.Theory.
Local Open Scope ring_scope.
Local Open Scope py_scope.

(* adding one particle in mode i *)
Lemma sum_incr (V : zmodType) m l i (F : seq nat -> V) : (i < m)%N ->
  \sum_(t <- lcomps m l) F (incr t i) = \sum_(t <- lcomps m l.+1 | (0 < nth 0%N t i)%N) F t.
Proof.
move=> im; rewrite -(big_map (incr^~ i) predT F) -[RHS]big_filter; apply: perm_big; apply: uniq_perm.
- rewrite map_inj_in_uniq ?lcomps_uniq // => t t'; rewrite !mem_lcomps => /andP[/eqP st _] /andP[/eqP st' _] e.
  by rewrite -(@decr_incr t i) ?st // e decr_incr ?st'.
- by rewrite filter_uniq // lcomps_uniq.
move=> t; rewrite mem_filter mem_lcomps; apply/mapP/idP => [[t' + ->]|].
  rewrite mem_lcomps => /andP[/eqP st' le]; rewrite nth_incr eqxx size_incr ?st' // eqxx.
  by rewrite sumn_incr ?st'.
move=> /and3P[p /eqP st le]; exists (decr t i); last by rewrite incr_decr.
by rewrite mem_lcomps size_decr ?st // eqxx sumn_decr //=; lia.
Qed.

Section Multi.
Variable R : rcfType.
Variable q : seq R.
Let r := 1 - \sum_(x <- q) x.
Notation mp := (@multinomial_prob R).

Lemma prod_decr t i : (0 < nth 0%N t i)%N ->
  \prod_(j < size t) q`_j ^+ nth 0%N t j = q`_i * \prod_(j < size t) q`_j ^+ nth 0%N (decr t i) j.
Proof.
move=> p; have il : (i < size t)%N by case: (ltnP i (size t)) => // le; rewrite nth_default in p.
rewrite (bigD1 (Ordinal il)) //= [in RHS](bigD1 (Ordinal il)) //= nth_decr eqxx mulrA -exprS prednK //.
by congr (_ * _); apply: eq_bigr => j ji; rewrite nth_decr ifN.
Qed.

Lemma fact_decr t i : (0 < nth 0%N t i)%N ->
  (\prod_(x <- t) x`! = nth 0%N t i * \prod_(x <- decr t i) x`!)%N.
Proof.
elim: t i => [|x t IH] [|i] //=.
  by move=> x0; rewrite decr0 !big_cons mulnA; congr (_ * _)%N; case: x x0.
by move=> p; rewrite decr_cons !big_cons (IH i) // mulnCA.
Qed.

Lemma natf_neq0 (a : nat) : (0 < a)%N -> (a%:R : R) != 0.
Proof. by rewrite pnatr_eq0 -lt0n. Qed.

Lemma prod_fact_gt0 t : (0 < \prod_(x <- t) x`!)%N.
Proof. by elim: t => [|x t IH]; rewrite ?big_nil // big_cons muln_gt0 fact_gt0. Qed.

Lemma mp_decr l t i : (sumn t <= l.+1)%N -> (0 < nth 0%N t i)%N ->
  q`_i * mp l q (decr t i) = (nth 0%N t i)%:R / l.+1%:R * mp l.+1 q t.
Proof.
move=> le p; have il : (i < size t)%N by case: (ltnP i (size t)) => // lt; rewrite nth_default in p.
have t0 : (0 < sumn t)%N by rewrite (sumnE t) (big_nth 0%N) big_mkord (bigD1 (Ordinal il)) //= addn_gt0 p.
rewrite /multinomial_prob size_decr // sumn_decr // (prod_decr p) (fact_decr p).
have -> : (l - (sumn t).-1 = l.+1 - sumn t)%N by lia.
rewrite factS !natrM.
set A := _`!%:R; set B := (_ - _)`!%:R; set D := (\prod_(x <- _) _)%N%:R; set E := _ ^+ _; set G := \prod_(_ < _) _.
have l0 : (l.+1%:R : R) != 0 by exact: natf_neq0.
have n0 : ((nth 0%N t i)%:R : R) != 0 by exact: natf_neq0.
have B0 : B != 0 by apply: natf_neq0; exact: fact_gt0.
have D0 : D != 0 by apply: natf_neq0; exact: prod_fact_gt0.
by move: l0 n0 B0 D0; move: (l.+1%:R) ((nth _ _ _)%:R) => a b; clearbody A B D E G; move=> l0 n0 B0 D0; field; rewrite l0 n0 B0 D0.
Qed.

Lemma mp_lost l t : (sumn t <= l)%N ->
  r * mp l q t = (l.+1 - sumn t)%:R / l.+1%:R * mp l.+1 q t.
Proof.
move=> le; rewrite /multinomial_prob -/r.
have -> : (l.+1 - sumn t = (l - sumn t).+1)%N by lia.
rewrite exprS !factS !natrM.
set A := _`!%:R; set B := (_ - _)`!%:R; set D := (\prod_(x <- _) _)%N%:R; set E := _ ^+ _; set G := \prod_(_ < _) _.
have l0 : (l.+1%:R : R) != 0 by exact: natf_neq0.
have n0 : ((l - sumn t).+1%:R : R) != 0 by exact: natf_neq0.
have B0 : B != 0 by apply: natf_neq0; exact: fact_gt0.
have D0 : D != 0 by apply: natf_neq0; exact: prod_fact_gt0.
by move: l0 n0 B0 D0; move: (l.+1%:R) ((l - sumn t).+1%:R) => a b; clearbody A B D E G r; move=> l0 n0 B0 D0; field; rewrite l0 n0 B0 D0.
Qed.

(* one more particle *)
Lemma mp_step m l (F : seq nat -> R) :
  \sum_(t <- lcomps m l.+1) mp l.+1 q t * F t =
  \sum_(i < m) q`_i * (\sum_(t <- lcomps m l) mp l q t * F (incr t i)) + r * \sum_(t <- lcomps m l) mp l q t * F t.
Proof.
have E1 (i : 'I_m) : q`_i * (\sum_(t <- lcomps m l) mp l q t * F (incr t i)) =
    \sum_(t <- lcomps m l.+1) (nth 0%N t i)%:R / l.+1%:R * (mp l.+1 q t * F t).
  rewrite mulr_sumr.
  transitivity (\sum_(t <- lcomps m l) q`_i * (mp l q (decr (incr t i) i) * F (incr t i))).
    apply: eq_big_seq => t; rewrite mem_lcomps => /andP[/eqP st _]; by rewrite decr_incr ?st.
  rewrite (sum_incr l (fun t => q`_i * (mp l q (decr t i) * F t))) // [RHS](bigID (fun t => (0 < nth 0%N t i)%N)) /= addrC.
  rewrite [X in _ = X + _]big1 => [|t]; last by rewrite -eqn0Ngt => /eqP ->; rewrite !mul0r.
  rewrite add0r big_seq_cond [RHS]big_seq_cond; apply: eq_bigr => t /andP[]; rewrite mem_lcomps => /andP[_ le] p.
  by rewrite mulrA mp_decr // !mulrA.
have E2 : r * (\sum_(t <- lcomps m l) mp l q t * F t) =
    \sum_(t <- lcomps m l.+1) (l.+1 - sumn t)%:R / l.+1%:R * (mp l.+1 q t * F t).
  rewrite mulr_sumr [RHS](bigID (fun t => (sumn t <= l)%N)) /= [X in _ = _ + X]big1_seq ?addr0; last first.
    move=> t; rewrite -ltnNge mem_lcomps => /andP[lt /andP[_ le]].
    by rewrite (_ : _ - _ = 0)%N ?mul0r //; lia.
  rewrite -[in RHS]big_filter [RHS](perm_big (lcomps m l)) /=.
    apply: eq_big_seq => t; rewrite mem_lcomps => /andP[_ le]; by rewrite mulrA mp_lost // !mulrA.
  apply: uniq_perm; rewrite ?filter_uniq ?lcomps_uniq // => t; rewrite mem_filter !mem_lcomps.
  by case: (_ == _); rewrite ?andbF //=; lia.
rewrite (eq_bigr _ (fun i _ => E1 i)) E2 exchange_big -big_split /=; apply: eq_big_seq => t.
rewrite mem_lcomps => /andP[/eqP st le].
rewrite -!mulr_suml -mulrDl -mulrDl -natr_sum -natrD.
have -> : (\sum_(i < m) nth 0 t i = sumn t)%N by rewrite sumnE [RHS](big_nth 0%N) big_mkord st.
by rewrite subnKC // mulfV ?mul1r // natf_neq0.
Qed.

Lemma mp0 m (F : seq nat -> R) : \sum_(t <- lcomps m 0) mp 0 q t * F t = F (nseq m 0%N).
Proof.
have -> : lcomps m 0 = [:: nseq m 0%N].
  apply: perm_small_eq => //; apply: uniq_perm => //; first exact: lcomps_uniq.
  move=> t; rewrite mem_lcomps inE leqn0; apply/idP/eqP => [/andP[/eqP <- s0]|->]; last by rewrite size_nseq eqxx sumn_nseq mul0n.
  by apply/all_pred1P/allP => x xt; move: s0; rewrite /= !eqn0Ngt; apply: contra => x0; rewrite sumnE (big_rem x) //= addn_gt0 x0.
rewrite big_seq1 /multinomial_prob sub0n !expr0 fact0 mul1n mulr1.
rewrite (_ : \prod_(x <- nseq m 0%N) x`! = 1)%N; last by elim: m => [|m IH]; rewrite ?big_nil //= big_cons IH.
rewrite divr1 big1 ?mul1r // => i _; by rewrite nth_nseq if_same.
Qed.
End Multi.

Section Place.
Variables (R : rcfType) (q : seq R).
Hypothesis q0 : all (fun x => 0 <= x) q.
Hypothesis q1 : \sum_(x <- q) x <= 1.
Let m := size q.
Let r := 1 - \sum_(x <- q) x.
Let w := rcons q r.

Lemma w_distr : is_distr w.
Proof.
split; first by rewrite all_rcons q0 andbT subr_ge0.
by rewrite /w -cats1 big_cat big_seq1 /r /= addrC subrK.
Qed.

Lemma find_modeE (x acc : R) i rest : exists2 p, find_mode x (Some acc) i [seq Some y | y <- rest] = (i + p)%N &
  [/\ (p <= (size rest).+1)%N, forall j, (j < p)%N -> acc + cum rest j < x & (p <= size rest)%N -> x <= acc + cum rest p].
Proof.
elim: rest acc i => [|y rest IH] acc i /=.
  case: ltP => h; first by exists 1%N; rewrite ?addn1 //; split=> // -[|j] // _; rewrite cum0 addr0.
  by exists 0%N; rewrite ?addn0 //; split=> // _; rewrite cum0 addr0.
case: ltP => h; last by exists 0%N; rewrite ?addn0 //; split=> // _; rewrite cum0 addr0.
have [p -> [a b c]] := IH (acc + y) i.+1; exists p.+1; rewrite ?addSnnS //; split=> //.
  by case=> [_|j jp]; rewrite ?cum0 ?addr0 // cum_cons addrA; apply: b.
by move=> pl; rewrite cum_cons addrA; apply: c.
Qed.

Lemma placeE (x : R) out : (0 < m)%N -> size out = m -> 0 <= x < 1 -> exists2 p,
   place [seq Some y | y <- q] x out = Ok (if (p < m)%N then incr out p else out) &
   [/\ (p <= m)%N, forall j, (j < p)%N -> cum q j.+1 < x & (p < m)%N -> x <= cum q p.+1].
Proof.
rewrite /m; case: {1 2 3 4 5 6 7 8}q => [//|y rest] _ so x01 /=; rewrite size_map.
have [p -> [a b c]] := find_modeE x y 0 rest; rewrite add0n; exists p; last first.
  by split=> // [j jp|pl]; rewrite cum_cons; [apply: b|apply: c].
case: (ltnP p (size rest).+1) => h; first by rewrite ifT ?ltn_eqF // incr_atE // so.
by rewrite ifF //; apply/negbTE; rewrite negbK eqn_leq a h.
Qed.

Lemma cum_w i : (i <= m)%N -> cum w i = cum q i.
Proof.
move=> im; apply: eq_bigr => j _; rewrite nth_rcons ifT //; exact: leq_trans (ltn_ord j) im.
Qed.

Lemma place_step i (x : R) out : (0 < m)%N -> size out = m -> (i < size w)%N -> inside_step w i x ->
  place [seq Some y | y <- q] x out = Ok (if (i < m)%N then incr out i else out).
Proof.
move=> m0 so; rewrite size_rcons ltnS -/m => im ins; have x01 := inside_step01 w_distr ins.
move: ins; rewrite inside_stepE cum_w // => /andP[lo hi].
have [p -> [a b c]] := placeE m0 so x01; suff -> : p = i by [].
have mono j k : (j <= k)%N -> (k <= m)%N -> cum q j <= cum q k.
  by move=> jk km; rewrite -!cum_w //; [exact: cum_le w_distr jk|exact: leq_trans jk km].
apply/eqP; rewrite eqn_leq; apply/andP; split; rewrite leqNgt; apply/negP => lt.
- have im' : (i < m)%N by exact: leq_trans lt a.
  by move: hi; rewrite cum_w // => hi; have := lt_trans (b _ lt) hi; rewrite ltxx.
- have pm : (p < m)%N by exact: leq_trans lt im.
  have := le_lt_trans (mono _ _ lt im) lo; by rewrite ltNge c.
Qed.

Definition addv (a b : seq nat) : seq nat := [seq (x.1 + x.2)%N | x <- zip a b].
Lemma addv_incr a b i : size a = size b -> (i < size a)%N -> addv (incr a i) b = addv a (incr b i).
Proof.
elim: a b i => [|x a IH] [|y b] [|i] //= [sz] il; first by rewrite !incr0 /addv /= addSnnS.
by rewrite !incr_cons /addv /= -/(addv _ _) IH.
Qed.
Lemma addv0 a : addv a (nseq (size a) 0%N) = a.
Proof. by elim: a => //= x a IH; rewrite /addv /= addn0 -/(addv _ _) IH. Qed.
Lemma add0v a k : size a = k -> addv (nseq k 0%N) a = a.
Proof. by elim: a k => [|x a IH] [|k] //= [sz]; rewrite /addv /= add0n -/(addv _ _) IH. Qed.

Lemma place_all_exp l out (f : seq nat -> R) : (0 < m)%N -> size out = m ->
  has_exp (on_ok f) (place_all [seq Some y | y <- q] l out) (\sum_(t <- lcomps m l) multinomial_prob l q t * f (addv out t)).
Proof.
move=> m0; elim: l out => [|l IH] out so.
  by rewrite (mp0 q m (fun t => f (addv out t))) -so addv0; exact: ExpRet.
rewrite (mp_step q m l (fun t => f (addv out t))) -/r.
pose v (i : nat) := if (i < m)%N then \sum_(t <- lcomps m l) multinomial_prob l q t * f (addv out (incr t i))
   else \sum_(t <- lcomps m l) multinomial_prob l q t * f (addv out t).
have E : \sum_(i < size w) w`_i * v i = \sum_(i < m) q`_i * (\sum_(t <- lcomps m l) multinomial_prob l q t * f (addv out (incr t i)))
   + r * \sum_(t <- lcomps m l) multinomial_prob l q t * f (addv out t).
  rewrite size_rcons big_ord_recr /= -/m /v ltnn nth_rcons ltnn eqxx; congr (_ + _).
  by apply: eq_bigr => i _; rewrite nth_rcons !ltn_ord.
rewrite -E; apply: ExpUnif w_distr _ => i x iw ins; rewrite (place_step m0 so iw ins) /rpbind /=.
rewrite /v; case: (ltnP i m) => im; last exact: IH.
have so' : size (incr out i) = m by rewrite size_incr // so.
apply: has_exp_eq (IH _ so') _; apply: eq_big_seq => t; rewrite mem_lcomps => /andP[/eqP st _].
by rewrite addv_incr // so.
Qed.

Lemma place_all_always l out : (0 < m)%N -> size out = m ->
  always (fun y => exists t, [/\ y = Ok t, size t = m, (sumn t <= sumn out + l)%N
    & \sum_(x <- q) x = 1 -> sumn t = (sumn out + l)%N]) (place_all [seq Some y | y <- q] l out).
Proof.
move=> m0; elim: l out => [|l IH] out so; first by exists out; rewrite addn0.
move=> x x01; have [p -> [a b c]] := placeE m0 so x01; rewrite /rpbind /=.
have [pm|pm] := ltnP p m.
  apply: always_impl (IH (incr out p) _) => [y [t [-> st le e]]|]; last by rewrite size_incr // so.
  by exists t; split=> //; rewrite -?addSnnS -(@sumn_incr out p) ?so.
apply: always_impl (IH out so) => y [t [-> st le _]]; exists t; split=> // [|e1]; first by rewrite addnS ltnW.
have e : p = m by apply/eqP; rewrite eqn_leq a pm.
have := b m.-1; rewrite e prednK // cum_size e1 => /(_ (leqnn _)) /lt_trans; move/andP: x01 => [_ x1] /(_ _ x1).
by rewrite ltxx.
Qed.
End Place.

(* NaN probabilities: mode 0 *)
Lemma place_nan (R : rcfType) m l out : (0 < m)%N -> size out = m ->
  always (fun y => y = Ok (iter l (incr^~ 0%N) out)) (place_all (nseq m (@None R)) l out).
Proof.
case: m => // m _; elim: l out => [|l IH] out so; first by [].
move=> x x01; rewrite (_ : place _ _ _ = Ok (incr out 0)); last first.
  have e : find_mode x None 0 (nseq m None) = 0%N by case: (m).
  have -> : nseq m.+1 (@None R) = None :: nseq m None by [].
  by rewrite /place e /= (incr_atE (j := 0)) ?so.
rewrite /rpbind [pbind _ _]/= iterSr; apply: IH; by rewrite size_incr // so.
Qed.

Lemma multinomial_ge0 (R : rcfType) (q : seq R) l t : all (fun x => 0 <= x) q -> \sum_(x <- q) x <= 1 ->
  0 <= multinomial_prob l q t.
Proof.
move=> q0 q1; rewrite /multinomial_prob !mulr_ge0 ?invr_ge0 ?ler0n ?exprn_ge0 ?subr_ge0 //.
rewrite prodr_ge0 // => i _; rewrite exprn_ge0 //; case: (ltnP i (size q)) => h; last by rewrite nth_default.
exact: (allP q0 _ (mem_nth 0 h)).
Qed.

Lemma multinomial_sum (R : rcfType) l (q : seq R) m : size q = m -> \sum_(t <- lcomps m l) multinomial_prob l q t = 1.
Proof.
move=> sq; elim: l => [|l IH].
  by have := mp0 q m (fun=> 1); under eq_bigr => t _ do rewrite mulr1.
have := mp_step q m l (fun=> 1); rewrite (eq_bigr (fun t => multinomial_prob l.+1 q t)) => [->|t _]; last by rewrite mulr1.
have e : \sum_(t <- lcomps m l) multinomial_prob l q t * 1 = 1.
  by rewrite -[RHS]IH; apply: eq_bigr => t _; rewrite mulr1.
transitivity (\sum_(i < m) q`_i + (1 - \sum_(x <- q) x)).
  congr (_ + _); last by rewrite -[RHS]mulr1; congr (_ * _); exact: e.
  by apply: eq_bigr => i _; rewrite -[RHS]mulr1; congr (_ * _); exact: e.
by rewrite [X in _ - X](big_nth 0) sq big_mkord addrC subrK.
Qed.
