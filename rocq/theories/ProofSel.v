(* Selecting an index by a cumulative search. *)
From mathcomp Require Import all_ssreflect all_algebra complex.
From mathcomp Require Import ring zify.
From Verif Require Import Base SpecProb ProbMath ModelGcc ModelGccB.
Set Implicit Arguments.
Unset Strict Implicit.
Unset Printing Implicit Defensive.
Import Order.TTheory GRing.Theory Num.Theory.
Local Open Scope ring_scope.
Local Open Scope py_scope.

Section Sel.
Variable R : rcfType.
Implicit Types (l w : seq R) (u v acc : R).

Lemma py_sumE l : py_sum l = \sum_(x <- l) x.
Proof.
rewrite /py_sum.
have H a : foldl +%R a l = a + \sum_(x <- l) x.
  by elim: l a => [|x l IH] a /=; rewrite ?big_nil ?addr0 // IH big_cons addrA.
by rewrite H add0r.
Qed.

Lemma cum_cons x l i : cum (x :: l) i.+1 = x + cum l i.
Proof. by rewrite /cum big_ord_recl. Qed.

Lemma cum_searchP v acc i l : exists p,
  [/\ cum_search v acc i l = (i + p)%N, (p <= size l)%N,
      forall j, (j < p)%N -> acc + cum l j.+1 <= v
    & (p < size l)%N -> v < acc + cum l p.+1].
Proof.
elim: l acc i => [|x l IH] acc i; first by exists 0%N; rewrite addn0.
rewrite /=; case: ltP => [lt|ge].
  by exists 0%N; rewrite addn0 cum_cons cum0 addr0; split.
have [p [E pl lo hi]] := IH (acc + x) i.+1; exists p.+1; rewrite E addSnnS; split=> //.
  case=> [_|j jp]; first by rewrite cum_cons cum0 addr0.
  by rewrite cum_cons addrA lo.
by rewrite cum_cons addrA; apply: hi.
Qed.

Lemma cum_scale l c i : cum [seq x / c | x <- l] i = cum l i / c.
Proof.
rewrite /cum mulr_suml; apply: eq_bigr => j _.
case: (ltnP j (size l)) => jl; first by rewrite (nth_map 0).
by rewrite !nth_default ?size_map // mul0r.
Qed.

Lemma scale_distr l : all (fun x => 0 <= x) l -> 0 < py_sum l -> is_distr [seq x / py_sum l | x <- l].
Proof.
move=> /allP ge t0; split.
  by apply/allP => y /mapP[x xl ->] /=; apply: divr_ge0; [exact: ge|exact: ltW].
by rewrite big_map -mulr_suml -py_sumE divff // gt_eqF.
Qed.

(* thresholds v in [0, total) *)
Lemma search_spec v l : all (fun x => 0 <= x) l -> 0 <= v < py_sum l ->
  let i := cum_search v 0 0 l in
  [/\ (i < size l)%N, cum l i <= v < cum l i.+1 & 0 < l`_i].
Proof.
move=> /allP ge /andP[v0 vt] /=.
have [p [-> pl lo hi]] := cum_searchP v 0 0 l; rewrite add0n.
have ps : (p < size l)%N.
  rewrite ltn_neqAle pl andbT; apply/eqP => e; move: vt; rewrite ltNge py_sumE -cum_size -e.
  by case: p lo {pl hi e} => [_|p lo]; [rewrite cum0 v0|rewrite -[X in X <= _]add0r lo].
have h1 : cum l p <= v.
  by case: p lo {pl hi ps} => [_|p lo]; [rewrite cum0 v0|rewrite -[X in X <= _]add0r lo].
have h2 : v < cum l p.+1 by rewrite -[X in _ < X]add0r hi.
split=> //; first by rewrite h1.
by have := le_lt_trans h1 h2; rewrite cumS ltr_addl.
Qed.

(* the index of weight l_i is selected exactly for the draws of the i-th interval *)
Lemma searchE u l k : all (fun x => 0 <= x) l -> 0 < py_sum l -> 0 <= u < 1 -> (k < size l)%N ->
  in_step [seq x / py_sum l | x <- l] k u = (cum_search (u * py_sum l) 0 0 l == k).
Proof.
move=> ge t0 /andP[u0 u1] kl.
have [|il st p0] := search_spec (v := u * py_sum l) ge.
  by rewrite mulr_ge0 ?(ltW t0) //= -[X in _ < X]mul1r ltr_pmul2r.
have di := scale_distr ge t0.
have st' : in_step [seq x / py_sum l | x <- l] (cum_search (u * py_sum l) 0 0 l) u.
  by rewrite in_stepE !cum_scale ler_pdivr_mulr // ltr_pdivl_mulr.
by apply/idP/eqP => [|<- //]; apply: in_step_uniq di st'.
Qed.

Lemma search_pos u l : all (fun x => 0 <= x) l -> 0 < py_sum l -> 0 <= u < 1 ->
  let i := cum_search (u * py_sum l) 0 0 l in (i < size l)%N /\ 0 < l`_i.
Proof.
move=> ge t0 /andP[u0 u1]; have [|//] := search_spec (v := u * py_sum l) ge.
by rewrite mulr_ge0 ?(ltW t0) //= -[X in _ < X]mul1r ltr_pmul2r.
Qed.

Lemma has_exp_select (A : Type) (f : A -> R) l (k : R -> rprog R A) (val : nat -> R) :
  all (fun x => 0 <= x) l -> 0 < py_sum l ->
  (forall i u, (i < size l)%N -> 0 < l`_i -> 0 <= u < 1 -> cum_search (u * py_sum l) 0 0 l = i ->
     has_exp f (k u) (val i)) ->
  has_exp f (Unif k) (\sum_(i < size l) l`_i / py_sum l * val i).
Proof.
move=> ge t0 h.
have di := scale_distr ge t0.
apply: has_exp_eq (ExpUnif (v := val) di _) _.
  move=> i u; rewrite size_map => il /inside_in st; have u01 := in_step01 di st.
  move: st; rewrite searchE // => /eqP e; apply: h => //.
  by rewrite -e; have [] := search_pos ge t0 u01.
by rewrite size_map; apply: eq_bigr => i _; rewrite (nth_map 0).
Qed.

(* the weights already sum to 1 *)
Lemma searchE1 u w k : is_distr w -> 0 <= u < 1 -> (k < size w)%N ->
  in_step w k u = (cum_search u 0 0 w == k).
Proof.
move=> [ge e] u01 kl.
have t : py_sum w = 1 by rewrite py_sumE.
have := @searchE u w k ge; rewrite t ltr01 mulr1 => /(_ isT u01 kl) <-.
by congr in_step; apply/esym; rewrite -[RHS]map_id; apply: eq_map => x; rewrite divr1.
Qed.

Lemma search_pos1 u w : is_distr w -> 0 <= u < 1 ->
  let i := cum_search u 0 0 w in (i < size w)%N /\ 0 < w`_i.
Proof.
by move=> [ge e] u01; have [|//] := search_spec (v := u) ge; rewrite py_sumE e.
Qed.

Lemma has_exp_select1 (A : Type) (f : A -> R) w (k : R -> rprog R A) (val : nat -> R) :
  is_distr w ->
  (forall i u, (i < size w)%N -> 0 < w`_i -> 0 <= u < 1 -> cum_search u 0 0 w = i -> has_exp f (k u) (val i)) ->
  has_exp f (Unif k) (\sum_(i < size w) w`_i * val i).
Proof.
move=> dw h; apply: has_exp_eq (ExpUnif (v := val) dw _) _ => //.
move=> i u il /inside_in st; have u01 := in_step01 dw st.
move: st; rewrite searchE1 // => /eqP e; apply: h => //.
by rewrite -e; have [] := search_pos1 dw u01.
Qed.

(* numpy's choice *)
Lemma choice_findE u w : is_distr w -> 0 <= u < 1 ->
  find (fun c => u < c) (choice_cdf w) = cum_search u 0 0 w.
Proof.
move=> dw u01; case: (dw) => ge e; have t : py_sum w = 1 by rewrite py_sumE.
have [il st p0] : let i := cum_search u 0 0 w in
  [/\ (i < size w)%N, cum w i <= u < cum w i.+1 & 0 < w`_i] by apply: search_spec; rewrite ?t.
set i := cum_search u 0 0 w in il st p0 *.
have cE k : (k < size w)%N -> (choice_cdf w)`_k = cum w k.+1.
  move=> kl; rewrite /choice_cdf (nth_map 0%N) ?size_iota // nth_iota // add0n t divr1 py_sumE.
  rewrite -cum_size size_takel // /cum; apply: eq_bigr => j _; exact: nth_take.
have sz : size (choice_cdf w) = size w by rewrite size_map size_iota.
pose P c := u < c.
have fl : (find P (choice_cdf w) <= i)%N.
  rewrite leqNgt; apply/negP => /(before_find 0); rewrite /P cE // => /negP; apply.
  by case/andP: st.
have fs : (find P (choice_cdf w) < size w)%N by apply: leq_ltn_trans fl il.
have := nth_find 0 (_ : has P (choice_cdf w)); rewrite has_find sz fs => /(_ isT).
rewrite {1}/P cE // => h; apply/eqP; rewrite eqn_leq fl leqNgt; apply/negP => lt.
have := lt_le_trans h (cum_le dw lt); case/andP: st => s1 _.
by rewrite ltNge s1.
Qed.

Lemma np_choiceE w : is_distr w -> np_choice w = Unif (fun u => Ret (Ok (find (fun c => u < c) (choice_cdf w)))).
Proof.
move=> [ge e]; rewrite /np_choice py_sumE e subrr normr0 ltNge.
have -> : 0 <= @choice_tol R by rewrite /choice_tol invr_ge0 exprn_ge0 ?ler0n.
rewrite orbF; case: hasP => // [[x xl]]; have /allP/(_ _ xl) := ge.
by rewrite ltNge => ->.
Qed.

Lemma has_exp_choice (A : Type) (f : A -> R) w (k : R -> rprog R A) (val : nat -> R) :
  is_distr w ->
  (forall i u, (i < size w)%N -> 0 < w`_i -> 0 <= u < 1 ->
     find (fun c => u < c) (choice_cdf w) = i -> has_exp f (k u) (val i)) ->
  has_exp f (Unif k) (\sum_(i < size w) w`_i * val i).
Proof.
move=> dw h; apply: has_exp_select1 => // i u il p0 u01 e; apply: h => //.
by rewrite choice_findE.
Qed.

(* shapes, for every draw *)
Lemma cum_search_bound v acc i l : (cum_search v acc i l <= i + size l)%N.
Proof. by have [p [-> pl _ _]] := cum_searchP v acc i l; rewrite leq_add2l. Qed.

End Sel.
