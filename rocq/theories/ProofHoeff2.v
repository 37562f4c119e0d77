(* The error bound holds for independent samples: Hoeffding's inequality for
   every event, and the sum over all events. *)
From Coq Require Import Reals Lra.
From mathcomp Require Import all_ssreflect all_algebra.
From mathcomp Require Import ring zify.
From Verif Require Import Base SpecProb SpecQC ProbMath RealInst ProofQC2 ModelQC ModelBound ProofBound ProofHoeff1.
Set Implicit Arguments.
Unset Strict Implicit.
Unset Printing Implicit Defensive.
Import Order.TTheory GRing.Theory Num.Theory.
Local Open Scope ring_scope.

Section Iid.
Variables (R : realFieldType) (T : eqType) (S : seq T) (P : T -> R).
Notation E := (iid_exp S P).

Lemma iid_le N (g g' : seq T -> R) : {in S, forall t, 0 <= P t} ->
  (forall L, size L = N -> all (fun t => t \in S) L -> g L <= g' L) -> E N g <= E N g'.
Proof.
move=> P0; elim: N g g' => [|N IH] g g' h /=; first exact: h.
rewrite !(big_seq_cond predT) /=; apply: ler_sum => t; rewrite andbT => tS.
by apply: ler_wpmul2l; [exact: P0|apply: IH => L sL aL; apply: h; rewrite /= ?sL ?tS].
Qed.

Lemma iid_sum N (I : Type) (r : seq I) (g : I -> seq T -> R) :
  E N (fun L => \sum_(i <- r) g i L) = \sum_(i <- r) E N (g i).
Proof.
elim: N g => [//|N IH] g /=; rewrite exchange_big /=; apply: eq_bigr => t _.
by rewrite IH mulr_sumr.
Qed.

Lemma iid_prod N (h : T -> R) : E N (fun L => \prod_(t <- L) h t) = (\sum_(t <- S) P t * h t) ^+ N.
Proof.
have H c : E N (fun L => c * \prod_(t <- L) h t) = c * (\sum_(t <- S) P t * h t) ^+ N.
  elim: N c => [|N IH] c /=; first by rewrite big_nil expr0.
  rewrite exprS mulrA mulr_sumr mulr_suml; apply: eq_bigr => t _.
  under iid_exp_ext => L do rewrite big_cons mulrA.
  by rewrite IH; move: (_ ^+ N) => X; ring.
by rewrite -[RHS]mul1r -H; apply: iid_exp_ext => L; rewrite mul1r.
Qed.
End Iid.

(* all the sublists *)
Fixpoint events (T : Type) (s : seq T) : seq (seq T) :=
  if s is x :: s' then events s' ++ map (cons x) (events s') else [:: [::]].

Lemma size_events T (s : seq T) : size (events s) = (2 ^ size s)%N.
Proof. by elim: s => //= x s IH; rewrite size_cat size_map IH expnS mul2n addnn. Qed.

Lemma filter_events (T : eqType) (a : pred T) s : filter a s \in events s.
Proof.
elim: s => //= x s IH; rewrite mem_cat; case: (a x); last by rewrite IH.
by rewrite (mem_map (f := cons x)) ?IH ?orbT // => u v [].
Qed.

Section Reals.
Notation R := R_rcfType.
Lemma natRI (n : nat) : (n%:R : R) = INR n.
Proof. by elim: n => [//|n IH]; rewrite -addn1 natrD IH plus_INR. Qed.
Lemma divRI (x y : R) : y != 0 -> x / y = Rdiv x y.
Proof. by move=> y0; rewrite /Rdiv -[x / y]/(Rmult x (Rinvx y)) /Rinvx (negPf y0). Qed.
Definition rexp (x : R) : R := exp x.
Lemma expD (x y : R) : rexp (x + y) = rexp x * rexp y. Proof. exact: exp_plus. Qed.
Lemma exp0 : rexp 0 = 1. Proof. exact: exp_0. Qed.
Lemma expM (x : R) (n : nat) : rexp (x *+ n) = rexp x ^+ n.
Proof. by elim: n => [|n IH]; rewrite ?exp0 // mulrSr expD IH exprSr. Qed.
Lemma exp_gt0 (x : R) : 0 < rexp x.
Proof. by have h := exp_pos x; rewrite lt_neqAle; apply/andP; split; [apply/eqP => e; move: h; rewrite -[exp x]e => /Rlt_irrefl|apply/RlebP/Rlt_le]. Qed.
Lemma exp_le (x y : R) : x <= y -> rexp x <= rexp y.
Proof.
by move=> /RlebP [h|<-]; [apply/RlebP; left; exact: exp_increasing|rewrite lexx].
Qed.
Lemma mgfR (mu x : R) : 0 <= mu <= 1 -> 0 <= x -> 1 - mu + mu * rexp x <= rexp (x * mu + x ^+ 2 / 8%:R).
Proof.
move=> /andP[/RlebP m0 /RlebP m1] /RlebP x0; apply/RlebP.
have h := mgf mu (conj m0 m1) x x0.
rewrite divRI ?pnatr_eq0 // natRI INR_IZR_INZ.
by move: h; rewrite /= Rmult_1_r.
Qed.

Section Sound.
Variables (T : eqType) (S : seq T) (P : T -> R).
Hypotheses (uS : uniq S) (P0 : {in S, forall t, 0 <= P t}) (P1 : \sum_(t <- S) P t = 1).
Notation E := (iid_exp S P).

(* the probability of an event, its relative frequency *)
Notation prob B := (\sum_(t <- S | t \in B) P t).
Definition freq (B : seq T) (L : seq T) : R := (count (mem B) L)%:R / (size L)%:R.

Lemma hoeffding (B : seq T) (eps : R) N : 0 <= eps -> (0 < N)%N ->
  E N (fun L => (eps <= freq B L - prob B)%R%:R) <= rexp (- (2%:R * eps ^+ 2)) ^+ N.
Proof.
move=> e0 N0; pose mu : R := prob B; pose lam : R := 4%:R * eps.
have mu01 : 0 <= mu <= 1.
  have ge0 (a : pred T) : 0 <= \sum_(t <- S | a t) P t by rewrite big_seq_cond sumr_ge0 // => t /andP[/P0].
  by rewrite ge0 -subr_ge0 -P1 (bigID (mem B)) /= addrC addKr ge0.
have l0 : 0 <= lam by apply: mulr_ge0 => //; exact: ler0n.
pose h t : R := rexp (lam * ((t \in B)%:R - mu - eps)).
apply: (@le_trans _ _ (E N (fun L => \prod_(t <- L) h t))).
  apply: iid_le => // L sL aL; have -> : \prod_(t <- L) h t = rexp (lam * ((count (mem B) L)%:R - N%:R * mu - N%:R * eps)).
    rewrite -sL; elim: L {sL aL} => [|t L IH]; first by rewrite big_nil !mul0r !subr0 mulr0 exp0.
    rewrite big_cons IH /h -expD; congr rexp; rewrite -mulrDr /= natrD -[(size L).+1]add1n natrD; ring.
  case: (boolP (eps <= _)) => [|_]; last exact: ltW (exp_gt0 _).
  have N0' : 0 < (N%:R : R) by rewrite ltr0n.
  rewrite /freq sL ler_subr_addr ler_pdivl_mulr // => le; apply: (@le_trans _ _ (rexp 0)); first by rewrite exp0.
  apply: exp_le; apply: mulr_ge0 => //.
  move: le; rewrite -subr_ge0 -/mu; congr (0 <= _); ring.
rewrite iid_prod; apply: ler_expn2r; rewrite ?nnegrE ?(ltW (exp_gt0 _)) //.
  rewrite big_seq sumr_ge0 // => t tS; rewrite mulr_ge0 ?P0 // ltW // exp_gt0 //.
have -> : \sum_(t <- S) P t * h t = rexp (- (lam * (mu + eps))) * (1 - mu + mu * rexp lam).
  have -> : 1 - mu = \sum_(t <- S | t \notin B) P t by rewrite -P1 (bigID (mem B)) /= addrC addKr.
  rewrite (bigID (mem B)) /= mulrDr addrC; congr (_ + _).
    by rewrite mulr_sumr; apply: eq_bigr => t /negPf tB; rewrite /h tB mulr0n mulrC; congr (rexp _ * _); ring.
  rewrite mulrCA mulr_suml; apply: eq_bigr => t tB; rewrite /h tB mulr1n -expD; congr (_ * rexp _); ring.
apply: (@le_trans _ _ (rexp (- (lam * (mu + eps))) * rexp (lam * mu + lam ^+ 2 / 8%:R))).
  by rewrite ler_pmul2l ?exp_gt0 //; exact: mgfR.
by rewrite -expD; apply: exp_le; rewrite le_eqVlt; apply/orP; left; apply/eqP; rewrite /lam; field.
Qed.

Lemma freqB (a : pred T) L : \sum_(t <- S | a t) freq [:: t] L = freq [seq t <- S | a t] L.
Proof.
rewrite /freq -mulr_suml -natr_sum; congr (_%:R / _); rewrite -big_filter.
have := filter_uniq a uS; move: (filter a S) => W uW.
elim: L => [|x L IH] /=; first by rewrite big1.
rewrite big_split /= IH; congr (_ + _)%N; rewrite -(count_uniq_mem _ uW) -sum1_count [RHS]big_mkcond /=.
by apply: eq_bigr => t _; rewrite inE eq_sym; case: (t == x).
Qed.

Lemma freq_sum L : all (fun t => t \in S) L -> (0 < size L)%N -> \sum_(t <- S) freq [:: t] L = 1.
Proof.
move=> aL L0; rewrite freqB filter_predT /freq (_ : count _ _ = size L) ?divff ?pnatr_eq0 -?lt0n //.
by apply/eqP; rewrite -all_count.
Qed.

Let ind0 (b : bool) : 0 <= (b%:R : R). Proof. exact: ler0n. Qed.

Lemma union_bound (eps : R) N : 0 <= eps -> (0 < N)%N ->
  E N (fun L => (eps <= half_dist S (fun t => freq [:: t] L) P)%R%:R)
    <= 2%:R ^+ size S * rexp (- (2%:R * eps ^+ 2)) ^+ N.
Proof.
move=> e0 N0; apply: (@le_trans _ _ (E N (fun L => \sum_(B <- events S) (eps <= freq B L - prob B)%R%:R))).
  apply: iid_le => // L sL aL; case: (boolP (eps <= _)) => [|_]; last by apply: sumr_ge0.
  have e : \sum_(t <- S) freq [:: t] L = \sum_(t <- S) P t by rewrite P1 freq_sum // sL.
  rewrite -(event_max e) sumrB freqB //.
  set a := (X in freq [seq t <- S | X t]) => le.
  have le' : eps <= freq [seq t <- S | a t] L - prob [seq t <- S | a t].
    apply: le_trans le _; rewrite le_eqVlt; apply/orP; left; apply/eqP; congr (_ - _).
    rewrite big_seq_cond [RHS]big_seq_cond; apply: eq_bigl => t; rewrite mem_filter.
    by case: (t \in S); rewrite //= andbT.
  have := filter_events a S; move: le'; elim: (events S) => [//|B Bs IH] le'.
  rewrite inE big_cons => /orP[/eqP <-|/(IH le')]; first by rewrite le' ler_addl; apply: sumr_ge0.
  by move=> h; apply: le_trans h _; rewrite ler_addr.
rewrite iid_sum -natrX -size_events -sum1_size natr_sum mulr_suml; apply: ler_sum => B _.
by rewrite mul1r; exact: hoeffding.
Qed.
End Sound.
End Reals.

Section Bounds.
Notation R := R_rcfType.
Variables (T : eqType) (S : seq T) (P : T -> R).
Hypotheses (uS : uniq S) (P0 : {in S, forall t, 0 <= P t}) (P1 : \sum_(t <- S) P t = 1).
Notation tv L := (half_dist S (fun t => freq [:: t] L) P).
Notation k := (Z.of_nat (size S)).

Lemma sqrt_ge0 (x : R) : 0 <= (sqrt x : R). Proof. by apply/RlebP; exact: sqrt_pos. Qed.

Lemma powR (x : R) n : x ^+ n = pow x n.
Proof. by elim: n => [//|n IH]; rewrite exprS IH. Qed.

Lemma bound_valueR (N : nat) (p : R) : (0 < N)%N -> Rlt 0 p -> Rle p 1 ->
  2%:R ^+ size S * rexp (- (2%:R * (tv_error_bound k (Z.of_nat N) p : R) ^+ 2)) ^+ N = p.
Proof.
move=> /ssrnat.ltP N0 p0 p1; rewrite !powR natRI.
exact: (bound_value (size S) N p N0 p0 p1).
Qed.

Lemma error_bound_sound (N : nat) (p : R) : (0 < N)%N -> Rlt 0 p -> Rle p 1 ->
  iid_exp S P N (fun L => ((tv_error_bound k (Z.of_nat N) p : R) <= tv L)%R%:R) <= p.
Proof.
move=> N0 p0 p1; rewrite -[X in _ <= X](bound_valueR N0 p0 p1); apply: union_bound => //.
exact: sqrt_ge0.
Qed.

Lemma minimal_sound (p d : R) : Rlt 0 p -> Rle p 1 -> Rlt 0 d ->
  iid_exp S P (Z.to_nat (minimal_samples k p d)) (fun L => (d <= tv L)%R%:R) <= p.
Proof.
move=> p0 p1 d0; have [N1 [lt _]] := minimalE k p d (Zle_0_nat _) (conj p0 p1) d0.
set N := Z.to_nat _; have eN : minimal_samples k p d = Z.of_nat N by rewrite Z2Nat.id //; lia.
have N0 : (0 < N)%N by lia.
apply: le_trans (error_bound_sound N0 p0 p1); apply: iid_le => // L _ _.
rewrite eN in lt; case: (boolP (d <= tv L)) => [le|_]; last exact: ler0n.
suff -> : (tv_error_bound k (Z.of_nat N) p : R) <= tv L by [].
by apply: le_trans le; apply/RlebP; left.
Qed.
End Bounds.

Lemma freq_half (T : eqType) (S : seq T) (P : T -> R_rcfType) L :
  half_dist S (fun t => freq [:: t] L) P = half_dist S (fun t => (count_mem t L)%:R / (size L)%:R) P.
Proof.
congr (_ / _); apply: eq_bigr => t _; rewrite /freq; congr (`|_%:R / _ - _|).
by apply: eq_count => x; rewrite /= inE.
Qed.
