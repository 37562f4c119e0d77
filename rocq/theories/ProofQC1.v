(* get_prime_factors. *)
From mathcomp Require Import all_ssreflect all_algebra.
From mathcomp Require Import zify.
From Verif Require Import Base ModelQC.
Set Implicit Arguments.
Unset Strict Implicit.
Unset Printing Implicit Defensive.

Lemma isqrtP n k : (k <= isqrt n) = (k ^ 2 <= n).
Proof.
rewrite /isqrt; have H b : forall k, (k <= isqrt_below n b) = (k <= b) && (k ^ 2 <= n).
  elim: b => [|b IH] j /=; first by rewrite leqn0; case: j.
  case: ifP => h; first by case: leqP => //= jb; apply/esym/(leq_trans _ h); rewrite leq_sqr.
  rewrite IH; case: (ltngtP j b.+1) => [jb|jb|->]; rewrite ?h ?andbF //.
  - by rewrite -ltnS jb.
  - by rewrite leqNgt (ltn_trans _ jb) // .
rewrite H; case: (leqP (k ^ 2) n) => h; rewrite ?andbF // andbT.
by apply: leq_trans h; case: k => // k; rewrite expnS expn1 mulSn leq_addr.
Qed.

Lemma divide_outE fuel i n fs : 1 < i -> 0 < n -> n <= fuel ->
  exists k n', [/\ divide_out fuel i n fs = Ok (n', fs ++ nseq k i), n = i ^ k * n' & ~~ (i %| n')].
Proof.
move=> i1; elim: fuel n fs => [|fuel IH] n fs n0 nf; first by move: n0; rewrite ltnNge nf.
rewrite /= -[_ == _]/(i %| n); case: (boolP (i %| n)) => [d|d]; last first.
  by exists 0, n; rewrite cats0 mul1n.
have i0 : 0 < i := ltnW i1.
have q0 : 0 < n %/ i by rewrite (divn_gt0 _ i0) dvdn_leq.
have [|k [n' [e en nd]]] := IH (n %/ i) (rcons fs i) q0.
  by rewrite -ltnS; apply: leq_trans nf; apply: ltn_Pdiv.
exists k.+1, n'; split=> //; first by rewrite e cat_rcons.
by rewrite -(divnK d) en expnS mulnC mulnA.
Qed.

(* the primes below b have been divided out of n, which started at n0 *)
Definition peeled (n0 b : nat) (nf : nat * seq nat) : Prop :=
  [/\ 0 < nf.1, n0 = \prod_(f <- nf.2) f * nf.1, all (fun f => prime f && (f < b)) nf.2,
      sorted leq nf.2 & forall p, prime p -> p %| nf.1 -> b <= p].

Lemma prod_nseq k i : \prod_(f <- nseq k i) f = i ^ k.
Proof. by rewrite big_nseq iter_muln_1. Qed.

Lemma sorted_rcat (fs : seq nat) k i : sorted leq fs -> all (fun f => f <= i) fs -> sorted leq (fs ++ nseq k i).
Proof.
move=> s a; rewrite sorted_pairwise; last exact: leq_trans.
rewrite pairwise_cat -sorted_pairwise ?s; last exact: leq_trans.
apply/and3P; split=> //.
  by apply/allrelP => x y xf /nseqP[-> _]; exact: (allP a).
by elim: k => //= k IH; rewrite IH andbT; apply/allP => x /nseqP[-> _].
Qed.

Lemma peel n0 i b fuel nf : peeled n0 i nf -> 1 < i -> n0 <= fuel -> i < b ->
  (forall p, prime p -> i < p -> b <= p) ->
  exists2 nf', divide_out fuel i nf.1 nf.2 = Ok nf' & peeled n0 b nf'.
Proof.
case: nf => n fs [/= np e a s big] i1 nf ib gap.
have le : n <= n0.
  rewrite e leq_pmull // big_seq; apply: prodn_cond_gt0 => f ff.
  by have /andP[/prime_gt0] := allP a _ ff.
have [k [n' [-> en nd]]] := divide_outE fs i1 np (leq_trans le nf); exists (n', fs ++ nseq k i) => //.
have n'0 : 0 < n' by case: n' en nd np => //; rewrite muln0 => ->.
have pk : 0 < k -> prime i.
  case: k en => // k en _; have pd := pdivP i1; case: pd => p pp pi.
  suff -> : i = p by [].
  apply/eqP; rewrite eqn_leq (dvdn_leq _ pi) ?(ltnW i1) // andbT; apply: big => //.
  by rewrite en expnS -mulnA dvdn_mulr.
split=> //=.
- by rewrite big_cat /= prod_nseq -mulnA -en.
- rewrite all_cat; apply/andP; split.
    by apply/allP => f ff; have /andP[-> fi] := allP a _ ff; exact: ltn_trans ib.
  by apply/allP => f /nseqP[-> /pk ->].
- by apply: sorted_rcat => //; apply/allP => f /(allP a) /andP[_ /ltnW].
move=> p pp pn; have ip : i <= p by apply: big => //; rewrite en dvdn_mull.
move: ip; rewrite leq_eqVlt => /orP[/eqP ip|]; last exact: gap.
by rewrite ip pn in nd.
Qed.

Lemma odd_gap i p : odd i -> 1 < i -> prime p -> i < p -> i.+2 <= p.
Proof.
move=> oi i1 pp ip; rewrite ltn_neqAle ip andbT; apply/eqP => e.
have ev : ~~ odd p by rewrite -e /= oi.
by have := even_prime pp; case=> [|]; [lia|rewrite (negbTE ev)].
Qed.

Lemma peel_odds n0 fuel c j nf : n0 <= fuel -> peeled n0 (3 + 2 * j) nf ->
  exists2 nf', rfoldl (fun nf i => divide_out fuel i nf.1 nf.2) nf [seq 3 + 2 * j | j <- iota j c] = Ok nf'
    & peeled n0 (3 + 2 * (j + c)) nf'.
Proof.
move=> f; elim: c j nf => [|c IH] j nf h; first by exists nf; rewrite ?addn0.
have oi : odd (3 + 2 * j) by rewrite oddD oddM.
have g p : prime p -> 3 + 2 * j < p -> 3 + 2 * j.+1 <= p by move=> pp ip; have := odd_gap oi isT pp ip; lia.
have i1 : 1 < 3 + 2 * j by lia.
have ib : 3 + 2 * j < 3 + 2 * j.+1 by lia.
have [nf' e h'] := peel h i1 f ib g; rewrite [iota j _]/= map_cons rfoldl_cons e [rbind _ _]/=.
by rewrite addnS -addSn; apply: IH.
Qed.

Lemma peeled_dvd n0 b nf : peeled n0 b nf -> nf.1 %| n0.
Proof. by case=> _ -> _ _ _; exact: dvdn_mull. Qed.

Lemma prime_factorsE n fuel : 0 < n -> n <= fuel -> exists fs x,
  [/\ prime_factors_nat fuel n = Ok (rcons fs x), \prod_(f <- fs) f * x = n, all prime fs,
      sorted leq fs
    & [/\ x = 1 \/ prime x /\ sorted leq (rcons fs x)
        & x = 1 <-> forall p, prime p -> odd p -> p %| n -> p ^ 2 <= n %/ 2 ^ logn 2 n]].
Proof.
move=> n0 nf; have h0 : peeled n 2 (n, [::]).
  by split=> //=; rewrite ?big_nil ?mul1n // => p /prime_gt1.
have [nf1 e1 h1] := @peel n 2 3 fuel (n, [::]) h0 isT nf isT (fun p _ lt => lt).
have on : odd nf1.1.
  case: h1 => _ _ _ _ big; apply/negPn/negP => ev.
  by have := big 2 isT; rewrite dvdn2 ev => /(_ isT).
pose n2 := nf1.2.
have en : n = 2 ^ size n2 * nf1.1.
  case: h1 => _ {1}-> a _ _; congr (_ * _); rewrite /n2.
  elim: nf1.2 a => [|f fs IH] /=; first by rewrite big_nil.
  by move=> /andP[/andP[pf f3] /IH {}IH]; rewrite big_cons IH expnS (_ : f = 2) //; have := prime_gt1 pf; lia.
have on1 : nf1.1 = n %/ 2 ^ logn 2 n.
  have p0 : 0 < nf1.1 by case: h1.
  have -> : logn 2 n = size n2.
    by rewrite en lognM ?expn_gt0 // pfactorK // lognE dvdn2 on /= andbF addn0.
  by rewrite {1}en mulKn ?expn_gt0.
set c := (((isqrt nf1.1).+1 - 2) %/ 2).
have [|nf2 e2 h2] := @peel_odds n fuel c 0 nf1 nf; first by rewrite muln0.
have lim p : odd p -> p < 3 + 2 * c <-> p <= isqrt nf1.1 \/ p = 1.
  move=> op; rewrite /c; have := odd_double_half p; rewrite op -muln2 => ep; split; lia.
have [p2 E A S big] := h2.
have D21 : nf2.1 %| nf1.1.
  have cop : coprime nf2.1 (2 ^ size n2).
    rewrite coprime_sym coprimeXl // prime_coprime // dvdn2 negbK.
    by apply/negPn/negP => ev; have := big 2 isT; rewrite dvdn2 ev => /(_ isT); lia.
  by rewrite -(Gauss_dvdr _ cop) -en (peeled_dvd h2).
exists nf2.2, nf2.1; split=> //.
- by rewrite /prime_factors_nat e1 /= /odds_from_3 -/c e2.
- by apply: sub_all A => f /andP[].
have X : nf2.1 = 1 \/ prime nf2.1.
  case: (ltngtP nf2.1 1) => [|x1|->]; [by rewrite ltnNge p2|right|by left].
  apply/negPn/negP => /primePns[|[p [pp ps pd]]]; first by rewrite ltnNge x1.
  have op : odd p by case: (even_prime pp) => // ep; rewrite ep dvdn2 in pd; have := big 2 isT; rewrite dvdn2 pd => /(_ isT); lia.
  have := big p pp pd; rewrite leqNgt => /negP; apply; apply/(lim p op); left.
  by rewrite isqrtP; apply: leq_trans ps _; apply: dvdn_leq => //; case: h1.
split.
  case: X => [|px]; [by left|right; split=> //].
  rewrite -cats1; apply: (@sorted_rcat _ 1) => //; apply/allP => f /(allP A) /andP[_ fb].
  exact: leq_trans (ltnW fb) (big _ px (dvdnn _)).
rewrite -on1; split=> [x1 p pp op pn|H].
  have : p %| \prod_(f <- nf2.2) f by move: pn; rewrite E x1 muln1.
  rewrite Euclid_dvd_prod // big_has => /hasP[f ff pf].
  have /andP[prf fb] := allP A _ ff; move: pf; rewrite dvdn_prime2 // => /eqP pf; rewrite -pf in fb.
  by move/(lim p op): fb => [|p1]; [rewrite isqrtP|rewrite p1 in pp].
case: X => // px; have xn := peeled_dvd h2.
have ox : odd nf2.1 by apply: dvdn_odd D21 on.
have := H _ px ox xn; rewrite -isqrtP => le.
by have := big _ px (dvdnn _); rewrite leqNgt => /negP[]; apply/(lim _ ox); left.
Qed.

Lemma prime_factors_0 fuel : prime_factors_nat fuel 0 = Err OutOfFuel.
Proof.
rewrite /prime_factors_nat; suff -> fs : divide_out fuel 2 0 fs = Err OutOfFuel by [].
by elim: fuel fs => [//|fuel IH] fs /=; rewrite div0n.
Qed.
