(* Placing particles with rounded probabilities. *)
From mathcomp Require Import all_ssreflect all_algebra complex.
From mathcomp Require Import ring zify.
From Verif Require Import Base SpecStates Combi SpecPerm SpecBS SpecProb ProbMath ModelStates ModelGcc ModelGccB ProofSel
  ProofGcc3 ProofGccB1 ProofGccB2 ModelNet SpecFixed ModelFixed PermMath BsMath BsNorm SampMath ProofFixed1 ModelFloat SpecFloat ProofFloat ModelFloatGcc ModelFloatGccB ProofFloatSel ProofFloatSelB
  ModelFloatFixed SpecFloatFixed.
Set Implicit Arguments.
Unset Strict Implicit.
Unset Printing Implicit Defensive.
Import Order.TTheory GRing.Theory Num.Theory.
Local Open Scope ring_scope.

Section Upto.
Variable R : realFieldType.
Definition upto (y : R) (N : nat) : nat := \sum_(k < N) (k%:R <= y)%R.

Lemma upto_le y N : -1 <= y -> (upto y N)%:R <= y + 1.
Proof.
move=> y0; suff : (upto y N <= N)%N /\ (upto y N)%:R <= y + 1 by case.
elim: N => [|N [IH1 IH2]].
  by rewrite /upto big_ord0; split=> //; rewrite -ler_subl_addr sub0r.
rewrite /upto big_ord_recr -/(upto y N) /=; case: leP => [le|_] /=; last first.
  by rewrite addn0; split=> //; apply: leqW.
split; first by rewrite addn1 ltnS.
by rewrite natrD ler_add2r; apply: le_trans le; rewrite ler_nat.
Qed.
End Upto.

(* N equally likely draws select the index idx k in 0..m; c are the partial sums
   of the exact probabilities *)
Section Grid.
Variable R : rcfType.
Variables (N m : nat) (idx : nat -> nat) (c : nat -> R) (y : R).
Hypothesis N0 : (0 < N)%N.
Hypothesis y0 : 0 <= y.
Hypothesis c01 : forall i, (i <= m)%N -> 0 <= c i <= 1.
Hypothesis upper : forall i k, (i <= m)%N -> (idx k < i)%N -> k%:R / N%:R <= c i + y.
Hypothesis lower : forall i k, (i <= m)%N -> (i <= idx k)%N -> c i - y <= k%:R / N%:R.
Hypothesis idxm : forall k, (idx k <= m)%N.
Let sl (k : nat) := Some (idx k).
Let g : R := y + N%:R^-1.

Lemma grid_near i : (i <= m)%N -> `|(selo N sl i)%:R / N%:R - c i| <= g.
Proof.
move=> im; have NR : 0 < N%:R :> R by rewrite ltr0n.
have sE : selo N sl i = (\sum_(k < N) (idx k < i)%N)%N by [].
have /andP[f0 f1] := c01 im.
rewrite ler_norml; apply/andP; split.
- rewrite ler_subr_addl ler_pdivl_mulr //.
  apply: (@le_trans _ _ (N%:R * (c i - y))).
    rewrite mulrC; apply: ler_wpmul2l; first exact: ltW.
    by rewrite ler_add2l ler_opp2 /g ler_addl invr_ge0 ltW.
  apply: (@le_trans _ _ (below (N%:R * (c i - y)) N)%:R).
    apply: below_ge; rewrite -[X in _ <= X]mulr1 ler_wpmul2l ?ler0n // ler_subl_addr.
    by apply: le_trans f1 _; rewrite ler_addl.
  rewrite ler_nat sE; apply: leq_sum => k _; case: (ltP _ (N%:R * _)) => //= h.
  case: (ltnP (idx k) i) => // le; have := lower im le.
  by rewrite ler_pdivl_mulr // [_ * N%:R]mulrC leNgt h.
- rewrite ler_subl_addl ler_pdivr_mulr //.
  apply: (@le_trans _ _ (N%:R * (c i + y) + 1)); last first.
    suff -> : (c i + g) * N%:R = N%:R * (c i + y) + 1 by [].
    by rewrite /g; move: (gt_eqF NR) => /negbT nz; field.
  apply: (@le_trans _ _ (upto (N%:R * (c i + y)) N)%:R).
    rewrite ler_nat sE; apply: leq_sum => k _; case: (ltnP (idx k) i) => // le.
    have := upper im le; rewrite ler_pdivr_mulr // [_ * N%:R]mulrC => ->.
    by [].
  apply: upto_le; apply: (@le_trans _ _ 0); first by rewrite oppr_le0 ler01.
  by rewrite mulr_ge0 ?ler0n // addr_ge0.
Qed.

Lemma grid_ph i : ph R N sl i = (selo N sl i.+1)%:R / N%:R - (selo N sl i)%:R / N%:R.
Proof. by rewrite /ph seloS natrD mulrDl addrC addKr. Qed.

Lemma grid_all : (selo N sl m.+1)%:R / N%:R = 1 :> R.
Proof.
have -> : selo N sl m.+1 = N.
  rewrite /selo (eq_bigr (fun=> 1%N)) ?sum1_card ?card_ord // => k _.
  by rewrite /sl ltnS idxm.
by rewrite divff // pnatr_eq0 -lt0n.
Qed.

Lemma grid_avg (V : nat -> R) : (forall i, (i <= m)%N -> 0 <= V i <= 1) ->
  `|(\sum_(k < N) V (idx k)) / N%:R - (\sum_(i < m) (c i.+1 - c i) * V i + (1 - c m) * V m)| <= (m + m.+1)%:R * g.
Proof.
move=> V01.
pose W o := if o is Some j then if (j < m.+1)%N then V j else 0 else 0.
have -> : \sum_(k < N) V (idx k) = \sum_(k < N) W (sl k) by apply: eq_bigr => k _; rewrite /W /sl ltnS idxm.
rewrite (@ph_average R N m.+1 sl V W) //; first last.
- by move=> i mi; rewrite /W ltnNge mi.
- by move=> i; rewrite /W => ->.
rewrite big_ord_recr /= [_ + ph _ _ _ m * _]addrC [X in _ - X]addrC opprD addrACA -mulrBl -sumrB.
have V1 i (x b : R) : (i <= m)%N -> `|x| <= b -> `|x * V i| <= b.
  move=> im xb; have /andP[v0 v1] := V01 i im; rewrite normrM (ger0_norm v0).
  by rewrite -[X in _ <= X]mulr1; apply: ler_pmul.
apply: le_trans (ler_norm_add _ _) _.
have -> : (m + m.+1)%:R * g = g + \sum_(i < m) (g + g).
  by rewrite sumr_const card_ord -[_ *+ m]mulr_natl addnS -addn1 !natrD; move: (m%:R : R) => z; ring.
apply: ler_add.
  apply: V1 => //; rewrite grid_ph grid_all.
  have -> : 1 - (selo N sl m)%:R / N%:R - (1 - c m) = c m - (selo N sl m)%:R / N%:R by ring.
  by rewrite distrC; exact: grid_near.
apply: le_trans (ler_norm_sum _ _ _) _; apply: ler_sum => i _; rewrite -mulrBl.
apply: V1; first exact: ltnW.
rewrite grid_ph; have h1 := grid_near (ltn_ord i); have h2 := grid_near (ltnW (ltn_ord i)).
set a := _ / N%:R in h1 *; set b := _ / N%:R in h2 *.
have -> : a - b - (c i.+1 - c i) = (a - c i.+1) - (b - c i) by ring.
by apply: le_trans (ler_norm_sub _ _) _; apply: ler_add.
Qed.
End Grid.

Section Place.
Variables (R : rcfType) (u e : R) (B : arith R) (N : nat).
Hypotheses (u0 : 0 <= u) (accB : accurate u B) (N0 : (0 < N)%N).
Variables (p q : seq R).
Hypothesis q0 : all (fun x => 0 <= x) q.
Hypothesis q1 : \sum_(x <- q) x <= 1.
Hypothesis p0 : all (fun x => 0 <= x) p.
Hypothesis szq : size q = size p.
Hypothesis pq : forall i, (i < size p)%N -> `|p`_i - q`_i| <= e.
Hypothesis m0 : (0 < size p)%N.
Notation m := (size p).
Notation y := ((1 + u) ^+ m * (1 + m%:R * e) - 1).

Lemma fl_find_modeE (x acc : R) i rest : exists2 j, fl_find_mode B x (Some acc) i [seq Some z | z <- rest] = (i + j)%N &
  [/\ (j <= (size rest).+1)%N, forall j', (j' < j)%N -> foldl (f_add B) acc (take j' rest) < x
    & (j <= size rest)%N -> x <= foldl (f_add B) acc (take j rest)].
Proof.
elim: rest acc i => [|z rest IH] acc i /=.
  case: ltP => h; first by exists 1%N; rewrite ?addn1 //; split=> // -[|j].
  by exists 0%N; rewrite ?addn0.
case: ltP => h; last by exists 0%N; rewrite ?addn0.
have [j -> [a b c]] := IH (f_add B acc z) i.+1; exists j.+1; rewrite ?addSnnS //; split=> //.
by case=> [_|j' jp] //=; apply: b.
Qed.

(* the computed partial sums *)
Definition fsum (j : nat) : R := foldl (f_add B) (head 0 p) (take j (behead p)).

Lemma e_ge0 : 0 <= e. Proof. exact: le_trans (normr_ge0 _) (pq m0). Qed.

Lemma cum_pq j : (j <= m)%N -> `|cum p j - cum q j| <= m%:R * e.
Proof.
move=> jm; rewrite /cum -sumrB; apply: le_trans (ler_norm_sum _ _ _) _.
apply: (@le_trans _ _ (\sum_(i < j) e)).
  by apply: ler_sum => i _; apply: pq; apply: leq_trans (ltn_ord i) jm.
rewrite sumr_const card_ord -[e *+ j]mulr_natl ler_wpmul2r ?e_ge0 // ler_nat //.
Qed.

Lemma cum_q01 j : (j <= m)%N -> 0 <= cum q j <= 1.
Proof.
move=> jm; rewrite (cum_nn q0) ?szq //=; apply: le_trans q1; rewrite -(cum_all q).
by apply: (cum_mono q0); rewrite szq.
Qed.

Lemma fsum_near j : (j < m)%N -> `|fsum j - cum q j.+1| <= y.
Proof.
move=> jm; have em : 0 <= m%:R * e by rewrite mulr_ge0 ?ler0n ?e_ge0.
have h1 : `|fsum j - cum p j.+1| <= ((1 + u) ^+ m - 1) * (1 + m%:R * e).
  have := near_foldl (B := B) u0 accB (k := 0) (v := head 0 p) (a := head 0 p) (z := head 0 p) (l := take j (behead p)).
  have H1 : all (fun x => 0 <= x) (take j (behead p)).
    by apply/allP => x /mem_take xp; apply: (allP p0); exact: mem_behead.
  have ph0 : 0 <= head 0 p by move: p0; case: (p) => [|a l] //= /andP[].
  have H2 : near u 0 (head 0 p) (head 0 p) (head 0 p) by apply: near_exact; rewrite ?ger0_norm.
  move=> /(_ H1 H2); rewrite add0n; set S := head 0 p + _ => -[_ h].
  have SE : S = cum p j.+1.
    rewrite /S cumE //; move: m0; case: (p) => [|a l] //= _; by rewrite big_cons.
  rewrite -/(fsum j) SE in h; apply: le_trans h _.
  have c1 : cum p j.+1 <= 1 + m%:R * e.
    have /andP[_ c1] := cum_q01 jm; have := cum_pq jm; rewrite ler_distl => /andP[_ h].
    by apply: le_trans h _; rewrite ler_add2r.
  apply: ler_pmul => //; rewrite ?E0 // ?(cum_nn p0) //.
  rewrite ler_add2r; apply: E_le => //; rewrite size_takel ?size_behead; lia.
apply: le_trans (ler_dist_add (cum p j.+1) _ _) _; apply: le_trans (ler_add h1 (cum_pq jm)) _.
by move: ((1 + u) ^+ m) (m%:R * e) => a b; rewrite le_eqVlt; apply/orP; left; apply/eqP; ring.
Qed.

Lemma y_ge0 : 0 <= y.
Proof.
rewrite subr_ge0 -[X in X <= _]mulr1; apply: ler_pmul; rewrite ?ler01 //; first exact: E1.
by rewrite ler_addl mulr_ge0 ?ler0n ?e_ge0.
Qed.

Definition pidx (k : nat) : nat :=
  if [seq Some z | z <- p] is a :: rest then fl_find_mode B (k%:R / N%:R) a 0 rest else 0%N.

Lemma pidxP k : [/\ (pidx k <= m)%N, forall j, (j < pidx k)%N -> fsum j < k%:R / N%:R
    & (pidx k < m)%N -> k%:R / N%:R <= fsum (pidx k)].
Proof.
rewrite /pidx /fsum; case: (p) m0 => [//|a rest] _ /=.
by have [j -> [h1 h2 h3]] := fl_find_modeE (k%:R / N%:R) a 0 rest.
Qed.

Lemma fl_placeE k out : size out = m ->
  fl_place B [seq Some z | z <- p] (k%:R / N%:R) out = Ok (if (pidx k < m)%N then incr out (pidx k) else out).
Proof.
move=> so; have [le _ _] := pidxP k; move: le; rewrite /pidx.
case: {1 2 3 4 5 6 7 8}p m0 so => [//|a rest] _ so /=; rewrite size_map.
set j := fl_find_mode _ _ _ _ _ => le.
case: (ltnP j (size rest).+1) => h; first by rewrite ifT ?ltn_eqF // incr_atE // so.
by rewrite ifF //; apply/negbTE; rewrite negbK eqn_leq le h.
Qed.

Lemma place_avg (V : nat -> R) : (forall i, (i <= m)%N -> 0 <= V i <= 1) ->
  `|(\sum_(k < N) V (pidx k)) / N%:R - (\sum_(i < m) q`_i * V i + (1 - \sum_(x <- q) x) * V m)| <= place_error u e N m.
Proof.
move=> V01; have := @grid_avg R N m pidx (cum q) y N0 y_ge0 cum_q01 _ _ _ V V01.
have -> : \sum_(i < m) (cum q i.+1 - cum q i) * V i = \sum_(i < m) q`_i * V i.
  by apply: eq_bigr => i _; rewrite cumS addrC addKr.
have -> : cum q m = \sum_(x <- q) x by rewrite -szq cum_all.
apply.
- move=> i k im lt; have [_ _ h] := pidxP k.
  have jm : (pidx k < m)%N by apply: leq_trans lt im.
  apply: le_trans (h jm) _; have := fsum_near jm; rewrite ler_distl => /andP[_ h1].
  by apply: le_trans h1 _; rewrite ler_add2r (cum_mono q0) // szq.
- move=> [|i] k im le.
    by rewrite cum0 sub0r; apply: (@le_trans _ _ 0); rewrite ?oppr_le0 ?y_ge0 // divr_ge0 ?ler0n.
  have [_ h _] := pidxP k; apply: le_trans (ltW (h i le)).
  by have := fsum_near im; rewrite ler_distl => /andP[].
- by move=> k; have [] := pidxP k.
Qed.

(* all particles: the value of the expectation *)
Fixpoint place_val (f : seq nat -> R) (l : nat) (out : seq nat) : R :=
  if l is l'.+1 then (\sum_(k < N) place_val f l' (if (pidx k < m)%N then incr out (pidx k) else out)) / N%:R
  else f out.

Lemma place_sz k out : size out = m -> size (if (pidx k < m)%N then incr out (pidx k) else out) = m.
Proof. by move=> so; case: ifP => // h; rewrite size_incr // so. Qed.

Lemma fl_place_all_exp f l out : size out = m ->
  has_exp (on_ok f) (fl_place_all B N [seq Some z | z <- p] l out) (place_val f l out).
Proof.
elim: l out => [|l IH] out so /=; first exact: ExpRet.
apply: (@ExpInt _ _ _ N _ (fun k => place_val f l (if (pidx k < m)%N then incr out (pidx k) else out))) => // k kN.
by rewrite fl_placeE // /rpbind /=; apply: IH; exact: place_sz.
Qed.

Lemma fl_place_all_always l out : size out = m ->
  always (fun r => exists t, [/\ r = Ok t, size t = m & (sumn t <= sumn out + l)%N]) (fl_place_all B N [seq Some z | z <- p] l out).
Proof.
elim: l out => [|l IH] out so /=; first by exists out; rewrite addn0.
move=> k kN; rewrite fl_placeE // /rpbind /=.
apply: always_impl (IH _ (place_sz k so)) => _ [t [-> st le]]; exists t; split=> //.
apply: leq_trans le _; case: ifP => h; first by rewrite sumn_incr ?so // addSnnS.
by rewrite leq_add2l.
Qed.

Lemma multi_01 l (f : seq nat -> R) out : (forall t, 0 <= f t <= 1) ->
  0 <= \sum_(t <- lcomps m l) multinomial_prob l q t * f (addv out t) <= 1.
Proof.
move=> f01; have mp0 t := multinomial_ge0 l t q0 q1; apply/andP; split.
  by apply: sumr_ge0 => t _; have /andP[h _] := f01 (addv out t); rewrite mulr_ge0.
rewrite -(multinomial_sum l szq); apply: ler_sum => t _.
by have /andP[_ h] := f01 (addv out t); rewrite -[X in _ <= X]mulr1 ler_wpmul2l.
Qed.

Lemma place_error_ge0 : 0 <= place_error u e N m.
Proof. by rewrite mulr_ge0 ?ler0n // addr_ge0 ?y_ge0 // invr_ge0 ler0n. Qed.

Lemma place_val_near f l out : (forall t, 0 <= f t <= 1) -> size out = m ->
  `|place_val f l out - \sum_(t <- lcomps m l) multinomial_prob l q t * f (addv out t)| <= l%:R * place_error u e N m.
Proof.
move=> f01; elim: l out => [|l IH] out so /=.
  by rewrite (mp0 q m (fun t => f (addv out t))) -so addv0 subrr normr0 mul0r.
pose V i := \sum_(t <- lcomps m l) multinomial_prob l q t * f (addv (if (i < m)%N then incr out i else out) t).
have ms := mp_step q m l (fun t => f (addv out t)).
have e1 : \sum_(t <- lcomps m l.+1) multinomial_prob l.+1 q t * f (addv out t) =
   \sum_(i < m) q`_i * V i + (1 - \sum_(x <- q) x) * V m.
  rewrite ms /V ltnn; congr (_ + _); apply: eq_bigr => i _; rewrite ltn_ord; congr (_ * _).
  apply: eq_big_seq => t; rewrite mem_lcomps => /andP[/eqP st _].
  by rewrite addv_incr // so.
rewrite e1; have V01 i : (i <= m)%N -> 0 <= V i <= 1 by move=> _; exact: multi_01.
apply: le_trans (ler_dist_add ((\sum_(k < N) V (pidx k)) / N%:R) _ _) _.
have -> : l.+1%:R * place_error u e N m = l%:R * place_error u e N m + place_error u e N m.
  by rewrite -addn1 natrD mulrDl mul1r.
apply: ler_add; last exact: place_avg.
rewrite -mulrBl -sumrB normrM normfV [`|N%:R|]ger0_norm ?ler0n // ler_pdivr_mulr ?ltr0n //.
apply: le_trans (ler_norm_sum _ _ _) _.
apply: (@le_trans _ _ (\sum_(k < N) (l%:R * place_error u e N m))).
  by apply: ler_sum => k _; apply: IH; exact: place_sz.
by rewrite sumr_const card_ord -[_ *+ N]mulr_natr.
Qed.
End Place.
