(* Expectations of randomised programs: uniqueness, sequencing, selection. *)
From mathcomp Require Import all_ssreflect all_algebra ring.
From Verif Require Import Base SpecProb.
Set Implicit Arguments.
Unset Strict Implicit.
Unset Printing Implicit Defensive.
Import Order.TTheory GRing.Theory Num.Theory.
Local Open Scope ring_scope.

Section Prob.
Variable R : realFieldType.
Implicit Types (w : seq R).

(* cumulative sums *)
Definition cum w i := \sum_(j < i) w`_j.

Lemma cum0 w : cum w 0 = 0. Proof. by rewrite /cum big_ord0. Qed.
Lemma cumS w i : cum w i.+1 = cum w i + w`_i. Proof. by rewrite /cum big_ord_recr. Qed.
Lemma cum_size w : cum w (size w) = \sum_(x <- w) x.
Proof. by rewrite /cum (big_nth 0) big_mkord. Qed.

Lemma distr_ge0 w i : is_distr w -> 0 <= w`_i.
Proof.
move=> [/allP h _]; case: (ltnP i (size w)) => il; last by rewrite nth_default.
by apply: h; rewrite mem_nth.
Qed.

Lemma cum_le w i j : is_distr w -> (i <= j)%N -> cum w i <= cum w j.
Proof.
move=> dw; elim: j => [|j IH]; first by rewrite leqn0 => /eqP ->.
rewrite leq_eqVlt ltnS => /orP[/eqP -> //|/IH h].
by apply: le_trans h _; rewrite cumS ler_addl distr_ge0.
Qed.

Lemma cum_ge0 w i : is_distr w -> 0 <= cum w i.
Proof. by move=> dw; rewrite -(cum0 w) cum_le. Qed.
Lemma cum_le1 w i : is_distr w -> cum w i <= 1.
Proof.
move=> dw; case: (leqP i (size w)) => il.
  by rewrite -(dw.2) -cum_size cum_le.
suff -> : cum w i = cum w (size w) by rewrite cum_size dw.2.
elim: i il => [//|i IH]; rewrite ltnS leq_eqVlt => /orP[/eqP e|il].
  by rewrite cumS nth_default ?addr0 -e.
by rewrite cumS IH // nth_default ?addr0 // ltnW.
Qed.

Lemma in_stepE w i u : in_step w i u = (cum w i <= u < cum w i.+1). Proof. by []. Qed.

Lemma in_step01 w i u : is_distr w -> in_step w i u -> 0 <= u < 1.
Proof.
move=> dw /andP[h1 h2]; rewrite (le_trans (cum_ge0 i dw) h1).
by rewrite (lt_le_trans h2 (cum_le1 i.+1 dw)).
Qed.

Lemma inside_in w i u : inside_step w i u -> in_step w i u.
Proof. by move=> /andP[h1 h2]; rewrite /in_step h2 ltW. Qed.

Lemma inside_step01 w i u : is_distr w -> inside_step w i u -> 0 <= u < 1.
Proof. by move=> dw /inside_in; apply: in_step01. Qed.

Lemma inside_stepE w i u : inside_step w i u = (cum w i < u < cum w i.+1). Proof. by []. Qed.

(* every u of [0,1) lies in a step *)
Lemma in_step_ex w u : is_distr w -> 0 <= u < 1 -> exists i, (i < size w)%N /\ in_step w i u.
Proof.
move=> dw /andP[u0 u1].
have ex : exists i, u < cum w i by exists (size w); rewrite cum_size dw.2.
case: (ex_minnP ex) => [[|i]]; first by rewrite cum0 ltNge u0.
move=> lt min; have le : cum w i <= u.
  by rewrite leNgt; apply/negP => /min; rewrite ltnn.
exists i; rewrite in_stepE le lt; split=> //.
rewrite ltnNge; apply/negP => si.
have := lt; rewrite cumS nth_default // addr0 => h.
by have := le_lt_trans le h; rewrite ltxx.
Qed.

Lemma in_step_uniq w i j u : is_distr w -> in_step w i u -> in_step w j u -> i = j.
Proof.
move=> dw /andP[h1 h2] /andP[h3 h4].
case: (ltngtP i j) => // l.
  by have := lt_le_trans h2 (cum_le dw l); rewrite ltNge h3.
by have := lt_le_trans h4 (cum_le dw l); rewrite ltNge h1.
Qed.

(* ------------------------------------------------------------------ *)
(* the length of [a,b) /\ [c,d) *)
Definition overlap (a b c d : R) := Num.max a (Num.min b d) - Num.max a (Num.min b c).


Lemma overlap_cases a b c d : a <= b -> c <= d ->
  [\/ b <= c /\ overlap a b c d = 0, d <= a /\ overlap a b c d = 0
    | [/\ c <= b, a <= d & overlap a b c d = Num.min b d - Num.max a c]].
Proof.
move=> ab cd; rewrite /overlap; case/orP: (le_total b c) => bc.
  by constructor 1; rewrite (min_l (le_trans bc cd)) (min_l bc) subrr.
case/orP: (le_total d a) => da.
  by constructor 2; rewrite (min_r (le_trans da ab)) (max_l da) (min_r bc) (max_l (le_trans cd da)) subrr.
constructor 3; split=> //; rewrite (min_r bc).
by rewrite (max_r (y := Num.min b d)) // le_minr ab da.
Qed.

Lemma overlap_sym a b c d : a <= b -> c <= d -> overlap a b c d = overlap c d a b.
Proof.
move=> ab cd; rewrite {2}/overlap.
case: (overlap_cases ab cd) => [[bc ->]|[da ->]|[cb ad ->]].
- by rewrite (min_r (le_trans bc cd)) (max_l bc) (min_r (le_trans ab (le_trans bc cd))) (max_l (le_trans ab bc)) subrr.
- by rewrite (min_l (le_trans da ab)) (max_r cd) (min_l da) (max_r cd) subrr.
by rewrite (min_r ad) (max_r (y := Num.min d b)) ?le_minr ?cd // minC maxC.
Qed.

Lemma overlap_pos a b c d : a <= b -> c <= d -> overlap a b c d != 0 ->
  exists u, (a < u < b) && (c < u < d).
Proof.
move=> ab cd; case: (overlap_cases ab cd) => [[bc ->]|[da ->]|[cb ad ->]]; rewrite ?eqxx //.
rewrite subr_eq0 eq_sym => ne; exists ((Num.max a c + Num.min b d) / 2%:R).
have lt : Num.max a c < Num.min b d by rewrite lt_neqAle ne le_minr !le_maxl ab cb ad cd.
have [h1 h2] := midf_lt lt.
by move: h1 h2; rewrite lt_maxl lt_minr => /andP[-> ->] /andP[-> ->].
Qed.

Lemma overlap_sum a b w : 0 <= a -> a <= b -> b <= 1 -> is_distr w ->
  \sum_(j < size w) overlap a b (cum w j) (cum w j.+1) = b - a.
Proof.
move=> a0 ab b1 dw.
transitivity (\sum_(0 <= j < size w) (Num.max a (Num.min b (cum w j.+1)) - Num.max a (Num.min b (cum w j)))).
  by rewrite big_mkord.
rewrite telescope_sumr // cum0 cum_size dw.2 (min_l b1) (max_r ab) (min_r (le_trans a0 ab)).
by rewrite (max_l a0).
Qed.

(* the expectation is unique *)
Lemma has_exp_fun (A : Type) (f : A -> R) p v v' : has_exp f p v -> has_exp f p v' -> v = v'.
Proof.
move=> H; move: H v'.
elim=> {p v} [a|k w v dw _ IH|n k v n0 _ IH] v' H'; inversion H' as [|k1 w' vs dw' E|n1 k1 vs n1p E]; subst=> //.
  pose o i j := overlap (cum w i) (cum w i.+1) (cum w' j) (cum w' j.+1).
  transitivity (\sum_(i < size w) \sum_(j < size w') o i j * v i).
    apply: eq_bigr => i _; rewrite -mulr_suml /o overlap_sum ?cum_ge0 ?cum_le1 ?cum_le //.
    by rewrite cumS addrC addKr.
  transitivity (\sum_(i < size w) \sum_(j < size w') o i j * vs j); last first.
    rewrite exchange_big; apply: eq_bigr => j _; rewrite -mulr_suml.
    under eq_bigr do rewrite /o overlap_sym ?cum_le //.
    by rewrite overlap_sum ?cum_ge0 ?cum_le1 ?cum_le // cumS addrC addKr.
  apply: eq_bigr => i _; apply: eq_bigr => j _.
  have [->|ne] := eqVneq (o i j) 0; first by rewrite !mul0r.
  have [u /andP[h1 h2]] := overlap_pos (cum_le dw (leqnSn i)) (cum_le dw' (leqnSn j)) ne.
  by congr (_ * _); apply: (IH i u) => //; apply: E.
congr (_ / _); apply: eq_bigr => i _; apply: IH => //; exact: E.
Qed.

Lemma has_exp_eq (A : Type) (f : A -> R) p v v' : has_exp f p v -> v = v' -> has_exp f p v'.
Proof. by move=> h <-. Qed.

Lemma has_exp_ext (A : Type) (f g : A -> R) p v : f =1 g -> has_exp f p v -> has_exp g p v.
Proof.
move=> fg; elim=> {p v} [a|k w v dw _ IH|n k v n0 _ IH].
- by rewrite fg; constructor.
- by constructor.
- by constructor.
Qed.

(* linearity, constants, monotonicity: has_exp behaves as an expectation *)
Lemma has_exp_always (A : Type) (f g : A -> R) p v : has_exp f p v -> always (fun a => f a = g a) p ->
  has_exp g p v.
Proof.
elim=> {p v} [a|k w v dw _ IH|n k v n0 _ IH] /= al.
- by rewrite al; constructor.
- by constructor=> // i u il st; apply: (IH _ u) => //; apply: al; exact: inside_step01 st.
- by constructor=> // i il; apply: IH => //; apply: al.
Qed.

Lemma has_exp_const (A : Type) (f : A -> R) p v c : has_exp f p v -> has_exp (fun=> c) p c.
Proof.
elim=> {p v} [a|k w v dw _ IH|n k v n0 _ IH].
- by constructor.
- have e : \sum_(i < size w) w`_i * c = c by rewrite -mulr_suml -/(cum w _) cum_size dw.2 mul1r.
  by apply: has_exp_eq e; apply: (ExpUnif (v := fun=> c)).
have e : (\sum_(i < n) c) / n%:R = c.
  by rewrite sumr_const card_ord -[c *+ n]mulr_natr mulfK // pnatr_eq0 -lt0n.
by apply: has_exp_eq e; apply: (ExpInt (v := fun=> c)).
Qed.

Lemma has_exp_le (A : Type) (f g : A -> R) p v v' : has_exp f p v -> has_exp g p v' ->
  always (fun a => f a <= g a) p -> v <= v'.
Proof.
move=> H; move: H v'.
elim=> {p v} [a|k w v dw _ IH|n k v n0 _ IH] v' H' al; inversion H' as [|k1 w' vs dw' E|n1 k1 vs n1p E]; subst=> //.
  pose o i j := overlap (cum w i) (cum w i.+1) (cum w' j) (cum w' j.+1).
  have -> : \sum_(i < size w) w`_i * v i = \sum_(i < size w) \sum_(j < size w') o i j * v i.
    apply: eq_bigr => i _; rewrite -mulr_suml /o overlap_sum ?cum_ge0 ?cum_le1 ?cum_le //.
    by rewrite cumS addrC addKr.
  have -> : \sum_(i < size w') w'`_i * vs i = \sum_(i < size w) \sum_(j < size w') o i j * vs j.
    rewrite exchange_big; apply: eq_bigr => j _; rewrite -mulr_suml.
    under eq_bigr do rewrite /o overlap_sym ?cum_le //.
    by rewrite overlap_sum ?cum_ge0 ?cum_le1 ?cum_le // cumS addrC addKr.
  apply: ler_sum => i _; apply: ler_sum => j _.
  have [->|ne] := eqVneq (o i j) 0; first by rewrite !mul0r.
  have [u /andP[h1 h2]] := overlap_pos (cum_le dw (leqnSn i)) (cum_le dw' (leqnSn j)) ne.
  apply: ler_wpmul2l; last by apply: (IH i u) => //; [exact: E|apply: al; exact: (inside_step01 dw (i := i))].
  rewrite /o; case: (overlap_cases (cum_le dw (leqnSn i)) (cum_le dw' (leqnSn j))) => [[_ ->]|[_ ->]|[h3 h4 ->]] //.
  by rewrite subr_ge0 le_minr !le_maxl h3 h4 !cum_le.
rewrite ler_wpmul2r ?invr_ge0 ?ler0n // ler_sum // => i _.
by apply: IH => //; [exact: E|exact: al].
Qed.

(* sequencing *)
Lemma has_exp_bind (A B : Type) (p : rprog R A) (g : A -> rprog R B) f h v :
  has_exp h p v -> always (fun a => has_exp f (g a) (h a)) p -> has_exp f (pbind p g) v.
Proof.
elim=> {p v} [a|k w v dw _ IH|n k v n0 _ IH] //= al.
- by constructor=> // i u il st; apply: (IH _ u) => //; apply: al; exact: inside_step01 st.
- by constructor=> // i il; apply: IH => //; apply: al.
Qed.

Lemma always_impl (A : Type) (P Q : A -> Prop) (p : rprog R A) : (forall a, P a -> Q a) ->
  always P p -> always Q p.
Proof. by move=> pq; elim: p => [a|k IH|n k IH] //= h; [exact: pq|move=> u /h /IH|move=> i /h /IH]. Qed.

Lemma always_and (A : Type) (P Q : A -> Prop) (p : rprog R A) :
  always P p -> always Q p -> always (fun a => P a /\ Q a) p.
Proof. by elim: p => [a|k IH|n k IH] //= h h' u ul; apply: IH; [exact: h|exact: h'|exact: h|exact: h']. Qed.

Lemma always_true (A : Type) (P : A -> Prop) (p : rprog R A) : (forall a, P a) -> always P p.
Proof. by move=> h; elim: p => [a|k IH|n k IH] /=. Qed.

Lemma always_bind (A B : Type) (P : B -> Prop) (p : rprog R A) (g : A -> rprog R B) :
  always (fun a => always P (g a)) p -> always P (pbind p g).
Proof. by elim: p => [a|k IH|n k IH] //= h u ul; apply: IH; apply: h. Qed.

Lemma pbind_ret (A : Type) (p : rprog R A) : same_run eq (pbind p Ret) p.
Proof. by elim: p => [a|k IH|n k IH] /=. Qed.

Lemma pbindA (A B C : Type) (p : rprog R A) (g : A -> rprog R B) (h : B -> rprog R C) :
  same_run eq (pbind (pbind p g) h) (pbind p (fun a => pbind (g a) h)).
Proof.
have refl D (q : rprog R D) : same_run eq q q by elim: q => [a|k IH|n k IH] //=.
by elim: p => [a|k IH|n k IH] //=.
Qed.

Lemma same_run_bind (A A' B B' : Type) (P : A -> A' -> Prop) (Q : B -> B' -> Prop) p p' g g' :
  same_run P p p' -> (forall a a', P a a' -> same_run Q (g a) (g' a')) ->
  same_run (R := R) Q (pbind p g) (pbind p' g').
Proof.
move=> + h; elim: p p' => [a|k IH|n k IH] [a'|k'|n' k'] //=.
- exact: h.
- by move=> hk u ul; apply: IH; apply: hk.
- by move=> [e hk]; split=> // i il; apply: IH; apply: hk.
Qed.

Lemma same_run_impl (A B : Type) (P Q : A -> B -> Prop) p q : (forall a b, P a b -> Q a b) ->
  same_run (R := R) P p q -> same_run Q p q.
Proof.
move=> pq; elim: p q => [a|k IH|n k IH] [a'|k'|n' k'] //=; first exact: pq.
- by move=> hk u /hk /IH.
- by move=> [e hk]; split=> // i /hk /IH.
Qed.

Lemma same_run_exp (A B : Type) (P : A -> B -> Prop) f g p q v :
  same_run P p q -> (forall a b, P a b -> f a = g b) -> has_exp (R := R) f p v -> has_exp g q v.
Proof.
move=> + fg H; elim: H q => {p v} [a|k w v dw _ IH|n k v n0 _ IH] [a'|k'|n' k'] //=.
- by move=> /fg ->; constructor.
- by move=> h; constructor=> // i u il st; apply: (IH i u) => //; apply: h; exact: inside_step01 st.
- by move=> [<- h]; constructor=> // i il; apply: IH => //; apply: h.
Qed.

(* exceptions *)
Lemma has_exp_rbind (A B : Type) (p : rprog R (res A)) (g : A -> rprog R (res B)) f h v :
  has_exp (on_ok h) p v ->
  always (fun x => if x is Ok a then has_exp (on_ok f) (g a) (h a) else True) p ->
  has_exp (on_ok f) (rpbind p g) v.
Proof.
move=> H al; apply: has_exp_bind H _; apply: always_impl al => [[a|e]] //= _.
by constructor.
Qed.

Lemma always_rbind (A B : Type) (P : res B -> Prop) (p : rprog R (res A)) (g : A -> rprog R (res B)) :
  always (fun x => match x with Ok a => always P (g a) | Err e => P (Err e) end) p ->
  always P (rpbind p g).
Proof. by move=> h; apply: always_bind; apply: always_impl h => [[a|e]]. Qed.

(* independent repetitions *)
Lemma iid_exp_ext (T : Type) (S : seq T) (P : T -> R) k g g' : g =1 g' -> iid_exp S P k g = iid_exp S P k g'.
Proof.
elim: k g g' => [|k IH] g g' e //=; apply: eq_bigr => t _; congr (_ * _).
by apply: IH => L; rewrite e.
Qed.

(* a list of k values is obtained with the product of their probabilities *)
Lemma iid_exp_point (T : eqType) (S : seq T) (P : T -> R) (L : seq T) : uniq S -> {subset L <= S} ->
  iid_exp S P (size L) (fun L' => (L' == L)%:R) = \prod_(t <- L) P t.
Proof.
move=> uS; elim: L => [|t L IH] sub /=; first by rewrite big_nil.
rewrite (bigD1_seq t) ?sub ?inE ?eqxx //= big1 ?addr0 => [|x ne].
  rewrite big_cons; congr (_ * _); rewrite -IH; last by move=> x xl; apply: sub; rewrite inE xl orbT.
  by apply: iid_exp_ext => L'; rewrite eqseq_cons eqxx.
rewrite (iid_exp_ext _ _ _ (g' := fun=> 0)); last by move=> L'; rewrite eqseq_cons (negPf ne).
have -> : forall k, iid_exp S P k (fun=> 0) = 0; last by rewrite mulr0.
by elim=> [|k IHk] //=; rewrite big1 // => y _; rewrite IHk mulr0.
Qed.

End Prob.
