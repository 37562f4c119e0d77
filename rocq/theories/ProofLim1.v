(* Limits of expectations behave as expectations. *)
From mathcomp Require Import all_ssreflect all_algebra complex.
From mathcomp Require Import ring zify.
From Verif Require Import Base SpecProb ProbMath SpecStates Combi SpecPerm SpecBS SpecNet SpecLim ModelGcc SpecGcc ProofGccB2.
Set Implicit Arguments.
Unset Strict Implicit.
Unset Printing Implicit Defensive.
Import Order.TTheory GRing.Theory Num.Theory.
Local Open Scope ring_scope.
Local Open Scope py_scope.

Section Lim.
Variable R : realFieldType.

Lemma near_weak (A : Type) (f : A -> R) p v e v' e' : near_exp f p v e -> `|v - v'| + e <= e' -> near_exp f p v' e'.
Proof.
case=> {p v e} [a v e h|k w vs es v e dw H h|n k vs es v e n0 H h] le.
- by constructor; apply: le_trans le; rewrite -[f a](subrK v) -addrA; apply: le_trans (ler_norm_add _ _) _; rewrite addrC ler_add2l.
- apply: (NearUnif dw H); apply: le_trans le; rewrite -[X in `|X - _|](subrK v) -[_ + v - _]addrA.
  apply: le_trans (ler_add (ler_norm_add _ _) (lexx _)) _; rewrite addrAC addrC ler_add2l //.
apply: (NearInt n0 H); apply: le_trans le; rewrite -[X in `|X - _|](subrK v) -[_ + v - _]addrA.
apply: le_trans (ler_add (ler_norm_add _ _) (lexx _)) _; rewrite addrAC addrC ler_add2l //.
Qed.

Lemma near_of_exp (A : Type) (f : A -> R) p v : has_exp f p v -> near_exp f p v 0.
Proof.
elim=> {p v} [a|k w v dw _ IH|n k v n0 _ IH].
- by constructor; rewrite subrr normr0.
- apply: (NearUnif (e := fun=> 0) dw IH); rewrite subrr normr0 add0r big1 // => i _; exact: mulr0.
apply: (NearInt (e := fun=> 0) n0 IH); by rewrite subrr normr0 add0r big1 // mul0r.
Qed.

Lemma lim_of_exp (A : Type) (f : A -> R) p v : has_exp f p v -> lim_exp f p v.
Proof. by move=> h e e0; apply: near_weak (near_of_exp h) _; rewrite subrr normr0 add0r ltW. Qed.

Lemma near_exp_fun (A : Type) (f : A -> R) p v e v' e' : near_exp f p v e -> near_exp f p v' e' -> `|v - v'| <= e + e'.
Proof.
have tri (x y z y' a b : R) : `|x - y| + a <= b -> `|x - z| <= y' -> `|z - y| <= y' + (b - a).
  move=> h1 h2; rewrite -[z](subrK x) -addrA; apply: le_trans (ler_norm_add _ _) _.
  by rewrite distrC ler_add // ler_subr_addr.
move=> H; move: H v' e'.
elim=> {p v e} [a v e h|k w vs es v e dw _ IH h|n k vs es v e n0 _ IH h] v' e' H';
  inversion H' as [a1 v1 e1 h1|k1 w' vs' es' v1 e1 dw' E h1|n1 k1 vs' es' v1 e1 n1p E h1]; subst=> //.
- rewrite -[v](subrK (f a)) -addrA; apply: le_trans (ler_norm_add _ _) _; by rewrite distrC ler_add.
- pose o i j := overlap (cum w i) (cum w i.+1) (cum w' j) (cum w' j.+1).
  have L (g : nat -> R) : \sum_(i < size w) w`_i * g i = \sum_(i < size w) \sum_(j < size w') o i j * g i.
    apply: eq_bigr => i _; rewrite -mulr_suml /o overlap_sum ?cum_ge0 ?cum_le1 ?cum_le //.
    by rewrite cumS addrC addKr.
  have L' (g : nat -> R) : \sum_(i < size w') w'`_i * g i = \sum_(i < size w) \sum_(j < size w') o i j * g j.
    rewrite exchange_big; apply: eq_bigr => j _; rewrite -mulr_suml.
    under eq_bigr do rewrite /o overlap_sym ?cum_le //.
    by rewrite overlap_sum ?cum_ge0 ?cum_le1 ?cum_le // cumS addrC addKr.
  have o0 i j : 0 <= o i j.
    rewrite /o; case: (overlap_cases (cum_le dw (leqnSn i)) (cum_le dw' (leqnSn j))) => [[_ ->]|[_ ->]|[h3 h4 ->]] //.
    by rewrite subr_ge0 le_minr !le_maxl h3 h4 !cum_le.
  have D : `|\sum_(i < size w) w`_i * vs i - \sum_(i < size w') w'`_i * vs' i| <=
      \sum_(i < size w) w`_i * es i + \sum_(i < size w') w'`_i * es' i.
    rewrite !L !L' -sumrB -big_split; apply: le_trans (ler_norm_sum _ _ _) _; apply: ler_sum => i _.
    rewrite -sumrB -big_split; apply: le_trans (ler_norm_sum _ _ _) _; apply: ler_sum => j _ /=.
    rewrite -mulrBr -mulrDr normrM (ger0_norm (o0 i j)).
    have [->|ne] := eqVneq (o i j) 0; first by rewrite !mul0r.
    have [u /andP[h3 h4]] := overlap_pos (cum_le dw (leqnSn i)) (cum_le dw' (leqnSn j)) ne.
    apply: ler_wpmul2l => //; apply: (IH i u) => //; exact: E.
  move: D h h1; set X := \sum_(i < size w) _; set X' := \sum_(i < size w') _; set Y := \sum_(i < size w) _; set Y' := \sum_(i < size w') _.
  move=> D h h1; have -> : v - v' = (v - X) + (X - X') + (X' - v') by ring.
  apply: le_trans (ler_norm_add _ _) _; apply: le_trans (ler_add (ler_norm_add _ _) (lexx _)) _.
  rewrite [`|v - X|]distrC.
  move: D h h1; move: `|X - v| `|X - X'| `|X' - v'| => a b c D h h1.
  apply: le_trans (ler_add (ler_add (lexx a) D) (lexx c)) _.
  by have -> : a + (Y + Y') + c = (a + Y) + (c + Y'); [ring|exact: ler_add].
have D : `|(\sum_(i < n) vs i) / n%:R - (\sum_(i < n) vs' i) / n%:R| <= (\sum_(i < n) es i) / n%:R + (\sum_(i < n) es' i) / n%:R.
  rewrite -mulrBl -mulrDl normrM [`|n%:R^-1|]ger0_norm ?invr_ge0 ?ler0n // ler_wpmul2r ?invr_ge0 ?ler0n //.
  rewrite -sumrB -big_split; apply: le_trans (ler_norm_sum _ _ _) _; apply: ler_sum => i _ /=.
  apply: IH => //; exact: E.
move: D h h1; set X := (\sum_(i < n) vs i) / _; set X' := (\sum_(i < n) vs' i) / _; set Y := (\sum_(i < n) es i) / _; set Y' := (\sum_(i < n) es' i) / _.
move=> D h h1; have -> : v - v' = (v - X) + (X - X') + (X' - v') by ring.
apply: le_trans (ler_norm_add _ _) _; apply: le_trans (ler_add (ler_norm_add _ _) (lexx _)) _.
rewrite [`|v - X|]distrC.
move: D h h1; move: `|X - v| `|X - X'| `|X' - v'| => a b c D h h1.
apply: le_trans (ler_add (ler_add (lexx a) D) (lexx c)) _.
by have -> : a + (Y + Y') + c = (a + Y) + (c + Y'); [ring|exact: ler_add].
Qed.

Lemma lim_exp_fun (A : Type) (f : A -> R) p v v' : lim_exp f p v -> lim_exp f p v' -> v = v'.
Proof.
move=> h h'; apply/eqP; rewrite -subr_eq0 -normr_eq0; apply/negPn/negP => ne.
have e0 : 0 < `|v - v'| / 4%:R by rewrite divr_gt0 ?ltr0n // lt_def ne normr_ge0.
have := near_exp_fun (h _ e0) (h' _ e0).
have -> : `|v - v'| / 4%:R + `|v - v'| / 4%:R = `|v - v'| / 2%:R by field.
rewrite ler_pdivl_mulr ?ltr0n // mulr_natr mulr2n -subr_ge0 opprD addrA subrr add0r oppr_ge0.
by move=> le; move: ne; rewrite -normr_le0 normr_id le.
Qed.

Lemma near_bind (A B : Type) (p : rprog R A) (g : A -> rprog R B) f h v e d : 0 <= d ->
  near_exp h p v e -> always (fun a => near_exp f (g a) (h a) d) p -> near_exp f (pbind p g) v (e + d).
Proof.
move=> d0; elim=> {p v e} [a v e le|k w vs es v e dw _ IH le|n k vs es v e n0 _ IH le] /= al.
- by apply: near_weak al _; rewrite ler_add2r.
- apply: (NearUnif (v := vs) (e := fun i => es i + d) dw) => [i u il st|].
    by apply: (IH i u) => //; apply: al; exact: inside_step01 st.
  under [X in _ + X <= _]eq_bigr do rewrite mulrDr.
  by rewrite big_split /= -[X in _ + (_ + X)]mulr_suml -/(cum w _) cum_size dw.2 mul1r addrA ler_add2r.
apply: (NearInt (v := vs) (e := fun i => es i + d) n0) => [i il|]; first by apply: IH => //; apply: al.
rewrite big_split /= sumr_const card_ord -[d *+ n]mulr_natr mulrDl mulfK ?pnatr_eq0 -?lt0n //.
by rewrite addrA ler_add2r.
Qed.

Lemma lim_bind (A B : Type) (p : rprog R A) (g : A -> rprog R B) f h v :
  lim_exp h p v -> always (fun a => lim_exp f (g a) (h a)) p -> lim_exp f (pbind p g) v.
Proof.
move=> H al e e0; have e2 : 0 < e / 2%:R by rewrite divr_gt0 ?ltr0n.
have -> : e = e / 2%:R + e / 2%:R by field.
apply: near_bind (ltW e2) (H _ e2) _; apply: always_impl al => a; exact.
Qed.

Lemma lim_rbind (A B : Type) (p : rprog R (res A)) (g : A -> rprog R (res B)) f h v :
  lim_exp (on_ok h) p v ->
  always (fun x => if x is Ok a then lim_exp (on_ok f) (g a) (h a) else True) p ->
  lim_exp (on_ok f) (rpbind p g) v.
Proof.
move=> H al; apply: lim_bind H _; apply: always_impl al => [[a|e]] //= _.
by apply: lim_of_exp; constructor.
Qed.

Lemma lim_eq (A : Type) (f : A -> R) p v v' : lim_exp f p v -> v = v' -> lim_exp f p v'.
Proof. by move=> h <-. Qed.

Lemma near_always (A : Type) (f g : A -> R) p v e : near_exp f p v e -> always (fun a => f a = g a) p -> near_exp g p v e.
Proof.
elim=> {p v e} [a v e le|k w vs es v e dw _ IH le|n k vs es v e n0 _ IH le] /= al.
- by rewrite al in le; constructor.
- by apply: (NearUnif dw _ le) => i u il st; apply: (IH _ u) => //; apply: al; exact: inside_step01 st.
by apply: (NearInt n0 _ le) => i il; apply: IH => //; apply: al.
Qed.

Lemma lim_always (A : Type) (f g : A -> R) p v : lim_exp f p v -> always (fun a => f a = g a) p -> lim_exp g p v.
Proof. by move=> h al e e0; apply: near_always (h e e0) al. Qed.

(* a draw followed by programs whose expectations are step functions of it *)
Lemma lim_unif (A : Type) (f : A -> R) k w (v : nat -> R) : is_distr w ->
  (forall i u, (i < size w)%N -> inside_step w i u -> lim_exp f (k u) (v i)) ->
  lim_exp f (Unif k) (\sum_(i < size w) w`_i * v i).
Proof.
move=> dw H e e0; apply: (NearUnif (v := v) (e := fun=> e) dw) => [i u il st|]; first exact: H st e e0.
by rewrite subrr normr0 add0r -mulr_suml -/(cum w _) cum_size dw.2 mul1r.
Qed.

Lemma lim_int (A : Type) (f : A -> R) n k (v : nat -> R) : (0 < n)%N ->
  (forall i, (i < n)%N -> lim_exp f (k i) (v i)) ->
  lim_exp f (Int n k) ((\sum_(i < n) v i) / n%:R).
Proof.
move=> n0 H e e0; apply: (NearInt (v := v) (e := fun=> e) n0) => [i il|]; first exact: H.
by rewrite subrr normr0 add0r sumr_const card_ord -[e *+ n]mulr_natr mulfK // pnatr_eq0 -lt0n.
Qed.
End Lim.

Section SampleLoop.
Variable R : rcfType.
Notation prog A := (rprog R (res A)).
Variables (G X : Type) (fill : G -> prog G) (out : G -> res X) (inv : G -> Prop).

Lemma sample_loop_lim (S : seq X) (Pr : X -> R) :
  (forall g, inv g -> always (fun x => exists g' y, [/\ x = Ok g', inv g' & out g' = Ok y]) (fill g)) ->
  (forall f g, inv g -> lim_exp (on_ok (fun g' => on_ok f (out g'))) (fill g) (\sum_(t <- S) Pr t * f t)) ->
  forall k f g, inv g ->
  lim_exp (on_ok (fun x => f x.1)) (sample_loop fill out k g) (iid_exp S Pr k f).
Proof.
move=> HA HE; elim=> [|k IH] f g I /=; first by apply: lim_of_exp; constructor.
apply: lim_rbind (HE (fun y => iid_exp S Pr k (fun L => f (y :: L))) g I) _.
apply: always_impl (HA g I) => _ [g' [y [-> I' e]]]; rewrite e /rpbind /=.
have h := IH (fun L => f (y :: L)) g' I'.
apply: lim_bind h _; apply: always_true => [[a|e']] /=; by apply: lim_of_exp; constructor.
Qed.

End SampleLoop.

Lemma lim_iid_of_exp (R : rcfType) (G : Type) (p : rprog R (res (seq (seq nat) * G))) k S0 (S : pred (seq nat)) P :
  uniq S0 -> S0 =i S -> (forall f, lim_exp (on_ok (fun x => f x.1)) p (iid_exp S0 P k f)) ->
  lim_iid_samples p k S P.
Proof.
move=> uS eS H L; apply: lim_eq (H (fun x => (x == L)%:R)) _; rewrite iid_prob //; congr (if _ && _ then _ else _).
by apply: eq_all => t; rewrite /= eS.
Qed.
