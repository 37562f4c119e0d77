(* Programs whose continuation depends only on the step in which a draw lies:
   every function of their results has an expectation. *)
From mathcomp Require Import all_ssreflect all_algebra.
From Verif Require Import Base SpecProb ProbMath.
Set Implicit Arguments.
Unset Strict Implicit.
Unset Printing Implicit Defensive.
Import Order.TTheory GRing.Theory Num.Theory.
Local Open Scope ring_scope.
Local Open Scope py_scope.

Section Tame.
Variable R : realFieldType.

Inductive tame (A : Type) : rprog R A -> Prop :=
  | TameRet a : tame (Ret a)
  | TameUnif k w :
      is_distr w ->
      (forall i u u', (i < size w)%N -> inside_step w i u -> inside_step w i u' -> k u = k u') ->
      (forall i u, (i < size w)%N -> inside_step w i u -> tame (k u)) ->
      tame (Unif k)
  | TameInt n k : (0 < n)%N -> (forall i, (i < n)%N -> tame (k i)) -> tame (Int n k).

(* a point inside a step of positive length *)
Lemma step_point (w : seq R) i : is_distr w -> (i < size w)%N -> w`_i != 0 -> exists u, inside_step w i u.
Proof.
move=> dw il w0; exists (cum w i + w`_i / 2%:R); rewrite inside_stepE cumS.
have p : 0 < w`_i by rewrite lt_def w0 distr_ge0.
have h : 0 < w`_i / 2%:R by rewrite divr_gt0 // ltr0n.
by rewrite ltr_addl h ltr_add2l ltr_pdivr_mulr ?ltr0n // ltr_pmulr // ltr1n.
Qed.
Lemma step_null (w : seq R) i u : w`_i = 0 -> inside_step w i u -> False.
Proof. by move=> e; rewrite inside_stepE cumS e addr0 => /andP [h1 /(lt_trans h1)]; rewrite ltxx. Qed.

(* one value for each step *)
Lemma step_choice (A T : Type) (x0 : T) (k : R -> rprog R A) w (P : rprog R A -> T -> Prop) : is_distr w ->
  (forall i u u', (i < size w)%N -> inside_step w i u -> inside_step w i u' -> k u = k u') ->
  (forall i u, (i < size w)%N -> inside_step w i u -> exists x, P (k u) x) ->
  exists v : nat -> T, forall i u, (i < size w)%N -> inside_step w i u -> P (k u) (v i).
Proof.
move=> dw same ex.
have /fin_all_exists [F hF] : forall i : 'I_(size w), exists x, forall u, inside_step w i u -> P (k u) x.
  move=> i; case: (eqVneq w`_i 0) => [e|nz]; first by exists x0 => u /(step_null e).
  have [u iu] := step_point dw (ltn_ord i) nz; have [x hx] := ex _ _ (ltn_ord i) iu.
  by exists x => u' iu'; rewrite (same _ _ _ (ltn_ord i) iu' iu).
exists (fun i => if insub i is Some j then F j else x0) => i u il iu.
by rewrite insubT; apply: hF.
Qed.

Lemma tame_exp (A : Type) (p : rprog R A) f : tame p -> exists v, has_exp f p v.
Proof.
elim=> {p} [a|k w dw same _ IH|n k n0 _ IH]; first by exists (f a); constructor.
  have [v hv] := step_choice 0 dw same IH; eexists; exact: ExpUnif hv.
have /fin_all_exists [F hF] : forall i : 'I_n, exists x, has_exp f (k i) x by move=> i; exact: IH.
exists ((\sum_(i < n) (if insub (i : nat) is Some j then F j else 0)) / n%:R).
apply: (@ExpInt _ _ _ n k (fun i => if insub i is Some j then F j else 0) n0) => i il.
by rewrite insubT; exact: hF (Ordinal il).
Qed.

Lemma tame_bind (A B : Type) (p : rprog R A) (g : A -> rprog R B) : tame p -> always (fun a => tame (g a)) p ->
  tame (pbind p g).
Proof.
elim=> {p} [a|k w dw same _ IH|n k n0 _ IH] //= al.
  apply: (TameUnif dw) => [i u u' il iu iu'|i u il iu]; first by rewrite (same _ _ _ il iu iu').
  by apply: (IH _ _ il iu); apply: al; exact: inside_step01 iu.
by constructor=> // i il; apply: IH => //; exact: al.
Qed.
Lemma tame_rbind (A B : Type) (p : rprog R (res A)) (g : A -> rprog R (res B)) : tame p ->
  always (fun x => if x is Ok a then tame (g a) else True) p -> tame (rpbind p g).
Proof.
by move=> tp al; apply: tame_bind tp _; apply: always_impl al => -[a|e] // _; exact: TameRet.
Qed.

(* bounding the expectation after a first part from below *)
Lemma tame_ge (A B : Type) (p : rprog R A) (g : A -> rprog R B) h f w : tame p -> has_exp h p w ->
  always (fun a => exists2 v, has_exp f (g a) v & h a <= v) p ->
  exists2 v, has_exp f (pbind p g) v & w <= v.
Proof.
move=> tp; elim: tp w => {p} [a|k ws dw same tk IH|n k n0 tk IH] w /=.
- by move=> hw [v hv le]; exists v => //; rewrite (has_exp_fun hw (ExpRet h a)).
- move=> hw al.
  have [hv hhv] := step_choice 0 dw same (fun i u il iu => tame_exp h (tk i u il iu)).
  have [v hvv] : exists v : nat -> R, forall i u, (i < size ws)%N -> inside_step ws i u ->
      has_exp f (pbind (k u) g) (v i) /\ hv i <= v i.
    have /fin_all_exists [F hF] : forall i : 'I_(size ws), exists x, forall u, inside_step ws i u ->
        has_exp f (pbind (k u) g) x /\ hv i <= x.
      move=> i; case: (eqVneq ws`_i 0) => [e|nz]; first by exists 0 => u /(step_null e).
      have [u iu] := step_point dw (ltn_ord i) nz.
      have [x hx le] := IH _ _ (ltn_ord i) iu _ (hhv _ _ (ltn_ord i) iu) (al _ (inside_step01 dw iu)).
      by exists x => u' iu'; rewrite (same _ _ _ (ltn_ord i) iu' iu).
    exists (fun i => if insub i is Some j then F j else 0) => i u il iu.
    by rewrite insubT; apply: (hF (Ordinal il)).
  eexists; first by apply: (ExpUnif (v := v) dw) => i u il iu; case: (hvv i u il iu).
  rewrite (has_exp_fun hw (ExpUnif dw hhv)); apply: ler_sum => i _.
  case: (eqVneq ws`_i 0) => [->|nz]; first by rewrite !mul0r.
  have [u iu] := step_point dw (ltn_ord i) nz; apply: ler_wpmul2l; first exact: distr_ge0.
  by case: (hvv i u (ltn_ord i) iu).
- move=> hw al.
  have /fin_all_exists [H hH] : forall i : 'I_n, exists x, has_exp h (k i) x by move=> i; exact: tame_exp (tk _ _).
  have /fin_all_exists [F hF] : forall i : 'I_n, exists x, has_exp f (pbind (k i) g) x /\ H i <= x.
    by move=> i; have [x h1 h2] := IH _ (ltn_ord i) _ (hH i) (al _ (ltn_ord i)); exists x.
  pose H' i := if insub i is Some j then H j else 0; pose F' i := if insub i is Some j then F j else 0.
  exists ((\sum_(i < n) F' i) / n%:R).
    by apply: ExpInt => // i il; rewrite /F' insubT; case: (hF (Ordinal il)).
  have e : has_exp h (Int n k) ((\sum_(i < n) H' i) / n%:R).
    by apply: ExpInt => // i il; rewrite /H' insubT; exact: (hH (Ordinal il)).
  rewrite (has_exp_fun hw e) ler_pmul2r ?invr_gt0 ?ltr0n //; apply: ler_sum => i _.
  by rewrite /H' /F' !valK; case: (hF i).
Qed.

Lemma tame_rge (A B : Type) (p : rprog R (res A)) (g : A -> rprog R (res B)) h f w : tame p -> has_exp (on_ok h) p w ->
  always (fun x => if x is Ok a then exists2 v, has_exp (on_ok f) (g a) v & h a <= v else True) p ->
  exists2 v, has_exp (on_ok f) (rpbind p g) v & w <= v.
Proof.
move=> tp hw al; apply: tame_ge tp hw _; apply: always_impl al => -[a|e] //= _.
by exists 0 => //; exact: (ExpRet (on_ok f) (Err e)).
Qed.

End Tame.

(* a loop that stops at the latest when all wanted outcomes were seen *)
Section Loop.
Variable R : realFieldType.
Variables (X : Type) (T : eqType) (S : seq T) (P : T -> R) (step : X -> rprog R (res X)) (stop : X -> bool).
Variables (I : X -> Prop) (smp : X -> T) (seen : X -> T -> bool) (wanted : seq T).

Fixpoint until_seen (n : nat) (x : X) : rprog R (res X) :=
  if n is n'.+1 then if stop x then Ret (Ok x) else draw! y := step x in until_seen n' y
  else Ret (Err OutOfFuel).

Hypotheses (P0 : {in S, forall t, 0 <= P t}) (P1 : \sum_(t <- S) P t = 1) (uS : uniq S).
Hypotheses (uw : uniq wanted) (ws : {subset wanted <= S}).
Hypothesis tame_step : forall x, I x -> tame (step x).
Hypothesis step_always : forall x, I x -> always (fun y => exists x', [/\ y = Ok x', I x', seen x' (smp x')
  & forall t, seen x t -> seen x' t]) (step x).
Hypothesis step_exp : forall x h, I x -> has_exp (on_ok (fun x' => h (smp x'))) (step x) (\sum_(t <- S) P t * h t).
Hypothesis stop_seen : forall x, I x -> {in wanted, forall t, seen x t} -> stop x.

Lemma seen_bound n x : I x ->
  exists2 v, has_exp (on_ok (fun=> 1)) (until_seen n.+1 x) v
    & 1 - \sum_(t <- wanted | ~~ seen x t) (1 - P t) ^+ n <= v.
Proof.
have Ple t : t \in S -> P t <= 1.
  move=> tS; rewrite -P1 (perm_big _ (perm_to_rem tS)) big_cons ler_addl.
  by rewrite big_seq; apply: sumr_ge0 => y /mem_rem; exact: P0.
have ge0 t k : t \in wanted -> 0 <= (1 - P t) ^+ k.
  by move=> tw; apply: exprn_ge0; rewrite subr_ge0; apply: Ple; exact: ws.
elim: n x => [|n IH] x Ix; rewrite [until_seen _ _]/=; case: ifP => st.
- exists 1; first exact: (ExpRet (on_ok (fun=> 1)) (Ok x)).
  by rewrite ler_subl_addr ler_addl; apply: sumr_ge0 => t _; rewrite expr0 ler01.
- exists 0.
    apply: has_exp_eq (has_exp_rbind (h := fun=> 0) (step_exp (fun=> 0) Ix) _) _.
      by apply: always_impl (step_always Ix) => _ [x' [-> _ _ _]]; exact: (ExpRet (on_ok (fun=> 1)) (Err OutOfFuel)).
    by rewrite big1 // => t _; rewrite mulr0.
  have [/allP h|/allPn [t tw tk]] := boolP (all (seen x) wanted).
    by rewrite (stop_seen Ix) in st.
  rewrite subr_le0 (perm_big _ (perm_to_rem tw)) big_cons tk expr0 ler_addl.
  by apply: sumr_ge0 => y _; rewrite expr0 ler01.
- exists 1; first exact: (ExpRet (on_ok (fun=> 1)) (Ok x)).
  by rewrite ler_subl_addr ler_addl big_seq_cond; apply: sumr_ge0 => t /andP [tw _]; exact: ge0.
pose h x' := 1 - \sum_(t <- wanted | ~~ seen x t && (t != x')) (1 - P t) ^+ n.
have [v hv le] : exists2 v, has_exp (on_ok (fun=> 1)) (rpbind (step x) (until_seen n.+1)) v & \sum_(t <- S) P t * h t <= v.
  apply: (tame_rge (tame_step Ix) (step_exp h Ix)).
  apply: always_impl (step_always Ix) => _ [x' [-> Ix' sm mono]].
  have [v hv le] := IH _ Ix'; exists v => //; apply: le_trans le.
  rewrite ler_add2l ler_opp2 big_mkcond [X in _ <= X]big_mkcond /= big_seq [X in _ <= X]big_seq; apply: ler_sum => t tw.
  case: ifP => s1; case: ifP => s2 //; last exact: ge0.
  by move: s2; rewrite (contra (mono t) s1) /=; case: eqP => // e; rewrite e sm in s1.
exists v => //; apply: le_trans le.
rewrite /h; under [X in _ <= X]eq_bigr => y _ do rewrite mulrBr mulr1.
rewrite sumrB P1 ler_add2l ler_opp2.
rewrite le_eqVlt; apply/orP; left; apply/eqP; apply/esym.
under [RHS]eq_bigr => y _ do rewrite mulr_sumr.
rewrite (exchange_big_dep (fun t => ~~ seen x t)) /=; last by move=> y t _ /andP [].
rewrite big_seq_cond [RHS]big_seq_cond; apply: eq_bigr => t /andP [tw tk].
rewrite (eq_bigl (fun y => y != t)); last by move=> y; rewrite tk eq_sym.
rewrite -mulr_suml exprS; congr (_ * _).
by rewrite -P1 (bigID (fun y => y == t)) /= -big_filter filter_pred1_uniq ?ws // big_seq1 addrAC subrr add0r.
Qed.

End Loop.

Section Linear.
Variable R : realFieldType.

Lemma has_exp_lin (A : Type) (p : rprog R A) f g c v w : tame p -> has_exp f p v -> has_exp g p w ->
  has_exp (fun a => c * f a + g a) p (c * v + w).
Proof.
move=> tp; elim: tp v w => {p} [a|k ws dw same tk IH|n k n0 tk IH] v w hv hw.
- by rewrite (has_exp_fun hv (ExpRet f a)) (has_exp_fun hw (ExpRet g a)); apply: has_exp_eq (ExpRet _ a) _.
- have [fv hfv] := step_choice 0 dw same (fun i u il iu => tame_exp f (tk i u il iu)).
  have [gv hgv] := step_choice 0 dw same (fun i u il iu => tame_exp g (tk i u il iu)).
  rewrite (has_exp_fun hv (ExpUnif dw hfv)) (has_exp_fun hw (ExpUnif dw hgv)).
  apply: has_exp_eq (ExpUnif (v := fun i => c * fv i + gv i) dw _) _.
    by move=> i u il iu; exact: (IH i u il iu _ _ (hfv _ _ il iu) (hgv _ _ il iu)).
  by rewrite mulr_sumr -big_split; apply: eq_bigr => i _; rewrite mulrDr mulrCA.
- have /fin_all_exists [Fv hF] : forall i : 'I_n, exists x, has_exp f (k i) x by move=> i; exact: tame_exp (tk _ _).
  have /fin_all_exists [Gv hG] : forall i : 'I_n, exists x, has_exp g (k i) x by move=> i; exact: tame_exp (tk _ _).
  pose F' i := if insub i is Some j then Fv j else 0; pose G' i := if insub i is Some j then Gv j else 0.
  have h1 : has_exp f (Int n k) ((\sum_(i < n) F' i) / n%:R).
    by apply: ExpInt => // i il; rewrite /F' insubT; exact: (hF (Ordinal il)).
  have h2 : has_exp g (Int n k) ((\sum_(i < n) G' i) / n%:R).
    by apply: ExpInt => // i il; rewrite /G' insubT; exact: (hG (Ordinal il)).
  rewrite (has_exp_fun hv h1) (has_exp_fun hw h2).
  apply: has_exp_eq (ExpInt (v := fun i => c * F' i + G' i) n0 _) _.
    by move=> i il; rewrite /F' /G' !insubT; exact: (IH i il _ _ (hF (Ordinal il)) (hG (Ordinal il))).
  by rewrite big_split /= -mulr_sumr mulrDl mulrA.
Qed.

Lemma has_exp_ok_lin (A : Type) (p : rprog R (res A)) f g c v w : tame p -> has_exp (on_ok f) p v -> has_exp (on_ok g) p w ->
  has_exp (on_ok (fun a => c * f a + g a)) p (c * v + w).
Proof. by move=> tp h1 h2; apply: has_exp_ext (has_exp_lin c tp h1 h2) => -[a|e] //=; rewrite mulr0 addr0. Qed.
End Linear.

(* the same bound when every wanted outcome is seen in one round with a known probability at least *)
Section Loop2.
Variable R : realFieldType.
Variables (X : Type) (T : eqType) (Q : T -> R) (step : X -> rprog R (res X)) (stop : X -> bool).
Variables (I : X -> Prop) (seen : X -> T -> bool) (wanted : seq T).
Hypothesis tame_step : forall x, I x -> tame (step x).
Hypothesis step_always : forall x, I x -> always (fun y => exists x', [/\ y = Ok x', I x'
  & forall t, seen x t -> seen x' t]) (step x).
Hypothesis step_seen : forall x t, I x -> t \in wanted ->
  exists2 v, has_exp (on_ok (fun x' => (seen x' t)%:R)) (step x) v & Q t <= v.
Hypothesis stop_seen : forall x, I x -> {in wanted, forall t, seen x t} -> stop x.

Lemma seen_bound2 n x : I x ->
  exists2 v, has_exp (on_ok (fun=> 1)) (until_seen step stop n.+1 x) v
    & 1 - \sum_(t <- wanted | ~~ seen x t) (1 - Q t) ^+ n <= v.
Proof.
have step1 y : I y -> has_exp (on_ok (fun=> 1)) (step y) 1.
  move=> Iy; have [v hv] := tame_exp (fun=> 0) (tame_step Iy).
  by apply: has_exp_always (has_exp_const 1 hv) _; apply: always_impl (step_always Iy) => _ [x' [->]].
have Qle t y : I y -> t \in wanted -> Q t <= 1.
  move=> Iy tw; have [v hv le] := step_seen Iy tw; apply: le_trans le _.
  apply: has_exp_le hv (step1 y Iy) _; apply: always_impl (step_always Iy) => _ [x' [-> _ _]] /=.
  by case: seen; rewrite ?lexx ?ler01.
have ge0 t k y : I y -> t \in wanted -> 0 <= (1 - Q t) ^+ k.
  by move=> Iy tw; apply: exprn_ge0; rewrite subr_ge0; exact: Qle Iy tw.
elim: n x => [|n IH] x Ix; rewrite [until_seen _ _ _ _]/=; case: ifP => st.
- exists 1; first exact: (ExpRet (on_ok (fun=> 1)) (Ok x)).
  by rewrite ler_subl_addr ler_addl; apply: sumr_ge0 => t _; rewrite expr0 ler01.
- exists 0.
    have [v hv] := tame_exp (fun=> 0) (tame_step Ix).
    apply: (has_exp_rbind (h := fun=> 0)).
      by apply: has_exp_ext (has_exp_const 0 hv) => -[].
    by apply: always_impl (step_always Ix) => _ [x' [-> _ _]]; exact: (ExpRet (on_ok (fun=> 1)) (Err OutOfFuel)).
  have [/allP h|/allPn [t tw tk]] := boolP (all (seen x) wanted); first by rewrite (stop_seen Ix) in st.
  rewrite subr_le0 (perm_big _ (perm_to_rem tw)) big_cons tk expr0 ler_addl.
  by apply: sumr_ge0 => y _; rewrite expr0 ler01.
- exists 1; first exact: (ExpRet (on_ok (fun=> 1)) (Ok x)).
  by rewrite ler_subl_addr ler_addl big_seq_cond; apply: sumr_ge0 => t /andP [tw _]; exact: ge0 Ix tw.
pose h (l : seq T) x' : R := 1 - \sum_(t <- l | ~~ seen x' t) (1 - Q t) ^+ n.
have hE l : {subset l <= wanted} -> exists2 w, has_exp (on_ok (h l)) (step x) w
    & 1 - \sum_(t <- l | ~~ seen x t) (1 - Q t) ^+ n.+1 <= w.
  elim: l => [|t l IHl] sl.
    exists 1; last by rewrite big_nil subr0.
    by apply: has_exp_ext (step1 x Ix) => -[a|e] //=; rewrite /h big_nil subr0.
  have tw : t \in wanted by apply: sl; rewrite mem_head.
  have [w hw le] := IHl (fun t' h' => sl t' (mem_behead (s := t :: l) h')).
  have [v hv lv] := step_seen Ix tw.
  have hv' := has_exp_ok_lin (- (1 - Q t) ^+ n) (tame_step Ix)
    (has_exp_ok_lin (-1) (tame_step Ix) hv (step1 x Ix)) hw.
  eexists; first by apply: has_exp_ext hv' => -[a|e] //=; rewrite /h big_cons; case: seen; rewrite /= ?mulr1 ?mulr0 ?addNr ?add0r ?mulr0 ?mulr1 ?add0r // opprD addrCA.
  rewrite big_cons; case: ifP => sx; last first.
    apply: le_trans le _; rewrite ler_addr.
    suff -> : v = 1 by rewrite mulr1 addNr mulr0.
    apply: (has_exp_fun hv); apply: has_exp_always (step1 x Ix) _.
    apply: always_impl (step_always Ix) => _ [x' [-> _ mono]] /=.
    by rewrite mono //; apply: negbFE.
  rewrite opprD addrCA; apply: ler_add le; rewrite mulNr ler_opp2 mulN1r [- v + 1]addrC exprSr.
  by apply: ler_wpmul2l; [exact: ge0 Ix tw|rewrite ler_add2l ler_opp2].
have [w hw le] := hE wanted (fun _ => id).
have [v hv le'] : exists2 v, has_exp (on_ok (fun=> 1)) (rpbind (step x) (until_seen step stop n.+1)) v & w <= v.
  apply: (tame_rge (tame_step Ix) hw).
  by apply: always_impl (step_always Ix) => _ [x' [-> Ix' _]]; exact: IH.
by exists v => //; apply: le_trans le'.
Qed.
End Loop2.
