(* The loops collecting the probabilities of outcomes. *)
From mathcomp Require Import all_ssreflect all_fingroup all_algebra complex zify.
From Verif Require Import Base SpecStates Combi ModelStates SpecPerm SpecBS SpecProb ProbMath PermMath BsNorm LemStates ModelPerm ModelDist ModelGcc ModelGccB ModelNet ModelBobs ModelLState ModelR SpecGcc SpecR ProofGcc4 ProofBobs4 ProofSel ProofR1 ProofR2.
Set Implicit Arguments.
Unset Strict Implicit.
Unset Printing Implicit Defensive.
Import Order.TTheory GRing.Theory Num.Theory.
Local Open Scope ring_scope.
Local Open Scope py_scope.

Section Dict.
Variables (K : eqType) (V : Type).
Implicit Types (d : seq (K * V)).
Notation keys d := (map fst d).

Lemma dict_set_keys d k v : keys (dict_set d k v) = if k \in keys d then keys d else rcons (keys d) k.
Proof.
elim: d => [|[k' v'] d IH] //=; rewrite inE; case: (eqVneq k k') => [->|ne] //=.
by rewrite IH; case: ifP.
Qed.
Lemma mem_dict_set d k v x : (x \in keys (dict_set d k v)) = (x == k) || (x \in keys d).
Proof.
by rewrite dict_set_keys; case: ifP => h; [case: eqP => // ->; rewrite h|rewrite mem_rcons inE].
Qed.
Lemma uniq_dict_set d k v : uniq (keys d) -> uniq (keys (dict_set d k v)).
Proof. by move=> u; rewrite dict_set_keys; case: ifP => h //; rewrite rcons_uniq h. Qed.
End Dict.

Section Values.
Variables (K V : eqType) (P : K -> V).
Lemma dict_set_all (d : seq (K * V)) k : all (fun x => x.2 == P x.1) d -> all (fun x => x.2 == P x.1) (dict_set d k (P k)).
Proof.
elim: d => [|x d IH] /=; first by rewrite eqxx.
by case/andP => ex al; case: ifP => _ /=; rewrite ?eqxx ?al // ex IH.
Qed.
Lemma dict_values (d : seq (K * V)) : all (fun x => x.2 == P x.1) d -> map snd d = map P (map fst d).
Proof. by elim: d => [|x d IH] //= /andP [/eqP -> /IH ->]. Qed.
End Values.

Section Loops.
Variables (R : rcfType) (S : seq (seq nat)) (P : seq nat -> R) (draw : rprog R (res (seq nat * seq R))).
Hypothesis al : always (fun y => exists2 t, y = Ok (t, [:: P t]) & t \in S) draw.
Hypothesis ex : forall f, has_exp (on_ok (fun y => f y.1)) draw (\sum_(t <- S) P t * f t).
Notation dict := (seq (seq nat * R)).
Notation keys d := (map fst (d : dict)).

(* a loop collecting outcomes *)
Variables (stop : dict -> bool) (next : dict -> seq nat -> dict).
Fixpoint loop (fuel : nat) (d : dict) : rprog R (res dict) :=
  if fuel is fuel'.+1 then
    if stop d then Ret (Ok d) else draw! x := draw in loop fuel' (next d x.1)
  else Ret (Err OutOfFuel).
Fixpoint loop_exp (f : dict -> R) (fuel : nat) (d : dict) : R :=
  if fuel is fuel'.+1 then
    if stop d then f d else \sum_(t <- S) P t * loop_exp f fuel' (next d t)
  else 0.

Lemma loop_law f fuel d : has_exp (on_ok f) (loop fuel d) (loop_exp f fuel d).
Proof using al ex.
elim: fuel d => [|fuel IH] d /=; first exact: (ExpRet (on_ok _) (Err _)).
case: ifP => _; first exact: (ExpRet (on_ok _) (Ok _)).
apply: has_exp_rbind (ex (fun t => loop_exp f fuel (next d t))) _.
by apply: always_impl al => _ [t -> _].
Qed.

(* an invariant *)
Lemma loop_inv (I : dict -> Prop) fuel d : I d -> (forall d t, t \in S -> I d -> I (next d t)) ->
  always (fun y => (exists2 d', y = Ok d' & I d' /\ stop d') \/ y = Err OutOfFuel) (loop fuel d).
Proof using al.
move=> i0 iS; elim: fuel d i0 => [|fuel IH] d i0 /=; first by right.
case: ifP => st; first by left; exists d.
by apply: always_rbind; apply: always_impl al => _ [t -> tS] /=; apply: IH; exact: iS.
Qed.
Lemma loop_never (I : dict -> Prop) fuel d : I d -> (forall d t, t \in S -> I d -> I (next d t)) ->
  (forall d, I d -> ~~ stop d) -> always (fun y => y = Err OutOfFuel) (loop fuel d).
Proof using al.
move=> i0 iS ns; apply: always_impl (loop_inv fuel i0 iS) => _ [[d' -> [i' st]]|->] //.
by have := ns _ i'; rewrite st.
Qed.
(* and one kept with probability 1 *)
Lemma loop_zero (I : dict -> Prop) f fuel d : I d -> (forall d t, t \in S -> P t != 0 -> I d -> I (next d t)) ->
  (forall d, I d -> ~~ stop d) -> loop_exp f fuel d = 0.
Proof.
move=> i0 iS ns; elim: fuel d i0 => [|fuel IH] d i0 //=; rewrite (negbTE (ns _ i0)).
apply: big1_seq => t /andP [_ tS]; case: (eqVneq (P t) 0) => [->|nz]; first by rewrite mul0r.
by rewrite IH ?mulr0 //; exact: iS.
Qed.

(* the loop stops once all wanted outcomes were seen *)
Variable wanted : seq (seq nat).
Hypotheses (P0 : {in S, forall t, 0 <= P t}) (P1 : \sum_(t <- S) P t = 1) (uS : uniq S).
Hypotheses (uw : uniq wanted) (ws : {subset wanted <= S}).
Lemma P_le1 t : t \in S -> P t <= 1.
Proof using P0 P1.
move=> tS; rewrite -P1 (perm_big _ (perm_to_rem tS)) big_cons ler_addl.
by rewrite big_seq; apply: sumr_ge0 => x /mem_rem; exact: P0.
Qed.
Lemma loop_le1 fuel d : loop_exp (fun=> 1) fuel d <= 1.
Proof using P0 P1.
elim: fuel d => [|fuel IH] d /=; first exact: ler01.
case: ifP => _ //; rewrite -[X in _ <= X]P1 big_seq [X in _ <= X]big_seq; apply: ler_sum => t tS.
by rewrite -[X in _ <= X]mulr1; apply: ler_wpmul2l; [exact: P0|exact: IH].
Qed.
Lemma loop_bound (I : dict -> Prop) fuel d : I d -> (forall d t, t \in S -> I d -> I (next d t)) ->
  (forall d, I d -> {subset wanted <= keys d} -> stop d) ->
  (forall d t x, t \in S -> I d -> x \in wanted -> (x \in keys (next d t)) = (x == t) || (x \in keys d)) ->
  1 - loop_exp (fun=> 1) fuel.+1 d <= \sum_(t <- wanted | t \notin keys d) (1 - P t) ^+ fuel.
Proof using P0 P1 uS uw ws.
move=> i0 iS st kn.
have ge0 (Q : pred (seq nat)) n : 0 <= \sum_(t <- wanted | Q t) (1 - P t) ^+ n.
  rewrite big_seq_cond; apply: sumr_ge0 => t /andP [tw _]; apply: exprn_ge0.
  by rewrite subr_ge0; apply: P_le1; exact: ws.
elim: fuel d i0 => [|fuel IH] d i0; rewrite [loop_exp _ _ _]/=; case: ifP => sd; rewrite ?subrr //.
  rewrite big1 ?subr0; last by move=> t _; rewrite mulr0.
  have [/allP h|/allPn [t tw tk]] := boolP (all (mem (keys d)) wanted).
    by rewrite (st _ i0) in sd => // x /h.
  rewrite (perm_big _ (perm_to_rem tw)) big_cons [_ \notin _]tk expr0 ler_addl.
  by apply: sumr_ge0 => x _; rewrite expr0 ler01.
rewrite -/(loop_exp (fun=> 1) fuel.+1) -{1}P1 -sumrB.
have -> : \sum_(t <- wanted | t \notin keys d) (1 - P t) ^+ fuel.+1 =
    \sum_(x <- S) P x * \sum_(t <- wanted | (t \notin keys d) && (t != x)) (1 - P t) ^+ fuel.
  under [RHS]eq_bigr => x _ do rewrite mulr_sumr.
  rewrite (exchange_big_dep (fun t => t \notin keys d)) /=; last by move=> x t _ /andP [].
  rewrite big_seq_cond [RHS]big_seq_cond; apply: eq_bigr => t /andP [tw tk].
  rewrite (eq_bigl (fun x => x != t)); last by move=> x; rewrite tk eq_sym.
  rewrite -mulr_suml exprS; congr (_ * _).
  by rewrite -P1 (bigID (fun x => x == t)) /= -big_filter filter_pred1_uniq ?ws // big_seq1 addrAC subrr add0r.
rewrite big_seq [X in _ <= X]big_seq; apply: ler_sum => x xS.
rewrite -[X in X - _]mulr1 -mulrBr; apply: ler_wpmul2l; first exact: P0.
apply: le_trans (IH _ (iS _ _ xS i0)) _.
rewrite big_seq_cond [X in _ <= X]big_seq_cond le_eqVlt; apply/orP; left; apply/eqP; apply: eq_bigl => t.
by case tw: (t \in wanted) => //=; rewrite kn // negb_or andbC.
Qed.

End Loops.
