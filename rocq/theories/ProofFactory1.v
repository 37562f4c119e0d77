(* The heap of the factory: lookups and updates. *)
From mathcomp Require Import all_ssreflect all_algebra complex.
From Verif Require Import Base ModelStates ModelPerm ModelDist SpecProb ProbMath ModelGcc ModelGccB SpecGcc ProofGcc4 ModelNet ModelBobs ModelLState ModelFixed ModelR ModelFactory SpecFactory.
Set Implicit Arguments.
Unset Strict Implicit.
Unset Printing Implicit Defensive.
Import GRing.Theory Num.Theory.
Local Open Scope ring_scope.
Local Open Scope py_scope.

Section Lookup.
Variable T : Type.
Implicit Types l : seq T.

Definition onth l (i : nat) : option T := ohead (drop i l).

Lemma onth_nil i : onth [::] i = None. Proof. by case: i. Qed.
Lemma onth_cons x l i : onth (x :: l) i.+1 = onth l i. Proof. by []. Qed.
Lemma onth_lt l i : (i < size l)%N = isSome (onth l i).
Proof. by elim: l i => [|x l IH] [|i] //=; rewrite ltnS IH. Qed.

Lemma py_getE l i : py_get l (Posz i) = if onth l i is Some x then Ok x else Err IndexError.
Proof.
by rewrite /py_get /= onth_lt /onth; case e: (drop i l) => [|x l'] //=; rewrite e.
Qed.

Definition upd l i (v : T) : seq T := if (i < size l)%N then take i l ++ v :: drop i.+1 l else l.

Lemma py_setE l i v : py_set l (Posz i) v = if (i < size l)%N then Ok (upd l i v) else Err IndexError.
Proof.
rewrite /py_set /upd /=; case: ltnP => //= h.
by rewrite (drop_nth v h).
Qed.

Lemma size_upd l i v : size (upd l i v) = size l.
Proof.
rewrite /upd; case: ltnP => // h; rewrite size_cat /= size_take size_drop h.
by rewrite -subSn // subSS subnKC // ltnW.
Qed.

Lemma onth_upd l i v j : onth (upd l i v) j = if (j == i) && (i < size l)%N then Some v else onth l j.
Proof.
rewrite /upd; case: ltnP => h; last by rewrite andbF.
rewrite andbT; elim: l i j h => [|x l IH] [|i] [|j] //= h.
  by rewrite drop0.
by rewrite /= onth_cons IH.
Qed.

Lemma onth_rcons l x j : onth (rcons l x) j = if (j == size l)%N then Some x else onth l j.
Proof. by elim: l j => [|y l IH] [|j] //=; rewrite onth_cons IH. Qed.

Lemma onth_oversize l j : (size l <= j)%N -> onth l j = None.
Proof. by move=> h; rewrite /onth drop_oversize. Qed.

Lemma onth_ext l l' : (forall i, onth l i = onth l' i) -> l = l'.
Proof.
elim: l l' => [|x l IH] [|y l'] // h; first by have := h 0%N.
  by have := h 0%N.
have := h 0%N; rewrite /= => -[->]; congr cons; apply: IH => i; exact: (h i.+1).
Qed.

Lemma upd_id l i v : onth l i = Some v -> upd l i v = l.
Proof. by move=> h; apply: onth_ext => j; rewrite onth_upd; case: eqP => //= ->; rewrite h; case: ifP. Qed.
End Lookup.

Lemma rmapM_onth (A B : Type) (f : A -> res B) l l' :
  rmapM f l = Ok l' <-> size l = size l' /\ forall i x y, onth l i = Some x -> onth l' i = Some y -> f x = Ok y.
Proof.
elim: l l' => [|x l IH] l' /=.
  split=> [[<-]|[]]; first by split=> // i x y; rewrite onth_nil.
  by case: l'.
split.
  case fx: (f x) => [y|] //=; case e: (rmapM f l) => [r|] //= [<-] /=.
  have /IH [sz h] := e; split; first by rewrite sz.
  by move=> [|i] a b //=; [move=> [<-] [<-]|rewrite !onth_cons; exact: h].
case: l' => [|y r] [] // [sz] h; rewrite (h 0%N x y) //=.
have /IH -> // : size l = size r /\ forall i x y, onth l i = Some x -> onth r i = Some y -> f x = Ok y.
by split=> // i a b; exact: (h i.+1).
Qed.

Section Sep.
Variable R : rcfType.
Notation CF := (ComplexField.complex_numFieldType R).
Notation calc := (any_calc CF).

(* 0: no calculator, 1: one of its own, 2: the calculator of the factory *)
Definition kind (x : strategy R) : nat :=
  match x with SFixed _ | SUniform _ | SR _ => 0 | SLState _ => 2 | _ => 1 end.

Implicit Types (x : strategy R) (a : calc).

Lemma calc_of_kind x : isSome (calc_of x) = (kind x != 0%N).
Proof. by case: x. Qed.
Lemma kind_with a x : kind (with_calc a x) = kind x. Proof. by case: x. Qed.
Lemma calc_with a x : (kind x != 0)%N -> calc_of (with_calc a x) = Some a. Proof. by case: x. Qed.
Lemma with_calc_of x a : calc_of x = Some a -> with_calc a x = x.
Proof. by case: x => //= [[? ? ? ? ? ? ? ? ?]|[? ? ? ? ? ? ?]|[[? ? ? ? ? ? ? ? ?] ? ? ? ? ? ?]|[? ? ? ? ? ? ? ?]|[? ? ? ? ? ? ? ? ?]] [->]. Qed.
Lemma with_with a (b : calc) x : with_calc a (with_calc b x) = with_calc a x.
Proof. by case: x. Qed.

Variables (svd : seq (seq CF) -> res (seq (seq CF) * seq R * seq (seq CF))) (cis : R -> CF).
Variables (rand : nat -> rprog R (res (seq R))) (shuf : seq nat -> rprog R (res (seq nat))).
Variables (H : eqType) (hash : seq nat -> H) (gray : nat -> seq nat).
Variables (cpu fuel : nat).
Variable boson_sampler : rmatrix R -> nat -> bool -> rprog R (res (seq int * seq R * seq R)).
Variables (rpy2 : bool) (installed : r_package -> bool).

Lemma always_any (A B : Type) (Q : res B -> Prop) (p : rprog R (res A)) (g : A -> rprog R (res B)) :
  (forall e, Q (Err e)) -> (forall a : A, always Q (g a)) -> always Q (rpbind p g).
Proof. by move=> h k; apply: always_rbind; apply: always_true => -[]. Qed.

Lemma lstate_calc s c (x : lstate R) :
  always (if_ok (fun y => ls_calc y.2 = ls_calc x)) (lstate_simulate hash cis rand shuf fuel s c x).
Proof.
rewrite /lstate_simulate; case: ifP => // _.
case e: (lstate_start hash s x) => [x'|] //=; rewrite {1}/rpbind /=.
have <- : ls_calc x' = ls_calc x.
  move: e; rewrite /lstate_start; case: (exact_parts _ _) => //= ?; case: (exact_weights _ _) => //= ?.
  by case: (prepare_approx _ _) => //= ? [<-].
by apply: always_any => // l; apply: always_any.
Qed.

Lemma simulate_kind s k z :
  always (if_ok (fun y => kind y.2 = kind z /\ (kind z = 2%N -> calc_of y.2 = calc_of z)))
    (strategy_simulate svd cis rand shuf hash gray fuel boson_sampler s k z).
Proof.
case: z => [x|x|x|x|x|x|x|x] /=; try by apply: always_any.
apply: always_rbind; apply: always_impl (lstate_calc s (Posz k) x) => -[y|e] //= e.
by split=> // _; rewrite e.
Qed.

Lemma set_matrix_kind M z y : strategy_set_matrix svd M z = Ok y -> kind z = 1%N /\ kind y = 1%N.
Proof. by case: z => //= b; [move=> [<-]|case: (lossy_net_set_new_matrix _ _ _) => //= ? [<-]|move=> [<-]]. Qed.

(* which references belong to a holder alone *)
Definition own (x : option nat * strategy R) : option nat := if kind x.2 == 1%N then x.1 else None.

Record sep (w : world R) : Prop := Sep {
  sep_ref : forall i (x : option nat * strategy R), onth (w_strategies w) i = Some x -> isSome x.1 = (kind x.2 != 0%N);
  sep_vars : uniq (w_vars w);
  sep_own : forall i j (x y : option nat * strategy R) r, onth (w_strategies w) i = Some x -> onth (w_strategies w) j = Some y ->
              own x = Some r -> y.1 = Some r -> i = j;
  sep_var : forall i (x : option nat * strategy R) r, onth (w_strategies w) i = Some x -> x.1 = Some r -> r \notin w_vars w;
  sep_calc : forall i (x : option nat * strategy R), onth (w_strategies w) i = Some x -> own x <> Some (w_calc w);
  sep_calc_var : w_calc w \notin w_vars w;
  sep_lt : forall i (x : option nat * strategy R) r, onth (w_strategies w) i = Some x -> x.1 = Some r -> (r < size (w_heap w))%N;
  sep_lt_var : forall r, r \in w_vars w -> (r < size (w_heap w))%N;
  sep_lt_calc : (w_calc w < size (w_heap w))%N
}.

Definition good (w : world R) (v : values R) : Prop := sep w /\ sees w v.

End Sep.
