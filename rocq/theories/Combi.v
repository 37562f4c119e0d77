(* Enumerations used in proofs: compositions of n into m parts and
   sub-states of a state. *)
From mathcomp Require Import all_ssreflect.
From Verif Require Import SpecStates.
Set Implicit Arguments.
Unset Strict Implicit.
Unset Printing Implicit Defensive.

Fixpoint comps (m n : nat) : seq (seq nat) :=
  if m is m'.+1 then
    flatten [seq [seq (n - i) :: s | s <- comps m' i] | i <- iota 0 n.+1]
  else if n == 0 then [:: [::]] else [::].

Lemma compsS m n : comps m.+1 n =
  flatten [seq [seq (n - i) :: s | s <- comps m i] | i <- iota 0 n.+1].
Proof. by []. Qed.
Lemma comps0 n : comps 0 n = if n == 0 then [:: [::]] else [::].
Proof. by []. Qed.
Arguments comps : simpl never.

Lemma mem_comps m n s : (s \in comps m n) = is_state m n s.
Proof.
elim: m n s => [|m IH] n s.
  rewrite comps0 /is_state size_eq0; case: eqP => [->|/eqP/negPf n0].
    by rewrite inE; case: s.
  by rewrite in_nil; case: s => [|//]; rewrite eqxx eq_sym n0.
rewrite compsS; apply/flatten_mapP/idP => [[i]|].
  rewrite mem_iota /= add0n ltnS => lin /mapP[t]; rewrite IH => /andP[/eqP st /eqP sm] ->.
  by rewrite /is_state /= st sm eqxx subnK ?eqxx.
case: s => [|x s] /andP[] // /eqP[st] /eqP sm.
have {}sm : x + sumn s = n by [].
exists (sumn s); first by rewrite mem_iota leq0n add0n ltnS -sm /= leq_addl.
apply/mapP; exists s; first by rewrite IH /is_state st !eqxx.
by rewrite -sm addnK.
Qed.

Lemma lexgt_irr s : lexgt s s = false.
Proof. by elim: s => //= x s ->; rewrite ltnn eqxx. Qed.

Lemma lexgt_trans : transitive lexgt.
Proof.
move=> b a c; elim: a b c => [|x a IH] [|y b] [|z c] //=.
case/orP=> [yx|/andP[/eqP -> ab]]; case/orP=> [zy|/andP[/eqP <- bc]].
- by rewrite (ltn_trans zy yx).
- by rewrite yx.
- by rewrite zy.
- by rewrite eqxx (IH _ _ ab bc) orbT.
Qed.

Lemma comps_sorted m n : sorted lexgt (comps m n).
Proof.
elim: m n => [|m IH] n; first by rewrite comps0; case: eqP.
rewrite compsS.
set F := (fun i => [seq n - i :: s | s <- comps m i]).
suff H a k : a + k = n.+1 -> sorted lexgt (flatten [seq F i | i <- iota a k]).
  exact: H.
elim: k a => [|k IHk] a // eqn.
rewrite [iota _ _]/= map_cons [flatten _]/=.
have sF : sorted lexgt (F a).
  rewrite /F sorted_map; apply: sub_sorted (IH a) => x y /= ->.
  by rewrite eqxx orbT.
rewrite (sorted_pairwise lexgt_trans) pairwise_cat -!(sorted_pairwise lexgt_trans) sF.
rewrite IHk ?andbT ?addSnnS //.
apply/allrelP => x y /mapP[s _ ->] /flatten_mapP[i].
rewrite mem_iota => /andP[ai ik] /mapP[t _ ->] /=.
by rewrite ltn_sub2l // (leq_trans ai) //; rewrite addSnnS eqn ltnS in ik.
Qed.

Lemma comps_uniq m n : uniq (comps m n).
Proof.
exact: (sorted_uniq lexgt_trans lexgt_irr (comps_sorted m n)).
Qed.

Lemma comps_first m n : exists r, comps m.+1 n = (n :: nseq m 0) :: r.
Proof.
elim: m n => [|m IH] n.
  by rewrite compsS /= subn0; eexists; reflexivity.
case: (IH 0) => r E.
by rewrite compsS /= subn0 E /=; eexists.
Qed.

Lemma size_comps m n : size (comps m.+1 n) = 'C(n + m, n).
Proof.
elim: m n => [|m IH] n.
  have E k a : flatten [seq [seq n - i :: s | s <- comps 0 i] | i <- iota a.+1 k] = [::].
    by elim: k a => [|k IHk] a //=.
  by rewrite compsS /= E /= addn0 binn.
rewrite compsS size_flatten /shape -map_comp sumnE big_map.
under eq_bigr => i _ do rewrite /= size_map IH.
elim: n => [|n IHn]; first by rewrite big_seq1 !bin0.
rewrite -(addn1 n.+1) iotaD big_cat IHn big_seq1 add0n.
by rewrite [in RHS]addSn binS addSnnS [RHS]addnC.
Qed.

Lemma comps1 n : comps 1 n = [:: [:: n]].
Proof.
have [r E] := comps_first 0 n; have := size_comps 0 n.
by rewrite E addn0 binn /= => -[/size0nil ->].
Qed.

Lemma comps_zero m : comps m 0 = [:: nseq m 0].
Proof.
case: m => [|m] //; have [r E] := comps_first m 0; have := size_comps m 0.
by rewrite E bin0 /= => -[/size0nil ->].
Qed.

(* ------------------------------------------------------------------ *)
(* all sub-states of a state *)
Fixpoint subs (s : seq nat) : seq (seq nat) :=
  if s is x :: s' then flatten [seq [seq a :: t | t <- subs s'] | a <- iota 0 x.+1]
  else [:: [::]].

Lemma subs_cons x s : subs (x :: s) =
  flatten [seq [seq a :: t | t <- subs s] | a <- iota 0 x.+1].
Proof. by []. Qed.
Arguments subs : simpl never.

Lemma substate_cons a t x s : substate (a :: t) (x :: s) = (a <= x) && substate t s.
Proof.
rewrite /substate /= eqSS (iotaDl 1 0) all_map.
by case: (size t == size s); rewrite ?andbF // andTb.
Qed.

Lemma mem_subs s t : (t \in subs s) = substate t s.
Proof.
elim: s t => [|x s IH] t; first by case: t.
rewrite subs_cons; apply/flatten_mapP/idP => [[a]|].
  rewrite mem_iota leq0n add0n ltnS andTb => ax /mapP[u]; rewrite IH => us ->.
  by rewrite substate_cons ax.
case: t => [|a t]; first by rewrite /substate.
rewrite substate_cons => /andP[ax ts].
by exists a; [rewrite mem_iota leq0n add0n ltnS | apply/mapP; exists t; rewrite ?IH].
Qed.

Lemma flatten_cons_uniq (T : eqType) (I : eqType) (h : I -> T) (l : seq I) (F : I -> seq (seq T)) :
  injective h -> uniq l -> (forall i, i \in l -> uniq (F i)) ->
  uniq (flatten [seq [seq h i :: t | t <- F i] | i <- l]).
Proof.
move=> hinj; elim: l => [|i l IH] //= /andP[il ul] uF.
rewrite cat_uniq IH //; last by move=> j jl; apply: uF; rewrite inE jl orbT.
rewrite map_inj_uniq ?uF ?inE ?eqxx //=; last by move=> a b [].
rewrite andbT; apply/hasPn => t /flatten_mapP[j jl /mapP[u _ ->]].
apply/mapP => -[v _ [/hinj E _]]; by rewrite -E jl in il.
Qed.

Lemma subs_uniq s : uniq (subs s).
Proof.
elim: s => [//|x s IH]; rewrite subs_cons.
apply: (@flatten_cons_uniq _ _ id) => //; exact: iota_uniq.
Qed.

Lemma size_subs s : size (subs s) = \prod_(x <- s) x.+1.
Proof.
elim: s => [|x s IH]; first by rewrite big_nil.
rewrite subs_cons big_cons size_flatten /shape -map_comp -IH.
have -> : [seq (size \o (fun a => [seq a :: t | t <- subs s])) i | i <- iota 0 x.+1]
   = nseq x.+1 (size (subs s)).
  rewrite -[x.+1 in RHS](size_iota 0); elim: (iota _ _) => //= a l ->.
  by rewrite size_map.
by rewrite sumn_nseq mulnC.
Qed.

Lemma substateP t s :
  reflect (size t = size s /\ forall i, nth 0 t i <= nth 0 s i) (substate t s).
Proof.
apply: (iffP andP) => [[/eqP sz /allP H]|[sz H]]; split=> //.
- move=> i; case: (ltnP i (size s)) => il; last by rewrite nth_default ?sz.
  by apply: H; rewrite mem_iota leq0n.
- by rewrite sz.
- by apply/allP.
Qed.

Lemma substate_refl s : substate s s.
Proof. by apply/substateP. Qed.

Lemma substate_trans : transitive substate.
Proof.
move=> b a c /substateP[s1 l1] /substateP[s2 l2]; apply/substateP; split; first by rewrite s1.
by move=> i; apply: leq_trans (l1 i) (l2 i).
Qed.

Lemma sumn_nth (s : seq nat) : sumn s = \sum_(i < size s) nth 0 s i.
Proof. by rewrite sumnE (big_nth 0) big_mkord. Qed.

Lemma substate_sumn t s : substate t s -> sumn t <= sumn s.
Proof.
case/substateP=> sz H; rewrite !sumn_nth sz; exact: leq_sum.
Qed.

Lemma substate_sumn_eq t s : substate t s -> sumn t = sumn s -> t = s.
Proof.
elim: s t => [|x s IH] [|a t] //; rewrite substate_cons => /andP[ax ts] /= E.
have le := substate_sumn ts.
have Ea : a = x.
  by apply/eqP; rewrite eqn_leq ax -(leq_add2r (sumn s)) -E leq_add2l.
by rewrite Ea (IH t) //; move: E; rewrite Ea => /addnI.
Qed.
