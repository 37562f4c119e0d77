(* Re-indexing of sums over states by adding or removing one particle. *)
From mathcomp Require Import all_ssreflect all_algebra.
From mathcomp Require Import ring zify.
From Verif Require Import SpecStates Combi SpecPerm PermMath SpecBS.
Set Implicit Arguments.
Unset Strict Implicit.
Unset Printing Implicit Defensive.
Import GRing.Theory Num.Theory.
Local Open Scope ring_scope.

Section Reindex.
Variable V : zmodType.

Lemma big_incr (L L' : seq (seq nat)) (P : pred (seq nat)) (j : nat) (G : seq nat -> V) :
  uniq L -> uniq L' -> (forall r, r \in L' -> (j < size r)%N) ->
  (forall t, (0 < nth 0%N t j)%N -> (t \in L) = (decr t j \in L') && P (decr t j)) ->
  \sum_(t <- L | (0 < nth 0%N t j)%N) G t = \sum_(r <- L' | P r) G (incr r j).
Proof.
move=> uL uL' sz H; rewrite -big_filter -[RHS]big_filter -(big_map (incr^~ j) xpredT G).
apply: perm_big; apply: uniq_perm.
- exact: filter_uniq.
- rewrite map_inj_in_uniq ?filter_uniq // => x y; rewrite !mem_filter => /andP[_ /sz xl] /andP[_ /sz yl] E.
  by rewrite -(decr_incr xl) E decr_incr.
move=> t; rewrite mem_filter; apply/andP/mapP => [[p tL]|[r]].
  by exists (decr t j); rewrite ?incr_decr // mem_filter andbC -H.
rewrite mem_filter => /andP[Pr rL] ->; have rl := sz _ rL.
by rewrite nth_incr eqxx H ?nth_incr ?eqxx // decr_incr // rL.
Qed.

Lemma is_state_decr m k t j : (0 < nth 0%N t j)%N -> is_state m k.+1 t = is_state m k (decr t j).
Proof.
move=> p; rewrite /is_state size_decr ?nth_pos_lt // sumn_decr //.
have: (0 < sumn t)%N by rewrite sumn_nth (bigD1 (Ordinal (nth_pos_lt p))) //= addn_gt0 p.
by case: (sumn t) => // n _; rewrite eqSS.
Qed.

Lemma comps_incr m k (G : nat -> seq nat -> V) :
  (forall j t, nth 0%N t j = 0%N -> G j t = 0) ->
  \sum_(t <- comps m k.+1) \sum_(j < m) G j t =
  \sum_(r <- comps m k) \sum_(j < m) G j (incr r j).
Proof.
move=> G0; rewrite exchange_big [RHS]exchange_big /=; apply: eq_bigr => j _.
rewrite -(@big_incr (comps m k.+1) (comps m k) xpredT j (G j)) ?comps_uniq //.
- rewrite [RHS]big_mkcond /=; apply: eq_bigr => t _.
  by case: ltnP => //; rewrite leqn0 => /eqP /G0.
- by move=> r; rewrite mem_comps => /andP[/eqP -> _]; exact: ltn_ord.
by move=> t p; rewrite !mem_comps andbT; apply: is_state_decr.
Qed.

Lemma substate_decr s t j : (0 < nth 0%N t j)%N ->
  substate t s = substate (decr t j) s && (nth 0%N (decr t j) j < nth 0%N s j)%N.
Proof.
move=> p; apply/substateP/andP => [[e l]|[/substateP[e l] l1]].
  split.
    apply/substateP; split; first by rewrite size_decr ?nth_pos_lt.
    by move=> i; rewrite nth_decr; case: eqP => [->|_] //; apply: leq_trans (leq_pred _) (l j).
  by rewrite nth_decr eqxx prednK.
split; first by rewrite -e size_decr ?nth_pos_lt.
move=> i; case: (eqVneq i j) => [->|ne]; last by move: (l i); rewrite nth_decr (negPf ne).
by move: l1; rewrite nth_decr eqxx prednK.
Qed.

Lemma subs_incr s k (G : nat -> seq nat -> V) :
  (forall j t, nth 0%N t j = 0%N -> G j t = 0) ->
  \sum_(t <- subs s | sumn t == k.+1) \sum_(j < size s) G j t =
  \sum_(r <- subs s | sumn r == k) \sum_(j < size s | (nth 0%N r j < nth 0%N s j)%N) G j (incr r j).
Proof.
move=> G0; rewrite -big_filter -[RHS]big_filter exchange_big /=.
under [RHS]eq_bigr do rewrite big_mkcond /=.
rewrite [RHS]exchange_big /=; apply: eq_bigr => j _; rewrite -[RHS]big_mkcond /=.
rewrite -(@big_incr [seq t <- subs s | sumn t == k.+1] [seq r <- subs s | sumn r == k]
   (fun r => (nth 0%N r j < nth 0%N s j)%N) j (G j)) ?filter_uniq ?subs_uniq //.
- rewrite [RHS]big_mkcond /=; apply: eq_bigr => t _.
  by case: ltnP => //; rewrite leqn0 => /eqP /G0.
- by move=> r; rewrite mem_filter mem_subs => /andP[_ /substateP[-> _]]; exact: ltn_ord.
move=> t p; rewrite !mem_filter !mem_subs (substate_decr _ p) sumn_decr //.
have: (0 < sumn t)%N by rewrite sumn_nth (bigD1 (Ordinal (nth_pos_lt p))) //= addn_gt0 p.
by case: (sumn t) => // n _; rewrite eqSS andbA.
Qed.

End Reindex.

Lemma factprod_incr r j : (j < size r)%N -> factprod (incr r j) = ((nth 0%N r j).+1 * factprod r)%N.
Proof.
rewrite /factprod; elim: r j => [|x r IH] [|j] //= jl; rewrite ?incr0 ?incr_cons !big_cons.
  by rewrite factS mulnA.
by rewrite IH // mulnCA.
Qed.

Lemma factprod_gt0 s : (0 < factprod s)%N.
Proof. by rewrite prodn_gt0 // => i; rewrite fact_gt0. Qed.

Lemma factprod_decr t i : (0 < nth 0%N t i)%N -> factprod t = (nth 0%N t i * factprod (decr t i))%N.
Proof.
move=> p; rewrite -{1}(incr_decr p) factprod_incr ?size_decr ?nth_pos_lt //.
by rewrite nth_decr eqxx prednK.
Qed.

Lemma ways_cons x s a T : ways (x :: s) (a :: T) = ('C(x, a) * ways s T)%N.
Proof. by rewrite /ways big_ord_recl. Qed.

Lemma ways_incr s T i : size T = size s -> (i < size s)%N ->
  ((nth 0%N T i).+1 * ways s (incr T i) = (nth 0%N s i - nth 0%N T i) * ways s T)%N.
Proof.
elim: s T i => [|x s IH] [|a T] //= i [sz]; case: i => [|i] il; rewrite ?incr0 ?incr_cons !ways_cons /=.
  by rewrite mulnA mul_bin_left mulnA.
by rewrite mulnCA IH // mulnCA.
Qed.

Lemma ways_self s : ways s s = 1%N.
Proof. by rewrite /ways big1 // => i _; rewrite binn. Qed.

Lemma ways_gt0 s T : substate T s -> (0 < ways s T)%N.
Proof. by case/substateP=> _ l; rewrite prodn_gt0 // => i; rewrite bin_gt0. Qed.

Lemma sumn_subn s T : substate T s -> (\sum_(i < size s) (nth 0 s i - nth 0 T i) = sumn s - sumn T)%N.
Proof.
case/substateP=> sz l; rewrite !sumn_nth sz; apply/eqP; rewrite eq_sym -(eqn_add2r (\sum_(i < size s) nth 0%N T i)).
rewrite subnK; last exact: leq_sum.
by rewrite -big_split /=; apply/eqP; apply: eq_bigr => i _; rewrite subnK.
Qed.

(* moving one particle from the lost to the kept ones *)
Lemma ways_step (R : numFieldType) s k (G : nat -> seq nat -> R) :
  \sum_(T <- subs s | sumn T == k.+1) \sum_(i < size s) (nth 0%N T i)%:R * (ways s T)%:R * G i T =
  \sum_(T <- subs s | sumn T == k) \sum_(i < size s)
     (nth 0%N s i - nth 0%N T i)%:R * (ways s T)%:R * G i (incr T i).
Proof.
rewrite (@subs_incr _ s k (fun i T => (nth 0%N T i)%:R * (ways s T)%:R * G i T)); last first.
  by move=> j t ->; rewrite !mul0r.
rewrite big_seq_cond [RHS]big_seq_cond; apply: eq_bigr => T /andP[]; rewrite mem_subs => /substateP[sz l] _.
rewrite [LHS]big_mkcond; apply: eq_bigr => i _.
case: ltnP => [lt|ge]; last by rewrite (_ : _ - _ = 0)%N ?mul0r //; apply/eqP; rewrite subn_eq0.
by rewrite nth_incr eqxx -!natrM ways_incr.
Qed.

Lemma uniq_single (T : eqType) (L : seq T) a : uniq L -> (forall t, (t \in L) = (t == a)) -> L = [:: a].
Proof.
move=> uL H; apply: perm_small_eq => //; apply: uniq_perm => // t.
by rewrite H inE.
Qed.

Lemma sumn0P s : reflect (s = nseq (size s) 0%N) (sumn s == 0%N).
Proof.
apply: (iffP idP) => [|->]; last by rewrite sumn_nseq mul0n.
elim: s => [//|x s IH] /=; rewrite addn_eq0 => /andP[/eqP -> /IH e].
by rewrite [in LHS]e.
Qed.

Lemma subs0 s : [seq T <- subs s | sumn T == 0%N] = [:: nseq (size s) 0%N].
Proof.
apply: uniq_single => [|t]; first by rewrite filter_uniq ?subs_uniq.
rewrite mem_filter mem_subs; apply/andP/eqP => [[/sumn0P -> /substateP[<- _]]|->] //.
  by rewrite size_nseq.
split; first by rewrite sumn_nseq mul0n.
apply/substateP; split=> [|i]; first by rewrite size_nseq.
by rewrite nth_nseq; case: ifP.
Qed.

Lemma subs_full s : [seq T <- subs s | sumn T == sumn s] = [:: s].
Proof.
apply: uniq_single => [|t]; first by rewrite filter_uniq ?subs_uniq.
rewrite mem_filter mem_subs; apply/andP/eqP => [[/eqP e ts]|->]; first exact: substate_sumn_eq.
by rewrite eqxx substate_refl.
Qed.

Lemma ways0 s : ways s (nseq (size s) 0%N) = 1%N.
Proof. by rewrite /ways big1 // => i _; rewrite nth_nseq ltn_ord bin0. Qed.

(* Vandermonde: the weights of the sub-states with k particles *)
Lemma vandermonde (R : numFieldType) s k :
  \sum_(T <- subs s | sumn T == k) (ways s T)%:R = 'C(sumn s, k)%:R :> R.
Proof.
elim: k => [|k IH]; first by rewrite bin0 -big_filter subs0 big_seq1 ways0.
have k0 : (k.+1)%:R != 0 :> R by rewrite pnatr_eq0.
apply: (mulfI k0); rewrite -natrM mul_bin_left natrM -IH !mulr_sumr.
transitivity (\sum_(T <- subs s | sumn T == k.+1) \sum_(i < size s) (nth 0%N T i)%:R * (ways s T)%:R * 1 : R).
  rewrite big_seq_cond [RHS]big_seq_cond; apply: eq_bigr => T /andP[]; rewrite mem_subs => /substateP[sz _] /eqP <-.
  by rewrite sumn_nth -sz natr_sum mulr_suml; apply: eq_bigr => i _; rewrite mulr1.
rewrite (ways_step s k (fun _ _ => 1)).
rewrite big_seq_cond [RHS]big_seq_cond; apply: eq_bigr => T /andP[]; rewrite mem_subs => st /eqP <-.
by rewrite -sumn_subn // natr_sum mulr_suml; apply: eq_bigr => i _; rewrite mulr1.
Qed.
