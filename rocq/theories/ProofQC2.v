(* The distances between distributions. *)
From mathcomp Require Import all_ssreflect all_algebra.
From mathcomp Require Import ring zify.
From Verif Require Import Base ModelQC SpecQC SpecProb.
Set Implicit Arguments.
Unset Strict Implicit.
Unset Printing Implicit Defensive.
Import Order.TTheory GRing.Theory Num.Theory.
Local Open Scope ring_scope.
Local Open Scope py_scope.

Section Half.
Variables (R : realFieldType) (K : eqType) (S : seq K).
Implicit Types p q r : K -> R.
Notation half_dist := (@half_dist R K S).
Let n2 : (2%:R : R) != 0. Proof. by rewrite pnatr_eq0. Qed.
Let i2 : 0 < (2%:R : R)^-1. Proof. by rewrite invr_gt0 ltr0n. Qed.

Lemma half_ge0 p q : 0 <= half_dist p q.
Proof. by rewrite mulr_ge0 ?(ltW i2) // sumr_ge0. Qed.

Lemma half_sym p q : half_dist p q = half_dist q p.
Proof. by congr (_ / _); apply: eq_bigr => k _; rewrite distrC. Qed.

Lemma half_tri p q r : half_dist p r <= half_dist p q + half_dist q r.
Proof.
rewrite -mulrDl ler_pmul2r // -big_split /=; apply: ler_sum => k _.
by rewrite -{1}(subrK (q k) (p k)) -addrA; exact: ler_norm_add.
Qed.

Lemma half_eq0 p q : half_dist p q = 0 <-> {in S, p =1 q}.
Proof.
split=> [/eqP|e]; last first.
  by rewrite /SpecQC.half_dist big1_seq ?mul0r // => k /andP[_ /e ->]; rewrite subrr normr0.
rewrite mulf_eq0 (gt_eqF i2) orbF psumr_eq0 // => /allP h k kS.
by apply/eqP; rewrite -subr_eq0 -normr_eq0; exact: h.
Qed.

Section Events.
Variables p q : K -> R.
Hypothesis e : \sum_(k <- S) p k = \sum_(k <- S) q k.
Notation f := (fun k => p k - q k).
Let pos k := if 0 <= p k - q k then p k - q k else 0.

Let f0 : \sum_(k <- S) (p k - q k) = 0.
Proof. by rewrite sumrB e subrr. Qed.

Lemma pos_half : \sum_(k <- S) pos k = half_dist p q.
Proof.
apply: (mulIf n2); rewrite divfK // mulr_suml.
transitivity (\sum_(k <- S) pos k * 2%:R - \sum_(k <- S) (p k - q k)); first by rewrite f0 subr0.
rewrite -sumrB; apply: eq_bigr => k _.
by rewrite /pos; case: (lerP 0 (p k - q k)) => h; [rewrite ger0_norm //|rewrite ltr0_norm //]; ring.
Qed.

Lemma event_max : \sum_(k <- S | 0 <= p k - q k) (p k - q k) = half_dist p q.
Proof. by rewrite -pos_half big_mkcond. Qed.

Lemma event_ub (A : pred K) : \sum_(k <- S | A k) (p k - q k) <= half_dist p q.
Proof.
rewrite -pos_half big_mkcond; apply: ler_sum => k _.
by rewrite /pos; case: (A k); case: (lerP 0 (p k - q k)) => // /ltW.
Qed.

Lemma event_le (A : pred K) : `|\sum_(k <- S | A k) p k - \sum_(k <- S | A k) q k| <= half_dist p q.
Proof.
rewrite -sumrB ler_norml event_ub andbT ler_oppl.
have -> : - (\sum_(k <- S | A k) (p k - q k)) = \sum_(k <- S | ~~ A k) (p k - q k).
  by apply/eqP; rewrite -subr_eq0 -opprD oppr_eq0 -(bigID A predT) f0.
exact: event_ub.
Qed.

Lemma half_le1 : {in S, forall k, 0 <= p k /\ 0 <= q k} -> \sum_(k <- S) p k = 1 -> half_dist p q <= 1.
Proof.
move=> h p1; rewrite -event_max -p1 big_mkcond /= !(big_seq_cond predT) /=; apply: ler_sum => k.
rewrite andbT => kS; have [p0 q0] := h k kS; case: ifP => // _.
by rewrite ler_subl_addr ler_addl.
Qed.
End Events.
End Half.

Section Lists.
Variable R : realFieldType.
Implicit Types d : seq R.

Lemma tvd_listsE d1 d2 : size d1 = size d2 ->
  tvd_lists d1 d2 = Ok (half_dist (iota 0 (size d1)) (nth 0 d1) (nth 0 d2)).
Proof.
move=> sz; rewrite /tvd_lists sz eqxx /half_dist; set L := iota 0 _.
have aL : all (fun i => i < size d2)%N L by apply/allP => i; rewrite mem_iota.
suff -> acc : rfoldl (fun acc i => let! a := py_get d1 (Posz i) in let! b := py_get d2 (Posz i) in
    Ok (acc + `|a - b|)) acc L = Ok (acc + \sum_(i <- L) `|d1`_i - d2`_i|) by rewrite /= add0r.
elim: L aL acc => [|i L IH] /=; first by move=> _ acc; rewrite big_nil addr0.
move=> /andP[il /IH {}IH] acc; rewrite !(py_get_nth 0) ?sz //= IH big_cons addrA //.
Qed.

Lemma sum_list d : \sum_(i <- iota 0 (size d)) d`_i = \sum_(x <- d) x.
Proof. by rewrite (big_nth 0) /index_iota subn0. Qed.
End Lists.

Section Dicts.
Variables (R : realFieldType) (K : eqType).
Implicit Types d e : seq (K * R).
Notation keys := (@keys R K).

Lemma value_cons k v d k' : value ((k, v) :: d) k' = if k == k' then v else value d k'.
Proof. by rewrite /value /=; case: eqP. Qed.

Lemma value_out d k : k \notin keys d -> value d k = 0.
Proof. by move=> h; rewrite /value memNindex // nth_default // !size_map. Qed.

Lemma value_put0 d k k' : k \notin keys d -> value (put d k 0) k' = value d k'.
Proof.
elim: d => [|[j v] d IH] /=; first by rewrite value_cons /value; case: eqP.
by rewrite inE negb_or eq_sym => /andP[/negPf -> /IH h]; rewrite !value_cons h.
Qed.

Lemma put_out d k v : k \notin keys d -> put d k v = rcons d (k, v).
Proof.
elim: d => [//|[j w] d IH] /=; rewrite inE negb_or eq_sym => /andP[/negPf -> /IH ->].
by [].
Qed.

Lemma updateE d e : uniq (keys d ++ keys e) -> update d e = d ++ e.
Proof.
elim: e d => [|[k v] e IH] d /=; first by rewrite !cats0.
move=> u; have kd : k \notin keys d.
  by move: u; rewrite cat_uniq /= => /and3P[_]; rewrite negb_or => /andP[].
rewrite -cat_rcons -IH -?put_out // put_out //.
by rewrite /keys map_rcons cat_rcons.
Qed.

Lemma getE d k : exists d', default_get d k = (value d k, d') /\ forall k', value d' k' = value d k'.
Proof.
rewrite /default_get; have [kd|kd] := boolP (k \in keys d).
  suff [kv e2 ->] : exists2 kv, kv.2 = value d k & [seq kv <- d | kv.1 == k] = kv :: behead [seq kv <- d | kv.1 == k].
    by exists d; rewrite e2.
  elim: d kd => [//|[j v] d IH] /=; rewrite inE eq_sym value_cons.
  by case: eqP => [_ _|_ /IH //]; exists (j, v).
have -> : [seq kv <- d | kv.1 == k] = [::].
  by apply/eqP; rewrite -size_eq0 size_filter -leqn0 leqNgt -has_count; apply/hasPn => kv kvd; apply: contraNneq kd => <-; exact: map_f.
by exists (put d k 0); rewrite value_out //; split=> // k'; exact: value_put0.
Qed.

Lemma foldl_sum (f : K -> R) L acc : foldl +%R acc (map f L) = acc + \sum_(k <- L) f k.
Proof. by elim: L acc => [|k L IH] acc /=; rewrite ?big_nil ?addr0 // IH big_cons addrA. Qed.

Lemma tvd_dictsE order d1 d2 : proper_dict d1 -> proper_dict d2 -> (forall s, perm_eq (order s) s) ->
  tvd_dicts order d1 d2 = half_dist (undup (keys d1 ++ keys d2)) (value d1) (value d2).
Proof.
move=> u1 u2 po; rewrite /tvd_dicts !updateE // !cat0s /half_dist -(perm_big _ (po _)) /=.
set L := order _.
suff H (v1 v2 : K -> R) dd1 dd2 ts : value dd1 =1 v1 -> value dd2 =1 v2 -> exists dd1' dd2', 
   foldl (fun acc k => let: (dd1, dd2, terms) := acc in
      let: (a, dd1') := default_get dd1 k in
      let: (b, dd2') := default_get dd2 k in
      (dd1', dd2', rcons terms `|a - b|)) (dd1, dd2, ts) L = (dd1', dd2', ts ++ [seq `|v1 k - v2 k| | k <- L]).
  have [dd1 [dd2 ->]] := H (value d1) (value d2) d1 d2 [::] (frefl _) (frefl _).
  rewrite cat0s mulrC; congr (_ / _).
  by rewrite foldl_sum add0r.
elim: L dd1 dd2 ts => [|k L IH] dd1 dd2 ts e1 e2 /=; first by exists dd1, dd2; rewrite cats0.
have [dd1' [-> h1]] := getE dd1 k; have [dd2' [-> h2]] := getE dd2 k.
have [||x [y ->]] := IH dd1' dd2' (rcons ts `|value dd1 k - value dd2 k|).
- by move=> k'; rewrite h1.
- by move=> k'; rewrite h2.
by exists x, y; rewrite cat_rcons e1 e2.
Qed.
End Dicts.

Lemma tvd_lists_map (R : realFieldType) (T : eqType) (S : seq T) (f g : T -> R) :
  tvd_lists [seq f t | t <- S] [seq g t | t <- S] = Ok (half_dist S f g).
Proof.
rewrite tvd_listsE ?size_map //; congr Ok; rewrite /half_dist; congr (_ / _).
case: S => [|t0 S]; first by rewrite !big_nil.
rewrite [RHS](big_nth t0) /index_iota subn0; apply: eq_big_seq => i; rewrite mem_iota => il.
by rewrite !(nth_map t0).
Qed.

Section Keys.
Variables (R : realFieldType) (K : eqType).
Implicit Types d : seq (K * R).
Notation keys := (@keys R K).

Lemma value_in d kv : proper_dict d -> kv \in d -> value d kv.1 = kv.2.
Proof.
elim: d => [//|[j v] d IH] /andP[jd u]; rewrite inE => /orP[/eqP ->|kd]; rewrite value_cons ?eqxx //=.
case: eqP => [e|_]; last exact: IH.
by have kd' : j \in map fst d; [rewrite e; exact: map_f|rewrite /= kd' in jd].
Qed.

Lemma value_ge0 d k : all (fun kv => 0 <= kv.2) d -> 0 <= value d k.
Proof. by elim: d => [|[j v] d IH] /=; [rewrite /value /= lexx|move=> /andP[v0 /IH h]; rewrite value_cons; case: eqP]. Qed.

Lemma sum_value (A : pred K) d ks : proper_dict d -> uniq ks -> {subset keys d <= ks} ->
  \sum_(k <- ks | A k) value d k = \sum_(kv <- d | A kv.1) kv.2.
Proof.
move=> p uk sub; transitivity (\sum_(k <- keys d | A k) value d k); last first.
  rewrite /ModelQC.keys big_map big_seq_cond [RHS]big_seq_cond; apply: eq_bigr => kv /andP[kd _]; exact: value_in.
rewrite (bigID (mem (keys d))) /= addrC big1 => [|k /andP[_ ko]]; last exact: value_out.
rewrite add0r -big_filter -[RHS]big_filter; apply: perm_big; apply: uniq_perm; rewrite ?filter_uniq //.
by move=> k; rewrite !mem_filter; case: (boolP (k \in keys d)) => [/sub ->|]; rewrite ?andbF ?andbT.
Qed.

Lemma half_keys d1 d2 ks : uniq ks -> {subset keys d1 <= ks} -> {subset keys d2 <= ks} ->
  half_dist ks (value d1) (value d2) = half_dist (undup (keys d1 ++ keys d2)) (value d1) (value d2).
Proof.
move=> uk s1 s2; congr (_ / _); rewrite (bigID (mem (undup (keys d1 ++ keys d2)))) /= addrC big1 => [|k]; last first.
  by rewrite mem_undup mem_cat negb_or => /andP[o1 o2]; rewrite !value_out // subrr normr0.
rewrite add0r -big_filter; apply: perm_big; apply: uniq_perm; rewrite ?filter_uniq ?undup_uniq //.
move=> k; rewrite mem_filter mem_undup mem_cat; case: (boolP (k \in keys d1)) => [/s1 ->//|_].
by case: (boolP (k \in keys d2)) => [/s2 ->|].
Qed.
End Keys.
