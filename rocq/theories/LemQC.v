(* Final forms of the lemmas behind the property theorems: C46, C48 (distances between distributions, prime factors). *)
From mathcomp Require Import all_ssreflect all_algebra ring zify.
From Verif Require Import Base SpecProb SpecQC ModelQC ProbMath ProofQC1 ProofQC2.
Set Implicit Arguments.
Unset Strict Implicit.
Unset Printing Implicit Defensive.
Import Order.TTheory GRing.Theory Num.Theory.
Local Open Scope ring_scope.
Local Open Scope py_scope.

Lemma C46_lists_lemma :
  forall (R : realFieldType) (d1 d2 : seq R), size d1 = size d2 ->
  exists t, [/\ tvd_lists d1 d2 = Ok t, t = (\sum_(i < size d1) `|d1`_i - d2`_i|) / 2%:R, 0 <= t,
    tvd_lists d2 d1 = Ok t & t = 0 <-> d1 = d2].
Proof.
move=> R d1 d2 sz; exists (half_dist (iota 0 (size d1)) (nth 0 d1) (nth 0 d2)); split.
- exact: tvd_listsE.
- by rewrite /half_dist -{1}[size d1]subn0 -/(index_iota _ _) big_mkord.
- exact: half_ge0.
- by rewrite tvd_listsE // half_sym sz.
rewrite half_eq0; split=> [h|->//]; apply: (eq_from_nth (x0 := 0)) => // i il.
by apply: h; rewrite mem_iota.
Qed.

Lemma C46_lengths_lemma :
  forall (R : realFieldType) (d1 d2 : seq R), size d1 <> size d2 -> tvd_lists d1 d2 = Err AssertionError.
Proof.
by move=> R d1 d2 /eqP ne; rewrite /tvd_lists ne.
Qed.

Lemma C46_triangle_lemma :
  forall (R : realFieldType) (d1 d2 d3 : seq R) a b c,
  tvd_lists d1 d2 = Ok a -> tvd_lists d2 d3 = Ok b -> tvd_lists d1 d3 = Ok c -> c <= a + b.
Proof.
move=> R d1 d2 d3 a b c.
have sz e1 e2 t : @tvd_lists R e1 e2 = Ok t -> size e1 = size e2 by rewrite /tvd_lists; case: eqP.
move=> ea eb ec; have s12 := sz _ _ _ ea; have s23 := sz _ _ _ eb.
move: ea eb ec; rewrite !tvd_listsE ?s12 // => -[<-] [<-] [<-]; rewrite s23; exact: half_tri.
Qed.

Lemma C46_events_lemma :
  forall (R : realFieldType) (d1 d2 : seq R) t, is_distr d1 -> is_distr d2 -> tvd_lists d1 d2 = Ok t ->
  [/\ t <= 1, forall A : pred nat, `|\sum_(i < size d1 | A i) d1`_i - \sum_(i < size d1 | A i) d2`_i| <= t
    & exists A : pred nat, \sum_(i < size d1 | A i) d1`_i - \sum_(i < size d1 | A i) d2`_i = t].
Proof.
move=> R d1 d2 t [n1 s1] [n2 s2].
have sz e1 e2 r : @tvd_lists R e1 e2 = Ok r -> size e1 = size e2 by rewrite /tvd_lists; case: eqP.
move=> e; have s12 := sz _ _ _ e; move: e; rewrite tvd_listsE // => -[<-].
have e1 : \sum_(i <- iota 0 (size d1)) d1`_i = 1 by rewrite sum_list.
have e12 : \sum_(i <- iota 0 (size d1)) d1`_i = \sum_(i <- iota 0 (size d1)) d2`_i by rewrite e1 s12 sum_list.
have E (d : seq R) (A : pred nat) : \sum_(i < size d1 | A i) d`_i = \sum_(i <- iota 0 (size d1) | A i) d`_i.
  by rewrite -(big_mkord A (fun i => d`_i)) /index_iota subn0.
split.
- apply: half_le1 => // i; rewrite mem_iota => il.
  by split; [apply: (allP n1)|apply: (allP n2)]; rewrite mem_nth // -s12.
- by move=> A; rewrite !E; exact: event_le.
pose A := (fun i => 0 <= d1`_i - d2`_i) : pred nat; exists A; rewrite (E d1 A) (E d2 A) -sumrB; exact: event_max.
Qed.

Lemma C46_dicts_agree_lemma :
  forall (R : realFieldType) (K : eqType) (order : seq K -> seq K) (d1 d2 : seq (K * R)) (ks : seq K),
  proper_dict d1 -> proper_dict d2 -> (forall s, perm_eq (order s) s) -> uniq ks -> {subset map fst d1 <= ks} -> {subset map fst d2 <= ks} ->
  tvd_lists [seq value d1 k | k <- ks] [seq value d2 k | k <- ks] = Ok (tvd_dicts order d1 d2).
Proof.
move=> R K order d1 d2 ks p1 p2 po uk s1 s2; rewrite tvd_lists_map tvd_dictsE //; congr Ok.
exact: half_keys.
Qed.

Lemma C46_dict_events_lemma :
  forall (R : realFieldType) (K : eqType) (order : seq K -> seq K) (d1 d2 : seq (K * R)),
  proper_dict d1 -> proper_dict d2 -> (forall s, perm_eq (order s) s) -> distr_dict d1 -> distr_dict d2 ->
  let t := tvd_dicts order d1 d2 in
  [/\ 0 <= t <= 1, t = tvd_dicts order d2 d1, t = 0 <-> (forall k, value d1 k = value d2 k),
     forall A : pred K, `|\sum_(kv <- d1 | A kv.1) kv.2 - \sum_(kv <- d2 | A kv.1) kv.2| <= t
   & exists A : pred K, \sum_(kv <- d1 | A kv.1) kv.2 - \sum_(kv <- d2 | A kv.1) kv.2 = t].
Proof.
move=> R K order d1 d2 p1 p2 po [n1 s1] [n2 s2] t.
pose ks := undup (keys d1 ++ keys d2); have uk : uniq ks := undup_uniq _.
have k1 : {subset keys d1 <= ks} by move=> k kd; rewrite mem_undup mem_cat kd.
have k2 : {subset keys d2 <= ks} by move=> k kd; rewrite mem_undup mem_cat kd orbT.
have et : t = half_dist ks (value d1) (value d2) by rewrite /t tvd_dictsE.
have V1 A := sum_value A p1 uk k1; have V2 A := sum_value A p2 uk k2.
have e1 : \sum_(k <- ks) value d1 k = 1 by rewrite V1.
have e12 : \sum_(k <- ks) value d1 k = \sum_(k <- ks) value d2 k by rewrite e1 V2.
split.
- rewrite et half_ge0 /=; apply: half_le1 => // k _; split; exact: value_ge0.
- rewrite et half_sym tvd_dictsE //; exact: half_keys.
- rewrite et half_eq0; split=> [h k|h k _]; last exact: h.
  case: (boolP (k \in ks)) => [/h //|]; rewrite mem_undup mem_cat negb_or => /andP[o1 o2].
  by rewrite !value_out.
- by move=> A; rewrite et -V1 -V2; exact: event_le.
pose A := (fun k => 0 <= value d1 k - value d2 k) : pred K.
by exists A; rewrite et -(V1 A) -(V2 A) -sumrB; exact: event_max.
Qed.

Lemma C46_dict_triangle_lemma :
  forall (R : realFieldType) (K : eqType) (order order' order'' : seq K -> seq K) (d1 d2 d3 : seq (K * R)),
  proper_dict d1 -> proper_dict d2 -> proper_dict d3 ->
  (forall s, perm_eq (order s) s) -> (forall s, perm_eq (order' s) s) -> (forall s, perm_eq (order'' s) s) ->
  tvd_dicts order d1 d3 <= tvd_dicts order' d1 d2 + tvd_dicts order'' d2 d3.
Proof.
move=> R K o o' o'' d1 d2 d3 p1 p2 p3 h h' h''; rewrite !tvd_dictsE //.
pose ks := undup (keys d1 ++ keys d2 ++ keys d3); have uk : uniq ks := undup_uniq _.
have k1 : {subset keys d1 <= ks} by move=> k kd; rewrite mem_undup !mem_cat kd.
have k2 : {subset keys d2 <= ks} by move=> k kd; rewrite mem_undup !mem_cat kd orbT.
have k3 : {subset keys d3 <= ks} by move=> k kd; rewrite mem_undup !mem_cat kd !orbT.
by rewrite -!(half_keys uk) //; exact: half_tri.
Qed.

Lemma C48_factorisation_lemma :
  forall (n fuel : nat), (0 < n)%N -> (n <= fuel)%N ->
  exists fs x, [/\ get_prime_factors fuel (Posz n) = Ok (rcons fs x), (\prod_(f <- rcons fs x) f)%N = n, all prime fs,
      sorted leq fs
    & [/\ x = 1%N \/ prime x /\ sorted leq (rcons fs x)
        & x = 1%N <-> forall p, prime p -> odd p -> (p %| n)%N -> (p ^ 2 <= n %/ 2 ^ logn 2 n)%N]].
Proof.
move=> n fuel n0 nf; have [fs [x [e pr a s h]]] := prime_factorsE n0 nf; exists fs, x; split=> //.
by rewrite -cats1 big_cat big_seq1.
Qed.

Lemma C48_all_prime_refuted_lemma :
  forall (j fuel : nat), (2 ^ j <= fuel)%N -> get_prime_factors fuel (Posz (2 ^ j)) = Ok (rcons (nseq j 2) 1)%N.
Proof.
move=> j fuel le; have n0 : (0 < 2 ^ j)%N by rewrite expn_gt0.
rewrite /get_prime_factors; have [fs [x [-> pr a s [_ [_ h]]]]] := prime_factorsE n0 le.
have dv p : prime p -> (p %| 2 ^ j)%N -> p = 2%N.
  by move=> pp; rewrite Euclid_dvdX // => /andP[]; rewrite dvdn_prime2 // => /eqP.
have x1 : x = 1%N by apply: h => p pp op /(dv p pp) e; rewrite e in op.
have f2 : fs = nseq (size fs) 2%N.
  apply/all_pred1P/allP => f ff; apply/eqP/dv; first exact: (allP a).
  by rewrite -pr x1 muln1 (big_rem f) //= dvdn_mulr.
rewrite x1; congr (Ok (rcons _ _)); rewrite f2; congr nseq.
by move: pr; rewrite x1 muln1 f2 prod_nseq size_nseq => /eqP; rewrite eqn_exp2l // => /eqP.
Qed.

Lemma C48_outside_lemma :
  forall (fuel : nat) (n : int),
  (n = 0 -> get_prime_factors fuel n = Err OutOfFuel) /\
  (n < 0 -> (`|n| <= fuel)%N -> get_prime_factors fuel n = Err ValueError).
Proof.
move=> fuel [n|n]; split=> //; first by case=> ->; exact: prime_factors_0.
move=> _ le; have [k [n' [e _ _]]] := divide_outE [::] (isT : 1 < 2)%N (isT : 0 < n.+1)%N le.
by rewrite /get_prime_factors e.
Qed.
