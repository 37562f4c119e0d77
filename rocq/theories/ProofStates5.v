(* Proofs about counting state types and states of a type (C08, C09). *)
From mathcomp Require Import all_ssreflect all_algebra zify.
From Verif Require Import Base SpecStates ModelStates Combi ProofStates2 ProofStates4.
Set Implicit Arguments.
Unset Strict Implicit.
Unset Printing Implicit Defensive.
Local Open Scope nat_scope.

Definition kparts k n := [seq p <- plist n | size p == k].

Lemma kparts_uniq k n : uniq (kparts k n).
Proof. by apply: filter_uniq; case: (plistP n). Qed.

Lemma mem_kparts k n p : (p \in kparts k n) =
  (size p == k) && (if n == 0 then p == [:: 0] else is_part 1 n p).
Proof. by rewrite mem_filter; have [_ ->] := plistP n. Qed.

Lemma sumn_map_succ (q : seq nat) : sumn (map succn q) = sumn q + size q.
Proof. by elim: q => //= x q ->; lia. Qed.

Lemma size_kparts_rec k n : 1 < k -> k <= n ->
  size (kparts k n) = size (kparts k (n - k)) + size (kparts k.-1 n.-1).
Proof.
move=> k1 kn.
rewrite -(size_map (map succn) (kparts k (n - k))) -(size_map (cons 1) (kparts k.-1 n.-1)) -size_cat.
apply: perm_size; apply: uniq_perm; first exact: kparts_uniq.
  rewrite cat_uniq !map_inj_uniq ?kparts_uniq //=; last 2 first.
  - by move=> a b [].
  - exact: inj_map succn_inj.
  rewrite andbT; apply/hasPn => p /mapP[q _ ->]; apply/negP => /mapP[r].
  rewrite mem_kparts => /andP[/eqP sr]; case: eqP => _; first by move=> /eqP rE; move: sr; rewrite rE /=; lia.
  by case: r {sr} => [|[|x] r] // /and4P[].
move=> p; rewrite mem_cat mem_kparts.
have n0 : (n == 0) = false by lia.
have n1 : (n.-1 == 0) = false by lia.
rewrite n0; apply/idP/orP => [/andP[/eqP sz /and4P[p0 sp ap /eqP sm]]|].
  case: p sz p0 sp ap sm => // x p sz _ sp ap0 sm.
  have [x1 ap] : 1 <= x /\ all (leq 1) p by apply/andP.
  case: (ltngtP x 1) => [|x2|xE]; [by lia | left | right]; last first.
    apply/mapP; exists p; last by rewrite xE.
    rewrite mem_kparts -sz /= eqxx /= n1 /is_part (path_sorted sp) ap.
    have -> : sumn p == n.-1 by move: sm; rewrite xE /=; lia.
    by case: (p) sz => //= kE; move: k1; rewrite -kE.
  have ap2 : all (leq 2) (x :: p).
    apply/allP => y yp; apply: leq_trans x2 _.
    move: yp; rewrite inE => /orP[/eqP -> //|yp].
    by move: sp; rewrite /= path_all_leq => /andP[/allP/(_ y yp)].
  apply/mapP; exists (map predn (x :: p)); last first.
    rewrite -map_comp -[LHS]map_id; apply/eq_in_map => y /(allP ap2) /=; lia.
  have szm : size (map predn (x :: p)) = k by rewrite size_map.
  have szE : sumn (map predn (x :: p)) + k = n.
    rewrite -szm -sumn_map_succ -map_comp -sm; congr sumn.
    rewrite -[RHS]map_id; apply/eq_in_map => y /(allP ap2) /=; lia.
  have pos : all (leq 1) (map predn (x :: p)).
    by rewrite all_map; apply/allP => y /(allP ap2) /=; lia.
  have sge : 0 < sumn (map predn (x :: p)) by rewrite /=; lia.
  rewrite mem_kparts szm eqxx ifF ?andTb; last by lia.
  rewrite /is_part pos; apply/and3P; split=> //; last by rewrite andTb; lia.
  by rewrite sorted_map; apply: sub_sorted sp => a b /=; lia.
case=> /mapP[q]; rewrite mem_kparts => /andP[/eqP sq hq] ->; rewrite ?size_map /= sq.
  rewrite eqxx /=; move: hq; case: eqP => nk; first by move=> /eqP qE; move: sq; rewrite qE /=; lia.
  case/and4P=> q0 ss aq /eqP sm; rewrite /is_part; apply/and4P; split.
  - by rewrite -size_eq0 size_map size_eq0.
  - by rewrite sorted_map; apply: sub_sorted ss => a b.
  - by rewrite all_map; apply/allP.
  - by rewrite sumn_map_succ sm sq; lia.
rewrite prednK ?eqxx /=; last by lia.
move: hq; rewrite n1 => /and4P[q0 ss aq /eqP sm].
rewrite /is_part /= path_all_leq aq ss /= sm; lia.
Qed.

Lemma size_kparts0 n : size (kparts 0 n) = 0.
Proof.
apply/eqP; rewrite size_eq0; case: (kparts 0 n) (mem_kparts 0 n) => // p l /(_ p).
rewrite inE eqxx => /esym/andP[/eqP/size0nil ->]; by case: eqP.
Qed.

Lemma size_kparts1 n : size (kparts 1 n) = 1.
Proof.
rewrite -[RHS]/(size [:: [:: n]]); apply: perm_size; apply: uniq_perm => //.
  exact: kparts_uniq.
move=> p; rewrite mem_kparts inE; case: p => [|x [|y p]] //=; last by rewrite !eqseq_cons !andbF.
case: n => [|n] //=; rewrite /is_part /= addn0 andbT eqseq_cons eqxx andbT.
by case: eqP => [->|]; rewrite ?andbF.
Qed.

Lemma size_kparts_big k n : 1 < k -> n < k -> size (kparts k n) = 0.
Proof.
move=> k1 nk; apply/eqP; rewrite size_eq0; case E : (kparts k n) => [//|p l].
have: p \in kparts k n by rewrite E inE eqxx.
rewrite mem_kparts => /andP[/eqP sz]; case: eqP => [_ /eqP pE|_ /and4P[_ _ ap /eqP sm]].
  by move: sz; rewrite pE /=; lia.
have: size p <= sumn p by elim: p ap {sz sm E} => //= x p IH /andP[x1 /IH]; lia.
by rewrite sz sm leqNgt nk.
Qed.

Lemma number_of_k_partitionsE fuel k n : n < fuel ->
  number_of_k_partitions fuel k n = Ok (size (kparts k n)).
Proof.
elim: fuel k n => [//|fuel IH] k n fu /=.
case: eqP => [->|k1]; first by rewrite size_kparts1.
case: ifPn => [/orP[/orP[nk|/eqP n0]|k0]|].
- have [k0|k1'] : k = 0 \/ 1 < k by lia.
    by rewrite k0 size_kparts0.
  by rewrite size_kparts_big.
- have [k0|k1'] : k = 0 \/ 1 < k by lia.
    by rewrite k0 size_kparts0.
  by rewrite n0 size_kparts_big // ltnW.
- have -> : k = 0 by lia.
  by rewrite size_kparts0.
rewrite !negb_or => /andP[/andP[kn n0] k0].
rewrite IH /=; last by lia.
rewrite IH /=; last by lia.
by rewrite -size_kparts_rec //; lia.
Qed.

Lemma size_types m n : size (types m n) = \sum_(k <- iota 1 m) size (kparts k n).
Proof.
rewrite /types /types_of size_map.
have pos p : p \in plist n -> 0 < size p.
  have [_ ->] := plistP n; case: eqP => [_ /eqP -> //|_ /and4P[]]; by case: p.
elim: m => [|m IH].
  rewrite big_nil size_filter; apply/eqP; rewrite -leqn0 leqNgt -has_count.
  by apply/hasPn => p /pos; rewrite ltnNge.
rewrite -(addn1 m) iotaD big_cat big_seq1 -IH add1n addn1 /=.
rewrite /kparts !size_filter -count_predUI -[LHS]addn0; congr addn.
  by apply: eq_count => p /=; rewrite leq_eqVlt ltnS orbC.
apply/esym/eqP; rewrite -leqn0 leqNgt -has_count; apply/hasPn => p _ /=; lia.
Qed.

Lemma rfoldl_sum (f : nat -> res nat) (g : nat -> nat) acc l :
  (forall x, f x = Ok (g x)) ->
  rfoldl (fun acc k => rbind (f k) (fun x => Ok (acc + x))) acc l
  = Ok (acc + \sum_(k <- l) g k).
Proof.
move=> fg; elim: l acc => [|x l IH] acc /=; first by rewrite big_nil addn0.
by rewrite fg /= IH big_cons addnA.
Qed.

Lemma number_of_state_typesE fuel m n losses : n < fuel ->
  compute_number_of_state_types fuel m n losses =
  Ok (size (if losses then lossy_types m n else types m n)).
Proof.
move=> fu; rewrite /compute_number_of_state_types.
have cnt acc p : p < fuel -> rfoldl (fun acc k => rbind (number_of_k_partitions fuel k p)
    (fun x => Ok (acc + x))) acc (iota 1 m) = Ok (acc + size (types m p)).
  move=> pf; rewrite (@rfoldl_sum _ (fun k => size (kparts k p))) ?size_types //.
  by move=> x; rewrite number_of_k_partitionsE.
rewrite cnt //= add0n; case: losses => //=.
rewrite size_cat size_flatten /shape -map_comp sumnE big_map.
have: {subset iota 0 n <= fun p => p < fuel}.
  by move=> p; rewrite mem_iota add0n => /andP[_ pn]; exact: ltn_trans pn fu.
move: (size (types m n)); elim: (iota 0 n) => [|p l IH] acc sub /=.
  by rewrite big_nil addn0.
rewrite cnt; last by apply: sub; rewrite inE eqxx.
rewrite /= IH ?big_cons ?addnA //.
by move=> q ql; apply: sub; rewrite inE ql orbT.
Qed.

(* ------------------------------------------------------------------ *)
(* C09 *)

Lemma mem_perm_rec (t s : seq nat) :
  (s \in permutations t) =
  (s \in (if t is [::] then [:: [::]] else
          flatten [seq [seq v :: u | u <- permutations (rem v t)] | v <- undup t])).
Proof.
rewrite mem_permutations; case: t => [|x t].
  rewrite inE; apply/idP/eqP => [/perm_size/size0nil //|->]; exact: perm_refl.
set T := x :: t; apply/idP/flatten_mapP => [pe|[v]].
  case: s pe => [/perm_size //|v s] pe.
  have vT : v \in T by rewrite -(perm_mem pe) inE eqxx.
  exists v; first by rewrite mem_undup.
  apply/mapP; exists s => //; rewrite mem_permutations.
  by rewrite -(perm_cons v) (perm_trans pe) // perm_to_rem.
rewrite mem_undup => vT /mapP[u]; rewrite mem_permutations => pe ->.
by rewrite perm_sym (perm_trans (perm_to_rem vT)) // perm_cons perm_sym.
Qed.

Lemma size_perm_rec (T : seq nat) : T != [::] ->
  size (permutations T) = \sum_(v <- undup T) size (permutations (rem v T)).
Proof.
move=> T0; have -> : size (permutations T) =
    size (flatten [seq [seq v :: u | u <- permutations (rem v T)] | v <- undup T]).
  apply: perm_size; apply: uniq_perm; first exact: permutations_uniq.
    apply: (@flatten_cons_uniq _ _ id) => //; first exact: undup_uniq.
    by move=> v _; exact: permutations_uniq.
  by move=> s; rewrite mem_perm_rec; case: (T) T0.
rewrite size_flatten /shape -map_comp sumnE big_map; apply: eq_bigr => v _.
by rewrite /= size_map.
Qed.

Lemma sum_count (vals t : seq nat) : uniq vals -> {subset t <= vals} ->
  \sum_(v <- vals) count_mem v t = size t.
Proof.
move=> uv; elim: t => [|x t IH] sub; first by rewrite big1.
rewrite /= big_split /= IH; last by move=> y yt; apply: sub; rewrite inE yt orbT.
have xv : x \in vals by apply: sub; rewrite inE eqxx.
rewrite (bigD1_seq x) //= eqxx big1 ?addn0 ?add1n // => v ne.
by rewrite eq_sym (negPf ne).
Qed.

Lemma count_rem_v (v w : nat) t : v \in t ->
  count_mem w t = (v == w) + count_mem w (rem v t).
Proof. by move=> vt; rewrite (permP (perm_to_rem vt)) /=. Qed.

Lemma perm_count_fact (vals t : seq nat) : uniq vals -> {subset t <= vals} ->
  \prod_(v <- vals) (count_mem v t)`! * size (permutations t) = (size t)`!.
Proof.
move=> uv; move: {2}(size t) (erefl (size t)) => k; elim: k t => [|k IH] t.
  move=> /size0nil -> _ /=; by rewrite big1.
move: t => T szt sub.
rewrite szt size_perm_rec ?big_distrr //=; last by rewrite -size_eq0 szt.
transitivity (\sum_(v <- undup T) count_mem v T * k`!); last first.
  rewrite -big_distrl /= factS; congr muln; rewrite -szt.
  by apply: sum_count => [|y]; rewrite ?undup_uniq ?mem_undup.
apply: eq_big_seq => v; rewrite mem_undup => vT.
have vv : v \in vals by apply: sub.
have szr : size (rem v T) = k by rewrite size_rem // szt.
have subr : {subset rem v T <= vals} by move=> y /mem_rem /sub.
have {IH} := IH _ szr subr; rewrite szr => <-.
rewrite mulnA; congr muln.
rewrite (bigD1_seq v) //= [in RHS](bigD1_seq v) //= mulnA.
rewrite (count_rem_v v vT) eqxx add1n factS; congr muln.
by apply: eq_bigr => w ne; rewrite (count_rem_v w vT) eq_sym (negPf ne).
Qed.

Lemma foldl_divn (K : nat) (cs : seq nat) :
  foldl (fun x c => x %/ c`!) (\prod_(c <- cs) c`! * K) cs = K.
Proof.
elim: cs K => [|c cs IH] K /=; first by rewrite big_nil mul1n.
by rewrite big_cons -mulnA mulKn ?fact_gt0.
Qed.

Lemma number_of_states_of_typeE vals t : perm_eq vals (undup t) ->
  compute_number_of_states_of_given_type vals t = size (permutations t).
Proof.
move=> pe; rewrite /compute_number_of_states_of_given_type.
have uv : uniq vals by rewrite (perm_uniq pe) undup_uniq.
have sub : {subset t <= vals} by move=> y yt; rewrite (perm_mem pe) mem_undup.
by rewrite -(perm_count_fact uv sub) -(big_map (fun v => count_mem v t) xpredT (fun c => c`!)) foldl_divn.
Qed.

Lemma number_of_states_spec vals t L : perm_eq vals (undup t) -> uniq L ->
  (forall s, (s \in L) = perm_eq s t) ->
  compute_number_of_states_of_given_type vals t = size L.
Proof.
move=> pe uL mL; rewrite number_of_states_of_typeE //.
apply: perm_size; apply: uniq_perm => //; first exact: permutations_uniq.
by move=> s; rewrite mem_permutations mL perm_sym perm_sym.
Qed.

Lemma sum_over_types m n : 0 < m ->
  \sum_(t <- types m n) size (permutations t) = size (comps m n).
Proof.
move=> m0.
have -> : size (comps m n) = size (flatten [seq permutations t | t <- types m n]).
  apply: perm_size; apply: uniq_perm; first exact: comps_uniq.
    apply: (@uniq_flatten_key _ _ (sort geq)); first exact: types_uniq.
      by move=> t _; exact: permutations_uniq.
    move=> t s; rewrite mem_types // mem_permutations => /and3P[_ st _] pe.
    apply: (sorted_eq geq_trans geq_anti) => //; first exact: sort_sorted geq_total _.
    by rewrite perm_sort.
  move=> s; rewrite mem_comps; apply/andP/flatten_mapP => [[/eqP sz /eqP sm]|[t]].
    exists (sort geq s); last by rewrite mem_permutations perm_sym perm_sort.
    by rewrite mem_types // /is_type size_sort sz eqxx (sort_sorted geq_total) sumn_sort sm eqxx.
  rewrite mem_types // mem_permutations => /and3P[/eqP sz _ /eqP sm] pe.
  by rewrite (perm_size pe) sz (perm_sumn pe) sm !eqxx.
by rewrite size_flatten /shape -map_comp sumnE big_map.
Qed.
