(* Proofs about state types (C07-C09). *)
From mathcomp Require Import all_ssreflect all_algebra zify.
From Verif Require Import Base SpecStates ModelStates Combi ProofStates2.
Set Implicit Arguments.
Unset Strict Implicit.
Unset Printing Implicit Defensive.
Local Open Scope nat_scope.

(* non-decreasing partition of n with all parts at least I *)
Definition is_part (I n : nat) (p : seq nat) : bool :=
  [&& p != [::], sorted leq p, all (leq I) p & sumn p == n].

Lemma rfoldl_app (T U : Type) (f : T -> res (seq U)) (g : T -> seq U) acc l :
  (forall x, List.In x l -> f x = Ok (g x)) ->
  rfoldl (fun acc i => rbind (f i) (fun y => Ok (acc ++ y))) acc l
  = Ok (acc ++ flatten (map g l)).
Proof.
elim: l acc => [|x l IH] acc fg /=; first by rewrite cats0.
by rewrite fg /=; [rewrite IH ?catA // => y yl; apply: fg; right | left].
Qed.

Lemma In_mem (T : eqType) (x : T) l : List.In x l <-> x \in l.
Proof.
elim: l => [//|y l IH] /=; rewrite inE; split.
  by case=> [->|/IH ->]; rewrite ?eqxx ?orbT.
by case/orP=> [/eqP ->|/IH]; [left|right].
Qed.

Lemma path_all_leq i p : path leq i p = all (leq i) p && sorted leq p.
Proof. by rewrite path_sortedE //; exact: leq_trans. Qed.

Lemma part_sum_ge I p : p != [::] -> all (leq I) p -> I <= sumn p.
Proof. by case: p => [//|x p] _ /= /andP[le _]; exact: leq_trans le (leq_addr _ _). Qed.

Lemma partitions_gen_spec fuel n I : 0 < I -> I <= n -> n < fuel + I ->
  exists L, [/\ partitions_gen fuel n I = Ok L, uniq L & forall p, (p \in L) = is_part I n p].
Proof.
elim: fuel n I => [|fuel IH] n I I0 In fu; first by move: In; rewrite leqNgt fu.
have rec i : i \in iota I (n./2.+1 - I) -> exists L, [/\ partitions_gen fuel (n - i) i = Ok L,
    uniq L & forall p, (p \in L) = is_part i (n - i) p].
  rewrite mem_iota => /andP[Ii ih]; apply: IH; lia.
pose g i := if partitions_gen fuel (n - i) i is Ok L then L else [::].
have gP i : i \in iota I (n./2.+1 - I) ->
   [/\ partitions_gen fuel (n - i) i = Ok (g i), uniq (g i) &
       forall p, (p \in g i) = is_part i (n - i) p].
  by move=> /rec[L [E u m]]; rewrite /g E.
exists ([:: n] :: flatten [seq [seq i :: p | p <- g i] | i <- iota I (n./2.+1 - I)]).
have E : partitions_gen fuel.+1 n I =
  rfoldl (fun acc i => rbind (rmap (fun ps => [seq i :: p | p <- ps]) (partitions_gen fuel (n - i) i))
     (fun y => Ok (acc ++ y))) [:: [:: n]] (iota I (n./2.+1 - I)).
  rewrite [LHS]/=; elim: (iota _ _) [:: [:: n]] => [|x l IHl] acc //=.
  by case: (partitions_gen _ _ _) => //= ps; rewrite IHl.
split.
- rewrite E (@rfoldl_app _ _ _ (fun i => [seq i :: p | p <- g i])) //.
  by move=> x /In_mem /gP[-> _ _].
- rewrite cons_uniq (@flatten_cons_uniq _ _ id) ?iota_uniq //.
    rewrite andbT; apply/negP => /flatten_mapP[i ii /mapP[p]].
    have [_ _ ->] := gP _ ii; by case: p => [|x p] //; rewrite /is_part.
  by move=> i /gP[].
move=> p; rewrite inE; apply/orP/idP => [[/eqP ->|]|].
- by rewrite /is_part /= In addn0 eqxx.
- case/flatten_mapP=> i ii /mapP[q]; have [_ _ ->] := gP _ ii.
  case/and4P=> q0 sq aq /eqP sm ->; rewrite /is_part /= path_all_leq aq sq sm.
  move: ii; rewrite mem_iota => /andP[Ii ih]; rewrite Ii /=; apply/andP; split.
    by apply/allP => x /(allP aq); exact: leq_trans.
  by apply/eqP; lia.
case: p => [|i p] //; rewrite /is_part /= => /and3P[+ /andP[Ii al] /eqP sm].
rewrite path_all_leq => /andP[aq sq].
case: (altP (p =P [::])) => [pE|p0].
  by left; move: sm; rewrite pE /= addn0 => ->.
have ge := part_sum_ge p0 aq.
have ii : i \in iota I (n./2.+1 - I) by rewrite mem_iota; lia.
right; apply/flatten_mapP; exists i => //; apply/mapP; exists p => //.
have [_ _ ->] := gP _ ii; rewrite /is_part p0 sq aq /=; apply/eqP; lia.
Qed.

Lemma partitions_top_spec fuel n : n < fuel ->
  exists L, [/\ partitions_gen fuel n 1 = Ok L, uniq L &
    forall p, (p \in L) = if n == 0 then p == [:: 0] else is_part 1 n p].
Proof.
case: n => [|n] fu.
  by case: fuel fu => // fuel _; exists [:: [:: 0]]; split=> // p; rewrite inE.
by have [|||L [E u m]] := @partitions_gen_spec fuel n.+1 1; rewrite ?addn1 //; [lia|exists L].
Qed.

(* from a partition to its state type and back *)
Definition to_type m (p : seq nat) := pad_zeros m (sort geq p).

Lemma filter_pos_id (p : seq nat) : all (leq 1) p -> [seq x <- p | 0 < x] = p.
Proof. by move=> /all_filterP. Qed.

Lemma geq_trans : transitive geq.
Proof. by move=> b a c /=; rewrite /geq /= => ab bc; exact: leq_trans bc ab. Qed.
Lemma geq_anti : antisymmetric geq.
Proof. by move=> a b; rewrite /geq /= andbC => /anti_leq. Qed.
Lemma geq_total : total geq.
Proof. by move=> a b; rewrite /geq /= leq_total. Qed.

Lemma to_type_inj m p q : all (leq 1) p -> all (leq 1) q -> sorted leq p -> sorted leq q ->
  to_type m p = to_type m q -> p = q.
Proof.
move=> p1 q1 sp sq /(congr1 (filter (fun x => 0 < x))).
rewrite !filter_cat !filter_nseq !cats0 !filter_pos_id ?all_sort //.
by move=> /(perm_sortP geq_total geq_trans geq_anti) /(sorted_eq leq_trans anti_leq sp sq).
Qed.

Lemma path_pad_zeros x p k : path geq x (p ++ nseq k 0) = path geq x p.
Proof.
rewrite cat_path; case: path => //=; elim: k (last x p) => [//|k IH] y /=.
by rewrite IH.
Qed.

Lemma sorted_pad_zeros p k : sorted geq (p ++ nseq k 0) = sorted geq p.
Proof.
case: p => [|x p] /=; last exact: path_pad_zeros.
by case: k => //= k; elim: k => //= k ->.
Qed.

Definition is_type m n (t : seq nat) := [&& size t == m, sorted geq t & sumn t == n].

Lemma sumn_sort (p : seq nat) : sumn (sort geq p) = sumn p.
Proof. by apply: perm_sumn; rewrite perm_sort. Qed.

Lemma to_typeP m n p : size p <= m -> sumn p = n -> is_type m n (to_type m p).
Proof.
move=> sz sm; rewrite /is_type /to_type /pad_zeros size_cat size_nseq size_sort subnKC //.
rewrite eqxx sorted_pad_zeros (sort_sorted geq_total) sumn_cat sumn_nseq sumn_sort sm.
by rewrite mul0n addn0 eqxx.
Qed.

Lemma sorted_geq_split (t : seq nat) : sorted geq t ->
  t = [seq x <- t | 0 < x] ++ nseq (size t - size [seq x <- t | 0 < x]) 0.
Proof.
elim: t => [//|x t IH] /= pt; case: (posnP x) => x0.
  have az : t = nseq (size t) 0.
    apply/all_pred1P; apply/allP => y yt /=.
    have /allP/(_ y yt) : all (geq x) t by apply: order_path_min pt => a b c; exact: geq_trans.
    by rewrite x0 /geq /= leqn0.
  by rewrite az filter_nseq /= size_nseq x0.
by rewrite /= subSS -IH //; exact: path_sorted pt.
Qed.

Lemma from_type m n t : 0 < n -> is_type m n t ->
  exists2 p, is_part 1 n p && (size p <= m) & t = to_type m p.
Proof.
move=> n0 /and3P[/eqP sz st /eqP sm].
set u := [seq x <- t | 0 < x]; have E := sorted_geq_split st; rewrite -/u in E.
have su : sumn u = n by rewrite -sm [in RHS]E sumn_cat sumn_nseq mul0n addn0.
have u1 : all (leq 1) u by exact: filter_all.
have szu : size u <= m by rewrite -sz size_filter count_size.
exists (sort leq u).
  rewrite size_sort szu andbT /is_part -size_eq0 size_sort size_eq0 (sort_sorted leq_total) all_sort u1.
  rewrite (perm_sumn (permEl (perm_sort leq u))) su eqxx !andbT.
  by apply: contraTneq n0 => u0; rewrite -su u0.
have -> : to_type m (sort leq u) = pad_zeros m u; last by rewrite /pad_zeros -sz -E.
rewrite /to_type; congr pad_zeros.
apply: (sorted_eq geq_trans geq_anti); first exact: sort_sorted geq_total _.
  by apply: sorted_filter st; exact: geq_trans.
by rewrite perm_sort perm_sort.
Qed.

Lemma types_foldE m acc ps :
  foldl (fun acc p => if m < size p then acc else rcons acc (sort geq p)) acc ps
  = acc ++ [seq sort geq p | p <- ps & size p <= m].
Proof.
elim: ps acc => [|p ps IH] acc /=; first by rewrite cats0.
case: (ltnP m (size p)) => _ /=; by rewrite IH ?cat_rcons.
Qed.

Definition types_of m (ps : seq (seq nat)) := [seq to_type m p | p <- ps & size p <= m].

Lemma types_ofP m n L : 0 < m -> uniq L ->
  (forall p, (p \in L) = if n == 0 then p == [:: 0] else is_part 1 n p) ->
  uniq (types_of m L) /\ forall t, (t \in types_of m L) = is_type m n t.
Proof.
move=> m0 u mem; split.
  rewrite map_inj_in_uniq ?filter_uniq // => p q.
  rewrite !mem_filter !mem => /andP[_ hp] /andP[_ hq].
  case: eqP hp hq => [_ /eqP -> /eqP -> //|n0].
  by move=> /and4P[_ sp ap _] /and4P[_ sq aq _]; exact: to_type_inj.
move=> t; apply/mapP/idP => [[p]|ht].
  rewrite mem_filter mem => /andP[sz hp] ->; apply: to_typeP => //.
  by case: eqP hp => [-> /eqP -> //|_ /and4P[_ _ _ /eqP]].
case: (posnP n) => n0.
  exists [:: 0]; first by rewrite mem_filter mem n0 /= m0.
  move: ht; rewrite n0 => /and3P[/eqP sz _ sm].
  have -> : t = nseq m 0 by rewrite -sz; apply/natnseq0P.
  by rewrite /to_type /pad_zeros; case: (m) m0 => // m' _ /=; rewrite subSS subn0.
have [p /andP[hp sz] ->] := from_type n0 ht; exists p => //.
by rewrite mem_filter sz mem gtn_eqF.
Qed.

(* the list of partitions of the code, as a function (for use in sums) *)
Definition plist (n : nat) : seq (seq nat) :=
  if partitions_gen n.+1 n 1 is Ok L then L else [::].

Lemma partitions_gen_mono fuel fuel' n I L : partitions_gen fuel n I = Ok L -> fuel <= fuel' ->
  partitions_gen fuel' n I = Ok L.
Proof.
elim: fuel fuel' n I L => [//|fuel IH] [//|fuel'] n I L /= + le.
elim: (iota _ _) [:: [:: n]] => [//|i l IHl] acc /=.
case E : (partitions_gen fuel (n - i) i) => [ps|e] //=.
by rewrite (IH _ _ _ _ E le) /= => /IHl.
Qed.

Lemma plistE fuel n : n < fuel -> partitions_gen fuel n 1 = Ok (plist n).
Proof.
move=> le; have [L [E _ _]] := partitions_top_spec (ltnSn n).
by rewrite /plist E; apply: partitions_gen_mono E le.
Qed.

Lemma plistP n : uniq (plist n) /\
  forall p, (p \in plist n) = if n == 0 then p == [:: 0] else is_part 1 n p.
Proof. by have [L [E u m]] := partitions_top_spec (ltnSn n); rewrite /plist E. Qed.

Definition types m n : seq (seq nat) := types_of m (plist n).
Definition lossy_types m n : seq (seq nat) :=
  types m n ++ flatten [seq types m i | i <- iota 0 n].

Lemma gen_typesE fuel m n losses : n < fuel ->
  generate_state_types fuel m n losses = Ok (if losses then lossy_types m n else types m n).
Proof.
move=> fu; rewrite /generate_state_types plistE // [rbind _ _]/=.
case: losses.
  rewrite (@rfoldl_app _ _ _ plist); last first.
    by move=> x /In_mem; rewrite mem_iota add0n => /andP[_ xn]; rewrite plistE // (ltn_trans xn).
  rewrite /= types_foldE cat0s -map_comp; congr Ok.
  rewrite filter_cat map_cat; congr cat.
  elim: (iota _ _) => [//|i l IH] /=; by rewrite filter_cat map_cat IH.
by rewrite /= types_foldE cat0s -map_comp.
Qed.

Lemma mem_types m n t : 0 < m -> (t \in types m n) = is_type m n t.
Proof. by move=> m0; have [u mem] := plistP n; have [_ ->] := types_ofP m0 u mem. Qed.

Lemma types_uniq m n : 0 < m -> uniq (types m n).
Proof. by move=> m0; have [u mem] := plistP n; have [-> _] := types_ofP m0 u mem. Qed.

Lemma mem_lossy_types m n t : 0 < m ->
  (t \in lossy_types m n) = [&& size t == m, sorted geq t & sumn t <= n].
Proof.
move=> m0; rewrite mem_cat mem_types //.
apply/orP/idP => [[/and3P[-> -> /eqP ->]|/flatten_mapP[i]]|/and3P[sz so]].
  by rewrite leqnn.
  by rewrite mem_iota add0n mem_types // => /andP[_ /ltnW le] /and3P[-> -> /eqP ->].
rewrite leq_eqVlt => /orP[sm|lt]; first by left; rewrite /is_type sz so.
by right; apply/flatten_mapP; exists (sumn t); rewrite ?mem_iota ?mem_types // /is_type sz so /=.
Qed.

Lemma uniq_flatten_key (T K : eqType) (key : T -> K) (F : K -> seq T) (l : seq K) :
  uniq l -> (forall k, k \in l -> uniq (F k)) ->
  (forall k x, k \in l -> x \in F k -> key x = k) -> uniq (flatten (map F l)).
Proof.
elim: l => [//|k l IH] /= /andP[kl ul] uF kF.
rewrite cat_uniq uF ?inE ?eqxx // IH //=; last 2 first.
- by move=> j jl; apply: uF; rewrite inE jl orbT.
- by move=> j x jl; apply: kF; rewrite inE jl orbT.
rewrite andbT; apply/hasPn => x /flatten_mapP[j jl xj]; apply/negP => xk.
have E1 : key x = k by apply: kF; rewrite ?inE ?eqxx.
have E2 : key x = j by apply: kF; rewrite ?inE ?jl ?orbT.
by rewrite -E1 E2 jl in kl.
Qed.

Lemma lossy_types_uniq m n : 0 < m -> uniq (lossy_types m n).
Proof.
move=> m0; rewrite cat_uniq types_uniq //=; apply/andP; split.
  apply/hasPn => t /flatten_mapP[i]; rewrite mem_iota add0n !mem_types // => /andP[_ lt].
  case/and3P=> _ _ /eqP sm; change (t \notin types m n).
  by rewrite mem_types // /is_type sm (ltn_eqF lt) !andbF.
apply: (@uniq_flatten_key _ _ sumn); first exact: iota_uniq.
  by move=> i _; exact: types_uniq.
by move=> i t _; rewrite mem_types // => /and3P[_ _ /eqP].
Qed.
