(* Proofs about lossy inputs (C06). *)
From mathcomp Require Import all_ssreflect all_algebra zify.
From Verif Require Import Base SpecStates ModelStates Combi ProofStates1.
Set Implicit Arguments.
Unset Strict Implicit.
Unset Printing Implicit Defensive.
Local Open Scope nat_scope.

Lemma mem_combinations (T : eqType) (l : seq T) k c :
  (c \in combinations l k) = subseq c l && (size c == k).
Proof.
elim: l k c => [|x l IH] [|k] c.
- by rewrite /= inE; case: c.
- by rewrite /= in_nil; case: c.
- rewrite /= inE; case: c => [|y c] /=; rewrite ?andbF //; by case: ifP.
rewrite [combinations _ _]/= mem_cat IH; apply/orP/idP.
  case=> [/mapP[d]|]; first by rewrite IH => /andP[sd /eqP <-] ->; rewrite /= eqxx sd eqxx.
  case/andP=> sc ->; rewrite andbT; exact: subseq_trans sc (subseq_cons l x).
case: c => [|y c] /andP[] //=; case: (x =P y) => [<-|ne].
  rewrite eqxx eqSS => sc sz; left; apply/mapP; exists c => //; by rewrite IH sc sz.
by move=> sc ->; right; rewrite andbT; case: eqP sc => // E; rewrite E in ne.
Qed.

Definition flat_assign (s : seq nat) : seq nat :=
  flatten [seq nseq (nth 0 s i) i | i <- iota 0 (size s)].

Lemma foldl_flat (s l acc : seq nat) :
  foldl (fun acc i => acc ++ nseq (nth 0 s i) i) acc l
  = acc ++ flatten [seq nseq (nth 0 s i) i | i <- l].
Proof. by elim: l acc => [|i l IH] acc; rewrite /= ?cats0 // IH catA. Qed.

Lemma size_flat_assign s : size (flat_assign s) = sumn s.
Proof.
rewrite size_flatten /shape -map_comp; congr sumn.
apply: (@eq_from_nth _ 0); first by rewrite size_map size_iota.
move=> i; rewrite size_map size_iota => il.
by rewrite (nth_map 0) ?size_iota // nth_iota // add0n /= size_nseq.
Qed.

Lemma subseq_nseq_leq (T : eqType) (x : T) a b : a <= b -> subseq (nseq a x) (nseq b x).
Proof.
move=> le; rewrite -(subnK le) addnC nseqD; exact: prefix_subseq.
Qed.

Lemma subseq_flat_assign t s : substate t s -> subseq (flat_assign t) (flat_assign s).
Proof.
case/substateP=> sz le; rewrite /flat_assign sz.
elim: (iota _ _) => [//|i l IH] /=; apply: cat_subseq => //; exact: subseq_nseq_leq.
Qed.

Lemma count_flat_assign s i : count_mem i (flat_assign s) = nth 0 s i.
Proof. by rewrite /flat_assign -assign_nat occ_assign_count. Qed.

Lemma flat_assign_bound s : all (fun i => i < size s) (flat_assign s).
Proof. exact: flat_bound. Qed.

Lemma occupation_flat_assign s : occupation (size s) (flat_assign s) = s.
Proof.
apply: (@eq_from_nth _ 0); first by rewrite size_map size_iota.
move=> i; rewrite size_map size_iota => il.
by rewrite (nth_map 0) ?size_iota // nth_iota // add0n count_flat_assign.
Qed.

Lemma size_occupation m a : size (occupation m a) = m.
Proof. by rewrite size_map size_iota. Qed.

Lemma nth_occupation m a i : nth 0 (occupation m a) i = if i < m then count_mem i a else 0.
Proof.
case: ltnP => im; first by rewrite (nth_map 0) ?size_iota // nth_iota.
by rewrite nth_default // size_occupation.
Qed.

Lemma sumn_occupation m a : all (fun i => i < m) a -> sumn (occupation m a) = size a.
Proof.
move=> am; rewrite sumnE big_map.
have -> : iota 0 m = index_iota 0 m by rewrite /index_iota subn0.
rewrite big_mkord; elim: a am => [|x a IH] /=; first by rewrite big1.
case/andP=> xm am; rewrite big_split /= IH // -add1n; congr addn.
rewrite (bigD1 (Ordinal xm)) //= eqxx big1 ?addn0 // => i ne.
by apply/eqP; rewrite eqb0; apply: contra ne => /eqP E; apply/eqP/val_inj.
Qed.

Lemma occupation_substate s c : subseq c (flat_assign s) ->
  substate (occupation (size s) c) s /\ sumn (occupation (size s) c) = size c.
Proof.
move=> sc; split.
  apply/substateP; split; first exact: size_occupation.
  move=> i; rewrite nth_occupation; case: ifP => // _.
  rewrite -count_flat_assign; exact: leq_count_subseq.
apply: sumn_occupation; apply/allP => x /(mem_subseq sc) /(allP (flat_assign_bound s)) //.
Qed.

Lemma map_nth_subseq (T : Type) (x0 : T) (l : seq T) (c : seq nat) :
  all (fun i => i < size l) c -> rmapM (fun el => py_get l (Posz el)) c = Ok [seq nth x0 l i | i <- c].
Proof.
move=> cl; apply: rmapM_ok => i /(allP cl) il; exact: py_get_nth.
Qed.

Section Hash.
Variables (H : eqType) (hash : seq nat -> H).

Definition dedup_step (acc : seq (seq nat)) t :=
  if hash t \in map hash acc then acc else rcons acc t.

Lemma lossy_inputs_foldE s combs acc : 0 < sumn s ->
  all (fun c => subseq c (iota 0 (sumn s))) combs ->
  rfoldl (lossy_inputs_step hash (size s) (flat_assign s)) (acc, map hash acc) combs
  = let L := foldl dedup_step acc
       [seq occupation (size s) [seq nth 0 (flat_assign s) i | i <- c] | c <- combs] in
    Ok (L, map hash L).
Proof.
move=> s0; elim: combs acc => [|c combs IH] acc //= /andP[sc al].
have cb : all (fun i => i < size (flat_assign s)) c.
  by apply/allP => i /(mem_subseq sc); rewrite mem_iota size_flat_assign.
rewrite {1}/lossy_inputs_step (map_nth_subseq 0) // [rbind (Ok _) _]/=.
have m0 : 0 < size s by case: (s) s0.
rewrite assignment_to_occupation_nat //; last first.
  apply/allP => x /mapP[i ic ->]; apply: (allP (flat_assign_bound s)).
  by apply: mem_nth; apply: (allP cb).
set t := occupation _ _.
rewrite -[RHS](IH (dedup_step acc t) al) /dedup_step /=.
by case: (_ \in _); rewrite //= map_rcons.
Qed.

Lemma dedup_spec ts acc :
  uniq (map hash acc) ->
  let L := foldl dedup_step acc ts in
  [/\ uniq (map hash L), {subset L <= acc ++ ts} &
      forall t, t \in acc ++ ts -> hash t \in map hash L].
Proof.
elim: ts acc => [|t ts IH] acc ua /=.
  by split=> // [x|t]; rewrite cats0 // => ta; exact: map_f.
have ua' : uniq (map hash (dedup_step acc t)).
  by rewrite /dedup_step; case: ifPn => // h; rewrite map_rcons rcons_uniq h.
have [u sb cov] := IH _ ua'; split=> //.
  move=> x /sb; rewrite !mem_cat inE /dedup_step; case: ifP => _.
    by case/orP=> ->; rewrite ?orbT.
  by rewrite mem_rcons inE; case/orP=> [/orP[]|] ->; rewrite ?orbT.
move=> x; rewrite mem_cat inE /= => /orP[xa|/orP[/eqP ->|xt]].
- apply: cov; rewrite mem_cat /dedup_step; case: ifP; rewrite ?xa //.
  by rewrite mem_rcons inE xa orbT.
- case: (boolP (hash t \in map hash acc)) => h.
    have [y ya ->] : exists2 y, y \in acc & hash t = hash y by apply/mapP.
    by apply: cov; rewrite mem_cat /dedup_step h ya.
  apply: cov; by rewrite mem_cat /dedup_step (negPf h) mem_rcons inE eqxx.
- by apply: cov; rewrite mem_cat xt orbT.
Qed.

Lemma lossy_inputs_spec s k : 0 < sumn s ->
  exists L, [/\ generate_lossy_n_particle_input_states hash s (Posz k) = Ok L,
    uniq L,
    (forall t, t \in L -> substate t s /\ sumn t = k) &
    ((forall t t', substate t s -> substate t' s -> sumn t = k -> sumn t' = k ->
        hash t = hash t' -> t = t') ->
     forall t, substate t s -> sumn t = k -> t \in L)].
Proof.
move=> s0; rewrite /generate_lossy_n_particle_input_states foldl_flat cat0s -/(flat_assign s).
rewrite gtn_eqF //.
set combs := combinations _ _.
have al : all (fun c => subseq c (iota 0 (sumn s))) combs.
  by apply/allP => c; rewrite mem_combinations => /andP[].
have := @lossy_inputs_foldE s combs [::] s0 al; rewrite [map hash [::]]/= => ->.
set ts := [seq occupation _ _ | c <- combs]; set L := foldl _ _ _.
have [u sb cov] := @dedup_spec ts [::] isT; rewrite -/L in u sb cov.
have tsP t : t \in ts -> substate t s /\ sumn t = k.
  case/mapP=> c; rewrite mem_combinations => /andP[sc /eqP <-] ->.
  have sc' : subseq [seq nth 0 (flat_assign s) i | i <- c] (flat_assign s).
    rewrite -{2}[flat_assign s](mkseq_nth 0) /mkseq size_flat_assign.
    exact: map_subseq.
  by have [? ->] := occupation_substate sc'; rewrite size_map.
exists L; split=> //; first exact: map_uniq u.
  by move=> t /sb; rewrite cat0s; exact: tsP.
move=> inj t ts' tk.
have tin : t \in ts.
  have /subseqP[b sb' E] := subseq_flat_assign ts'.
  apply/mapP; exists (mask b (iota 0 (sumn s))).
    rewrite mem_combinations mask_subseq size_mask ?size_iota -?size_flat_assign //=.
    have: size (flat_assign t) = k by rewrite size_flat_assign.
    by rewrite E size_mask // => ->.
  rewrite map_mask -[in map _ _]size_flat_assign -/(mkseq _ _) mkseq_nth -E.
  by case/substateP: ts' => <- _; rewrite occupation_flat_assign.
have /mapP[t' t'L ht] : hash t \in map hash L by apply: cov; rewrite cat0s.
have [st' kt'] : substate t' s /\ sumn t' = k by apply: tsP; have := sb _ t'L; rewrite cat0s.
by rewrite (inj t t').
Qed.

Lemma lossy_inputs_vacuum s k : sumn s = 0 ->
  generate_lossy_n_particle_input_states hash s k = Ok [:: s].
Proof. by rewrite /generate_lossy_n_particle_input_states => ->. Qed.

Lemma lossy_inputs_negative s k : 0 < sumn s -> (k < 0)%R ->
  generate_lossy_n_particle_input_states hash s k = Err ValueError.
Proof.
by move=> s0 k0; rewrite /generate_lossy_n_particle_input_states gtn_eqF //; case: k k0.
Qed.

End Hash.
