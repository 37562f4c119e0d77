(* Proofs about the representation changes (C01, C02). *)
From mathcomp Require Import all_ssreflect all_algebra zify.
From Verif Require Import Base SpecStates ModelStates.
Set Implicit Arguments.
Unset Strict Implicit.
Unset Printing Implicit Defensive.
Local Open Scope nat_scope.

Definition in_range (M : nat) (x : int) : bool := (- Posz M <= x < Posz M)%R.
Definition wrap (M : nat) (x : int) : nat :=
  match x with Posz k => k | Negz k => M - k.+1 end.

Lemma in_rangeP M x : py_index M x = if in_range M x then Ok (wrap M x) else Err IndexError.
Proof.
rewrite /py_index /in_range /wrap; case: x => k.
  by have -> : (- Posz M <= Posz k < Posz M)%R = (k < M) by lia.
by have -> : (- Posz M <= Negz k < Posz M)%R = (k < M) by lia.
Qed.

Lemma wrap_lt M x : in_range M x -> wrap M x < M.
Proof. by rewrite /in_range /wrap; case: x => k; lia. Qed.

Lemma py_get_wrap (A : Type) (x0 : A) (l : seq A) i : in_range (size l) i ->
  py_get l i = Ok (nth x0 l (wrap (size l) i)).
Proof.
move=> ir; rewrite /py_get in_rangeP ir /= (drop_nth x0) //; exact: wrap_lt.
Qed.

Lemma py_set_wrap (A : Type) (x0 : A) (l : seq A) i v : in_range (size l) i ->
  py_set l i v = Ok (set_nth x0 l (wrap (size l) i) v).
Proof.
move=> ir; rewrite -(py_set_nth x0) ?wrap_lt //.
by rewrite /py_set in_rangeP ir /= wrap_lt.
Qed.

Lemma py_get_out (A : Type) (l : seq A) i : ~~ in_range (size l) i -> py_get l i = Err IndexError.
Proof. by move=> /negPf ir; rewrite /py_get in_rangeP ir. Qed.

Lemma incr_atE occ i : incr_at occ i =
  if in_range (size occ) i then
    Ok [seq nth 0 occ j + (wrap (size occ) i == j) | j <- iota 0 (size occ)]
  else Err IndexError.
Proof.
rewrite /incr_at; case: ifPn => [ir|/py_get_out -> //].
rewrite (py_get_wrap 0 ir) /= (py_set_wrap 0 _ ir); congr Ok.
have lt := wrap_lt ir.
apply: (@eq_from_nth _ 0).
  by rewrite size_set_nth size_map size_iota; apply/maxn_idPr.
move=> j; rewrite size_set_nth (maxn_idPr lt) => jlt.
rewrite (nth_map 0) ?size_iota // nth_iota // add0n nth_set_nth /= eq_sym.
by case: eqP => [<-|]; rewrite ?addn1 ?addn0.
Qed.

Lemma rfoldl_incr occ a : rfoldl incr_at occ a =
  if all (in_range (size occ)) a then
    Ok [seq nth 0 occ j + count (fun x => wrap (size occ) x == j) a | j <- iota 0 (size occ)]
  else Err IndexError.
Proof.
elim: a occ => [|x a IH] occ /=.
  congr Ok; apply: (@eq_from_nth _ 0); first by rewrite size_map size_iota.
  by move=> j jl; rewrite (nth_map 0) ?size_iota // nth_iota // addn0.
rewrite incr_atE; case: ifP => //= ir.
rewrite IH size_map size_iota; case: ifP => // _; congr Ok.
apply/eq_in_map => j; rewrite mem_iota add0n => /andP[_ jl].
by rewrite (nth_map 0) ?size_iota // nth_iota // add0n addnA.
Qed.

Lemma assignment_to_occupationE a M : 0 < M ->
  mode_assignment_to_mode_occupation a (Posz M) =
  if all (in_range M) a then
    Ok [seq count (fun x => wrap M x == j) a | j <- iota 0 M]
  else Err IndexError.
Proof.
move=> M0; rewrite /mode_assignment_to_mode_occupation.
have -> : (Posz M == 0%R) = false by lia.
rewrite /= rfoldl_incr size_map size_iota; case: ifP => // _; congr Ok.
apply/eq_in_map => j; rewrite mem_iota add0n => /andP[_ jl].
by rewrite (nth_map 0) ?size_iota.
Qed.

Lemma assignment_to_occupation_nat a M : 0 < M -> all (fun i => i < M) a ->
  mode_assignment_to_mode_occupation (map Posz a) (Posz M) = Ok (occupation M a).
Proof.
move=> M0 aM; rewrite assignment_to_occupationE //.
have -> : all (in_range M) (map Posz a).
  apply/allP => x /mapP[k /(allP aM) kM ->]; rewrite /in_range; lia.
congr Ok; apply/eq_map => j; rewrite count_map; exact: eq_count.
Qed.

Lemma py_max_spec a x : x \in a -> (forall y, y \in a -> (y <= x)%R) -> py_max a = Ok x.
Proof.
case: a => [//|y a] xa mx; rewrite /py_max; congr Ok.
have: (y <= x)%R by apply: mx; rewrite inE eqxx.
have: (x == y) || (x \in a) by rewrite -in_cons.
have: forall z, z \in a -> (z <= x)%R by move=> z za; apply: mx; rewrite inE za orbT.
clear mx xa; elim: a y => [|z a IH] y /=.
  by move=> _; rewrite orbF => /eqP ->.
move=> mx xa yx; have zx : (z <= x)%R by apply: mx; rewrite inE eqxx.
apply: IH.
- by move=> w wa; apply: mx; rewrite inE wa orbT.
- case/orP: xa => [/eqP E|]; last by rewrite inE => /orP[/eqP E|->]; rewrite ?orbT //; apply/orP; left; lia.
  by apply/orP; left; lia.
- lia.
Qed.

Lemma assignment_default_modes a x : x \in a -> (forall y, y \in a -> (y <= x)%R) ->
  (0 <= x)%R ->
  mode_assignment_to_mode_occupation a 0%R = mode_assignment_to_mode_occupation a (x + 1)%R.
Proof.
move=> xa mx x0; rewrite /mode_assignment_to_mode_occupation eqxx (py_max_spec xa mx) /=.
by have -> : ((x + 1)%R == 0%R) = false by lia.
Qed.

Lemma assignment_all_negative a : a != [::] -> all (fun x => x < 0)%R a ->
  mode_assignment_to_mode_occupation a 0%R = Err IndexError.
Proof.
case: a => [//|x a] _ neg; rewrite /mode_assignment_to_mode_occupation eqxx.
have: exists2 y, py_max (x :: a) = Ok y & (y < 0)%R.
  have: (x < 0)%R by case/andP: neg.
  case/andP: neg => _; rewrite /py_max; elim: a x => [|z a IH] x /=; first by exists x.
  by move=> /andP[z0 a0] x0; apply: IH => //; lia.
case=> y -> y0; rewrite /rbind /= -/(rbind _ _).
have -> : py_range (y + 1)%R = [::].
  rewrite /py_range; have: (y + 1 <= 0)%R by lia.
  by case: (y + 1)%R => [[|k]|].
rewrite -[LHS]/(rfoldl incr_at [::] (x :: a)) rfoldl_incr /=.
by have -> : in_range 0 x = false by rewrite /in_range; lia.
Qed.

Lemma assignment_empty : mode_assignment_to_mode_occupation [::] 0%R = Err ValueError.
Proof. by []. Qed.

Lemma assignment_negative_modes a m : (m < 0)%R ->
  mode_assignment_to_mode_occupation a m = if a is [::] then Ok [::] else Err IndexError.
Proof.
move=> m0; rewrite /mode_assignment_to_mode_occupation.
have -> : (m == 0%R) = false by lia.
case: m m0 => // k _; rewrite [rbind _ _]/= rfoldl_incr /=; case: a => [//|x a] /=.
by have -> : in_range 0 x = false by rewrite /in_range; lia.
Qed.

(* ---------------- occupation -> assignment ------------------------- *)

Lemma foldl_cat_nseq (T : Type) (i : T) k acc (l : seq nat) : size l = k ->
  foldl (fun acc' (_ : nat) => acc' ++ [:: i]) acc l = acc ++ nseq k i.
Proof.
elim: l k acc => [|x l IH] [|k] acc //=; first by rewrite cats0.
by case=> sz; rewrite (IH k) // -catA.
Qed.

Definition occ_nat (x : int) : nat := match x with Posz k => k | Negz _ => 0 end.

Lemma occupation_to_assignmentE s :
  mode_occupation_to_mode_assignment s =
  flatten [seq nseq (occ_nat (nth 0%R s i)) i | i <- iota 0 (size s)].
Proof.
rewrite /mode_occupation_to_mode_assignment.
suff H l acc : foldl (fun acc (i : nat) => foldl (fun acc' (_ : nat) => acc' ++ [:: i]) acc
     (py_range (nth 0%R s i))) acc l
  = acc ++ flatten [seq nseq (occ_nat (nth 0%R s i)) i | i <- l] by rewrite H.
elim: l acc => [|i l IH] acc /=; first by rewrite cats0.
rewrite IH (@foldl_cat_nseq _ _ (occ_nat (nth 0%R s i))) ?catA //.
by case: (nth _ _ _) => k; rewrite /= ?size_iota.
Qed.

Lemma count_mem_nseq (T : eqType) k (x y : T) : count_mem y (nseq k x) = (x == y) * k.
Proof. by rewrite count_nseq /=. Qed.

Lemma count_flat (f : nat -> nat) m j :
  count_mem j (flatten [seq nseq (f i) i | i <- iota 0 m]) = if j < m then f j else 0.
Proof.
suff H a : count_mem j (flatten [seq nseq (f i) i | i <- iota a m])
   = if a <= j < a + m then f j else 0 by rewrite H leq0n add0n.
elim: m a => [|m IH] a /=.
  by case: ifP => //; rewrite addn0 leqNgt => /andP[/negPf ->].
rewrite count_cat IH count_mem_nseq.
case: (ltngtP a j) => [lt|lt|->] /=.
- by rewrite addSnnS.
- by [].
- by rewrite addnS ltnS leq_addr addn0 mul1n.
Qed.

Lemma flat_bound (f : nat -> nat) m :
  all (fun i => i < m) (flatten [seq nseq (f i) i | i <- iota 0 m]).
Proof.
apply/allP => x /flattenP[l /mapP[i]]; rewrite mem_iota add0n => /andP[_ im] ->.
by rewrite mem_nseq => /andP[_ /eqP ->].
Qed.

Lemma flat_sorted (f : nat -> nat) m :
  sorted leq (flatten [seq nseq (f i) i | i <- iota 0 m]).
Proof.
suff H a : sorted leq (flatten [seq nseq (f i) i | i <- iota a m]) by [].
elim: m a => [|m IH] a //=.
rewrite (sorted_pairwise leq_trans) pairwise_cat -!(sorted_pairwise leq_trans) IH andbT.
apply/andP; split.
  apply/allrelP => x y; rewrite mem_nseq => /andP[_ /eqP ->] /flattenP[l /mapP[i]].
  by rewrite mem_iota => /andP[ai _] ->; rewrite mem_nseq => /andP[_ /eqP ->]; exact: ltnW.
elim: (f a) => [//|k IHk] /=; case: k IHk => [//|k] /= ->; by rewrite leqnn.
Qed.

Lemma assign_nat (s : seq nat) :
  mode_occupation_to_mode_assignment (map Posz s) =
  flatten [seq nseq (nth 0 s i) i | i <- iota 0 (size s)].
Proof.
rewrite occupation_to_assignmentE size_map; congr flatten.
apply/eq_in_map => i; rewrite mem_iota add0n => /andP[_ il].
by rewrite (nth_map 0).
Qed.

Lemma occ_assign_count (s : seq nat) i :
  count_mem i (mode_occupation_to_mode_assignment (map Posz s)) = nth 0 s i.
Proof.
rewrite assign_nat count_flat; case: ltnP => // le; by rewrite nth_default.
Qed.

Lemma occ_assign_sorted (s : seq nat) :
  sorted leq (mode_occupation_to_mode_assignment (map Posz s)).
Proof. by rewrite assign_nat flat_sorted. Qed.

Lemma occ_assign_roundtrip (s : seq nat) : s != [::] ->
  mode_assignment_to_mode_occupation
    (map Posz (mode_occupation_to_mode_assignment (map Posz s))) (Posz (size s)) = Ok s.
Proof.
move=> s0; rewrite assignment_to_occupation_nat ?assign_nat ?flat_bound //; last by case: s s0.
congr Ok; apply: (@eq_from_nth _ 0); first by rewrite size_map size_iota.
move=> i; rewrite size_map size_iota => il.
by rewrite (nth_map 0) ?size_iota // nth_iota // add0n count_flat il.
Qed.

(* assignment -> occupation -> assignment sorts the assignment *)
Lemma assign_occ_roundtrip (a : seq nat) M : 0 < M -> all (fun i => i < M) a ->
  rmap (fun s => mode_occupation_to_mode_assignment (map Posz s))
    (mode_assignment_to_mode_occupation (map Posz a) (Posz M)) = Ok (sort leq a).
Proof.
move=> M0 aM; rewrite assignment_to_occupation_nat //=; congr Ok.
rewrite assign_nat; apply: (sorted_eq leq_trans anti_leq).
- exact: flat_sorted.
- exact: (sort_sorted leq_total).
apply/permP => p.
have cnt : forall j, count_mem j (flatten [seq nseq (nth 0 (occupation M a) i) i
     | i <- iota 0 (size (occupation M a))]) = count_mem j a.
  move=> j; rewrite count_flat size_map size_iota; case: ltnP => jM.
    by rewrite (nth_map 0) ?size_iota // nth_iota.
  apply/esym/count_memPn; apply/negP => /(allP aM); by rewrite ltnNge jM.
have pe : perm_eq (flatten [seq nseq (nth 0 (occupation M a) i) i
     | i <- iota 0 (size (occupation M a))]) a.
  by apply/allP => j _ /=; rewrite cnt.
by rewrite (permP pe) (permP (permEl (perm_sort leq a))).
Qed.
