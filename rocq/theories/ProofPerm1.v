(* Guan codes: the trace of _update_guan_code. *)
From mathcomp Require Import all_ssreflect all_algebra zify.
From Verif Require Import Base SpecStates Combi SpecPerm PermMath ModelPerm.
Set Implicit Arguments.
Unset Strict Implicit.
Unset Printing Implicit Defensive.
Import GRing.Theory Num.Theory.
Local Open Scope nat_scope.

Definition sgn (b : bool) : int := if b then 1%R else (-1)%R.

(* structural version of one code update; stopped when the index is size r *)
Fixpoint gstep (s r : seq nat) (d : seq bool) : nat * seq nat * seq bool :=
  match s, r, d with
  | x :: s', a :: r', b :: d' =>
      if (if b then a < x else 0 < a) then (0, (if b then a.+1 else a.-1) :: r', b :: d')
      else let: (i, r'', d'') := gstep s' r' d' in (i.+1, a :: r'', ~~ b :: d'')
  | _, _, _ => (0, r, d)
  end.

Lemma gstep_ind (P : seq nat -> seq nat -> seq bool -> Prop) :
  P [::] [::] [::] ->
  (forall x s a r b d, size r = size s -> size d = size s -> P s r d -> P (x :: s) (a :: r) (b :: d)) ->
  forall s r d, size r = size s -> size d = size s -> P s r d.
Proof.
move=> P0 PS; elim=> [|x s IH] [|a r] [|b d] //= [sr] [sd].
by apply: PS => //; apply: IH.
Qed.

Lemma gstep_size s r d : size r = size s -> size d = size s ->
  let: (i, r', d') := gstep s r d in [/\ i <= size s, size r' = size s & size d' = size s].
Proof.
move: s r d; apply: gstep_ind => // x s a r b d sr sd /=.
case: ifP => _; first by rewrite /= sr sd.
by case: (gstep s r d) => -[i r'] d' [le e1 e2] /=; rewrite e1 e2.
Qed.

(* what a step does *)
Lemma gstep_move s r d : size r = size s -> size d = size s -> substate r s ->
  let: (i, r', d') := gstep s r d in
  if i == size s then r' = r
  else [/\ substate r' s, i < size s & (nth 0 r i < nth 0 s i /\ r' = incr r i)
                        \/ (0 < nth 0 r i /\ r' = decr r i)].
Proof.
move: s r d; apply: gstep_ind => // x s a r b d sr sd IH; rewrite substate_cons => /andP[ax rs] /=.
case: ifP => H.
  rewrite substate_cons rs andbT; split=> //; first by case: b H; lia.
  rewrite incr0 decr0; case: b H => H; [left|right]; by split.
case: (gstep s r d) (IH rs) => -[i r'] d' /=; rewrite eqSS; case: eqP => [_ ->//|_] [rs' il H1].
rewrite substate_cons ax rs' incr_cons decr_cons ltnS il; split=> //.
by case: H1 => -[l ->]; [left|right].
Qed.

Lemma guan_guard x a b : a <= x -> ((Posz x < Posz a + sgn b) || (Posz a + sgn b < 0))%R =
  ~~ (if b then a < x else 0 < a).
Proof. by case: b; rewrite /sgn /=; lia. Qed.

Lemma guan_value x a b : (if b then a < x else 0 < a) ->
  (Posz a + sgn b)%R = Posz (if b then a.+1 else a.-1).
Proof. by case: b; rewrite /sgn /=; lia. Qed.

Lemma sgnN b : (- sgn b)%R = sgn (~~ b).
Proof. by case: b. Qed.

Lemma guan_scanE s r d (ps : seq int) (pr : seq int) (pu : seq int) (last : int) fuel x a b :
  size r = size s -> size d = size s -> size ps = size pr -> size pu = size pr ->
  size s < fuel -> substate r s -> a <= x ->
  guan_scan fuel (Guan (pr ++ map Posz (a :: r)) (pu ++ map sgn (b :: d))
      (ps ++ map Posz (x :: s)) (size pr) last) (Posz a + sgn b)%R =
  let: (i, r', d') := gstep (x :: s) (a :: r) (b :: d) in
  Ok (Guan (pr ++ map Posz r') (pu ++ map sgn d') (ps ++ map Posz (x :: s)) (size pr + i)
     (if i == (size s).+1 then last else Posz (nth 0 (a :: r) i))).
Proof.
elim: s r d ps pr pu fuel x a b => [|y s IH] r d ps pr pu fuel x a b sr sd sps spu fu rs ax.
  case: r sr rs => // _ _; case: d sd => // _; case: fuel fu => // fuel _ /=.
  rewrite py_get_cat ?sps //= guan_guard //.
  case H2: (if b then a < x else 0 < a) => /=; last first.
    rewrite py_get_cat ?spu //= py_set_cat ?spu //= size_cat /= addn1 eqxx.
    by rewrite sgnN.
  by rewrite py_get_cat //= py_set_cat //= addn0 (guan_value H2).
case: r sr rs => // a' r [sr]; rewrite substate_cons => /andP[ay rs]; case: d sd => // b' d [sd]; case: fuel fu => // fuel fu.
rewrite [guan_scan _ _ _]/= py_get_cat ?sps //= guan_guard //.
case H2: (if b then a < x else 0 < a) => /=; first by rewrite py_get_cat //= py_set_cat //= addn0 (guan_value H2).
rewrite py_get_cat ?spu //= py_set_cat ?spu //= ifF; last by rewrite size_cat /=; lia.
have E1 : pr ++ Posz a :: Posz a' :: map Posz r = rcons pr (Posz a) ++ map Posz (a' :: r).
  by rewrite cat_rcons.
have E2 : pu ++ (- sgn b)%R :: sgn b' :: map sgn d = rcons pu (- sgn b)%R ++ map sgn (b' :: d).
  by rewrite cat_rcons.
have E3 : ps ++ Posz x :: Posz y :: map Posz s = rcons ps (Posz x) ++ map Posz (y :: s).
  by rewrite cat_rcons.
have H := IH r d (rcons ps (Posz x)) (rcons pr (Posz a)) (rcons pu (- sgn b)%R) fuel y a' b'.
rewrite E1 E2 E3 py_get_cat ?size_rcons //= py_get_cat ?size_rcons ?spu //=.
rewrite !size_rcons sps spu /= in H; rewrite H //.
case: (if _ then _ else _) => -[i r'] d'; rewrite !cat_rcons !eqSS addSnnS.
by rewrite sgnN.
Qed.

Definition gstate (s r : seq nat) (d : seq bool) idx last :=
  Guan (map Posz r) (map sgn d) (map Posz s) idx last.

Lemma update_guan_codeE s r d idx last : s != [::] -> size r = size s -> size d = size s ->
  substate r s ->
  update_guan_code (gstate s r d idx last) =
  let: (i, r', d') := gstep s r d in
  Ok (gstate s r' d' i (if i == size s then last else Posz (nth 0 r i))).
Proof.
case: s r d => [//|x s] [//|a r] [//|b d] _ [sr] [sd]; rewrite substate_cons => /andP[ax rs].
have := @guan_scanE s r d [::] [::] [::] last (size (map Posz (a :: r))) x a b sr sd erefl erefl.
by rewrite !cat0s => <- //; rewrite size_map /= sr.
Qed.

(* the codes visited after the current one *)
Inductive run (s : seq nat) : seq nat -> seq bool -> seq (seq nat) -> Prop :=
  | run_stop r d : (gstep s r d).1.1 = size s -> run s r d [::]
  | run_step r d i r' d' l : gstep s r d = (i, r', d') -> i != size s -> run s r' d' l ->
      run s r d (r' :: l).

Definition sweep (x : nat) (b : bool) (r : seq nat) : seq (seq nat) :=
  let l := [seq a :: r | a <- iota 0 x.+1] in if b then l else rev l.

Fixpoint sweeps x b (l : seq (seq nat)) : seq (seq nat) :=
  if l is r :: l' then sweep x b r ++ sweeps x (~~ b) l' else [::].

Lemma behead_sweep x b r : sweep x b r = ((if b then 0 else x) :: r) :: behead (sweep x b r).
Proof. by case: b => //; rewrite /sweep -addn1 iotaD map_cat rev_cat add0n. Qed.

Lemma run_up x s r d a k l : a + k = x ->
  run (x :: s) (x :: r) (true :: d) l ->
  run (x :: s) (a :: r) (true :: d) ([seq y :: r | y <- iota a.+1 k] ++ l).
Proof.
elim: k a => [|k IH] a; first by rewrite addn0 => ->.
move=> E R; rewrite [iota _ _]/= map_cons cat_cons.
apply: (@run_step _ _ _ 0 (a.+1 :: r) (true :: d)) => //; last by apply: IH => //; lia.
by rewrite /= ifT //; lia.
Qed.

Lemma run_down x s r d k l :
  run (x :: s) (0 :: r) (false :: d) l ->
  run (x :: s) (k :: r) (false :: d) (rev [seq y :: r | y <- iota 0 k] ++ l).
Proof.
elim: k => [|k IH] // R.
rewrite -addn1 iotaD map_cat rev_cat add0n [map _ (iota k 1)]/= rev_cons cat_rcons addn1.
by apply: (@run_step _ _ _ 0 (k :: r) (false :: d)) => //; exact: IH.
Qed.

Lemma run_sweep x s r d b l :
  run (x :: s) ((if b then x else 0) :: r) (b :: d) l ->
  run (x :: s) ((if b then 0 else x) :: r) (b :: d) (behead (sweep x b r) ++ l).
Proof.
case: b => R; first by rewrite /sweep /=; apply: run_up.
have -> : behead (sweep x false r) = rev [seq y :: r | y <- iota 0 x].
  by rewrite /sweep -addn1 iotaD map_cat rev_cat add0n.
exact: run_down.
Qed.

Lemma run_sweeps x s r d l b : run s r d l ->
  run (x :: s) ((if b then 0 else x) :: r) (b :: d) (behead (sweeps x b (r :: l))).
Proof.
move=> R; elim: R b => {r d l} [r d E|r d i r' d' l E ne R IH] b.
  rewrite /= cats0 -[behead _]cats0; apply: run_sweep; apply: run_stop => /=.
  rewrite ifF; last by case: (b); rewrite ?ltnn.
  by case: (gstep s r d) E => -[i r'] d' /= ->.
rewrite -[sweeps _ _ _]/(sweep x b r ++ sweeps x (~~ b) (r' :: l)).
have -> A : behead (sweep x b r ++ A) = behead (sweep x b r) ++ A by rewrite behead_sweep.
apply: run_sweep.
have -> : sweeps x (~~ b) (r' :: l) =
  ((if ~~ b then 0 else x) :: r') :: behead (sweeps x (~~ b) (r' :: l)).
  by rewrite /= behead_sweep.
apply: (@run_step _ _ _ i.+1 _ (~~ b :: d')); last exact: IH.
  rewrite /= ifF; last by case: (b); rewrite ?ltnn.
  by rewrite E; case: (b).
by rewrite /= eqSS.
Qed.

(* all codes, in the order of the iteration *)
Fixpoint codes (s : seq nat) : seq (seq nat) :=
  if s is x :: s' then sweeps x true (codes s') else [:: [::]].

Lemma codes_head s : codes s = nseq (size s) 0 :: behead (codes s).
Proof.
elim: s => [//|x s IH] /=; rewrite IH.
by rewrite -[sweeps _ _ _]/(sweep x true (nseq (size s) 0) ++ _) behead_sweep.
Qed.

Lemma run_codes s : run s (nseq (size s) 0) (nseq (size s) true) (behead (codes s)).
Proof.
elim: s => [|x s IH]; first exact: run_stop.
by rewrite /= codes_head; apply: (@run_sweeps x s _ _ _ true).
Qed.

Lemma perm_sweeps x b l : perm_eq (sweeps x b l) (flatten [seq sweep x true r | r <- l]).
Proof.
elim: l b => [//|r l IH] b.
rewrite -[sweeps _ _ _]/(sweep x b r ++ sweeps x (~~ b) l) map_cons.
rewrite -[flatten _]/(sweep x true r ++ flatten [seq sweep x true r | r <- l]).
apply: perm_cat; last exact: IH.
by case: b => //; rewrite /sweep perm_rev.
Qed.

Lemma perm_codes s : perm_eq (codes s) (subs s).
Proof.
apply: uniq_perm; last first.
- move=> r; rewrite mem_subs; elim: s r => [|x s IH] r.
    by case: r => // a r; rewrite /substate /= inE.
  rewrite /= (perm_mem (perm_sweeps _ _ _)).
  apply/flattenP/idP => [[k /mapP[r' r'c ->]]|].
    rewrite /sweep => /mapP[a]; rewrite mem_iota add0n => al ->.
    by rewrite substate_cons -IH r'c andbT; lia.
  case: r => [|a r]; first by rewrite /substate.
  rewrite substate_cons => /andP[ax rs]; exists (sweep x true r).
    by apply/mapP; exists r; rewrite ?IH.
  by apply/mapP; exists a; rewrite // mem_iota; lia.
- exact: subs_uniq.
elim: s => [//|x s IH] /=; rewrite (perm_uniq (perm_sweeps _ _ _)).
elim: (codes s) IH => [//|r l IHl] /andP[rl ul].
rewrite map_cons -[flatten _]/(sweep x true r ++ flatten [seq sweep x true r | r <- l]).
rewrite cat_uniq IHl // andbT; apply/andP; split.
  by rewrite map_inj_uniq ?iota_uniq // => a b [].
apply/hasPn => q /flattenP[k /mapP[r' r'l ->]] /mapP[a al ->].
change (a :: r' \notin sweep x true r).
apply/negP => /mapP[b bl [_ E]]; by rewrite -E r'l in rl.
Qed.

Lemma size_codes s : size (codes s) = \prod_(x <- s) x.+1.
Proof. by rewrite (perm_size (perm_codes s)) size_subs. Qed.

Lemma run_iterate s r d l idx last fuel : s != [::] -> size r = size s -> size d = size s ->
  substate r s -> run s r d l -> size l < fuel ->
  guan_iterate fuel (gstate s r d idx last) = Ok (map (map Posz) l).
Proof.
move=> s0 sr sd rs R; elim: R idx last fuel sr sd rs => {r d l} [r d E|r d i r' d' l E ne R IH]
   idx last [//|fuel] sr sd rs /= lf.
  rewrite update_guan_codeE //; have := gstep_size sr sd.
  by case: (gstep s r d) E => -[i r'] d' /= -> [_ sr' sd']; rewrite size_map sr' eqxx.
rewrite update_guan_codeE //; have := gstep_size sr sd; have := gstep_move sr sd rs.
rewrite E (negPf ne) => -[rs' _ _] [_ sr' sd'] /=; rewrite size_map sr' (negPf ne) IH //.
Qed.

Lemma run_unit s r d l : size r = size s -> size d = size s -> substate r s -> run s r d l ->
  unit_steps (r :: l).
Proof.
move=> sr sd rs R; elim: R sr sd rs => {r d l} [//|r d i r' d' l E ne R IH] sr sd rs.
have := gstep_move sr sd rs; have := gstep_size sr sd; rewrite E (negPf ne) => -[_ sr' sd'].
case=> rs' il H; split; last exact: IH.
exists i; have ir : i < size r by rewrite sr.
have sz : size r' = size r by rewrite sr' sr.
split=> // [j /negPf nj|]; case: H => -[l1 E'].
- by rewrite E' nth_incr nj.
- by rewrite E' nth_decr nj.
- by left; rewrite E' nth_incr eqxx.
- by right; rewrite E' nth_decr eqxx prednK.
Qed.
