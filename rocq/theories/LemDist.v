(* Final forms of the lemmas behind the property theorems: C21-C25 (exact distributions). *)
From mathcomp Require Import all_ssreflect all_algebra complex zify.
From Verif Require Import Base SpecStates Combi SpecPerm SpecBS BsComb BsNorm ModelStates LemStates ModelPerm ModelDist ProofDist1.
Set Implicit Arguments.
Unset Strict Implicit.
Unset Printing Implicit Defensive.
Import GRing.Theory Num.Theory.
Local Open Scope ring_scope.

Notation CF R := (ComplexField.complex_numFieldType R).

Lemma C21_fixed_loss_probabilities_lemma :
  forall (R : rcfType) (H : eqType) (hash : seq nat -> H) (gray : nat -> seq nat) (fuel m : nat)
    (U : seq (seq (ComplexField.complex_numFieldType R))) (s : seq nat) (eta : R)
    (lost : int) (l : nat) (a : any_calc (ComplexField.complex_numFieldType R)) (ts : seq (seq nat)),
  is_square m U -> size s = m -> (0 < m)%N -> gray_ok gray (sumn s) -> (\prod_(x <- s) x.+1 <= fuel)%N ->
  (forall t t', substate t s -> substate t' s -> hash t = hash t' -> t = t') ->
  (l <= sumn s)%N -> all (is_state m l) ts ->
  exists a', fixed_probabilities hash gray fuel (Config U s (sumn s) m lost l eta) a ts =
    Ok ([seq fixed_loss_prob U s t | t <- ts], a').
Proof.
by move=> R H hash gray fuel m U s eta lost l a ts sq ss m0 gr fu hi le al;
  apply: fixed_probabilitiesE al.
Qed.

Lemma C22_fixed_loss_distribution_lemma :
  forall (R : rcfType) (H : eqType) (hash : seq nat -> H) (gray : nat -> seq nat) (m : nat)
    (U : seq (seq (ComplexField.complex_numFieldType R))) (s : seq nat) (eta : R)
    (lost : int) (l : nat) (a : any_calc (ComplexField.complex_numFieldType R)),
  unitary m U -> size s = m -> (0 < m)%N -> gray_ok gray (sumn s) ->
  (forall t t', substate t s -> substate t' s -> hash t = hash t' -> t = t') ->
  (l <= sumn s)%N ->
  exists (L : seq (seq nat)) (f0 : nat), forall fuel, (f0 <= fuel)%N ->
  let cfg := Config U s (sumn s) m lost l eta in
  exists (P : seq R) a',
  [/\ fixed_outcomes fuel cfg = Ok L, fixed_distribution hash gray fuel cfg a = Ok (P, a'),
      P = [seq fixed_loss_prob U s t | t <- L] /\ (uniq L /\ L =i is_state m l),
      forall p, p \in P -> 0 <= p & \sum_(p <- P) p = 1].
Proof.
move=> R H hash gray m U s eta lost l a u ss m0 gr hi le.
have [L [[f0 E] mL sL]] := C03_lemma l m0.
exists L, (maxn f0 (\prod_(x <- s) x.+1)) => fuel; rewrite geq_max => /andP[f1 f2] cfg.
have E1 : fixed_outcomes fuel cfg = Ok L by exact: E.
have al : all (is_state m l) L by apply/allP => t; rewrite mL.
have [sq _] := u.
have [a' E2] := fixed_distributionE sq ss m0 gr f2 hi a (cfg := cfg) erefl erefl erefl erefl erefl le E1 al.
have uL : uniq L by apply: (sorted_uniq _ _ sL); [exact: lexgt_trans|exact: lexgt_irr].
exists [seq fixed_loss_prob U s t | t <- L], a'; split=> //.
- by move=> p /mapP[t _ ->]; exact: fixed_loss_prob_ge0.
rewrite big_map -(@fixed_loss_norm _ m U s l) //; last by apply: unitaryW; rewrite ?ss.
by apply: perm_big; apply: uniq_perm; rewrite ?comps_uniq // => t; rewrite mL mem_comps.
Qed.

Lemma C23_uniform_loss_probabilities_lemma :
  forall (R : rcfType) (H : eqType) (hash : seq nat -> H) (gray : nat -> seq nat) (fuel m : nat)
    (U : seq (seq (ComplexField.complex_numFieldType R))) (s : seq nat) (eta : R)
    (lost : int) (left : nat) (a : any_calc (ComplexField.complex_numFieldType R)) (ts : seq (seq nat)),
  is_square m U -> size s = m -> (0 < m)%N -> gray_ok gray (sumn s) -> (\prod_(x <- s) x.+1 <= fuel)%N ->
  (forall t t', substate t s -> substate t' s -> hash t = hash t' -> t = t') ->
  all (fun t => (size t == m) && (sumn t <= sumn s)%N) ts ->
  uniform_probabilities hash gray fuel
    (new_uniform_calc (Config U s (sumn s) m lost left eta) a) ts =
  Ok [seq uniform_loss_prob U s eta t | t <- ts].
Proof.
move=> R H hash gray fuel m U s eta lost l a ts sq ss m0 gr fu hi al.
apply: rmapM_ok => t /(allP al) /andP[/eqP st le].
rewrite (uniform_outcomeE sq ss m0 gr fu hi) //; last by rewrite /= /uniform_weights size_map size_iota.
rewrite /= (@uniform_weightsE _ s eta) // (nth_map 0%N) ?size_iota // nth_iota //.
Qed.

Lemma C23_uniform_loss_distribution_lemma :
  forall (R : rcfType) (H : eqType) (hash : seq nat -> H) (gray : nat -> seq nat) (m : nat)
    (U : seq (seq (ComplexField.complex_numFieldType R))) (s : seq nat) (eta : R)
    (lost : int) (left : nat) (a : any_calc (ComplexField.complex_numFieldType R)),
  unitary m U -> size s = m -> (0 < m)%N -> gray_ok gray (sumn s) ->
  (forall t t', substate t s -> substate t' s -> hash t = hash t' -> t = t') ->
  0 <= eta <= 1 ->
  exists (L : seq (seq nat)) (f0 : nat), forall fuel, (f0 <= fuel)%N ->
  let u := new_uniform_calc (Config U s (sumn s) m lost left eta) a in
  exists P : seq R,
  [/\ uniform_outcomes fuel u = Ok L, uniform_distribution hash gray fuel u = Ok P,
      P = [seq uniform_loss_prob U s eta t | t <- L] /\
        (uniq L /\ L =i [pred t | (size t == m) && (sumn t <= sumn s)%N]),
      forall p, p \in P -> 0 <= p & \sum_(p <- P) p = 1].
Proof.
move=> R H hash gray m U s eta lost l a un ss m0 gr hi e01.
have [L [[f0 E] mL sL]] := C04_lemma (sumn s) m0.
exists L, (maxn f0 (\prod_(x <- s) x.+1)) => fuel; rewrite geq_max => /andP[f1 f2] u.
have [sq _] := un.
have E1 : uniform_outcomes fuel u = Ok L by exact: E.
have uL : uniq L.
  apply: (sorted_uniq _ _ sL) => [y x z|x]; last by rewrite lexgt_irr ltnn andbF.
  move=> /orP[h1|/andP[/eqP e1 l1]] /orP[h2|/andP[/eqP e2 l2]]; apply/orP.
  - by left; apply: ltn_trans h2.
  - by left; rewrite -e2.
  - by left; rewrite e1.
  - by right; rewrite e1 e2 eqxx (lexgt_trans l1 l2).
exists [seq uniform_loss_prob U s eta t | t <- L]; split=> //.
- rewrite /uniform_distribution E1 [rbind _ _]/=.
  by apply: C23_uniform_loss_probabilities_lemma => //; apply/allP => t; rewrite mL.
- by move=> p /mapP[t _ ->]; exact: uniform_loss_ge0.
rewrite big_map -(@uniform_loss_norm _ m U s eta); last by apply: unitaryW; rewrite ?ss.
rewrite -[RHS](big_map (fun l : 'I__ => nat_of_ord l) xpredT (fun l => \sum_(t <- comps m l) uniform_loss_prob U s eta t)).
have -> : [seq nat_of_ord l | l <- index_enum (ordinal_finType (sumn s).+1)] = iota 0 (sumn s).+1.
  by rewrite -[RHS]val_enum_ord /index_enum -enumT.
rewrite -[RHS](big_map (comps m) xpredT (fun c => \sum_(t <- c) uniform_loss_prob U s eta t)) -big_flatten.
apply: perm_big; apply: uniq_perm => // [|t].
- elim: (iota _ _) (iota_uniq 0 (sumn s).+1) => [//|x l1 IH] /= /andP[nx ul].
  rewrite cat_uniq comps_uniq IH // andbT; apply/hasPn => t /flatten_mapP[y yl].
  rewrite mem_comps => /andP[_ /eqP e]; apply/negP => /= h; have := h : t \in comps m x; rewrite mem_comps => /andP[_ /eqP e'].
  by move: nx; rewrite -e' e yl.
rewrite mL; apply/andP/flatten_mapP => [[st lt]|[k]].
  by exists (sumn t); rewrite ?mem_iota ?mem_comps /is_state ?st ?eqxx.
by rewrite mem_iota mem_comps => lk /andP[-> /eqP ->].
Qed.

Lemma C24_transmissivity_one_lemma :
  forall (R : rcfType) (H : eqType) (hash : seq nat -> H) (gray : nat -> seq nat) (fuel m : nat)
    (U : seq (seq (ComplexField.complex_numFieldType R))) (s : seq nat) 
    (lost : int) (left : nat) (a : any_calc (ComplexField.complex_numFieldType R)) (t : seq nat),
  is_square m U -> size s = m -> (0 < m)%N -> gray_ok gray (sumn s) -> (\prod_(x <- s) x.+1 <= fuel)%N ->
  (forall t t', substate t s -> substate t' s -> hash t = hash t' -> t = t') ->
  size t = m -> (sumn t <= sumn s)%N ->
  uniform_outcome_probability hash gray fuel
    (new_uniform_calc (Config U s (sumn s) m lost left 1) a) t =
  Ok (if sumn t == sumn s then bs_prob U s t else 0).
Proof.
move=> R H hash gray fuel m U s lost l a t sq ss m0 gr fu hi st le.
have := C23_uniform_loss_probabilities_lemma 1 lost l a (ts := [:: t]) sq ss m0 gr fu hi.
rewrite /= st eqxx le => /(_ isT); rewrite /uniform_probabilities /=.
case: (uniform_outcome_probability _ _ _ _ _) => [x|//] [->]; congr Ok.
rewrite /uniform_loss_prob /binomial_weight expr1n subrr mulr1 expr0n subn_eq0.
case: eqP => [e|ne]; first by rewrite e leqnn binn mulr1 mul1r fixed_loss_full.
by rewrite leqNgt ltn_neqAle le andbT; move/eqP: ne => -> /=; rewrite mulr0 mul0r.
Qed.

Lemma C24_transmissivity_zero_lemma :
  forall (R : rcfType) (H : eqType) (hash : seq nat -> H) (gray : nat -> seq nat) (fuel m : nat)
    (U : seq (seq (ComplexField.complex_numFieldType R))) (s : seq nat) 
    (lost : int) (left : nat) (a : any_calc (ComplexField.complex_numFieldType R)) (t : seq nat),
  is_square m U -> size s = m -> (0 < m)%N -> gray_ok gray (sumn s) -> (\prod_(x <- s) x.+1 <= fuel)%N ->
  (forall t t', substate t s -> substate t' s -> hash t = hash t' -> t = t') ->
  size t = m -> (sumn t <= sumn s)%N ->
  uniform_outcome_probability hash gray fuel
    (new_uniform_calc (Config U s (sumn s) m lost left 0) a) t =
  Ok (if sumn t == 0%N then 1 else 0).
Proof.
move=> R H hash gray fuel m U s lost l a t sq ss m0 gr fu hi st le.
have := C23_uniform_loss_probabilities_lemma 0 lost l a (ts := [:: t]) sq ss m0 gr fu hi.
rewrite /= st eqxx le => /(_ isT); rewrite /uniform_probabilities /=.
case: (uniform_outcome_probability _ _ _ _ _) => [x|//] [->]; congr Ok.
rewrite /uniform_loss_prob /binomial_weight subr0 expr1n mulr1 expr0n.
case: eqP => [e|ne]; last by rewrite mulr0 mul0r.
by rewrite e bin0 !mul1r (@fixed_loss_vac _ m).
Qed.

Lemma C25_weightless_toggle_lemma :
  forall (R : rcfType) (H : eqType) (hash : seq nat -> H) (gray : nat -> seq nat) (fuel m : nat)
    (U : seq (seq (ComplexField.complex_numFieldType R))) (s : seq nat) (eta : R)
    (lost : int) (left : nat) (a : any_calc (ComplexField.complex_numFieldType R)) (ws : seq bool) (t : seq nat),
  is_square m U -> size s = m -> (0 < m)%N -> gray_ok gray (sumn s) -> (\prod_(x <- s) x.+1 <= fuel)%N ->
  (forall t t', substate t s -> substate t' s -> hash t = hash t' -> t = t') ->
  size t = m -> (sumn t <= sumn s)%N ->
  let u0 := new_uniform_calc (Config U s (sumn s) m lost left eta) a in
  let u := foldl (@set_weightless R) u0 ws in
  let w := last false ws in
  [/\ u_weightless u = w,
      u_weights u = (if w then nseq (sumn s).+1 1 else u_weights u0),
      u_cfg u = u_cfg u0 /\ u_calc u = u_calc u0
    & uniform_outcome_probability hash gray fuel u t =
      Ok (if w then fixed_loss_prob U s t else uniform_loss_prob U s eta t)].
Proof.
move=> R H hash gray fuel m U s eta lost l a ws0 t sq ss m0 gr fu hi st le u0 /=.
case/lastP: ws0 => [|ws w].
  split=> //=; rewrite (uniform_outcomeE sq ss m0 gr fu hi) //= ?size_map ?size_iota //.
  by rewrite /= (@uniform_weightsE _ s eta) // (nth_map 0%N) ?size_iota // nth_iota.
rewrite last_rcons; pose u := foldl (@set_weightless R) u0 (rcons ws w); rewrite -/u.
pose inv v := [/\ u_cfg v = u_cfg u0, u_calc v = u_calc u0 & size (u_weights v) = (sumn s).+1].
have sz : size (uniform_weights (Config U s (sumn s) m lost l eta)) = (sumn s).+1.
  by rewrite /uniform_weights size_map size_iota.
have inv_ws : inv (foldl (@set_weightless R) u0 ws).
  have: inv u0 by split.
  elim: ws (u0) {u} => [//|w' ws IH] v [h1 h2 h3] /=; apply: IH; split=> //=.
  by case: w' => /=; [rewrite size_map|rewrite h1; exact: sz].
have Eu : u = set_weightless (foldl (@set_weightless R) u0 ws) w by rewrite /u foldl_rcons.
case: inv_ws => c1 c2 c3.
have Ew : u_weights u = (if w then nseq (sumn s).+1 1 else u_weights u0).
  rewrite Eu; case: (w); last by rewrite -[LHS]/(uniform_weights (u_cfg _)) c1.
  rewrite -[LHS]/([seq 1 | _ <- u_weights _]) -c3.
  by elim: (u_weights _) => //= x l' ->.
split=> //; rewrite ?Eu //.
rewrite -Eu (uniform_outcomeE sq ss m0 gr fu hi); rewrite ?Eu /= ?c1 //; last first.
  by case: (w) => /=; [rewrite size_map|exact: sz].
move: Ew; rewrite Eu /= c1 => ->; case: (w).
  by rewrite -[1 :: _]/(nseq (sumn s).+1 1) nth_nseq ltnS le mul1r.
by rewrite /= (@uniform_weightsE _ s eta) // (nth_map 0%N) ?size_iota // nth_iota.
Qed.
