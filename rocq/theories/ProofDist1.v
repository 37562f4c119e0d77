(* Exact distribution calculators. *)
From mathcomp Require Import all_ssreflect all_algebra complex.
From mathcomp Require Import ring zify.
From Verif Require Import Base SpecStates Combi SpecPerm PermMath SpecBS BsMath BsComb BsNorm.
From Verif Require Import ModelStates LemStates ModelPerm ProofPerm6 LemPerm ModelDist.
Set Implicit Arguments.
Unset Strict Implicit.
Unset Printing Implicit Defensive.
Import GRing.Theory Num.Theory.
Local Open Scope ring_scope.
Local Open Scope py_scope.

Definition kind_of (F : numFieldType) (a : any_calc F) : calc_type :=
  match a with
  | ClassicCalc _ _ _ => CLASSIC
  | GlynnCalc _ _ _ => GLYNN
  | GuanCalc Ryser _ => RYSER
  | GuanCalc ChinHuh _ => CHIN_HUH
  end.

Lemma same_fresh (F : numFieldType) (a : any_calc F) :
  same_public a (generate_calculator (CalcFactory (calc_matrix a) (calc_input a) (calc_output a) (kind_of a))).
Proof. by case: a => [? ? ?|? ? ?|[] ?]. Qed.

(* Gray codes are only needed up to n particles *)
Definition gray_ok (gray : nat -> seq nat) (n : nat) : Prop :=
  forall k, (k < n)%N -> is_gray_code k (gray k).

(* any calculator object, whatever its history *)
Lemma any_calcE (F : numFieldType) gray fuel m (M : seq (seq F)) s t (a : any_calc F) :
  is_square m M -> size t = size s -> (size s <= m)%N -> s != [::] -> sumn s = sumn t ->
  gray_ok gray (sumn s) -> (\prod_(x <- s) x.+1 <= fuel)%N ->
  calc_matrix a = M -> calc_input a = s -> calc_output a = t ->
  exists a', compute_any gray fuel a = Ok (bs_permanent M s t, a').
Proof.
move=> sq st sm s0 e g fu e1 e2 e3.
have := compute_any_sim gray fuel (same_fresh a); rewrite e1 e2 e3.
rewrite (C16_factory_calculators_agree_lemma _ sq) //; last by move=> p; apply: g; rewrite subn1 prednK.
by case: (compute_any gray fuel a) => [[v a']|//] [<-]; exists a'.
Qed.

Lemma prod_subs s T : substate T s -> (\prod_(x <- T) x.+1 <= \prod_(x <- s) x.+1)%N.
Proof.
elim: s T => [|x s IH] [|a T] //; rewrite substate_cons => /andP[ax /IH l].
by rewrite !big_cons leq_mul.
Qed.

Section Dist.
Variable R : rcfType.
Notation CF := (ComplexField.complex_numFieldType R).

Lemma py_abs_sq (z : CF) : py_abs z ^+ 2 = nsq z.
Proof. by rewrite /py_abs sqr_sqrtr // addr_ge0 ?sqr_ge0. Qed.

Lemma foldl_div (x : R) (l : seq nat) :
  foldl (fun x k => x / k`!%:R) x l = x / (factprod l)%:R.
Proof.
elim: l x => [|k l IH] x /=; first by rewrite /factprod big_nil divr1.
by rewrite IH /factprod big_cons natrM invfM mulrA.
Qed.

Lemma rfoldl_div (x : R) (t : seq nat) :
  rfoldl (fun x i => let! k := py_get t (Posz i) in Ok (x / k`!%:R)) x (iota 0 (size t))
  = Ok (x / (factprod t)%:R).
Proof.
rewrite -foldl_div -[in RHS](mkseq_nth 0%N t) /mkseq.
have: all (fun i => i < size t)%N (iota 0 (size t)) by apply/allP => i; rewrite mem_iota.
elim: (iota 0 (size t)) x => [//|i l IH] x /= /andP[il al].
by rewrite (py_get_nth 0%N il) /= IH.
Qed.

Section Fixed.
Variables (H : eqType) (hash : seq nat -> H) (gray : nat -> seq nat) (fuel : nat).
Variables (m : nat) (U : seq (seq CF)) (s : seq nat).
Hypotheses (sqU : is_square m U) (ss : size s = m) (m0 : (0 < m)%N).
Hypothesis (gr : gray_ok gray (sumn s)).
Hypothesis (fu : (\prod_(x <- s) x.+1 <= fuel)%N).
Hypothesis (hash_inj : forall t t', substate t s -> substate t' s -> hash t = hash t' -> t = t').

Lemma lossy_multiplicityE (cfg : config R) T : cf_state cfg = s -> substate T s ->
  lossy_multiplicity cfg T = Ok (ways s T).
Proof using Type.
clear -H; move=> E /substateP[sT l]; rewrite /lossy_multiplicity E /ways -sT.
have A k : (k <= size T)%N -> rfoldl (fun acc i =>
    let! x := py_get s (Posz i) in
    let! y := py_get T (Posz i) in
    Ok (acc * 'C(x, x - y))%N) 1%N (iota 0 k) = Ok (\prod_(i < k) 'C(nth 0%N s i, nth 0%N T i))%N.
  elim: k => [|k IH] kl; first by rewrite big_ord0.
  rewrite -[k.+1]addn1 iotaD rfoldl_cat IH ?(ltnW kl) // add0n addn1 big_ord_recr /=.
  by rewrite (py_get_nth 0%N) -?sT //= (py_get_nth 0%N) //= bin_sub.
by rewrite A.
Qed.

Lemma fixed_loopE (cfg : config R) t l Ts (p : R) a o : cf_state cfg = s -> cf_matrix cfg = U ->
  size t = m -> sumn t = l ->
  (forall T, T \in Ts -> substate T s /\ sumn T = l) ->
  exists a', rfoldl (fixed_losses_step gray fuel cfg t) (p, a, o) Ts =
   Ok (p + \sum_(T <- Ts) nsq (bs_permanent U T t) / (factprod T)%:R * (ways s T)%:R, a',
       if Ts is T :: Ts' then Some (last T Ts') else o).
Proof using sqU ss m0 gr fu.
move=> e1 e2 st et; elim: Ts p a o => [|T Ts IH] p a o HT.
  by exists a; rewrite big_nil addr0.
have [sT eT] := HT _ (mem_head _ _).
have HT' T' : T' \in Ts -> substate T' s /\ sumn T' = l by move=> i; apply: HT; rewrite inE i orbT.
rewrite rfoldl_cons {1}/fixed_losses_step lossy_multiplicityE // [rbind (Ok _) _]/=.
set b := set_output _ _.
have [szT _] := substateP _ _ sT.
have [|||||||||b' ->] := any_calcE (gray := gray) (fuel := fuel) (t := t) (s := T) (a := b) sqU.
- by rewrite szT ss.
- by rewrite szT ss.
- by rewrite -size_eq0 szT ss -lt0n.
- by rewrite eT et.
- by move=> k kl; apply: gr; apply: leq_trans kl (substate_sumn sT).
- exact: leq_trans (prod_subs sT) fu.
- by rewrite /b e2; case: (a).
- by rewrite /b; case: (a).
- by rewrite /b; case: (a).
rewrite [rbind (Ok _) _]/= py_abs_sq foldl_div.
have [a' E] := IH (p + nsq (bs_permanent U T t) / (factprod T)%:R * (ways s T)%:R) b' (Some T) HT'.
exists a'; rewrite E big_cons addrA; congr (Ok (_, _, _)).
by case: (Ts) => [|T' Ts'].
Qed.

Lemma lossy_inputs_list l : (l <= sumn s)%N -> exists Ts,
  [/\ generate_lossy_n_particle_input_states hash s (Posz l) = Ok Ts,
      perm_eq Ts [seq T <- subs s | sumn T == l] & Ts != [::]].
Proof using R hash_inj.
move=> ls; case: (posnP (sumn s)) => n0.
  exists [:: s]; split=> //.
    by rewrite /generate_lossy_n_particle_input_states n0.
  by move: ls; rewrite n0 leqn0 => /eqP ->; rewrite -n0 subs_full.
have [Ts [E uT sub comp]] := C06_lemma hash l n0.
have mem : forall T, (T \in Ts) = (T \in [seq T <- subs s | sumn T == l]).
  move=> T; rewrite mem_filter mem_subs; apply/idP/andP => [/sub[-> ->] //|[/eqP e sT]].
  by apply: comp => // t t' h h' _ _; apply: hash_inj.
exists Ts; split=> //; first by apply: uniq_perm => //; rewrite filter_uniq ?subs_uniq.
apply/eqP => Ts0; have := vandermonde R s l; rewrite -big_filter big1_seq => [/esym/eqP|].
  by rewrite pnatr_eq0 -leqn0 leqNgt bin_gt0 ls.
by move=> T; rewrite /= -mem Ts0.
Qed.

Lemma fixed_outcomeE (cfg : config R) t a : cf_state cfg = s -> cf_matrix cfg = U ->
  cf_particles cfg = sumn s -> cf_modes cfg = m -> cf_left cfg = sumn t ->
  size t = m -> (sumn t <= sumn s)%N ->
  exists a', fixed_outcome_probability hash gray fuel cfg a t = Ok (fixed_loss_prob U s t, a').
Proof using sqU ss m0 gr fu hash_inj.
move=> e1 e2 e3 e4 e5 st le.
rewrite /fixed_outcome_probability /indistinguishable_probability e1 e5.
have [Ts [-> pe ne]] := lossy_inputs_list le; rewrite [rbind (Ok _) _]/=.
have HT T : T \in Ts -> substate T s /\ sumn T = sumn t.
  by rewrite (perm_mem pe) mem_filter mem_subs => /andP[/eqP -> ->].
have [a' ->] := fixed_loopE 0 a None e1 e2 st (erefl _) HT; rewrite [rbind (Ok _) _]/= add0r.
case: Ts ne pe HT => // T Ts _ pe HT.
have [_ eT] := HT _ (mem_last T Ts).
exists a'; rewrite [rbind (Ok _) _]/= e4 -st rfoldl_div /=; congr (Ok (_, _)).
rewrite eT e3 /fixed_loss_prob (perm_big _ pe) big_filter /=.
have f0 : (sumn t)`!%:R != 0 :> R by rewrite pnatr_eq0 -lt0n fact_gt0.
have -> : \sum_(T <- subs s | sumn T == sumn t) (ways s T)%:R * bs_prob U T t =
    (\sum_(T <- subs s | sumn T == sumn t) nsq (bs_permanent U T t) / (factprod T)%:R * (ways s T)%:R)
      / (factprod t)%:R.
  rewrite mulr_suml; apply: eq_bigr => T' _; by rewrite /bs_prob natrM invfM mulrC !mulrA mulrAC.
by rewrite [X in X / (factprod t)%:R]mulrAC divfK // mulrAC.
Qed.

Lemma fixed_probabilitiesE (cfg : config R) ts a l : cf_state cfg = s -> cf_matrix cfg = U ->
  cf_particles cfg = sumn s -> cf_modes cfg = m -> cf_left cfg = l -> (l <= sumn s)%N ->
  all (is_state m l) ts ->
  exists a', fixed_probabilities hash gray fuel cfg a ts =
    Ok ([seq fixed_loss_prob U s t | t <- ts], a').
Proof using sqU ss m0 gr fu hash_inj.
move=> e1 e2 e3 e4 e5 le; rewrite /fixed_probabilities.
suff G acc : all (is_state m l) ts -> exists a', rfoldl (fun st t =>
    let! pa := fixed_outcome_probability hash gray fuel cfg st.2 t in
    Ok (rcons st.1 pa.1, pa.2)) (acc, a) ts = Ok (acc ++ [seq fixed_loss_prob U s t | t <- ts], a').
  exact: (G [::]).
elim: ts a acc => [|t ts IH] a acc; first by exists a; rewrite cats0.
case/andP=> /andP[/eqP st /eqP et] al.
have [||a1 E] := fixed_outcomeE a e1 e2 e3 e4 _ st _; [by rewrite e5|by rewrite et|].
rewrite rfoldl_cons E; have [a' E'] := IH a1 (rcons acc (fixed_loss_prob U s t)) al.
by exists a'; rewrite [LHS]E' cat_rcons.
Qed.

Lemma fixed_distributionE (cfg : config R) a l : cf_state cfg = s -> cf_matrix cfg = U ->
  cf_particles cfg = sumn s -> cf_modes cfg = m -> cf_left cfg = l -> (l <= sumn s)%N ->
  forall L, fixed_outcomes fuel cfg = Ok L -> all (is_state m l) L ->
  exists a', fixed_distribution hash gray fuel cfg a =
    Ok ([seq fixed_loss_prob U s t | t <- L], a').
Proof using sqU ss m0 gr fu hash_inj.
move=> e1 e2 e3 e4 e5 le L E al; rewrite /fixed_distribution E.
exact: fixed_probabilitiesE al.
Qed.

(* ---- uniform losses ---- *)
Variable eta : R.

Lemma uniform_weightsE (cfg : config R) : cf_particles cfg = sumn s -> cf_eta cfg = eta ->
  uniform_weights cfg = [seq binomial_weight (sumn s) eta l | l <- iota 0 (sumn s).+1].
Proof using Type.
move=> e1 e2; rewrite /uniform_weights e1 e2; apply: eq_map => l; rewrite /binomial_weight.
by congr (_ * _); rewrite mulrC.
Qed.

Lemma fixed_loss_vac t : size t = m -> sumn t = 0%N -> fixed_loss_prob U s t = 1.
Proof using Type.
move=> st e; rewrite /fixed_loss_prob e -big_filter subs0 big_seq1 ways0 bin0 divr1 mul1r /bs_prob.
have fz k : factprod (nseq k 0%N) = 1%N by rewrite /factprod big_nseq iter_muln_1 exp1n.
have -> : factprod t = 1%N by have /sumn0P -> : sumn t == 0%N by rewrite e.
by rewrite fz bs_permanent_vac // ?nsq1 ?divr1 // sumn_nseq mul0n.
Qed.

Lemma uniform_outcomeE (u : uniform_calc R) t : cf_state (u_cfg u) = s -> cf_matrix (u_cfg u) = U ->
  cf_particles (u_cfg u) = sumn s -> cf_modes (u_cfg u) = m ->
  size t = m -> (sumn t <= sumn s)%N -> size (u_weights u) = (sumn s).+1 ->
  uniform_outcome_probability hash gray fuel u t =
  Ok (nth 0 (u_weights u) (sumn t) * fixed_loss_prob U s t).
Proof using sqU ss m0 gr fu hash_inj.
move=> e1 e2 e3 e4 st le sw; rewrite /uniform_outcome_probability; case: eqP => [t0|t0].
  by rewrite (py_get_nth 0) ?sw // t0 fixed_loss_vac ?mulr1.
set cfg := Config _ _ _ _ _ _ _.
have [|a' ->] := @fixed_probabilitiesE cfg [:: t] (u_calc u) (sumn t) e1 e2 e3 e4 (erefl _) le.
  by rewrite /= /is_state st !eqxx.
by rewrite [rbind (Ok _) _]/= (py_get_nth 0) ?sw // [rbind (Ok _) _]/= mulrC.
Qed.

End Fixed.
End Dist.
