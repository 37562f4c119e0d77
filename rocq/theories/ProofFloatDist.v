(* Rounding errors of the exact distribution calculators. *)
From mathcomp Require Import all_ssreflect all_algebra complex.
From mathcomp Require Import ring zify.
From Verif Require Import Base SpecStates Combi SpecPerm PermMath SpecBS BsMath BsComb BsNorm.
From Verif Require Import ModelStates LemStates ModelPerm ProofPerm6 LemPerm ModelDist ProofDist1
  ModelFloat ModelFloatDist SpecFloat ProofFloat ProofFloat4.
Set Implicit Arguments.
Unset Strict Implicit.
Unset Printing Implicit Defensive.
Import Order.Theory GRing.Theory Num.Theory.
Local Open Scope ring_scope.
Local Open Scope py_scope.

Section FloatDist.
Variable R : rcfType.
Notation CF := (ComplexField.complex_numFieldType R).
Variables (u : R) (A : arith CF) (B : arith R) (f_abs : CF -> R).
Hypothesis u0 : 0 <= u.
Hypothesis accA : accurate (u%:C)%C A.
Hypothesis accB : accurate u B.
Hypothesis acc_abs : forall z, `|f_abs z - py_abs z| <= u * py_abs z.
Notation near := (near u).

Lemma uC0 : 0 <= (u%:C)%C :> CF.
Proof. by rewrite ler0c. Qed.

Lemma normE (z : CF) : `|z| = ((py_abs z)%:C)%C.
Proof. by rewrite normc_def. Qed.

Lemma ECE k : (1 + (u%:C)%C) ^+ k - 1 = (((1 + u) ^+ k - 1)%:C)%C :> CF.
Proof. by rewrite -[1 in X in X - _ = _]/((1%:C)%C : CF) -rmorphD -rmorphX rmorphB. Qed.

Lemma near_abs k (v w : CF) (a : R) : ProofFloat.near (u%:C)%C k v (a%:C)%C w ->
  near k.+1 (py_abs v) a (f_abs w).
Proof.
rewrite /ProofFloat.near ECE => -[]; rewrite !normE -rmorphM !lecR => va wv.
have p0 (z : CF) : 0 <= py_abs z by exact: sqrtr_ge0.
apply: (near_round1 u0); last first.
  by rewrite [X in _ <= _ * X](ger0_norm (p0 w)).
split; first by rewrite ger0_norm.
have H (x y : CF) : py_abs x - py_abs y <= py_abs (x - y).
  rewrite -lecR rmorphB /= -!normE; have := ler_sub_dist x y; exact.
apply: le_trans wv; rewrite ler_norml; apply/andP; split; last exact: H.
rewrite ler_oppl opprB.
have -> : py_abs (w - v) = py_abs (v - w) by apply: complexI; rewrite -!normE distrC.
exact: H.
Qed.

(* divisions by factorials *)
Lemma fl_foldl_div k (v a w : R) (l : seq nat) : near k v a w ->
  near (k + size l) (v / (factprod l)%:R) (a / (factprod l)%:R)
    (foldl (fun x k => f_div B x (Posz k`!)) w l).
Proof.
elim: l k v a w => [|j l IH] k v a w H /=.
  by rewrite /factprod big_nil !divr1 addn0.
rewrite /factprod big_cons natrM !invfM !mulrA -/(factprod l) -addSnnS; apply: IH.
have j0 : Posz j`! != 0 by have := fact_gt0 j; lia.
by have := near_div u0 accB j0 H; rewrite normr_nat.
Qed.

Lemma fl_rfoldl_div (x : R) (t : seq nat) :
  rfoldl (fun x i => let! k := py_get t (Posz i) in Ok (f_div B x (Posz k`!))) x (iota 0 (size t))
  = Ok (foldl (fun x k => f_div B x (Posz k`!)) x t).
Proof.
rewrite -[in RHS](mkseq_nth 0%N t) /mkseq.
have: all (fun i => i < size t)%N (iota 0 (size t)) by apply/allP => i; rewrite mem_iota.
elim: (iota 0 (size t)) x => [//|i l IH] x /= /andP[il al].
by rewrite (py_get_nth 0%N il) /= IH.
Qed.

Section Fixed.
Variables (H : eqType) (hash : seq nat -> H) (gray : nat -> seq nat) (fuel : nat).
Variables (m : nat) (U : seq (seq CF)) (s : seq nat) (mu : R).
Hypotheses (sqU : is_square m U) (ss : size s = m) (m0 : (0 < m)%N).
Hypothesis (gr : gray_ok gray (sumn s)).
Hypothesis (fu : (code_number s <= fuel)%N).
Hypothesis (hash_inj : forall t t', substate t s -> substate t' s -> hash t = hash t' -> t = t').
Hypothesis mub : entries_bounded m U (mu%:C)%C.

Definition ksub l : nat := (2 * (any_roundings m l + 2) + m + 2)%N.
Notation G l := (any_scale l mu).

Lemma scaleC l : any_scale l (mu%:C)%C = ((G l)%:C)%C :> CF.
Proof. by rewrite /any_scale rmorphX rmorphM /= rmorph_nat. Qed.

Lemma factprod_gt0 (T : seq nat) : 0 < (factprod T)%:R :> R.
Proof. by rewrite ltr0n /factprod prodn_gt0 // => x; rewrite fact_gt0. Qed.

Lemma fl_fixed_loopE (cfg : config R) t l Ts (p q P : R) a o n : cf_state cfg = s -> cf_matrix cfg = U ->
  size t = m -> sumn t = l ->
  (forall T, T \in Ts -> substate T s /\ sumn T = l) ->
  near (ksub l + n) q P p ->
  exists p' a', rfoldl (fl_fixed_losses_step A B f_abs gray fuel cfg t) (p, a, o) Ts =
   Ok (p', a', if Ts is T :: Ts' then Some (last T Ts') else o) /\
   near (ksub l + (n + size Ts))
     (q + \sum_(T <- Ts) nsq (bs_permanent U T t) / (factprod T)%:R * (ways s T)%:R)
     (P + \sum_(T <- Ts) (G l) ^+ 2 * (ways s T)%:R) p'.
Proof.
move=> e1 e2 st et; elim: Ts p q P a o n => [|T Ts IH] p q P a o n HT np.
  by exists p, a; rewrite !big_nil !addr0 addn0.
have [sT eT] := HT _ (mem_head _ _).
have HT' T' : T' \in Ts -> substate T' s /\ sumn T' = l by move=> i; apply: HT; rewrite inE i orbT.
rewrite rfoldl_cons {1}/fl_fixed_losses_step (lossy_multiplicityE e1 sT) [rbind (Ok _) _]/=.
set b := set_output _ _.
have [szT _] := substateP _ _ sT.
have [v [b' [-> nv]]] : exists v b', fl_compute_any A gray fuel b = Ok (v, b') /\
    ProofFloat.near (u%:C)%C (any_roundings (size T) (sumn T)) (bs_permanent U T t)
      (any_scale (sumn T) (mu%:C)%C) v.
  apply: (fl_anyE uC0 accA sqU _ _ _ _ mub).
  - by rewrite szT ss.
  - by rewrite szT ss.
  - by rewrite -size_eq0 szT ss -lt0n.
  - by rewrite eT et.
  - by move=> k kl; apply: gr; apply: leq_trans kl (substate_sumn sT).
  - exact: leq_trans (prod_subs sT) fu.
  - by rewrite /b e2; case: (a).
  - by rewrite /b; case: (a).
  - by rewrite /b; case: (a).
rewrite [rbind (Ok _) _]/=.
rewrite szT ss eT scaleC in nv.
have n1 := fl_foldl_div T (near_pow u0 accB 2 (near_abs nv)).
have n2 := near_mul u0 accB n1 (near_int u0 accB (Posz (ways s T))).
rewrite normr_nat py_abs_sq in n2.
set w := f_mul _ _ _ in n2.
have np' : near (ksub l + n.+1) (q + nsq (bs_permanent U T t) / (factprod T)%:R * (ways s T)%:R)
    (P + (G l) ^+ 2 * (ways s T)%:R) (f_add B p w).
  rewrite addnS; apply: near_add => //; apply: near_mono n2 => //.
    by rewrite /ksub szT ss; lia.
  rewrite ler_wpmul2r ?ler0n // ler_pdivr_mulr ?factprod_gt0 // ler_pemulr ?sqr_ge0 //.
  by have := factprod_gt0 T; rewrite ltr0n ler1n.
have [p' [a' [E nn]]] := IH _ _ _ b' (Some T) n.+1 HT' np'.
exists p', a'; rewrite E !big_cons !addrA /= -addSnnS; split=> //; congr (Ok (_, _, _)).
by case: (Ts) => [|T' Ts'].
Qed.

Lemma fl_fixed_outcomeE (cfg : config R) t a : cf_state cfg = s -> cf_matrix cfg = U ->
  cf_particles cfg = sumn s -> cf_modes cfg = m -> cf_left cfg = sumn t ->
  size t = m -> (sumn t <= sumn s)%N ->
  exists p a', fl_fixed_outcome_probability A B f_abs hash gray fuel cfg a t = Ok (p, a') /\
    near (prob_roundings m (sumn t) s) (fixed_loss_prob U s t) (G (sumn t) ^+ 2) p.
Proof.
move=> e1 e2 e3 e4 e5 st le.
rewrite /fl_fixed_outcome_probability /fl_indistinguishable_probability e1 e5.
have [Ts [-> pe ne]] := lossy_inputs_list R hash_inj le; rewrite [rbind (Ok _) _]/=.
have HT T : T \in Ts -> substate T s /\ sumn T = sumn t.
  by rewrite (perm_mem pe) mem_filter mem_subs => /andP[/eqP -> ->].
have n0 : near (ksub (sumn t) + 0) 0 0 0 by apply: near_exact => //; rewrite normr0.
have [p [a' [-> np]]] := fl_fixed_loopE a None e1 e2 st (erefl _) HT n0; rewrite [rbind (Ok _) _]/=.
rewrite !add0r add0n in np.
have sTs : (size Ts <= code_number s)%N.
  by rewrite (perm_size pe) size_filter (leq_trans (count_size _ _)) // size_subs.
have f0 : (sumn t)`!%:R != 0 :> R by rewrite pnatr_eq0 -lt0n fact_gt0.
have fz : Posz (sumn t)`! != 0 by have := fact_gt0 (sumn t); lia.
have cz : Posz 'C(sumn s, sumn t) != 0 by have := bin_gt0 (sumn s) (sumn t); rewrite le; lia.
have c0 : 'C(sumn s, sumn t)%:R != 0 :> R by rewrite pnatr_eq0 -lt0n bin_gt0.
case: Ts ne pe HT np sTs => // T Ts _ pe HT np sTs.
have [_ eT] := HT _ (mem_last T Ts).
rewrite [rbind (Ok _) _]/= e4 -st fl_rfoldl_div /= eT e3; do 2!eexists; split; first by [].
have n1 := near_div u0 accB cz (near_div u0 accB fz np).
have n2 := near_mul u0 accB n1 (near_int u0 accB (Posz (sumn t)`!)).
have n3 := fl_foldl_div t n2.
rewrite !normr_nat in n3.
have E1 : \sum_(T0 <- T :: Ts) G (sumn t) ^+ 2 * (ways s T0)%:R = G (sumn t) ^+ 2 * 'C(sumn s, sumn t)%:R.
  by rewrite (perm_big _ pe) big_filter -mulr_sumr vandermonde.
rewrite E1 in n3.
have E2 : (\sum_(T0 <- T :: Ts) nsq (bs_permanent U T0 t) / (factprod T0)%:R * (ways s T0)%:R)
   / (Posz (sumn t)`!)%:~R / (Posz 'C(sumn s, sumn t))%:~R * (Posz (sumn t)`!)%:~R / (factprod t)%:R
   = fixed_loss_prob U s t.
  rewrite -!pmulrn /fixed_loss_prob (perm_big _ pe) big_filter /=.
  have -> : \sum_(T <- subs s | sumn T == sumn t) (ways s T)%:R * bs_prob U T t =
    (\sum_(T <- subs s | sumn T == sumn t) nsq (bs_permanent U T t) / (factprod T)%:R * (ways s T)%:R)
      / (factprod t)%:R.
    rewrite mulr_suml; apply: eq_bigr => T' _; by rewrite /bs_prob natrM invfM mulrC !mulrA mulrAC.
  have t0 : (factprod t)%:R != 0 :> R by rewrite gt_eqF ?factprod_gt0.
  set S := \sum_(T0 <- _ | _) _; move: S f0 c0 t0; clear=> S f0 c0 t0.
  move: (_`!%:R : R) ('C(_, _)%:R : R) ((factprod t)%:R : R) f0 c0 t0 => x y z x0 y0 z0.
  by rewrite [S / x / y * x]mulrAC divfK // mulrAC.
rewrite E2 in n3; apply: near_mono n3 => //.
  by rewrite /prob_roundings /ksub st; move: sTs => /=; lia.
rewrite [X in X / 'C(_, _)%:R]mulrAC mulfK // mulfVK //.
rewrite ler_pdivr_mulr ?factprod_gt0 // ler_pemulr ?sqr_ge0 //.
by have := factprod_gt0 t; rewrite ltr0n ler1n.
Qed.

Lemma fl_fixed_probabilitiesE (cfg : config R) ts a l : cf_state cfg = s -> cf_matrix cfg = U ->
  cf_particles cfg = sumn s -> cf_modes cfg = m -> cf_left cfg = l -> (l <= sumn s)%N ->
  all (is_state m l) ts ->
  exists ps a', [/\ fl_fixed_probabilities A B f_abs hash gray fuel cfg a ts = Ok (ps, a'),
    size ps = size ts & forall i, (i < size ts)%N ->
      near (prob_roundings m l s) (fixed_loss_prob U s (nth [::] ts i)) (G l ^+ 2) (nth 0 ps i)].
Proof.
move=> e1 e2 e3 e4 e5 le; rewrite /fl_fixed_probabilities.
suff Gn acc : all (is_state m l) ts -> exists ps a', [/\ rfoldl (fun st t =>
    let! pa := fl_fixed_outcome_probability A B f_abs hash gray fuel cfg st.2 t in
    Ok (rcons st.1 pa.1, pa.2)) (acc, a) ts = Ok (acc ++ ps, a'),
    size ps = size ts & forall i, (i < size ts)%N ->
      near (prob_roundings m l s) (fixed_loss_prob U s (nth [::] ts i)) (G l ^+ 2) (nth 0 ps i)].
  exact: (Gn [::]).
elim: ts a acc => [|t ts IH] a acc; first by exists [::], a; rewrite cats0.
case/andP=> /andP[/eqP st /eqP et] al.
have [||p [a1 [E np]]] := fl_fixed_outcomeE a e1 e2 e3 e4 _ st _; [by rewrite e5|by rewrite et|].
rewrite rfoldl_cons E; have [ps [a' [E' sp nps]]] := IH a1 (rcons acc p) al.
exists (p :: ps), a'; split; [by rewrite [LHS]E' cat_rcons|by rewrite /= sp|].
by case=> [_|i il] /=; [rewrite -et|apply: nps].
Qed.

(* ---- uniform losses ---- *)
Variable eta : R.
Hypothesis eta01 : 0 <= eta <= 1.

Lemma fl_weightE n l : (l <= n)%N ->
  near (2 * n + 3) (binomial_weight n eta l) (binomial_weight n eta l)
   (f_mul B (f_mul B (f_pow B eta l) (f_int B (Posz 'C(n, l)))) (f_pow B (f_sub B 1 eta) (n - l))).
Proof.
move=> ln; have /andP[e0 e1] := eta01.
have ne : near 0 eta eta eta by apply: near_exact => //; rewrite ger0_norm.
have n1 : near 1 (1 - eta) (1 - eta) (f_sub B 1 eta).
  apply: (near_round1 u0) (acc_sub accB _ _).
  by apply: near_exact => //; rewrite ger0_norm ?subr_ge0.
have := near_mul u0 accB (near_mul u0 accB (near_pow u0 accB l ne) (near_int u0 accB (Posz 'C(n, l))))
  (near_pow u0 accB (n - l) n1).
rewrite normr_nat -pmulrn /binomial_weight [_ * 'C(n, l)%:R]mulrC.
by apply: near_k => //; lia.
Qed.

Lemma fl_uniform_outcomeE (cfg : config R) (a : any_calc CF) t : cf_state cfg = s -> cf_matrix cfg = U ->
  cf_particles cfg = sumn s -> cf_modes cfg = m -> cf_eta cfg = eta ->
  size t = m -> (sumn t <= sumn s)%N ->
  exists2 p, fl_uniform_outcome_probability A B f_abs hash gray fuel (fl_new_uniform_calc B cfg a) t = Ok p
   & near (prob_roundings m (sumn t) s + 2 * sumn s + 4) (uniform_loss_prob U s eta t)
       (binomial_weight (sumn s) eta (sumn t) * G (sumn t) ^+ 2) p.
Proof.
move=> e1 e2 e3 e4 e5 st le; rewrite /fl_uniform_outcome_probability /=.
have getw l : (l <= sumn s)%N -> exists2 w, py_get (fl_uniform_weights B cfg) (Posz l) = Ok w
    & near (2 * sumn s + 3) (binomial_weight (sumn s) eta l) (binomial_weight (sumn s) eta l) w.
  move=> ll; rewrite (py_get_nth 0); last by rewrite size_map size_iota e3.
  eexists; first by [].
  rewrite (nth_map 0%N) ?size_iota ?e3 // nth_iota // add0n e5; exact: fl_weightE.
case: eqP => [t0|t0].
  have [w -> nw] := getw 0%N (leq0n _); exists w => //.
  rewrite /uniform_loss_prob (fixed_loss_vac U s st) // t0 mulr1 /any_scale expr0 expr1n mulr1.
  by apply: near_k nw => //; lia.
set cfg' := Config _ _ _ _ _ _ _.
have [|ps [a' [-> sp nps]]] := @fl_fixed_probabilitiesE cfg' [:: t] a (sumn t) e1 e2 e3 e4 (erefl _) le.
  by rewrite /= /is_state st !eqxx.
have np := nps 0%N isT.
rewrite [rbind (Ok _) _]/= (py_get_nth 0) ?sp // [rbind (Ok _) _]/=.
have [w -> nw] := getw _ le; eexists; first by [].
have := near_mul u0 accB np nw.
rewrite /uniform_loss_prob [fixed_loss_prob _ _ _ * _]mulrC [_ ^+ 2 * _]mulrC.
by apply: near_k => //; lia.
Qed.

End Fixed.
End FloatDist.
