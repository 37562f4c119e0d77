(* Version A and its mode-assignment variant: the whole simulation. *)
From mathcomp Require Import all_ssreflect all_algebra complex.
From mathcomp Require Import ring zify.
From Verif Require Import Base SpecStates Combi SpecPerm PermMath SpecBS BsMath BsComb BsNorm.
From Verif Require Import ModelStates ProofStates1 LemStates ModelPerm ProofPerm6 LemPerm ModelDist ProofDist1.
From Verif Require Import SpecProb ProbMath ModelGcc ModelGccB SampMath ProofSel ProofGcc1 ProofGcc2.
Set Implicit Arguments.
Unset Strict Implicit.
Unset Printing Implicit Defensive.
Import Order.TTheory GRing.Theory Num.Theory.
Local Open Scope ring_scope.
Local Open Scope py_scope.

(* the loop over samples *)
Section SampleLoop.
Variable R : rcfType.
Variables (G X : Type) (fill : G -> rprog R (res G)) (out : G -> res X) (inv : G -> Prop).

Lemma sample_loop_always (P : X -> Prop) k g :
  (forall g, inv g -> always (fun x => exists g' y, [/\ x = Ok g', inv g', out g' = Ok y & P y]) (fill g)) ->
  inv g ->
  always (fun x => exists L g', [/\ x = Ok (L, g'), size L = k, inv g' & forall y, List.In y L -> P y])
    (sample_loop fill out k g).
Proof.
move=> H; elim: k g => [|k IH] g I /=; first by exists [::], g.
apply: always_rbind; apply: always_impl (H g I) => _ [g' [y [-> I' e py]]].
rewrite e /rpbind /=; apply: always_bind; apply: always_impl (IH g' I') => _ [L [g2 [-> sL I2 aL]]] /=.
by exists (y :: L), g2; rewrite /= sL; split=> // z [<-|/aL].
Qed.

Lemma sample_loop_last (Q : G -> X -> Prop) (y0 : X) k g :
  (forall g, inv g -> always (fun x => exists g' y, [/\ x = Ok g', inv g', out g' = Ok y & Q g' y]) (fill g)) ->
  (0 < k)%N -> inv g ->
  always (fun x => exists L g', [/\ x = Ok (L, g'), inv g' & Q g' (last y0 L)]) (sample_loop fill out k g).
Proof.
move=> H; elim: k y0 g => [//|k IH] y0 g _ I.
rewrite /=; apply: always_rbind; apply: always_impl (H g I) => _ [g' [y [-> I' e qy]]].
rewrite e /rpbind /=; apply: always_bind; case: k IH => [_|k IH]; first by exists [:: y], g'.
by apply: always_impl (IH y g' isT I') => _ [L [g2 [-> I2 q2]]]; exists (y :: L), g2.
Qed.

Lemma sample_loop_exp (S : seq X) (Pr : X -> R) :
  (forall g, inv g -> always (fun x => exists g' y, [/\ x = Ok g', inv g' & out g' = Ok y]) (fill g)) ->
  (forall f g, inv g -> has_exp (on_ok (fun g' => on_ok f (out g'))) (fill g) (\sum_(t <- S) Pr t * f t)) ->
  forall k f g, inv g ->
  has_exp (on_ok (fun x => f x.1)) (sample_loop fill out k g) (iid_exp S Pr k f).
Proof.
move=> HA HE; elim=> [|k IH] f g I /=; first by constructor.
apply: has_exp_rbind (HE (fun y => iid_exp S Pr k (fun L => f (y :: L))) g I) _.
apply: always_impl (HA g I) => _ [g' [y [-> I' e]]]; rewrite e /rpbind /=.
have h := IH (fun L => f (y :: L)) g' I'.
apply: has_exp_bind h _; apply: always_true => [[a|e']] /=; by constructor.
Qed.
End SampleLoop.

Lemma aux_in (T : eqType) (x : T) L : x \in L -> List.In x L.
Proof. by elim: L => //= y L IH; rewrite inE => /orP[/eqP ->|/IH]; [left|right]. Qed.

Section Sim.
Variable R : rcfType.
Notation CF := (ComplexField.complex_numFieldType R).
Variables (gray : nat -> seq nat) (fuel m : nat) (U : seq (seq CF)) (s : seq nat).
Hypotheses (u : unitary_on m U s) (ss : size s = m) (gr : gray_ok gray (sumn s)).
Hypothesis fu : (\prod_(x <- s) x.+1 <= fuel)%N.

Lemma entriesE (a : any_calc CF) acc k outs : calc_matrix a = U -> s != [::] -> (k <= sumn s)%N ->
  (forall t, t \in outs -> size t = m /\ sumn t = k) ->
  exists a', rfoldl (fun st t =>
    let! pa := pmf_entry gray fuel st.2 (lay s k) [seq (ways s T)%:R / 'C(sumn s, k)%:R | T <- lay s k] t in
    Ok (rcons st.1 pa.1, pa.2)) (acc, a) outs = Ok (acc ++ map (qprob U s) outs, a')
   /\ calc_matrix a' = U.
Proof using u ss gr fu.
move=> + s0 kn; elim: outs acc a => [|t outs IH] acc a ea H; first by exists a; rewrite cats0.
have [st et] := H t (mem_head _ _).
have [|a' [E ea']] := pmf_entryE (u.1) ss gr fu ea s0 st; first by rewrite et.
rewrite et in E; rewrite rfoldl_cons [(acc, a).2]/= E ![rbind (Ok _) _]/=.
have [t' t'i|a2 [E2 ea2]] := IH (rcons acc (qprob U s t)) a' ea'; first by apply: H; rewrite inE t'i orbT.
by exists a2; rewrite E2 cat_rcons.
Qed.

Lemma nonempty r : (r < sumn s)%N -> s != [::]. Proof. by case: s. Qed.

(* ---- occupations ---- *)
Notation ok_a := (fun r : seq nat => size r = m).
Notation inv_a := (ginv m U s id incr ok_a).

Lemma layer_a g : inv_a g -> (sumn (g_r g) < sumn s)%N ->
  exists a', new_layer gray fuel g = Ok (Gcc (g_r g) (g_n g) (dset (g_pmfs g) (g_key g) (pm m U s id (g_r g))) a' (g_input g)
     (g_labeled g) (dset (g_outputs g) (g_key g) (ou m incr (g_r g))) (g_key g) (g_prob g))
   /\ calc_matrix a' = U.
Proof using u ss gr fu.
case=> i1 i2 i3 i4 i5 i6 i7 lt; rewrite /new_layer i2 i3 labelE -/(lay s _) layer_weightsE //.
rewrite [rbind (Ok _) _]/= possible_output_statesE [rbind (Ok _) _]/=.
have [|a' [-> ea]] := entriesE (outs := [seq incr (g_r g) j | j <- iota 0 (size (g_r g))]) [::] i4 (nonempty lt) lt.
  by move=> t /mapP[j]; rewrite mem_iota => /= jl ->; rewrite size_incr ?sumn_incr.
by exists a'; rewrite [rbind (Ok _) _]/= -map_comp i5.
Qed.

Lemma start_a g : calc_matrix (g_calc g) = U -> inv_a (reset_sample (nseq m 0%N) (gcc_start s g)).
Proof. by move=> e; split=> //=; rewrite size_nseq. Qed.

Lemma reset_a g : inv_a g -> inv_a (reset_sample (nseq (size (g_input g)) 0%N) g).
Proof using ss. by case=> i1 i2 i3 i4 i5 i6 i7; split=> //=; rewrite size_nseq i2. Qed.

(* between two samples only the cache matters *)
Definition between_a (g : gcc R) := inv_a (reset_sample (nseq (size (g_input g)) 0%N) g).

Lemma fill_a_always g : between_a g ->
  always (fun x => exists g' y, [/\ x = Ok g', between_a g', Ok (g_r g') = Ok y &
     is_state m (sumn s) y /\ qprob U s y != 0]) (fill_r_sample gray fuel g).
Proof using u ss gr fu.
move=> I; rewrite /fill_r_sample fill_loopE.
have e : size (g_input g) = m by rewrite -[g_input g]/(g_input (reset_sample (nseq (size (g_input g)) 0%N) g)) (gi_in I).
have z : sumn (nseq (size (g_input g)) 0%N) = 0%N by rewrite sumn_nseq.
have H := @gloop_always R m U s u ss id incr sumn ok_a _ _ _ _ _ layer_a fuel _ I.
apply: always_impl (H _ _ _ _ _ _ _) => {H}.
- move=> _ [g' [-> I' e' q0]]; exists g', (g_r g'); split=> //; first exact: reset_a.
  by split=> //; rewrite /is_state (gi_ok I') e' !eqxx.
- by move=> r j <- jm; rewrite size_incr.
- by [].
- by [].
- by [].
- by rewrite /= e -ss qprob0 oner_eq0.
- by rewrite /= z.
- by rewrite /= z subn0; apply: leq_trans (prod_gt s) fu.
Qed.

Lemma fill_a_exp f g : between_a g ->
  has_exp (on_ok (fun g' => on_ok f (Ok (g_r g')))) (fill_r_sample gray fuel g)
    (\sum_(t <- comps m (sumn s)) bs_prob U s t * f t).
Proof using u ss gr fu.
move=> I; rewrite /fill_r_sample fill_loopE.
have e : size (g_input g) = m by rewrite -[g_input g]/(g_input (reset_sample (nseq (size (g_input g)) 0%N) g)) (gi_in I).
have z : sumn (nseq (size (g_input g)) 0%N) = 0%N by rewrite sumn_nseq.
have H := @gloop_exp R m U s u ss id incr sumn ok_a _ _ _ _ _ layer_a f fuel _ I.
apply: has_exp_eq (H _ _ _ _ _ _ _) _ => {H} //=.
- by move=> r j <- jm; rewrite size_incr.
- by rewrite e -ss qprob0 oner_eq0.
- by rewrite z.
- by rewrite z subn0; apply: leq_trans (prod_gt s) fu.
rewrite z subn0 e cond_exp_start //; apply: eq_big_seq => t; rewrite mem_comps => /andP[_ /eqP et].
by rewrite fixed_loss_full.
Qed.

Lemma possible t : is_state m (sumn s) t -> qprob U s t != 0 -> bs_prob U s t != 0.
Proof.
case/andP=> _ /eqP et q0; rewrite -fixed_loss_full // qprob_fixed ?et //.
by apply: mulf_neq0; [apply: mulf_neq0|rewrite invr_eq0]; rewrite // pnatr_eq0 -lt0n ?fact_gt0 ?factprod_gt0.
Qed.

Lemma gcc_simulate_exp k f g : calc_matrix (g_calc g) = U ->
  has_exp (on_ok (fun x => f x.1)) (gcc_simulate gray fuel s k g)
    (iid_exp (comps m (sumn s)) (bs_prob U s) k f).
Proof using u ss gr fu.
move=> e; apply: (@sample_loop_exp R _ _ _ _ between_a).
- move=> g' I; apply: always_impl (fill_a_always I) => _ [g2 [y [-> I2 E _]]].
  by exists g2, y.
- by move=> f' g' I; apply: fill_a_exp.
- by rewrite /between_a /= ss; apply: start_a.
Qed.

Lemma gcc_simulate_always k g : calc_matrix (g_calc g) = U ->
  always (fun x => exists L g', [/\ x = Ok (L, g'), size L = k,
      calc_matrix (g_calc g') = U & forall t, t \in L -> is_state m (sumn s) t /\ bs_prob U s t != 0])
    (gcc_simulate gray fuel s k g).
Proof using u ss gr fu.
move=> e.
have I : between_a (gcc_start s g) by rewrite /between_a /= ss; apply: start_a.
apply: always_impl (sample_loop_always k fill_a_always I) => _ [L [g' [-> sL I' aL]]].
exists L, g'; split=> //; first exact: gi_mat I'.
by move=> t /aux_in /aL [st q0]; split=> //; apply: possible.
Qed.

(* ---- mode assignments ---- *)
Notation ok_m := (fun r : seq nat => all (fun i => i < m)%N r).
Notation occ_m := (occupation m).
Notation inv_m := (ginv m U s occ_m rcons ok_m).

Lemma occ_rcons r j : (j < m)%N -> occ_m (rcons r j) = incr (occ_m r) j.
Proof.
move=> jm; apply: (@eq_from_nth _ 0%N) => [|i]; first by rewrite size_incr !size_map size_iota.
rewrite size_map size_iota => im; rewrite nth_incr !(nth_map 0%N) ?size_iota // !nth_iota // !add0n.
rewrite -cats1 count_cat /= addn0; case: eqP => [->|/eqP ne]; first by rewrite eqxx addn1.
by rewrite eq_sym (negPf ne) addn0.
Qed.

Lemma size_occ r : size (occ_m r) = m. Proof. by rewrite size_map size_iota. Qed.

Lemma sumn_occ r : all (fun i => i < m)%N r -> sumn (occ_m r) = size r.
Proof.
elim/last_ind: r => [|r j IH]; first by rewrite sumnE big_map big1.
rewrite all_rcons size_rcons => /andP[jm /IH e].
by rewrite occ_rcons // sumn_incr ?size_occ // e.
Qed.

Lemma occ_nil : occ_m [::] = nseq m 0%N.
Proof. by rewrite /occupation -[in RHS](size_iota 0 m); elim: (iota 0 m) => //= x l <-. Qed.

Lemma occ_state r : all (fun i => i < m)%N r -> size r = sumn s -> is_state m (sumn s) (occ_m r).
Proof. by move=> al e; rewrite /is_state size_occ sumn_occ // e !eqxx. Qed.

Lemma layer_m g : inv_m g -> (size (g_r g) < sumn s)%N ->
  exists a', ma_new_layer gray fuel g = Ok (Gcc (g_r g) (g_n g) (dset (g_pmfs g) (g_key g) (pm m U s occ_m (g_r g))) a' (g_input g)
     (g_labeled g) (dset (g_outputs g) (g_key g) (ou m rcons (g_r g))) (g_key g) (g_prob g))
   /\ calc_matrix a' = U.
Proof using u ss gr fu.
case=> i1 i2 i3 i4 i5 i6 i7 lt; rewrite /ma_new_layer i2 i3 labelE -/(lay s _) layer_weightsE //.
rewrite [rbind (Ok _) _]/=.
have m0 : (0 < m)%N by rewrite -ss; have := nonempty lt; case: (s).
pose outs := [seq incr (occ_m (g_r g)) j | j <- iota 0 m].
have [|a' [E ea]] := entriesE (outs := outs) [::] i4 (nonempty lt) lt.
  by move=> t /mapP[j]; rewrite mem_iota => /= jl ->; rewrite size_incr ?sumn_incr ?size_occ ?sumn_occ.
exists a'; split=> //.
have -> : rfoldl (fun st t =>
    let! t := mode_assignment_to_mode_occupation (map Posz t) (Posz (size s)) in
    let! pa := pmf_entry gray fuel st.2 (lay s (size (g_r g)).+1)
       [seq (ways s T)%:R / 'C(sumn s, (size (g_r g)).+1)%:R | T <- lay s (size (g_r g)).+1] t in
    Ok (rcons st.1 pa.1, pa.2)) ([::], g_calc g) (ma_possible_outputs s (g_r g)) =
    Ok ([::] ++ map (qprob U s) outs, a').
  rewrite -E /outs /ma_possible_outputs ss.
  have: all (fun i => i < m)%N (iota 0 m) by apply/allP => i; rewrite mem_iota.
  move: ([::], g_calc g); elim: (iota 0 m) => [//|j l IH] st /= /andP[jm al].
  rewrite assignment_to_occupation_nat // ?all_rcons ?jm // [rbind (Ok _) _]/= occ_rcons //.
  by case: (pmf_entry _ _ _ _ _ _) => [pa|e] //=; apply: IH.
by rewrite [rbind (Ok _) _]/= -map_comp /ma_possible_outputs ss.
Qed.

Definition between_m (g : gcc R) := inv_m (reset_sample [::] g).

Lemma fill_m_always g : s != [::] -> between_m g ->
  always (fun x => exists g' y, [/\ x = Ok g', between_m g',
     mode_assignment_to_mode_occupation (map Posz (g_r g')) (Posz (size (g_input g'))) = Ok y &
     is_state m (sumn s) y /\ qprob U s y != 0]) (ma_fill_r_sample gray fuel g).
Proof using u ss gr fu.
move=> s0 I; rewrite /ma_fill_r_sample ma_fill_loopE.
have m0 : (0 < m)%N by rewrite -ss; case: (s) s0.
have H := @gloop_always R m U s u ss occ_m rcons size ok_m _ _ _ _ _ layer_m fuel _ I.
apply: always_impl (H _ _ _ _ _ _ _) => {H}.
- move=> _ [g' [-> I' e' q0]]; exists g', (occ_m (g_r g')); split=> //.
  + by case: I' => i1 i2 i3 i4 i5 i6 i7; split.
  + by rewrite (gi_in I') ss assignment_to_occupation_nat // (gi_ok I').
  + by split=> //; apply: occ_state => //; exact: gi_ok I'.
- by move=> r j; rewrite all_rcons => -> ->.
- by move=> r j _; exact: occ_rcons.
- by move=> r _; exact: size_occ.
- by move=> r /sumn_occ.
- by rewrite /= occ_nil -ss qprob0 oner_eq0.
- by [].
- by rewrite /= subn0; apply: leq_trans (prod_gt s) fu.
Qed.

Lemma fill_m_exp f g : s != [::] -> between_m g ->
  has_exp (on_ok (fun g' => on_ok f
     (mode_assignment_to_mode_occupation (map Posz (g_r g')) (Posz (size (g_input g')))))) (ma_fill_r_sample gray fuel g)
    (\sum_(t <- comps m (sumn s)) bs_prob U s t * f t).
Proof using u ss gr fu.
move=> s0 I; rewrite /ma_fill_r_sample ma_fill_loopE.
have m0 : (0 < m)%N by rewrite -ss; case: (s) s0.
have H := @gloop_exp R m U s u ss occ_m rcons size ok_m _ _ _ _ _ layer_m f fuel _ I.
have HA := @gloop_always R m U s u ss occ_m rcons size ok_m _ _ _ _ _ layer_m fuel _ I.
have {H} : has_exp (on_ok (fun g' => f (occ_m (g_r g')))) (gloop size (ma_new_layer gray fuel) fuel (reset_sample [::] g))
   (\sum_(t <- comps m (sumn s)) bs_prob U s t * f t).
  apply: has_exp_eq (H _ _ _ _ _ _ _) _ => //=.
  - by move=> r j; rewrite all_rcons => -> ->.
  - by move=> r j _; exact: occ_rcons.
  - by move=> r _; exact: size_occ.
  - by move=> r /sumn_occ.
  - by rewrite occ_nil -ss qprob0 oner_eq0.
  - by rewrite subn0; apply: leq_trans (prod_gt s) fu.
  rewrite subn0 occ_nil cond_exp_start //; apply: eq_big_seq => t; rewrite mem_comps => /andP[_ /eqP et].
  by rewrite fixed_loss_full.
move=> H; apply: has_exp_always H _.
apply: always_impl (HA _ _ _ _ _ _ _) => {HA}.
- move=> _ [g' [-> I' e' q0]]; rewrite /= (gi_in I') ss assignment_to_occupation_nat // (gi_ok I') //.
- by move=> r j; rewrite all_rcons => -> ->.
- by move=> r j _; exact: occ_rcons.
- by move=> r _; exact: size_occ.
- by move=> r /sumn_occ.
- by rewrite /= occ_nil -ss qprob0 oner_eq0.
- by [].
- by rewrite /= subn0; apply: leq_trans (prod_gt s) fu.
Qed.

Lemma ma_simulate_exp k f g : s != [::] -> calc_matrix (g_calc g) = U ->
  has_exp (on_ok (fun x => f x.1)) (ma_simulate gray fuel s k g)
    (iid_exp (comps m (sumn s)) (bs_prob U s) k f).
Proof using u ss gr fu.
move=> s0 e; apply: (@sample_loop_exp R _ _ _ _ between_m).
- move=> g' I; apply: always_impl (fill_m_always s0 I) => _ [g2 [y [-> I2 E _]]].
  by exists g2, y.
- by move=> f' g' I; apply: fill_m_exp.
- by split.
Qed.

Lemma ma_simulate_always k g : s != [::] -> calc_matrix (g_calc g) = U ->
  always (fun x => exists L g', [/\ x = Ok (L, g'), size L = k,
      calc_matrix (g_calc g') = U & forall t, t \in L -> is_state m (sumn s) t /\ bs_prob U s t != 0])
    (ma_simulate gray fuel s k g).
Proof using u ss gr fu.
move=> s0 e.
have I : between_m (gcc_start s g) by split.
apply: always_impl (sample_loop_always k (fun g => @fill_m_always g s0) I) => _ [L [g' [-> sL I' aL]]].
exists L, g'; split=> //; first exact: gi_mat I'.
by move=> t /aux_in /aL [st q0]; split=> //; apply: possible.
Qed.

End Sim.
