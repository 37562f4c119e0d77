(* Final forms of the lemmas behind the property theorems: C60: collecting the distribution of version A up to an accuracy ends. *)
From mathcomp Require Import all_ssreflect all_algebra complex ring zify.
From Verif Require Import Base SpecStates Combi SpecPerm SpecBS BsMath BsNorm SpecProb ProbMath ModelStates ModelPerm ModelDist ModelGcc PermMath BsComb ProofStates1 ProofStates4 LemStates ProofPerm6 LemPerm ProofDist1 ProbTame ModelGccB SampMath ProofSel ProofGcc1 ProofGcc2 ProofGcc3 ProofGccB2 ProofGcc6 ProofGcc7 ProofGcc8 LemGcc ModelNet ProofLS6 ProofFixed4 Witness.
Set Implicit Arguments.
Unset Strict Implicit.
Unset Printing Implicit Defensive.
Import Order.TTheory GRing.Theory Num.Theory.
Local Open Scope ring_scope.
Local Open Scope py_scope.

Lemma ok_le1 (R : realFieldType) (A : Type) (p : rprog R (res A)) v : has_exp (on_ok (fun=> 1)) p v -> v <= 1.
Proof.
move=> h; apply: has_exp_le h (has_exp_const 1 h) _; apply: always_true => -[a|e] /=; [exact: lexx|exact: ler01].
Qed.

Lemma fixed_qprob0 (R : rcfType) (U : seq (seq (ComplexField.complex_numFieldType R))) s r : (sumn r <= sumn s)%N ->
  fixed_loss_prob U s r = 0 -> qprob U s r = 0.
Proof.
move=> le; rewrite qprob_fixed // => /eqP; rewrite -mulrA mulf_eq0 => /orP[/eqP //|].
by rewrite mulf_eq0 invr_eq0 !pnatr_eq0 !eqn0Ngt fact_gt0 factprod_gt0.
Qed.

Lemma C60_distribution_terminates_lemma :
  forall (R : rcfType) (gray : nat -> seq nat) (m : nat) (U : seq (seq (ComplexField.complex_numFieldType R))) (s : seq nat) (eta accuracy tol : R),
  unitary_on m U s -> size s = m -> (0 < m)%N -> gray_ok gray (sumn s) -> 0 <= eta <= 1 -> accuracy <= 1 -> 0 <= tol ->
  exists (L : seq (seq nat)) (f0 : nat), [/\ uniq L, L =i [pred t | (size t == m) && (sumn t <= sumn s)%N] & forall (fuel : nat) (x : ugcc R),
  (f0 <= fuel)%N -> calc_matrix (g_calc (ug_gcc x)) = U -> ug_eta x = eta ->
  generate_possible_states fuel (Posz (sumn s)) (Posz (size s)) true = Ok L /\
  (ug_missing x = false -> forall rounds,
    exists2 v, has_exp (on_ok (fun=> 1)) (compute_distribution gray fuel accuracy tol rounds.+1 s x) v
      & 1 - \sum_(t <- L | (0 < sumn t)%N && (uniform_loss_prob U s eta t != 0)) (1 - uniform_loss_prob U s eta t) ^+ rounds <= v <= 1)].
Proof.
move=> R gray m U s eta accuracy tol u ss m0 gr e01 a1 t0; have [L [[f0 E] mL uL hL]] := lossy_list (sumn s) m0.
exists L, (maxn f0 (\prod_(x <- s) x.+1)); split=> // fuel x; rewrite geq_max => /andP[f1 f2] e1 e2.
have {}E : generate_possible_states fuel (Posz (sumn s)) (Posz (size s)) true = Ok L by rewrite ss; exact: E.
split=> //.
move=> e3 rounds; have [v hv le] := dist_ends u ss gr f2 E mL hL uL rounds e01 a1 t0 e1 e2 e3.
exists v => //; rewrite (ok_le1 hv) andbT; move: le; rewrite big_filter.
by rewrite -(perm_big _ (permL mL uL)).
Qed.

Lemma C60_exact_distribution_lemma :
  forall (R : rcfType) (gray : nat -> seq nat) (m : nat) (U : seq (seq (ComplexField.complex_numFieldType R))) (s : seq nat) (eta : R),
  unitary_on m U s -> size s = m -> (0 < m)%N -> gray_ok gray (sumn s) -> 0 <= eta <= 1 ->
  exists (L : seq (seq nat)) (f0 : nat), [/\ uniq L, L =i [pred t | (size t == m) && (sumn t <= sumn s)%N] & forall (fuel : nat) (x : ugcc R),
  (f0 <= fuel)%N -> calc_matrix (g_calc (ug_gcc x)) = U -> ug_eta x = eta ->
  generate_possible_states fuel (Posz (sumn s)) (Posz (size s)) true = Ok L /\
  (ug_missing x = false -> forall rounds,
    exists2 v, has_exp (on_ok (fun y => (y.1 == [seq uniform_loss_prob U s eta t | t <- L])%:R)) (compute_distribution gray fuel 1 0 rounds.+1 s x) v
      & 1 - \sum_(t <- L | (0 < sumn t)%N && (uniform_loss_prob U s eta t != 0)) (1 - uniform_loss_prob U s eta t) ^+ rounds <= v <= 1)].
Proof.
move=> R gray m U s eta u ss m0 gr e01.
have [L [f0 [uL mL H]]] := C60_distribution_terminates_lemma u ss m0 gr e01 (lexx 1) (lexx 0).
have [L' [f0' [uL' mL' H']]] := C34_full_accuracy_lemma u ss m0 gr e01.
exists L, (maxn f0 f0'); split=> // fuel x; rewrite geq_max => /andP[f1 f2] e1 e2.
have [E {}H] := H fuel x f1 e1 e2; have [E' {}H'] := H' fuel x f2 e1 e2; split=> // ms rounds.
have eL : L' = L by move: E'; rewrite E => -[].
have [v hv le] := H ms rounds; exists v => //; apply: has_exp_always hv _.
by apply: always_impl (H' ms rounds.+1) => _ [->|[x' ->]] //=; rewrite eL eqxx.
Qed.

Lemma C60_unweighted_terminates_lemma :
  forall (R : rcfType) (gray : nat -> seq nat) (m : nat) (U : seq (seq (ComplexField.complex_numFieldType R))) (s : seq nat) (eta accuracy tol : R),
  unitary_on m U s -> size s = m -> (0 < m)%N -> gray_ok gray (sumn s) -> (0 < sumn s)%N -> 0 <= eta <= 1 -> accuracy <= 1 -> 0 <= tol ->
  exists (L : seq (seq nat)) (f0 : nat), [/\ uniq L, L =i [pred t | (size t == m) && (sumn t <= sumn s)%N] & forall (fuel : nat) (x : ugcc R),
  (f0 <= fuel)%N -> calc_matrix (g_calc (ug_gcc x)) = U -> ug_eta x = eta ->
  generate_possible_states fuel (Posz (sumn s)) (Posz (size s)) true = Ok L /\
  (ug_missing x = false -> forall rounds,
    exists2 v, has_exp (on_ok (fun=> 1)) (compute_unweighted gray fuel accuracy tol rounds.+1 s x) v
      & 1 - \sum_(t <- L | (0 < sumn t)%N && (fixed_loss_prob U s t != 0)) (1 - eta ^+ sumn t * fixed_loss_prob U s t) ^+ rounds <= v <= 1)].
Proof.
move=> R gray m U s eta accuracy tol u ss m0 gr n0 e01 a1 t0; have [L [[f0 E] mL uL hL]] := lossy_list (sumn s) m0.
exists L, (maxn f0 (\prod_(x <- s) x.+1)); split=> // fuel x; rewrite geq_max => /andP[f1 f2] e1 e2.
have {}E : generate_possible_states fuel (Posz (sumn s)) (Posz (size s)) true = Ok L by rewrite ss; exact: E.
split=> //.
move=> e3 rounds; have [v hv le] := unw_ends u ss gr f2 E mL hL uL rounds n0 e01 a1 t0 e1 e2 e3.
exists v => //; rewrite (ok_le1 hv) andbT; move: le; rewrite big_filter.
by rewrite -(perm_big _ (permL mL uL)).
Qed.

Lemma C60_unweighted_exact_lemma :
  forall (R : rcfType) (gray : nat -> seq nat) (m : nat) (U : seq (seq (ComplexField.complex_numFieldType R))) (s : seq nat) (eta : R),
  unitary_on m U s -> size s = m -> (0 < m)%N -> gray_ok gray (sumn s) -> (0 < sumn s)%N ->
  exists (L : seq (seq nat)) (f0 : nat), [/\ uniq L, L =i [pred t | (size t == m) && (sumn t <= sumn s)%N] & forall (fuel : nat) (x : ugcc R),
  (f0 <= fuel)%N -> calc_matrix (g_calc (ug_gcc x)) = U -> ug_eta x = eta ->
  generate_possible_states fuel (Posz (sumn s)) (Posz (size s)) true = Ok L /\
  (ug_missing x = false -> forall rounds, always (fun y => y = Err OutOfFuel \/
      exists x', y = Ok ([seq if sumn t == 0%N then 0 else fixed_loss_prob U s t | t <- L], x'))
    (compute_unweighted gray fuel 1 0 rounds s x))].
Proof.
move=> R gray m U s eta u ss m0 gr n0; have [L [[f0 E] mL uL hL]] := lossy_list (sumn s) m0.
exists L, (maxn f0 (\prod_(x <- s) x.+1)); split=> // fuel x; rewrite geq_max => /andP[f1 f2] e1 e2.
have {}E : generate_possible_states fuel (Posz (sumn s)) (Posz (size s)) true = Ok L by rewrite ss; exact: E.
split=> //.
move=> e3 rounds; exact: (unw_exact u ss gr f2 E mL hL uL rounds n0 e1 e2 e3).
Qed.

Lemma C60_too_accurate_lemma :
  forall (R : rcfType) (gray : nat -> seq nat) (m : nat) (U : seq (seq (ComplexField.complex_numFieldType R))) (s : seq nat) (eta accuracy tol : R),
  unitary_on m U s -> size s = m -> (0 < m)%N -> gray_ok gray (sumn s) -> 0 <= eta <= 1 -> 1 + tol < accuracy ->
  exists (L : seq (seq nat)) (f0 : nat), [/\ uniq L, L =i [pred t | (size t == m) && (sumn t <= sumn s)%N] & forall (fuel : nat) (x : ugcc R),
  (f0 <= fuel)%N -> calc_matrix (g_calc (ug_gcc x)) = U -> ug_eta x = eta ->
  generate_possible_states fuel (Posz (sumn s)) (Posz (size s)) true = Ok L /\
  forall rounds, always (fun y => y = Err OutOfFuel) (compute_distribution gray fuel accuracy tol rounds s x)].
Proof.
move=> R gray m U s eta accuracy tol u ss m0 gr e01 lt.
have [L [f0 [uL mL H]]] := C34_distribution_up_to_accuracy_lemma eta accuracy tol u ss m0 gr.
exists L, f0; split=> // fuel x f1 e1 e2; have [E {}H] := H fuel x f1 e1 e2; split=> // rounds.
apply: always_impl (H rounds) => _ [->|[D [x' [-> sD dD le]]]] //; exfalso.
have dle : \sum_(p <- D) p <= 1.
  rewrite -(@uniform_loss_norm _ m U s eta u) -big_lcomps -(sum_L mL uL) (sum_list sD); apply: ler_sum => j _.
  have := dD j (ltn_ord j); rewrite !inE => /orP[] /eqP -> //.
  by apply: le_trans (uniform_loss_ge0 _ _ _ e01); case: ifP => _; rewrite ?lexx ?oppr_le0 ?ler01.
have : accuracy <= 1 + tol by rewrite -ler_subl_addl; apply: le_trans le; rewrite ler_add2l ler_opp2.
by rewrite leNgt lt.
Qed.

Lemma C60_zero_transmissivity_lemma :
  forall (R : rcfType) (gray : nat -> seq nat) (m : nat) (U : seq (seq (ComplexField.complex_numFieldType R))) (s : seq nat) (eta accuracy tol : R),
  unitary_on m U s -> size s = m -> (0 < m)%N -> gray_ok gray (sumn s) -> (0 < sumn s)%N -> eta = 0 -> tol < accuracy ->
  exists (L : seq (seq nat)) (f0 : nat), [/\ uniq L, L =i [pred t | (size t == m) && (sumn t <= sumn s)%N] & forall (fuel : nat) (x : ugcc R),
  (f0 <= fuel)%N -> calc_matrix (g_calc (ug_gcc x)) = U -> ug_eta x = eta ->
  generate_possible_states fuel (Posz (sumn s)) (Posz (size s)) true = Ok L /\
  forall rounds, always (fun y => y = Err OutOfFuel) (compute_unweighted gray fuel accuracy tol rounds s x)].
Proof.
move=> R gray m U s eta accuracy tol u ss m0 gr n0 z lt; have [L [[f0 E] mL uL hL]] := lossy_list (sumn s) m0.
exists L, (maxn f0 (\prod_(x <- s) x.+1)); split=> // fuel x; rewrite geq_max => /andP[f1 f2] e1 e2.
have {}E : generate_possible_states fuel (Posz (sumn s)) (Posz (size s)) true = Ok L by rewrite ss; exact: E.
split=> //.
by rewrite z in e2 => rounds; exact: (unw_zero gray u ss E mL hL rounds lt n0 e1 e2).
Qed.

Lemma C60_missing_values_lemma :
  forall (R : rcfType) (gray : nat -> seq nat) (m : nat) (U : seq (seq (ComplexField.complex_numFieldType R))) (s : seq nat) (eta accuracy tol : R) (t : seq nat),
  unitary_on m U s -> size s = m -> (0 < m)%N -> gray_ok gray (sumn s) -> 0 <= eta <= 1 -> tol < accuracy -> size t = m -> (0 < sumn t <= sumn s)%N ->
  (forall j, (j < m)%N -> (0 < nth 0%N t j)%N -> fixed_loss_prob U s (set_nth 0%N t j (nth 0%N t j).-1) = 0) ->
  exists (L : seq (seq nat)) (f0 : nat), [/\ uniq L, L =i [pred t | (size t == m) && (sumn t <= sumn s)%N] & forall (fuel : nat) (x : ugcc R),
  (f0 <= fuel)%N -> calc_matrix (g_calc (ug_gcc x)) = U -> ug_eta x = eta ->
  generate_possible_states fuel (Posz (sumn s)) (Posz (size s)) true = Ok L /\
  (ug_missing x = true -> forall rounds,
    always (fun y => y = Err OutOfFuel) (compute_distribution gray fuel accuracy tol rounds s x))].
Proof.
move=> R gray m U s eta accuracy tol t u ss m0 gr e01 lt st /andP[t0 tn] ut; have [L [[f0 E] mL uL hL]] := lossy_list (sumn s) m0.
exists L, (maxn f0 (\prod_(x <- s) x.+1)); split=> // fuel x; rewrite geq_max => /andP[f1 f2] e1 e2.
have {}E : generate_possible_states fuel (Posz (sumn s)) (Posz (size s)) true = Ok L by rewrite ss; exact: E.
split=> //.
move=> e3 rounds; apply: (dist_missing u ss gr f2 E mL hL uL e01 rounds lt (t := t)) => //.
  by rewrite mL st eqxx.
move=> r j sr jm e; apply: (@fixed_qprob0 R U s r); last first.
  by rewrite -(decr_incr (s := r) (i := j)) ?sr // e decrE; apply: ut; rewrite // -e nth_incr eqxx.
by move: tn; rewrite -e sumn_incr ?sr //; apply: leq_trans.
Qed.

Lemma C60_example_lemma (R : rcfType) : exists (fuel : nat) (x : ugcc R), forall rounds,
  exists2 v, has_exp (on_ok (fun=> 1)) (compute_distribution reflected_gray fuel 1 0 rounds.+1 [:: 1; 0]%N x) v
    & 1 - ((41%:R / 50%:R) ^+ rounds + (34%:R / 50%:R) ^+ rounds) <= v <= 1.
Proof.
have e01 : 0 <= (2%:R^-1 : R) <= 1 by rewrite invr_ge0 ler0n invf_le1 ?ltr0n // ler1n.
have us : unitary_on 2 (splitter R) [:: 1; 0]%N by apply: unitaryW (splitter_unitary R) _.
have [L [f0 [uL mL H]]] := C60_distribution_terminates_lemma us erefl isT (@reflected_gray_ok _) e01 (lexx 1) (lexx 0).
pose x := new_ugcc (generate_calculator (CalcFactory (splitter R) [::] [::] RYSER)) 2%:R^-1 : ugcc R.
have [_ /(_ erefl) h] := H f0 x (leqnn _) erefl erefl; exists f0, x => rounds.
have [v hv le] := h rounds; exists v => //.
have pe : perm_eq L [:: [:: 0; 0]; [:: 1; 0]; [:: 0; 1]]%N.
  apply: uniq_perm => // t; rewrite mL; apply/idP/idP.
    by case: t => [|[|[|?]] [|[|[|?]] [|? ?]]].
  by rewrite !inE => /or3P[] /eqP ->.
have s0 : [:: 1; 0]%N = single 2 0 by rewrite /single incrE.
have s1 : [:: 0; 1]%N = single 2 1 by rewrite /single incrE.
have p0 : uniform_loss_prob (splitter R) [:: 1; 0]%N 2%:R^-1 [:: 1; 0]%N = 9%:R / 50%:R.
  rewrite /uniform_loss_prob fixed_loss_full // [binomial_weight _ _ _]/= /binomial_weight binn subnn expr0 expr1 mul1r mulr1.
  by rewrite s0 bs_prob_single // splitter_real /ent /= /nsq /=; field; rewrite ?pnatr_eq0.
have p1 : uniform_loss_prob (splitter R) [:: 1; 0]%N 2%:R^-1 [:: 0; 1]%N = 16%:R / 50%:R.
  rewrite /uniform_loss_prob fixed_loss_full // [binomial_weight _ _ _]/= /binomial_weight binn subnn expr0 expr1 mul1r mulr1.
  by rewrite s0 s1 bs_prob_single // splitter_real /ent /= /nsq /=; field; rewrite ?pnatr_eq0.
move: le; rewrite (perm_big _ pe) !big_cons big_nil /= p0 p1 addr0.
rewrite !mulf_neq0 ?invr_eq0 ?pnatr_eq0 //=.
have -> : 1 - 9%:R / 50%:R = 41%:R / 50%:R :> R by field; rewrite ?pnatr_eq0.
by have -> : 1 - 16%:R / 50%:R = 34%:R / 50%:R :> R by field; rewrite ?pnatr_eq0.
Qed.

Lemma C60_missing_example_lemma (R : rcfType) : exists f0, forall (fuel rounds : nat) (x : ugcc R), (f0 <= fuel)%N ->
  calc_matrix (g_calc (ug_gcc x)) = np_eye _ 2 -> ug_eta x = 1 -> ug_missing x = true ->
  always (fun y => y = Err OutOfFuel) (compute_distribution reflected_gray fuel 1 0 rounds [:: 2; 0]%N x).
Proof.
have us : unitary_on 2 (np_eye (ComplexField.complex_numFieldType R) 2) [:: 2; 0]%N by apply: unitaryW => //; exact: eye_unitary.
have e01 : 0 <= (1 : R) <= 1 by rewrite ler01 lexx.
have [|L [f0 [uL mL H]]] := C60_missing_values_lemma (t := [:: 0; 2]%N) us erefl isT (@reflected_gray_ok _) e01 (@ltr01 R) erefl isT.
  move=> [|[|j]] //= _ _; rewrite /fixed_loss_prob /= -big_filter.
  have -> : [seq T <- subs [:: 2; 0]%N | sumn T == 1%N] = [:: [:: 1; 0]%N] by vm_compute.
  have s0 : [:: 1; 0]%N = single 2 0 by rewrite /single incrE.
  have s1 : [:: 0; 1]%N = single 2 1 by rewrite /single incrE.
  rewrite big_seq1 s0 s1 bs_prob_single // /ent /= /nsq /= expr0n addr0 mulr0 mul0r //.
by exists f0 => fuel rounds x f1 e1 e2 e3; have [_ /(_ e3)] := H fuel x f1 e1 e2; exact.
Qed.
