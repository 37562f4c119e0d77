(* The samples of the approximate sampler, with uniform random phases. *)
From mathcomp Require Import all_ssreflect all_algebra complex.
From mathcomp Require Import ring zify.
From Verif Require Import Base SpecStates Combi SpecPerm PermMath SpecBS BsMath BsComb BsNorm.
From Verif Require Import ModelStates ModelPerm ModelDist SpecProb ProbMath ModelGcc ModelGccB ProofSel SpecGcc ModelNet SpecNet.
From Verif Require Import ProofGcc3 LemGcc ProofGccB2 ProofNet1 ProofNet4 ProofNet5 ProofThin ProofBobs1 ProofBobs2 ProofBobs3 ProofBobs4 ProofBobs5 ModelBobs SpecBobs.
From Verif Require Import SpecLim ProofLim1 ProofLim2 ProofLim3 SpecBlim ProofBlim1 ProofBlim2.
Set Implicit Arguments.
Unset Strict Implicit.
Unset Printing Implicit Defensive.
Import Order.TTheory GRing.Theory Num.Theory.
Local Open Scope ring_scope.
Local Open Scope py_scope.

Lemma sub_spike k j p r K : (j < k)%N -> substate K (spike k j p ++ r) ->
  K = spike k j (nth 0%N K j) ++ drop k K.
Proof.
move=> jk /substateP[sK h]; rewrite size_cat size_spike in sK.
have kK : (k <= size K)%N by rewrite sK leq_addr.
rewrite -{1}(cat_take_drop k K); congr (_ ++ _).
apply: (@eq_from_nth _ 0%N); first by rewrite size_takel // size_spike.
rewrite size_takel // => i ik; rewrite nth_take // nth_spike //; case: eqP => [-> //|ne].
by have := h i; rewrite nth_cat size_spike ik nth_spike // (introF eqP ne) leqn0 => /eqP.
Qed.

Lemma thread_lim (R : rcfType) (X : eqType) (S : seq X) (P : X -> R) (work : nat -> rprog R (res (seq X))) :
  (forall k, always (fun r => exists L, r = Ok L) (work k)) ->
  (forall k f, lim_exp (on_ok f) (work k) (iid_exp S P k f)) ->
  forall loads f, lim_exp (on_ok f) (thread_loop work loads) (iid_exp S P (sumn loads) f).
Proof.
move=> HA HE; have HA' loads : always (fun r => exists L, r = Ok L) (thread_loop work loads).
  elim: loads => [|k loads IH]; first by exists [::].
  rewrite [thread_loop _ _]/=; apply: always_rbind; apply: always_impl (HA k) => _ [L ->].
  by apply: always_rbind; apply: always_impl IH => _ [L' ->]; exists (L ++ L').
elim=> [|k loads IH] f; first by apply: lim_of_exp; exact: ExpRet.
rewrite [thread_loop _ _]/= [sumn _]/= iid_expD.
apply: lim_rbind (HE k _) _; apply: always_impl (HA k) => _ [L ->].
apply: lim_rbind (IH (fun L' => f (L ++ L'))) _; apply: always_impl (HA' loads) => _ [L' ->].
by apply: lim_of_exp; exact: ExpRet.
Qed.

Section Sample.
Variable R : rcfType.
Notation C := (ComplexField.complex_numFieldType R).
Notation mat := (seq (seq C)).
Variables (svd : mat -> res (mat * seq R * mat)) (cis : R -> C).
Hypotheses (arch : Num.archimedean_axiom R) (sv : svd_ok svd) (ok : cis_ok cis) (lip : cis_lipschitz cis).
Variables (m : nat) (M : mat).
Hypotheses (m0 : (0 < m)%N) (sub : subunitary m M).
Hypothesis nz : exists i j, [/\ (i < m)%N, (j < m)%N & ent M i j != 0].
Variables (fuel k p : nat) (s : seq nat).
Hypotheses (ss : size s = m) (k0 : (0 < k)%N)
  (fu : forall s', s' \in approx_inputs k p s -> (\prod_(y <- s') y.+1 <= fuel)%N).

Section One.
Variable x : bobs R.
Hypotheses (bx : bobs_of svd m M x) (ek : bo_modes x = k) (ep : bo_particles x = p)
  (es : bo_state x = nseq k 0%N ++ drop k s) (mx : nat) (lmx : (maxn (\max_(y <- s) y) p <= mx)%N)
  (ew : bo_weights x = own_binomial_weights (bo_losses x) mx).
Variables (e : nat) (D M' : mat).
Hypotheses (hM' : forall i j, (i < m)%N -> (j < m)%N -> ent M' i j = (Num.sqrt (1 - kept_losses (bo_losses x)))%:C%C * ent (bo_matrix x) i j)
  (dD : dilation m e M' D).

Let km : (k <= m)%N. Proof. by case: bx => _ _; rewrite ek. Qed.

Lemma matrix_lim f g v : (forall A d, is_square m A -> subunitary m A ->
    (forall i j, (i < m)%N -> (j < m)%N -> ent A i j = ent (approx_net cis m (bo_matrix x) k d) i j) -> f A = g d) ->
  lim_exp (on_ok g) (@np_rand R k) v ->
  lim_exp (on_ok f) (approximate_matrix cis (@np_rand R) x) v.
Proof.
move=> H lg; have [_ sN _ bd] := bobs_facts sv m0 sub nz bx.
have sz : size (bo_matrix x) = m by case/andP: sN => /eqP.
have [Q [eQ _ _ _]] := fourierE ok km.
rewrite /approximate_matrix ek sz eQ rpbind_ok; apply: lim_rbind lg _; apply: always_impl (@np_rand_always _ k) => _ [d ->].
have [A [eA sA hA]] := approx_calcE ok m0 km d sN.
move: eA; rewrite /approx_calc eQ [rbind (Ok Q) _]/=; case: phases_matrix_first => // P; rewrite [rbind (Ok P) _]/= rpbind_ok.
case: np_matmul => // B; rewrite [rbind (Ok B) _]/= rpbind_ok => ->.
rewrite -(H A d) //; first by apply: lim_of_exp; exact: ExpRet.
exact: (approx_sub ok km sA hA bd).
Qed.

Lemma sample_lim h f : lim_exp (on_ok (fun y => f y.1)) (bobs_sample svd cis (@np_rand R) fuel x h)
  (\sum_(t <- lcomps m (p + sumn (drop k s))) spread_rest e D k p (drop k s) t * f t).
Proof.
have [/andP[l0 l1] sN hN bd] := bobs_facts sv m0 sub nz bx.
have [DN [_ _ dN]] := expanded_dilation sv m0 (conj sN bd).
have sr : size (drop k s) = (m - k)%N by rewrite size_drop ss.
have et : approx_total k p s = (p + sumn (drop k s))%N by rewrite /approx_total; have -> : (k == 0)%N = false by lia.
pose V := \sum_(t <- lcomps m (p + sumn (drop k s))) spread_rest e D k p (drop k s) t * f t.
pose N := (p + sumn (drop k s)).+1.
pose G (l : seq (option nat)) : R := let K := pmap id l in
  \sum_(t <- lcomps m (sumn K)) grid_mean k N (fun d => traced_prob m (approx_dil cis m m k DN d) K t) * f t.
have pS (K : seq nat) : pmap id (map Some K) = K by elim: K => //= n K' ->.
rewrite sampleE.
apply: lim_rbind (_ : lim_exp (on_ok (fun=> V)) _ _) _.
  apply: lim_of_exp; apply: has_exp_eq (symmetrized_exp ek ep es _) _.
  rewrite big_const_seq count_predT iter_addr_0 -[V *+ _]mulr_natr mulfK // /approx_inputs.
  by have -> : (k == 0)%N = false; [lia|rewrite size_map size_iota pnatr_eq0; lia].
apply: always_impl (symmetrized_always ek ep es) => _ [s' -> si].
have [j jk es'] : exists2 j, (j < k)%N & s' = spike k j p ++ drop k s.
  move: si; rewrite /approx_inputs; have -> : (k == 0)%N = false by lia.
  by move=> /mapP[j]; rewrite mem_iota => /= jk ->; exists j => //; rewrite set_nth_spike.
apply: lim_eq (lim_rbind (lim_of_exp (@lossy_exp _ _ sv m M m0 sub nz k p s x bx mx lmx ew s' G si)) _) _.
  apply: always_impl (@lossy_always _ _ sv m M m0 sub nz k p s x bx mx lmx ew s' si) => _ [K [-> sK]].
  have eK : K = spike k j (nth 0%N K j) ++ drop k K by move: sK; rewrite es'; exact: sub_spike.
  have [zK hK] := substateP _ _ sK; rewrite (approx_inputs_size ss km si) in zK.
  have ssp l : sumn (spike k j l) = l.
    rewrite sumnE (big_nth 0%N) size_spike big_mkord (bigD1 (Ordinal jk)) //= nth_spike // eqxx big1 ?addn0 // => i ne.
    by rewrite nth_spike //; case: eqP => // h'; case/eqP: ne; apply: val_inj.
  have uK : sumn K = (nth 0%N K j + sumn (drop k K))%N by rewrite {1}eK sumn_cat ssp.
  rewrite {}/G pS.
  apply: lim_rbind (_ : lim_exp (on_ok (fun A => \sum_(t <- lcomps m (sumn K)) traced_prob m (if prepare_expanded svd A is Ok E then E else [::]) K t * f t)) _ _) _.
    apply: (matrix_lim (g := fun d => \sum_(t <- lcomps m (sumn K)) traced_prob m (approx_dil cis m m k DN d) K t * f t)) => [A d sqA sA hA|].
      apply: eq_big_seq => t; rewrite mem_lcomps => /andP[/eqP st le]; congr (_ * _).
      have [E [eE _ [h1 h2]]] := expanded_dilation sv m0 sA; rewrite eE.
      apply: (traced_dil _ (approx_dilation ok km d dN)) => //; split=> // i i' il jl; by rewrite h1 // hA.
    have le : (nth 0%N K j < N)%N.
      have := substate_sumn sK; rewrite uK es' sumn_cat ssp; rewrite /N; lia.
    have sdK : size (drop k K) = (m - k)%N by rewrite size_drop zK.
    have := @rest_lim _ cis ok m m k km k0 lip DN j (nth 0%N K j) (drop k K) f N arch jk sdK le.
    by rewrite -eK -uK.
  apply: always_impl (@matrix_always _ _ _ sv ok m M m0 sub nz k x bx ek (@np_rand R) (@np_rand_always _ k)) => _ [A -> sA].
  have [E [eE _ dE]] := expanded_dilation sv m0 sA; rewrite eE.
  apply: lim_of_exp; exact: (@tail_exp _ _ sv m M m0 fuel k p s x ss bx ek fu A K s' h f m E sA si sK dE).
rewrite {}/G.
under eq_bigr => K _ do rewrite pS.
rewrite (thin_sum _ _ _ (fun=> f)) (approx_inputs_sumn si) et; apply: eq_big_seq => t; rewrite mem_lcomps => /andP[/eqP st le].
rewrite -mulr_suml; congr (_ * _).
have z' := approx_inputs_size ss km si.
have q0 : 0 <= kept_losses (bo_losses x) by rewrite /kept_losses; case: ifP.
have p1 : 0 <= 1 - kept_losses (bo_losses x).
  by rewrite /kept_losses; case: ifP => _; rewrite ?subr0 ?ler01 // subr_ge0 ltW.
rewrite -(@traced_grid _ cis ok m e k km k0 D j p (drop k s) t N) //; last by rewrite /N ltnS leq_addr.
rewrite -es' /grid_mean.
transitivity (\sum_(d <- grid R k N) \sum_(K <- subs s' | (sumn t <= sumn K)%N) thin_weight (kept_losses (bo_losses x)) s' K * (traced_prob m (approx_dil cis m m k DN d) K t / N%:R ^+ k)).
  rewrite exchange_big; apply: eq_bigr => K _; by rewrite mulr_sumr.
apply: eq_bigr => d _.
rewrite (traced_thin (x := Num.sqrt (1 - kept_losses (bo_losses x))) (c := Num.sqrt (kept_losses (bo_losses x))) (approx_dilation ok km d dN) (approx_dilation ok km d dD)) //.
- rewrite mulr_suml; apply: eq_bigr => K _; rewrite mulrA; congr (_ * _ * _).
  by rewrite !sqr_sqrtr.
- by rewrite !sqr_sqrtr // subrK.
- exact: approx_scale hM'.
by rewrite (approx_inputs_sumn si) et.
Qed.
End One.
End Sample.

Section Samples.
Variable R : rcfType.
Notation C := (ComplexField.complex_numFieldType R).
Notation mat := (seq (seq C)).
Variables (svd : mat -> res (mat * seq R * mat)) (cis : R -> C).
Hypotheses (arch : Num.archimedean_axiom R) (sv : svd_ok svd) (ok : cis_ok cis) (lip : cis_lipschitz cis).
Variables (m : nat) (M : mat).
Hypotheses (m0 : (0 < m)%N) (sub : subunitary m M).
Hypothesis nz : exists i j, [/\ (i < m)%N, (j < m)%N & ent M i j != 0].
Variables (fuel : nat) (s : seq nat) (x : bobs R).
Let k := bo_modes x.
Let p := (bo_particles x + sumn (take k s))%N.
Hypotheses (ss : size s = m) (bx : bobs_of svd m M x) (T0 : (0 < bo_threads x)%N) (k0 : (0 < k)%N)
  (fu : forall s', s' \in approx_inputs k p s -> (\prod_(y <- s') y.+1 <= fuel)%N).
Variables (e : nat) (D M' : mat).
Hypotheses (hM' : forall i j, (i < m)%N -> (j < m)%N -> ent M' i j = (Num.sqrt (1 - kept_losses (bo_losses x)))%:C%C * ent (bo_matrix x) i j)
  (dD : dilation m e M' D).

Lemma bobs_simulate_lim (c : int) f : (1 <= c)%R ->
  lim_exp (on_ok (fun y => f y.1)) (bobs_simulate svd cis (@np_rand R) fuel s c x)
    (iid_exp (lcomps m (p + sumn (drop k s))) (spread_rest e D k p (drop k s)) (bo_threads x * (`|c| %/ bo_threads x).+1) f).
Proof.
move=> c1; have al := @np_rand_always R k.
rewrite /bobs_simulate ltNge c1 [~~ true]/=.
have km : (bo_modes x <= size s)%N by case: bx; rewrite ss.
have [|x' [-> [e1 e2] [e3 e4 e5] [e6 e7] [mx lmx e8]]] := startE _ km; first by rewrite ss.
rewrite rpbind_ok; have bx' := start_of bx e1 e3 e4 e5.
have [h eh] := new_net_ok sv m0 sub (a := bo_calc x') (let: And3 y _ _ := bx' in y).
have lmx' : (maxn (\max_(y <- s) y) p <= mx)%N by rewrite /p -e7.
have e8' : bo_weights x' = own_binomial_weights (bo_losses x') mx by rewrite e3.
have hM'' i j : (i < m)%N -> (j < m)%N -> ent M' i j = (Num.sqrt (1 - kept_losses (bo_losses x')))%:C%C * ent (bo_matrix x') i j.
  by rewrite e3 e4; exact: hM'.
have SA h' := @sample_always _ _ _ sv ok _ _ m0 sub nz fuel k p s x' ss bx' e1 e7 e6 mx lmx' e8' fu (@np_rand R) h' al.
have K j : always (fun r => exists L, r = Ok L) (simulate_in_parallel svd cis (@np_rand R) fuel x' j).
  rewrite /simulate_in_parallel eh rpbind_ok; apply: always_rbind.
  apply: always_impl (@sample_loop_always _ _ _ _ _ (fun=> True) (fun=> True) j _ _ I); last first.
    move=> [g h'] _; rewrite /=.
    by apply: always_impl (SA h') => _ [t [h2 [-> _ _]]]; exists (t, h2), t.
  by move=> _ [L [g' [-> _ _ _]]]; exists L.
have KE j g : lim_exp (on_ok g) (simulate_in_parallel svd cis (@np_rand R) fuel x' j)
   (iid_exp (lcomps m (p + sumn (drop k s))) (spread_rest e D k p (drop k s)) j g).
  rewrite /simulate_in_parallel eh rpbind_ok.
  apply: lim_rbind (@sample_loop_lim _ _ _ _ _ (fun=> True) _ _ _ _ j g _ I) _.
  - move=> [g0 h'] _; rewrite /=.
    by apply: always_impl (SA h') => _ [t [h2 [-> _ _]]]; exists (t, h2), t.
  - move=> f0 [g0 h'] _; rewrite /=.
    exact: (@sample_lim _ _ _ arch sv ok lip _ _ m0 sub nz fuel k p s ss k0 fu x' bx' e1 e7 e6 mx lmx' e8' e D M' hM'' dD).
  by apply: always_true => [[a|e']] //; apply: lim_of_exp; exact: ExpRet.
rewrite -threads_total // -e2.
apply: lim_rbind (thread_lim K KE _ f) _.
by apply: always_true => [[a|e']] //; apply: lim_of_exp; exact: ExpRet.
Qed.

Lemma bobs_simulate_lim_iid (c : int) : (1 <= c)%R ->
  lim_iid_samples (bobs_simulate svd cis (@np_rand R) fuel s c x) (bo_threads x * (`|c| %/ bo_threads x).+1)
    [pred t | (size t == m) && (sumn t <= approx_total k p s)%N] (spread_rest e D k p (drop k s)).
Proof.
have et : approx_total k p s = (p + sumn (drop k s))%N by rewrite /approx_total; have -> : (k == 0)%N = false by lia.
move=> c1; apply: (@lim_iid_of_exp _ _ _ _ (lcomps m (p + sumn (drop k s)))); first exact: lcomps_uniq.
  by move=> t; rewrite mem_lcomps et.
by move=> f; exact: bobs_simulate_lim.
Qed.
End Samples.
