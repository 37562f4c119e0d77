(* The law of one sample of the approximate sampler. *)
From mathcomp Require Import all_ssreflect all_algebra complex.
From mathcomp Require Import ring zify.
From Verif Require Import Base SpecStates Combi SpecPerm PermMath SpecBS BsMath BsComb BsNorm.
From Verif Require Import ModelStates ModelPerm ModelDist SpecProb ProbMath ModelGcc ModelGccB ProofSel SpecGcc ModelNet SpecNet.
From Verif Require Import ProofGccB2 ProofNet1 ProofNet4 ProofNet5 ProofThin ProofBobs1 ProofBobs2 ProofBobs3 ModelBobs SpecBobs.
Set Implicit Arguments.
Unset Strict Implicit.
Unset Printing Implicit Defensive.
Import Order.TTheory GRing.Theory Num.Theory.
Local Open Scope ring_scope.
Local Open Scope py_scope.

Lemma lcomps_sum (V : zmodType) m a n (F : seq nat -> V) : (a <= n)%N ->
  \sum_(t <- lcomps m a) F t = \sum_(t <- lcomps m n | (sumn t <= a)%N) F t.
Proof.
move=> le; rewrite -[RHS]big_filter; apply: perm_big; apply: uniq_perm; rewrite ?filter_uniq ?lcomps_uniq //.
move=> t; rewrite mem_filter !mem_lcomps andbC; case: (size t == m) => //=; rewrite ?andbF //=; lia.
Qed.

Lemma py_max_le (s : seq nat) : (0 < size s)%N -> exists2 x, py_max s = Ok x & (\max_(y <- s) y <= x)%N.
Proof.
case: s => [//|x s] _; exists (foldl maxn x s) => //; rewrite big_cons.
by elim: s x => [|y s IH] x; rewrite ?big_nil ?maxn0 // big_cons maxnA /=; exact: IH.
Qed.

Lemma rpbind_ok (R : realFieldType) A B (a : A) (g : A -> rprog R (res B)) : rpbind (Ret (Ok a)) g = g a.
Proof. by []. Qed.

Section Sample.
Variable R : rcfType.
Notation C := (ComplexField.complex_numFieldType R).
Notation mat := (seq (seq C)).
Variables (svd : mat -> res (mat * seq R * mat)) (cis : R -> C).
Hypotheses (sv : svd_ok svd) (ok : cis_ok cis).
Variables (m : nat) (M : mat).
Hypotheses (m0 : (0 < m)%N) (sub : subunitary m M).
Hypothesis nz : exists i j, [/\ (i < m)%N, (j < m)%N & ent M i j != 0].

Notation bobs_of := (bobs_of svd m M).

Lemma bobs_facts (x : bobs R) : bobs_of x ->
  [/\ 0 <= bo_losses x < 1, is_square m (bo_matrix x),
      forall i j, (i < m)%N -> (j < m)%N -> ent M i j = (Num.sqrt (1 - bo_losses x))%:C%C * ent (bo_matrix x) i j
    & forall v, image_norm m (bo_matrix x) v <= vec_norm m v].
Proof.
case=> _ e _; have [l [N [e' sN l1 [h bd [v [v1 v2]]]]]] := extractE sv m0 sub.1 nz.
move: e'; rewrite e => -[-> ->].
have l0 : 0 <= l by have := sub.2 v; rewrite -/(image_norm _ _ _) -/(vec_norm _ _) v2 v1 ler_subl_addr ler_addl.
have p : 0 < 1 - l by rewrite subr_gt0.
split; rewrite ?l0 // => w; rewrite -(ler_pmul2l p); apply: le_trans (bd w); rewrite le_eqVlt; apply/orP; left; apply/eqP.
rewrite /image_norm mulr_sumr; apply: eq_bigr => i _.
have -> : \sum_(j < m) ent M i j * w j = (Num.sqrt (1 - l))%:C%C * \sum_(j < m) ent N i j * w j.
  by rewrite mulr_sumr; apply: eq_bigr => j _; rewrite h // mulrA.
by rewrite nsqM nsq_real sqr_sqrtr // ltW.
Qed.

(* the preparation *)
Lemma startE s (x : bobs R) : (0 < size s)%N -> (bo_modes x <= size s)%N -> exists x', [/\ bobs_start s x = Ok x',
  bo_modes x' = bo_modes x /\ bo_threads x' = bo_threads x,
  [/\ bo_losses x' = bo_losses x, bo_matrix x' = bo_matrix x & bo_calc x' = bo_calc x],
  bo_state x' = nseq (bo_modes x) 0%N ++ drop (bo_modes x) s /\
  bo_particles x' = (bo_particles x + sumn (take (bo_modes x) s))%N
  & exists2 mx, (maxn (\max_(y <- s) y) (bo_particles x') <= mx)%N & bo_weights x' = own_binomial_weights (bo_losses x) mx].
Proof.
move=> s0 ks; rewrite /bobs_start.
have H k : (k <= size s)%N -> rfoldl (fun st i =>
      let! n := py_get s (Posz i) in
      let! s' := py_set st.2 (Posz i) 0%N in
      Ok ((st.1 + n)%N, s')) (bo_particles x, s) (iota 0 k) =
  Ok ((bo_particles x + sumn (take k s))%N, nseq k 0%N ++ drop k s).
  elim: k => [|k IH] kl; first by rewrite /= take0 addn0 drop0.
  rewrite -addn1 iotaD rfoldl_cat IH ?(ltnW kl) // [rbind _ _]/= add0n /= (py_get_nth 0%N) // [rbind _ _]/=.
  rewrite (drop_nth 0%N kl) (py_set_cat _ _ _ (i := Posz k)) ?size_nseq // [rbind _ _]/=.
  rewrite addn1 (take_nth 0%N kl) -cats1 sumn_cat /= addn0 addnA; congr (Ok (_, _)).
  by elim: (k) (drop _ _) => //= n IHn L; rewrite IHn.
have [mx emx lmx] := py_max_le s0.
rewrite H // emx [rbind _ _]/=; eexists; split; [reflexivity|by []|by []|by []|].
exists (maxn mx (bo_particles x + sumn (take (bo_modes x) s))) => //=.
by rewrite geq_max leq_maxr andbT (leq_trans lmx) // leq_maxl.
Qed.

Variables (fuel k p : nat) (s : seq nat) (x : bobs R).
Hypotheses (ss : size s = m) (bx : bobs_of x) (ek : bo_modes x = k) (ep : bo_particles x = p)
  (es : bo_state x = nseq k 0%N ++ drop k s) (mx : nat) (lmx : (maxn (\max_(y <- s) y) p <= mx)%N)
  (ew : bo_weights x = own_binomial_weights (bo_losses x) mx)
  (fu : forall s', s' \in approx_inputs k p s -> (\prod_(y <- s') y.+1 <= fuel)%N).

Lemma km : (k <= m)%N. Proof. by case: bx => _ _; rewrite ek. Qed.

Lemma symmetrized_always : always (fun r => exists2 s', r = Ok s' & s' \in approx_inputs k p s) (symmetrized x).
Proof.
rewrite /symmetrized ek ep es /approx_inputs lt0n; case: eqP => [->|k0] /=.
  by exists s; rewrite ?drop0 // mem_head.
move=> i il; rewrite (py_set_nth 0%N) ?size_cat ?size_nseq ?ltn_addr //.
by eexists; first reflexivity; apply: map_f; rewrite mem_iota.
Qed.

Lemma symmetrized_exp f : has_exp (on_ok f) (symmetrized x)
  ((\sum_(s' <- approx_inputs k p s) f s') / (size (approx_inputs k p s))%:R).
Proof.
rewrite /symmetrized ek ep es /approx_inputs lt0n; case: eqP => [->|/eqP k0] /=.
  by rewrite big_seq1 divr1 drop0; exact: ExpRet.
rewrite size_map size_iota big_map -[X in iota _ X]subn0 -/(index_iota _ _) big_mkord.
apply: (ExpInt (v := fun i => f (set_nth 0%N (nseq k 0%N ++ drop k s) i p))); rewrite ?lt0n // => i il.
rewrite (py_set_nth 0%N) ?size_cat ?size_nseq ?ltn_addr //; exact: ExpRet.
Qed.

Lemma lossy_always s' : s' \in approx_inputs k p s ->
  always (fun r => exists K, r = Ok (map Some K) /\ substate K s') (lossy_input x s').
Proof.
move=> si; rewrite /lossy_input; case: ifP => _; first by exists s'; rewrite substate_refl.
have [/andP[l0 l1] _ _ _] := bobs_facts bx.
rewrite ew; apply: lossy_modes_always; first by rewrite l0 ltW.
by apply/allP => y ys; apply: leq_trans lmx; exact: approx_inputs_le si ys.
Qed.

Lemma lossy_exp s' f : s' \in approx_inputs k p s ->
  has_exp (on_ok f) (lossy_input x s') (\sum_(K <- subs s') thin_weight (kept_losses (bo_losses x)) s' K * f (map Some K)).
Proof.
move=> si; rewrite /lossy_input /kept_losses; have [/andP[l0 l1] _ _ _] := bobs_facts bx.
have al : all (fun n => n <= mx)%N s'.
  by apply/allP => y ys; apply: leq_trans lmx; exact: approx_inputs_le si ys.
case: ifP => _; last by rewrite ew; apply: lossy_modes_exp; rewrite // l0 ltW.
apply: has_exp_eq (@ExpRet _ _ _ _) _; rewrite /= (bigD1_seq s') ?subs_uniq ?mem_subs ?substate_refl //=.
rewrite {1}/thin_weight subnn expr0 subr0 expr1n !mulr1 ways_self mul1r big1_seq ?addr0 // => K /andP[ne].
rewrite mem_subs => sK; rewrite /thin_weight expr0n subn_eq0 leqNgt.
have -> : (sumn K < sumn s')%N; last by rewrite /= mulr0 mul0r.
rewrite ltn_neqAle substate_sumn // andbT; apply: contraNneq ne => e; apply/eqP.
by have := substate_sumn_eq sK e.
Qed.

(* the end of the loop body *)
Definition sample_tail (A : mat) (l : seq (option nat)) (h : gccb R) : rprog R (res (seq nat * gccb R)) :=
  draw! h := Ret (lossy_net_set_new_matrix svd A h) in
  draw! s := Ret (rmapM (fun o => if o is Some n then Ok n else Err TypeError) l) in
  draw! y := lossy_net_simulate fuel s 1 h in
  draw! t := Ret (py_get y.1 0) in
  Ret (Ok (t, y.2)).

Lemma rmapM_Some K : rmapM (fun o => if o is Some n then Ok n else Err TypeError) (map Some K) = Ok (K : seq nat).
Proof. by elim: K => //= n K ->. Qed.

Lemma fuel_sub K s' : s' \in approx_inputs k p s -> substate K s' -> (\prod_(y <- K) y.+1 <= fuel)%N.
Proof.
move=> si sK; apply: leq_trans (fu si).
elim: s' K sK {si} => [|n s' IH] [|n' K] //=; rewrite substate_cons !big_cons => /andP[h /IH]; exact: leq_mul.
Qed.

Lemma tail_always A K s' h : subunitary m A -> s' \in approx_inputs k p s -> substate K s' ->
  always (fun r => exists t h', [/\ r = Ok (t, h'), size t = m & (sumn t <= sumn K)%N]) (sample_tail A (map Some K) h).
Proof.
move=> sA si sK; have [E [eE sqE dE]] := expanded_dilation sv m0 sA.
have szK : size K = m by have [-> _] := substateP _ _ sK; rewrite (approx_inputs_size ss km si).
rewrite /sample_tail /lossy_net_set_new_matrix eE rmapM_Some [rbind (Ok _) _]/= !rpbind_ok.
have nb : net_of svd A (b_set_new_matrix E h) by rewrite /net_of eE /b_set_new_matrix [b_calc _]/=; case: (b_calc h).
apply: always_rbind; apply: always_impl (net_always sv m0 sA szK (fuel_sub si sK) 1 nb) => r [[|t [|t' L]] [b' [-> // _ _ al]]].
exists t, b'.
by have /andP[/eqP -> ->] := al t (mem_head _ _).
Qed.

Lemma tail_exp A K s' h f e (D : mat) : subunitary m A -> s' \in approx_inputs k p s -> substate K s' -> dilation m e A D ->
  has_exp (on_ok (fun y => f y.1)) (sample_tail A (map Some K) h) (\sum_(t <- lcomps m (sumn K)) traced_prob e D K t * f t).
Proof.
move=> sA si sK dD; have [E [eE sqE dE]] := expanded_dilation sv m0 sA.
have szK : size K = m by have [-> _] := substateP _ _ sK; rewrite (approx_inputs_size ss km si).
rewrite /sample_tail /lossy_net_set_new_matrix eE rmapM_Some [rbind (Ok _) _]/= !rpbind_ok.
have nb : net_of svd A (b_set_new_matrix E h) by rewrite /net_of eE /b_set_new_matrix [b_calc _]/=; case: (b_calc h).
apply: has_exp_eq (has_exp_rbind (net_exp sv m0 sA szK (fuel_sub si sK) 1 (fun L => f (head [::] L)) nb) _) _.
  apply: always_impl (net_always sv m0 sA szK (fuel_sub si sK) 1 nb) => r.
  by move=> [[|t [|t' L]] [b' [-> // _ _ al]]]; exact: ExpRet.
apply: eq_big_seq => t; rewrite mem_lcomps => /andP[/eqP st le] /=; congr (_ * _).
have -> : calc_matrix (set_matrix E (b_calc h)) = E by case: (b_calc h).
by apply: (traced_dil dE dD).
Qed.

(* the draws of the phases *)
Variable rand : nat -> rprog R (res (seq R)).

Lemma sampleE h : bobs_sample svd cis rand fuel x h =
  draw! s' := symmetrized x in draw! l := lossy_input x s' in
  draw! A := approximate_matrix cis rand x in sample_tail A l h.
Proof. by []. Qed.

Lemma matrix_always : always (fun r => exists d, r = Ok d) (rand k) ->
  always (fun r => exists2 A, r = Ok A & subunitary m A) (approximate_matrix cis rand x).
Proof.
move=> al; have [_ sN _ bd] := bobs_facts bx.
have sz : size (bo_matrix x) = m by case/andP: sN => /eqP.
have [Q [eQ _ _ _]] := fourierE ok km.
rewrite /approximate_matrix ek sz eQ rpbind_ok; apply: always_rbind; apply: always_impl al => _ [d ->].
have [A [eA sA hA]] := approx_calcE ok m0 km d sN.
move: eA; rewrite /approx_calc eQ [rbind (Ok Q) _]/=; case: phases_matrix_first => // P; rewrite [rbind (Ok P) _]/= rpbind_ok.
case: np_matmul => // B; rewrite [rbind (Ok B) _]/= rpbind_ok => eA; exists A => //.
exact: (approx_sub ok km sA hA bd).
Qed.

Lemma sample_always h : always (fun r => exists d, r = Ok d) (rand k) ->
  always (fun r => exists t h', [/\ r = Ok (t, h'), size t = m & (sumn t <= approx_total k p s)%N])
    (bobs_sample svd cis rand fuel x h).
Proof.
move=> al; rewrite sampleE; apply: always_rbind; apply: always_impl symmetrized_always => _ [s' -> si].
apply: always_rbind; apply: always_impl (lossy_always si) => _ [K [-> sK]].
apply: always_rbind; apply: always_impl (matrix_always al) => _ [A -> sA].
apply: always_impl (tail_always h sA si sK) => _ [t [h' [-> st le]]]; exists t, h'; split=> //.
by apply: leq_trans le _; rewrite -(approx_inputs_sumn si); exact: substate_sumn.
Qed.

Variables (S : seq (seq R)) (W : seq R -> R).
Hypotheses (randA : always (fun r => exists2 d, r = Ok d & d \in S) (rand k))
  (randE : forall f, has_exp (on_ok f) (rand k) (\sum_(d <- S) W d * f d)).
Variables (e : seq R -> nat) (D : seq R -> mat).
Variable M' : mat.
Hypotheses (hM' : forall i j, (i < m)%N -> (j < m)%N -> ent M' i j = (Num.sqrt (1 - kept_losses (bo_losses x)))%:C%C * ent (bo_matrix x) i j)
  (dD : forall d, d \in S -> dilation m (e d) (approx_net cis m M' k d) (D d)).

Lemma matrix_exp f g : (forall A d, d \in S -> is_square m A -> subunitary m A ->
    (forall i j, (i < m)%N -> (j < m)%N -> ent A i j = ent (approx_net cis m (bo_matrix x) k d) i j) -> f A = g d) ->
  has_exp (on_ok f) (approximate_matrix cis rand x) (\sum_(d <- S) W d * g d).
Proof.
move=> H; have [_ sN _ bd] := bobs_facts bx.
have sz : size (bo_matrix x) = m by case/andP: sN => /eqP.
have [Q [eQ _ _ _]] := fourierE ok km.
rewrite /approximate_matrix ek sz eQ rpbind_ok; apply: has_exp_rbind (randE g) _; apply: always_impl randA => _ [d -> dS].
have [A [eA sA hA]] := approx_calcE ok m0 km d sN.
move: eA; rewrite /approx_calc eQ [rbind (Ok Q) _]/=; case: phases_matrix_first => // P; rewrite [rbind (Ok P) _]/= rpbind_ok.
case: np_matmul => // B; rewrite [rbind (Ok B) _]/= rpbind_ok => ->.
rewrite -(H A d) //; first exact: ExpRet.
exact: (approx_sub ok km sA hA bd).
Qed.

Lemma thin_sum s' (q f : seq nat -> seq nat -> R) F : 
  \sum_(K <- subs s') F K * (\sum_(t <- lcomps m (sumn K)) q K t * f K t) =
  \sum_(t <- lcomps m (sumn s')) \sum_(K <- subs s' | (sumn t <= sumn K)%N) F K * q K t * f K t.
Proof.
rewrite (exchange_big_dep xpredT) //=; apply: eq_big_seq => K; rewrite mem_subs => sK.
rewrite (lcomps_sum _ _ (substate_sumn sK)) mulr_sumr; apply: eq_bigr => t _.
by rewrite mulrA.
Qed.

Lemma sample_exp h f : has_exp (on_ok (fun y => f y.1)) (bobs_sample svd cis rand fuel x h)
  (\sum_(t <- lcomps m (approx_total k p s)) (\sum_(d <- S) W d * bobs_prob (e d) (D d) k p s t) * f t).
Proof.
have [/andP[l0 l1] sN hN bd] := bobs_facts bx.
pose EN d := if approx_calc cis m k (bo_matrix x) d is Ok A then
  if prepare_expanded svd A is Ok E then E else [::] else [::].
have dilN d : dilation m m (approx_net cis m (bo_matrix x) k d) (EN d).
  have [A [eA sA hA]] := approx_calcE ok m0 km d sN.
  have [E [eE _ [h1 h2]]] := expanded_dilation sv m0 (approx_sub ok km sA hA bd).
  by rewrite /EN eA eE; split=> // i j il jl; rewrite h1 // hA.
pose G (l : seq (option nat)) : R := let K := pmap id l in
  \sum_(d <- S) W d * \sum_(t <- lcomps m (sumn K)) traced_prob m (EN d) K t * f t.
rewrite sampleE.
apply: has_exp_eq (has_exp_rbind (symmetrized_exp (fun s' => \sum_(t <- lcomps m (approx_total k p s))
  (\sum_(d <- S) W d * traced_prob (e d) (D d) s' t) * f t)) _) _; last first.
  rewrite exchange_big [LHS]mulr_suml; apply: eq_bigr => t _; rewrite -[X in X / _]mulr_suml mulrAC; congr (_ * _).
  by rewrite exchange_big [LHS]mulr_suml; apply: eq_bigr => d _; rewrite -mulr_sumr /bobs_prob mulrA.
apply: always_impl symmetrized_always => _ [s' -> si].
apply: has_exp_eq (has_exp_rbind (lossy_exp G si) _) _.
  apply: always_impl (lossy_always si) => _ [K [-> sK]].
  have pK : pmap id (map Some K) = K by elim: (K) => //= n K' ->.
  rewrite {}/G pK.
  apply: has_exp_rbind (matrix_exp (f := fun A => \sum_(t <- lcomps m (sumn K)) traced_prob m (if prepare_expanded svd A is Ok E then E else [::]) K t * f t) _) _.
    move=> A d dS sqA sA hA; apply: eq_big_seq => t; rewrite mem_lcomps => /andP[/eqP st le]; congr (_ * _).
    have [E [eE _ [h1 h2]]] := expanded_dilation sv m0 sA; rewrite eE.
    have [zK _] := substateP _ _ sK; rewrite (approx_inputs_size ss km si) in zK.
    by apply: (traced_dil _ (dilN d)) => //; split=> // i j il jl; rewrite h1 // hA.
  apply: always_impl (matrix_always _) => [_ [A -> sA]|]; last by apply: always_impl randA => _ [d -> _]; exists d.
  have [E [eE _ dE]] := expanded_dilation sv m0 sA; rewrite eE.
  exact: tail_exp sA si sK dE.
rewrite {}/G.
transitivity (\sum_(d <- S) W d * \sum_(K <- subs s') thin_weight (kept_losses (bo_losses x)) s' K *
   \sum_(t <- lcomps m (sumn K)) traced_prob m (EN d) K t * f t).
  under eq_bigr => K _ do rewrite mulr_sumr.
  rewrite exchange_big /=; apply: eq_bigr => d _; rewrite mulr_sumr; apply: eq_bigr => K _.
  have -> : pmap id (map Some K) = K by elim: (K) => //= n K' ->.
  by rewrite mulrCA.
under eq_bigr => d _ do rewrite (thin_sum _ _ (fun=> f)) mulr_sumr.
rewrite exchange_big /= (approx_inputs_sumn si); apply: eq_big_seq => t; rewrite mem_lcomps => /andP[/eqP st le].
rewrite mulr_suml; apply: eq_big_seq => d dS; rewrite -mulrA; congr (_ * _).
have z' := approx_inputs_size ss km si.
have q0 : 0 <= kept_losses (bo_losses x) by rewrite /kept_losses; case: ifP.
have p1 : 0 <= 1 - kept_losses (bo_losses x).
  by rewrite /kept_losses; case: ifP => _; rewrite ?subr0 ?ler01 // subr_ge0 ltW.
rewrite (traced_thin (x := Num.sqrt (1 - kept_losses (bo_losses x))) (c := Num.sqrt (kept_losses (bo_losses x))) (dilN d) (dD dS)) //.
- rewrite mulr_suml; apply: eq_bigr => K _; congr (_ * _ * _).
  by rewrite !sqr_sqrtr.
- by rewrite !sqr_sqrtr // subrK.
- exact: approx_scale hM'.
by rewrite (approx_inputs_sumn si).
Qed.
End Sample.
