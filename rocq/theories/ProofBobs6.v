(* When the approximation does not change the law of the samples. *)
From mathcomp Require Import all_ssreflect all_algebra complex.
From mathcomp Require Import ring zify.
From Verif Require Import Base SpecStates Combi SpecPerm PermMath SpecBS BsMath BsComb BsNorm.
From Verif Require Import ModelStates ModelPerm ModelDist SpecProb ProbMath ModelGcc ModelGccB ProofSel SpecGcc ModelNet SpecNet.
From Verif Require Import ProofGcc3 ProofGcc4 LemGcc ProofGccB2 ProofNet1 ProofNet4 ProofNet5 ProofThin ProofBobs1 ProofBobs2 ProofBobs3 ProofBobs4 ProofBobs5 ModelBobs SpecBobs.
From Verif Require Import SpecSym BsSym ProofSym1.
Set Implicit Arguments.
Unset Strict Implicit.
Unset Printing Implicit Defensive.
Import Order.TTheory GRing.Theory Num.Theory.
Local Open Scope ring_scope.
Local Open Scope py_scope.

Lemma bs_permanent_cols (F : comRingType) (U V : seq (seq F)) (x : nat -> F) s t t' : sumn s = sumn t ->
  particle_modes t' = particle_modes t ->
  (forall a j, (a < size t)%N -> (0 < nth 0%N s j)%N -> ent U a j = ent V a j * x j) ->
  bs_permanent U s t' = bs_permanent V s t * \prod_(j < size s) x j ^+ nth 0%N s j.
Proof.
move=> e pe h.
have e' : sumn s = sumn t' by rewrite e -(size_particle_modes t) -pe size_particle_modes.
rewrite !bsL // pe -bigprod_particle_modes -PerL_col_scale ?size_particle_modes //.
apply: PerL_eq => a c /particle_modes_lt al; rewrite -has_pred1 has_count count_particle_modes => cl.
exact: h.
Qed.

Section Cols.
Variable R : rcfType.
Notation C := (ComplexField.complex_numFieldType R).
Notation mat := (seq (seq C)).
Variables (m d d' : nat) (A A' D D' : mat) (x : nat -> C) (K : seq nat).
Hypotheses (dD : dilation m d A D) (dD' : dilation m d' A' D') (x1 : forall j, nsq (x j) = 1)
  (hA : forall i j, (i < m)%N -> (0 < nth 0%N K j)%N -> ent A' i j = ent A i j * x j).

Let X (T : seq nat) := \prod_(j < m) x j ^+ nth 0%N T j.

Lemma prod_decr T i : (i < m)%N -> (0 < nth 0%N T i)%N -> X T = x i * X (decr T i).
Proof.
move=> il p; rewrite /X (bigD1 (Ordinal il)) //= [in RHS](bigD1 (Ordinal il)) //= mulrA -exprS nth_decr eqxx prednK //.
congr (_ * _); apply: eq_bigr => j ne; rewrite nth_decr.
by rewrite -[(j : nat) == i]/(j == Ordinal il) (negPf ne).
Qed.

Lemma form_cols k T T' t : size t = m -> size T = m -> size T' = m ->
  (forall j, nth 0%N T j <= nth 0%N K j)%N -> (forall j, nth 0%N T' j <= nth 0%N K j)%N ->
  sumn T = (sumn t + k)%N -> sumn T' = (sumn t + k)%N ->
  form d' D' k T T' t = X T * conjc (X T') * form d D k T T' t.
Proof.
move=> st; elim: k T T' => [|k IH] T T' sT sT' lT lT' e e'.
  rewrite /form !comps_zero !big_seq1 /factprod !big_nseq !iter_muln_1 !exp1n.
  have h S : size S = m -> (forall j, nth 0%N S j <= nth 0%N K j)%N -> sumn S = (sumn t + 0)%N ->
      bs_permanent D' S (t ++ nseq d' 0%N) = bs_permanent D S (t ++ nseq d 0%N) * X S.
    rewrite addn0 => sS lS eS.
    have -> : bs_permanent D S (t ++ nseq d 0%N) = bs_permanent D S t.
      by apply: bs_permanent_entries; rewrite ?particle_modes_zeros.
    rewrite /X -sS; apply: bs_permanent_cols; rewrite ?particle_modes_zeros // st => a j al p.
    have jl : (j < m)%N by rewrite -sS; exact: nth_pos_lt p.
    have pK : (0 < nth 0%N K j)%N by apply: leq_trans p (lS j).
    by case: dD => h1 _; case: dD' => h1' _; rewrite h1 // h1' // hA.
  rewrite !h // rmorphM /=; move: (bs_permanent D T _) (bs_permanent D T' _) => a b; move: (X T) (X T') => y z.
  by rewrite !divr1; ring.
have k0 : (k.+1)%:R != 0 :> C by rewrite pnatr_eq0.
apply: (mulfI k0); rewrite mulrCA !(form_step (m := m)) // mulr_sumr; apply: eq_bigr => i _; rewrite mulr_sumr; apply: eq_bigr => i' _.
case: (posnP (nth 0%N T i)) => [->|p]; first by rewrite !mul0r mulr0.
case: (posnP (nth 0%N T' i')) => [->|p']; first by rewrite mulr0 !mul0r mulr0.
have pK : (0 < nth 0%N K i)%N by apply: leq_trans p (lT i).
have pK' : (0 < nth 0%N K i')%N by apply: leq_trans p' (lT' i').
have le_decr S j0 j : (nth 0%N S j <= nth 0%N K j)%N -> (nth 0%N (decr S j0) j <= nth 0%N K j)%N.
  by move=> le; rewrite nth_decr; case: eqP => // ej; apply: leq_trans le; rewrite ?ej leq_pred.
rewrite IH ?size_decr ?sT ?sT' ?sumn_decr ?e ?e' ?addnS //; try by [move=> j; apply: le_decr].
rewrite (prod_decr (ltn_ord i) p) (prod_decr (ltn_ord i') p') rmorphM /=.
have -> : lgram m d' D' i i' = x i * conjc (x i') * lgram m d D i i'.
  rewrite (lgram_dil dD) // (lgram_dil dD') // mulrBr; congr (_ - _).
    case: eqP => [<-|_]; last by rewrite mulr0.
    by rewrite mulr1 mulrC -nsqE x1.
  rewrite mulr_sumr; apply: eq_bigr => j _; rewrite !hA // rmorphM /=.
  by move: (ent A j i) (ent A j i') (x i) (x i') => a b c c'; ring.
move: (lgram m d D i i') (form d D k _ _ t) (X _) (X _) (x i) (x i') => a b y z c c'.
by move: (nth 0%N T i)%:R (nth 0%N T' i')%:R => u v; ring.
Qed.

Lemma nsq_X T : nsq (X T) = 1.
Proof. by rewrite nsq_prod big1 // => j _; rewrite nsqX x1 expr1n. Qed.

Lemma traced_cols t : size K = m -> size t = m -> (sumn t <= sumn K)%N ->
  traced_prob d' D' K t = traced_prob d D K t.
Proof.
move=> sK st le; apply: (@complexI R); rewrite !traced_form //.
congr (_ / _); rewrite (form_cols (k := (sumn K - sumn t)%N)) ?subnKC //.
by rewrite mulrC [X K * _]mulrC -nsqE nsq_X mulr1.
Qed.
End Cols.

Lemma np_rand_exp (R : rcfType) n (v : R) : has_exp (on_ok (fun=> v)) (@np_rand R n) v.
Proof.
elim: n => [|n IH]; first exact: (@ExpRet _ _ _ (Ok [::])).
have dw : is_distr [:: 1 : R] by split; rewrite /= ?ler01 // big_seq1.
rewrite [np_rand _]/=; apply: has_exp_eq (ExpUnif (v := fun=> v) dw _) _; last by rewrite big_ord1 mul1r.
move=> i u _ _; apply: has_exp_rbind IH _; apply: always_impl (np_rand_always R n) => _ [d ->]; exact: ExpRet.
Qed.

Section Sample.
Variable R : rcfType.
Notation C := (ComplexField.complex_numFieldType R).
Notation mat := (seq (seq C)).
Variables (svd : mat -> res (mat * seq R * mat)) (cis : R -> C).
Hypotheses (sv : svd_ok svd) (ok : cis_ok cis).
Variables (m : nat) (M : mat).
Hypotheses (m0 : (0 < m)%N) (sub : subunitary m M).
Hypothesis nz : exists i j, [/\ (i < m)%N, (j < m)%N & ent M i j != 0].
Notation bobs_of := (bobs_of svd m M).

Section One.
Variables (fuel k p : nat) (s : seq nat) (x : bobs R).
Hypotheses (ss : size s = m) (bx : bobs_of x) (ek : bo_modes x = k) (ep : bo_particles x = p)
  (es : bo_state x = nseq k 0%N ++ drop k s) (mx : nat) (lmx : (maxn (\max_(y <- s) y) p <= mx)%N)
  (ew : bo_weights x = own_binomial_weights (bo_losses x) mx)
  (fu : forall s', s' \in approx_inputs k p s -> (\prod_(y <- s') y.+1 <= fuel)%N).
Variables (e : nat) (D : mat).
Variable M' : mat.
Hypotheses (hM' : forall i j, (i < m)%N -> (j < m)%N -> ent M' i j = (Num.sqrt (1 - kept_losses (bo_losses x)))%:C%C * ent (bo_matrix x) i j)
  (dD : dilation m e M' D).
(* on the modes with particles the network changes by phases only *)
Hypothesis inv : forall s' d, s' \in approx_inputs k p s -> exists2 y : nat -> C, forall j, nsq (y j) = 1 &
  forall i j, (i < m)%N -> (0 < nth 0%N s' j)%N -> ent (approx_net cis m (bo_matrix x) k d) i j = ent (bo_matrix x) i j * y j.

Lemma sample_exp_inv h f : has_exp (on_ok (fun y => f y.1)) (bobs_sample svd cis (@np_rand R) fuel x h)
  (\sum_(t <- lcomps m (approx_total k p s)) bobs_prob e D k p s t * f t).
Proof.
have [/andP[l0 l1] sN hN bd] := bobs_facts sv m0 sub nz bx.
have kM := km bx ek.
pose EN := if prepare_expanded svd (bo_matrix x) is Ok E then E else [::].
have dilN : dilation m m (bo_matrix x) EN.
  have [E [eE _ dE]] := expanded_dilation sv m0 (conj sN bd).
  by rewrite /EN eE.
pose G (l : seq (option nat)) : R := let K := pmap id l in
  \sum_(t <- lcomps m (sumn K)) traced_prob m EN K t * f t.
rewrite sampleE.
apply: has_exp_eq (has_exp_rbind (symmetrized_exp ek ep es (fun s' => \sum_(t <- lcomps m (approx_total k p s))
  traced_prob e D s' t * f t)) _) _; last first.
  rewrite exchange_big [LHS]mulr_suml; apply: eq_bigr => t _; rewrite -[X in X / _]mulr_suml mulrAC //.
apply: always_impl (symmetrized_always ek ep es) => _ [s' -> si].
have z' := approx_inputs_size ss kM si.
apply: has_exp_eq (has_exp_rbind (lossy_exp sv m0 sub nz bx lmx ew G si) _) _.
  apply: always_impl (lossy_always sv m0 sub nz bx lmx ew si) => _ [K [-> sK]].
  have pK : pmap id (map Some K) = K by elim: (K) => //= n K' ->.
  rewrite {}/G pK.
  have [zK leK] := substateP _ _ sK; rewrite z' in zK.
  have sz : size (bo_matrix x) = m by case/andP: sN => /eqP.
  have [Q [eQ _ _ _]] := fourierE ok kM.
  apply: (has_exp_rbind (h := fun=> \sum_(t <- lcomps m (sumn K)) traced_prob m EN K t * f t)).
    rewrite /approximate_matrix ek sz eQ rpbind_ok.
    apply: has_exp_rbind (np_rand_exp k _) _; apply: always_impl (np_rand_always R k) => _ [d ->].
    have [A [eA sA hA]] := approx_calcE ok m0 kM d sN.
    move: eA; rewrite /approx_calc eQ [rbind (Ok Q) _]/=; case: phases_matrix_first => // P; rewrite [rbind (Ok P) _]/= rpbind_ok.
    by case: np_matmul => // B; rewrite [rbind (Ok B) _]/= rpbind_ok => ->; exact: ExpRet.
  have al : always (fun r => exists A d, [/\ r = Ok A, subunitary m A & forall i j, (i < m)%N -> (j < m)%N -> ent A i j = ent (approx_net cis m (bo_matrix x) k d) i j]) (approximate_matrix cis (@np_rand R) x).
    rewrite /approximate_matrix ek sz eQ rpbind_ok.
    apply: always_rbind; apply: always_impl (np_rand_always R k) => _ [d ->].
    have [A [eA sA hA]] := approx_calcE ok m0 kM d sN.
    move: eA; rewrite /approx_calc eQ [rbind (Ok Q) _]/=; case: phases_matrix_first => // P; rewrite [rbind (Ok P) _]/= rpbind_ok.
    case: np_matmul => // B; rewrite [rbind (Ok B) _]/= rpbind_ok => ->; exists A, d; split=> //.
    exact: (approx_sub ok kM sA hA bd).
  apply: always_impl al => _ [A [d [-> sA hA]]].
  have [E [eE _ dE]] := expanded_dilation sv m0 sA.
  apply: has_exp_eq (tail_exp sv m0 ss bx ek fu h f sA si sK dE) _.
  apply: eq_big_seq => t; rewrite mem_lcomps => /andP[/eqP st le]; congr (_ * _).
  have [y y1 hy] := inv d si.
  apply: (traced_cols dilN dE y1) => // i j il p1.
  have jl : (j < m)%N by rewrite -zK; exact: nth_pos_lt p1.
  by rewrite hA // hy // (leq_trans p1 (leK j)).
rewrite {}/G.
transitivity (\sum_(K <- subs s') thin_weight (kept_losses (bo_losses x)) s' K *
   \sum_(t <- lcomps m (sumn K)) traced_prob m EN K t * f t).
  apply: eq_bigr => K _.
  by have -> : pmap id (map Some K) = K by elim: (K) => //= n K' ->.
rewrite (thin_sum _ _ _ (fun=> f)) (approx_inputs_sumn si); apply: eq_big_seq => t; rewrite mem_lcomps => /andP[/eqP st le].
rewrite -mulr_suml; congr (_ * _).
have q0 : 0 <= kept_losses (bo_losses x) by rewrite /kept_losses; case: ifP.
have p1 : 0 <= 1 - kept_losses (bo_losses x).
  by rewrite /kept_losses; case: ifP => _; rewrite ?subr0 ?ler01 // subr_ge0 ltW.
rewrite (traced_thin (x := Num.sqrt (1 - kept_losses (bo_losses x))) (c := Num.sqrt (kept_losses (bo_losses x))) dilN dD) //.
- apply: eq_bigr => K _; congr (_ * _).
  by rewrite !sqr_sqrtr.
- by rewrite !sqr_sqrtr // subrK.
by rewrite (approx_inputs_sumn si).
Qed.
End One.

Variables (fuel : nat) (s : seq nat) (x : bobs R).
Let k := bo_modes x.
Let p := (bo_particles x + sumn (take k s))%N.
Hypotheses (ss : size s = m) (bx : bobs_of x) (T0 : (0 < bo_threads x)%N)
  (fu : forall s', s' \in approx_inputs k p s -> (\prod_(y <- s') y.+1 <= fuel)%N).
Variables (e : nat) (D : mat).
Variable M' : mat.
Hypotheses (hM' : forall i j, (i < m)%N -> (j < m)%N -> ent M' i j = (Num.sqrt (1 - kept_losses (bo_losses x)))%:C%C * ent (bo_matrix x) i j)
  (dD : dilation m e M' D).
Hypothesis inv : forall s' d, s' \in approx_inputs k p s -> exists2 y : nat -> C, forall j, nsq (y j) = 1 &
  forall i j, (i < m)%N -> (0 < nth 0%N s' j)%N -> ent (approx_net cis m (bo_matrix x) k d) i j = ent (bo_matrix x) i j * y j.

Lemma bobs_simulate_inv (c : int) : (1 <= c)%R ->
  iid_samples (bobs_simulate svd cis (@np_rand R) fuel s c x) (bo_threads x * (`|c| %/ bo_threads x).+1)
    [pred t | (size t == m) && (sumn t <= approx_total k p s)%N]
    (bobs_prob e D k p s).
Proof.
move=> c1; apply: (@iid_of_exp _ _ _ _ (lcomps m (approx_total k p s))); first exact: lcomps_uniq.
  by move=> t; rewrite mem_lcomps.
move=> f.
have al := np_rand_always R k.
rewrite /bobs_simulate ltNge c1 [~~ true]/=.
have km : (bo_modes x <= size s)%N by case: bx; rewrite ss.
have [|x' [-> [e1 e2] [e3 e4 e5] [e6 e7] [mx lmx e8]]] := startE _ km; first by rewrite ss.
rewrite rpbind_ok; have bx' := start_of bx e1 e3 e4 e5.
have [h eh] := new_net_ok sv m0 sub (a := bo_calc x') (let: And3 y _ _ := bx' in y).
have lmx' : (maxn (\max_(y <- s) y) p <= mx)%N by rewrite /p -e7.
have e8' : bo_weights x' = own_binomial_weights (bo_losses x') mx by rewrite e3.
have hM'' i j : (i < m)%N -> (j < m)%N -> ent M' i j = (Num.sqrt (1 - kept_losses (bo_losses x')))%:C%C * ent (bo_matrix x') i j.
  by rewrite e3 e4; exact: hM'.
have inv' s' d : s' \in approx_inputs k p s -> exists2 y : nat -> C, forall j, nsq (y j) = 1 &
  forall i j, (i < m)%N -> (0 < nth 0%N s' j)%N -> ent (approx_net cis m (bo_matrix x') k d) i j = ent (bo_matrix x') i j * y j.
  by rewrite e4; exact: inv.
have SA h' := @sample_always _ _ _ sv ok _ _ m0 sub nz fuel k p s x' ss bx' e1 e7 e6 mx lmx' e8' fu (@np_rand R) h' al.
have K j : always (fun r => exists L, r = Ok L) (simulate_in_parallel svd cis (@np_rand R) fuel x' j).
  rewrite /simulate_in_parallel eh rpbind_ok; apply: always_rbind.
  apply: always_impl (@sample_loop_always _ _ _ _ _ (fun=> True) (fun=> True) j _ _ I); last first.
    move=> [g h'] _; rewrite /=.
    by apply: always_impl (SA h') => _ [t [h2 [-> _ _]]]; exists (t, h2), t.
  by move=> _ [L [g' [-> _ _ _]]]; exists L.
have KE j g : has_exp (on_ok g) (simulate_in_parallel svd cis (@np_rand R) fuel x' j)
   (iid_exp (lcomps m (approx_total k p s)) (bobs_prob e D k p s) j g).
  rewrite /simulate_in_parallel eh rpbind_ok.
  apply: has_exp_rbind (@sample_loop_exp _ _ _ _ _ (fun=> True) _ _ _ _ j g _ I) _.
  - move=> [g0 h'] _; rewrite /=.
    by apply: always_impl (SA h') => _ [t [h2 [-> _ _]]]; exists (t, h2), t.
  - move=> f0 [g0 h'] _; rewrite /=.
    exact: (@sample_exp_inv fuel k p s x' ss bx' e1 e7 e6 mx lmx' e8' fu e D M' hM'' dD inv').
  by apply: always_true => [[a|e']] //; exact: ExpRet.
rewrite -threads_total // -e2.
apply: has_exp_rbind (thread_exp K KE _ f) _.
by apply: always_true => [[a|e']] //; exact: ExpRet.
Qed.
End Sample.
