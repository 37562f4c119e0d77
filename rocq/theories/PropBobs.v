(* Property theorems: C40, C42, C43 and half of C41 (non-uniform losses strategy).  Only statements; proofs elsewhere. *)
From mathcomp Require Import all_ssreflect all_algebra complex ring zify.
From Verif Require Import Base SpecStates Combi SpecPerm SpecBS BsMath BsComb BsNorm ModelStates ModelPerm ModelDist SpecProb ProbMath ModelGcc ModelGccB SpecGcc ModelNet SpecNet ModelBobs SpecBobs LemNet LemBobs.
Set Implicit Arguments.
Unset Strict Implicit.
Unset Printing Implicit Defensive.
Import Order.TTheory GRing.Theory Num.Theory.
Local Open Scope ring_scope.
Local Open Scope py_scope.

(* C40: for every non-zero square matrix; 1 - l is the largest transmissivity, and no vector is lengthened exactly when l is not negative *)
Theorem C40_extracted_losses :
  forall (R : rcfType) (svd : seq (seq (ComplexField.complex_numFieldType R)) -> res (seq (seq (ComplexField.complex_numFieldType R)) * seq R * seq (seq (ComplexField.complex_numFieldType R)))) (m : nat) (M : seq (seq (ComplexField.complex_numFieldType R))),
  svd_ok svd -> (0 < m)%N -> is_square m M -> (exists i j, [/\ (i < m)%N, (j < m)%N & ent M i j != 0]) ->
  exists l N, [/\ extract_losses svd M = Ok (l, N), is_square m N, l < 1,
     forall i j, (i < m)%N -> (j < m)%N -> ent M i j = (Num.sqrt (1 - l))%:C%C * ent N i j
   & [/\ forall v, image_norm m N v <= vec_norm m v,
        exists v, vec_norm m v = 1 /\ image_norm m N v = 1,
        forall v, image_norm m M v <= (1 - l) * vec_norm m v,
        exists v, vec_norm m v = 1 /\ image_norm m M v = 1 - l
      & subunitary m M <-> 0 <= l]].
Proof. exact C40_extracted_losses_lemma. Qed.
Print Assumptions C40_extracted_losses.

Example C40_example (R : rcfType) : exists svd l N, (* one mode transmitting a quarter of the particles *)
  extract_losses svd [:: [:: (Num.sqrt (4%:R^-1 : R))%:C%C]] = Ok (l, N) /\ l = 1 - 4%:R^-1.
Proof.
have [svd sv] := C35_svd_exists_lemma R; exists svd.
have q0 : 0 < (4%:R^-1 : R) by rewrite invr_gt0 ltr0n.
have [|l [N [e _ _ _ [_ _ bd [v [v1 v2]] _]]]] := @C40_extracted_losses R svd 1 [:: [:: (Num.sqrt (4%:R^-1 : R))%:C%C]] sv isT isT.
  by exists 0%N, 0%N; split; rewrite // (_ : ent _ _ _ = (Num.sqrt (4%:R^-1 : R))%:C%C) // fmorph_eq0 gt_eqF // sqrtr_gt0.
exists l, N; split=> //; move: v2; rewrite /image_norm big_ord1 big_ord1 nsqM (_ : ent _ _ _ = (Num.sqrt (4%:R^-1 : R))%:C%C) // /nsq /= [0 ^+ 2]expr0n addr0 sqr_sqrtr ?ltW //.
move: v1; rewrite /vec_norm big_ord1 /nsq => ->; rewrite mulr1 => ->.
by rewrite opprB addrCA subrr addr0.
Qed.

(* C42: a new object has no particles from earlier calls *)
Theorem C42_new_object :
  forall (R : rcfType) (svd : seq (seq (ComplexField.complex_numFieldType R)) -> res (seq (seq (ComplexField.complex_numFieldType R)) * seq R * seq (seq (ComplexField.complex_numFieldType R)))) (m : nat) (M : seq (seq (ComplexField.complex_numFieldType R))) (cpu : nat) (a : any_calc (ComplexField.complex_numFieldType R)) (modes threads : int),
  svd_ok svd -> (0 < m)%N -> is_square m M -> (exists i j, [/\ (i < m)%N, (j < m)%N & ent M i j != 0]) -> calc_matrix a = M ->
  exists x, [/\ new_bobs svd cpu a modes threads = Ok x, bobs_of svd m M x, bo_particles x = 0%N,
    bo_modes x = (if (modes < 0)%R then 0%N else minn `|modes| m)
  & bo_threads x = (if (1 <= threads)%R && (threads <= Posz cpu)%R then `|threads|%N else cpu)].
Proof. exact C42_new_object_lemma. Qed.
Print Assumptions C42_new_object.

(* C42, C41: whatever the object did before, no run raises, more than the requested number of samples is returned, and the particles of the approximated modes of this call are added to those of all calls before *)
Theorem C42_accumulated_particles :
  forall (R : rcfType) (svd : seq (seq (ComplexField.complex_numFieldType R)) -> res (seq (seq (ComplexField.complex_numFieldType R)) * seq R * seq (seq (ComplexField.complex_numFieldType R)))) (cis : R -> (ComplexField.complex_numFieldType R)) (m : nat) (M : seq (seq (ComplexField.complex_numFieldType R))) (fuel : nat) (s : seq nat) (x : bobs R) (c : int),
  svd_ok svd -> cis_ok cis -> (0 < m)%N -> subunitary m M -> (exists i j, [/\ (i < m)%N, (j < m)%N & ent M i j != 0]) ->
  size s = m -> bobs_of svd m M x -> (0 < bo_threads x)%N ->
  let k := bo_modes x in let p := (bo_particles x + sumn (take k s))%N in
  (forall s', s' \in approx_inputs k p s -> (\prod_(y <- s') y.+1 <= fuel)%N) ->
  (1 <= c)%R ->
  always (fun r => exists L x', [/\ r = Ok (L, x'),
      size L = (bo_threads x * (`|c| %/ bo_threads x).+1)%N /\ (`|c| < size L)%N,
      forall t, t \in L -> (size t == m) && (sumn t <= approx_total k p s)%N
    & [/\ bobs_of svd m M x', bo_modes x' = k, bo_threads x' = bo_threads x & bo_particles x' = p]])
    (bobs_simulate svd cis (@np_rand R) fuel s c x).
Proof. exact C42_accumulated_particles_lemma. Qed.
Print Assumptions C42_accumulated_particles.

(* C42: a network without losses; the second call with one particle returns two particles with certainty, whatever the phases d *)
Theorem C42_same_on_every_call_refuted :
  forall (R : rcfType) (svd : seq (seq (ComplexField.complex_numFieldType R)) -> res (seq (seq (ComplexField.complex_numFieldType R)) * seq R * seq (seq (ComplexField.complex_numFieldType R)))) (cis : R -> (ComplexField.complex_numFieldType R)) (fuel : nat) (d : seq R),
  svd_ok svd -> cis_ok cis -> (3 <= fuel)%N ->
  exists a x1 x2, [/\ new_bobs svd 1 a 1 1 = Ok x1,
    always (fun r => exists L, r = Ok (L, x2)) (bobs_simulate svd cis (@np_rand R) fuel [:: 1]%N 1 x1)
  & has_exp (on_ok (fun y => (y.1 == [:: [:: 2]; [:: 2]]%N)%:R))
      (bobs_simulate svd cis (fun=> Ret (Ok d)) fuel [:: 1]%N 1 x2) 1].
Proof. exact C42_same_on_every_call_refuted_lemma. Qed.
Print Assumptions C42_same_on_every_call_refuted.

(* C43: any number of approximated modes, whatever the object did before.  The law for draws of the phases which take the values in S with the probabilities W; in particular given fixed phases d, with S = [:: d].  M' is M unless the uniform losses are in ]0, 1e-8], when numpy takes them for 0 *)
Theorem C43_law :
  forall (R : rcfType) (svd : seq (seq (ComplexField.complex_numFieldType R)) -> res (seq (seq (ComplexField.complex_numFieldType R)) * seq R * seq (seq (ComplexField.complex_numFieldType R)))) (cis : R -> (ComplexField.complex_numFieldType R)) (m : nat) (M : seq (seq (ComplexField.complex_numFieldType R))) (fuel : nat) (s : seq nat) (x : bobs R) (c : int)
    (rand : nat -> rprog R (res (seq R))) (S : seq (seq R)) (W : seq R -> R)
    (e : seq R -> nat) (D : seq R -> seq (seq (ComplexField.complex_numFieldType R))) (M' : seq (seq (ComplexField.complex_numFieldType R))),
  svd_ok svd -> cis_ok cis -> (0 < m)%N -> subunitary m M -> (exists i j, [/\ (i < m)%N, (j < m)%N & ent M i j != 0]) ->
  size s = m -> bobs_of svd m M x -> (0 < bo_threads x)%N ->
  let k := bo_modes x in let p := (bo_particles x + sumn (take k s))%N in
  (forall s', s' \in approx_inputs k p s -> (\prod_(y <- s') y.+1 <= fuel)%N) ->
  (1 <= c)%R ->
  always (fun r => exists2 d, r = Ok d & d \in S) (rand k) ->
  (forall f, has_exp (on_ok f) (rand k) (\sum_(d <- S) W d * f d)) ->
  (forall i j, (i < m)%N -> (j < m)%N ->
     ent M' i j = (Num.sqrt (1 - kept_losses (bo_losses x)))%:C%C * ent (bo_matrix x) i j) ->
  (forall d, d \in S -> dilation m (e d) (approx_net cis m M' k d) (D d)) ->
  iid_samples (bobs_simulate svd cis rand fuel s c x) (bo_threads x * (`|c| %/ bo_threads x).+1)
    [pred t | (size t == m) && (sumn t <= approx_total k p s)%N]
    (fun t => \sum_(d <- S) W d * bobs_prob (e d) (D d) k p s t).
Proof. exact C43_law_lemma. Qed.
Print Assumptions C43_law.

(* C43: M' = M is possible unless the losses are tiny *)
Theorem C43_effective_matrix :
  forall (R : rcfType) (svd : seq (seq (ComplexField.complex_numFieldType R)) -> res (seq (seq (ComplexField.complex_numFieldType R)) * seq R * seq (seq (ComplexField.complex_numFieldType R)))) (m : nat) (M : seq (seq (ComplexField.complex_numFieldType R))) (x : bobs R),
  svd_ok svd -> (0 < m)%N -> subunitary m M -> (exists i j, [/\ (i < m)%N, (j < m)%N & ent M i j != 0]) -> bobs_of svd m M x ->
  bo_losses x = 0 \/ (10%:R ^+ 8)^-1 < bo_losses x ->
  forall i j, (i < m)%N -> (j < m)%N ->
     ent M i j = (Num.sqrt (1 - kept_losses (bo_losses x)))%:C%C * ent (bo_matrix x) i j.
Proof. exact C43_effective_matrix_lemma. Qed.
Print Assumptions C43_effective_matrix.

(* C43: no approximated modes, numpy's draws, any losses: the exact law of the lossy network *)
Theorem C43_exact_without_approximated_modes :
  forall (R : rcfType) (svd : seq (seq (ComplexField.complex_numFieldType R)) -> res (seq (seq (ComplexField.complex_numFieldType R)) * seq R * seq (seq (ComplexField.complex_numFieldType R)))) (cis : R -> (ComplexField.complex_numFieldType R)) (m : nat) (M : seq (seq (ComplexField.complex_numFieldType R))) (fuel : nat) (s : seq nat) (x : bobs R) (c : int)
    (d : nat) (D : seq (seq (ComplexField.complex_numFieldType R))),
  svd_ok svd -> cis_ok cis -> (0 < m)%N -> subunitary m M -> (exists i j, [/\ (i < m)%N, (j < m)%N & ent M i j != 0]) ->
  size s = m -> bobs_of svd m M x -> (0 < bo_threads x)%N -> bo_modes x = 0%N ->
  (\prod_(y <- s) y.+1 <= fuel)%N -> (1 <= c)%R ->
  bo_losses x = 0 \/ (10%:R ^+ 8)^-1 < bo_losses x ->
  dilation m d M D ->
  iid_samples (bobs_simulate svd cis (@np_rand R) fuel s c x) (bo_threads x * (`|c| %/ bo_threads x).+1)
    [pred t | (size t == m) && (sumn t <= sumn s)%N] (traced_prob d D s).
Proof. exact C43_exact_without_approximated_modes_lemma. Qed.
Print Assumptions C43_exact_without_approximated_modes.

(* C43: the first call of simulate, at most one approximated mode or no particles in the approximated modes: the exact law again, for numpy's draws of the phases *)
Theorem C43_exact_first_call :
  forall (R : rcfType) (svd : seq (seq (ComplexField.complex_numFieldType R)) -> res (seq (seq (ComplexField.complex_numFieldType R)) * seq R * seq (seq (ComplexField.complex_numFieldType R)))) (cis : R -> (ComplexField.complex_numFieldType R)) (m : nat) (M : seq (seq (ComplexField.complex_numFieldType R))) (fuel : nat) (s : seq nat) (x : bobs R) (c : int)
    (d : nat) (D : seq (seq (ComplexField.complex_numFieldType R))),
  svd_ok svd -> cis_ok cis -> (0 < m)%N -> subunitary m M -> (exists i j, [/\ (i < m)%N, (j < m)%N & ent M i j != 0]) ->
  size s = m -> bobs_of svd m M x -> (0 < bo_threads x)%N -> bo_particles x = 0%N ->
  (bo_modes x <= 1)%N \/ sumn (take (bo_modes x) s) = 0%N ->
  (\prod_(y <- s) y.+1 <= fuel)%N -> (1 <= c)%R ->
  bo_losses x = 0 \/ (10%:R ^+ 8)^-1 < bo_losses x ->
  dilation m d M D ->
  iid_samples (bobs_simulate svd cis (@np_rand R) fuel s c x) (bo_threads x * (`|c| %/ bo_threads x).+1)
    [pred t | (size t == m) && (sumn t <= sumn s)%N] (traced_prob d D s).
Proof. exact C43_exact_first_call_lemma. Qed.
Print Assumptions C43_exact_first_call.

(* C43: equal losses, eta = 1 or 1 - eta > 1e-8 *)
Theorem C43_uniform_losses :
  forall (R : rcfType) (svd : seq (seq (ComplexField.complex_numFieldType R)) -> res (seq (seq (ComplexField.complex_numFieldType R)) * seq R * seq (seq (ComplexField.complex_numFieldType R)))) (cis : R -> (ComplexField.complex_numFieldType R)) (m : nat) (M V : seq (seq (ComplexField.complex_numFieldType R))) (eta : R) (fuel : nat) (s : seq nat) (x : bobs R) (c : int),
  svd_ok svd -> cis_ok cis -> (0 < m)%N -> unitary m V -> 0 < eta -> eta = 1 \/ (10%:R ^+ 8)^-1 < 1 - eta ->
  is_square m M -> (forall i j : nat, (i < m)%N -> (j < m)%N -> ent M i j = (Num.sqrt eta)%:C%C * ent V i j) ->
  size s = m -> bobs_of svd m M x -> (0 < bo_threads x)%N -> bo_modes x = 0%N ->
  (\prod_(y <- s) y.+1 <= fuel)%N -> (1 <= c)%R ->
  iid_samples (bobs_simulate svd cis (@np_rand R) fuel s c x) (bo_threads x * (`|c| %/ bo_threads x).+1)
    [pred t | (size t == m) && (sumn t <= sumn s)%N] (uniform_loss_prob V s eta).
Proof. exact C43_uniform_losses_lemma. Qed.
Print Assumptions C43_uniform_losses.

Example C43_example (R : rcfType) (cis : R -> ComplexField.complex_numFieldType R) : cis_ok cis ->
  exists svd x, new_bobs svd 1 (generate_calculator (CalcFactory [:: [:: (Num.sqrt (4%:R^-1 : R))%:C%C]] [::] [::] RYSER)) 0 1 = Ok x /\
  has_exp (on_ok (fun y => (y.1 == [:: [:: 0]; [:: 0]]%N)%:R : R)) (bobs_simulate svd cis (@np_rand R) 2 [:: 1]%N 1 x)
    ((1 - 4%:R^-1) ^+ 2).
Proof.
move=> ok; have [svd sv] := C35_svd_exists_lemma R; exists svd.
set M := [:: [:: _]]; have q0 : 0 < (4%:R^-1 : R) by rewrite invr_gt0 ltr0n.
have nz : exists i j, [/\ (i < 1)%N, (j < 1)%N & ent M i j != 0].
  by exists 0%N, 0%N; split; rewrite // (_ : ent _ _ _ = (Num.sqrt (4%:R^-1 : R))%:C%C) // fmorph_eq0 gt_eqF // sqrtr_gt0.
have [//|x [ex bx _ kx tx]] := @C42_new_object R svd 1 M 1 (generate_calculator (CalcFactory M [::] [::] RYSER)) 0 1 sv isT isT nz.
exists x; split=> //.
have uV : unitary 1 [:: [:: 1 : ComplexField.complex_numFieldType R]].
  by split=> // -[|//] [|//] _ _; rewrite /ortho_cols big_ord1 (_ : ent _ _ _ = 1) // conjc1 mulr1.
have hM (i j : nat) : (i < 1)%N -> (j < 1)%N -> ent M i j = (Num.sqrt 4%:R^-1)%:C%C * ent [:: [:: 1]] i j :> ComplexField.complex_numFieldType R.
  by case: i j => [|//] [|//] _ _; rewrite /ent /= mulr1.
have big : (10%:R ^+ 8)^-1 < 1 - 4%:R^-1 :> R.
  have t0 : 0 < 10%:R :> R by rewrite ltr0n.
  apply: (@le_lt_trans _ _ (10%:R^-1)); first by rewrite lef_pinv ?posrE ?exprn_gt0 // ler_eexpr // ler1n.
  have -> : 10%:R^-1 = 1 - 4%:R^-1 - 13%:R / 20%:R :> R by field.
  by rewrite ltr_subl_addr ltr_addl divr_gt0 ?ltr0n.
have pr : (\prod_(x <- [:: 1]) x.+1 <= 2)%N by rewrite big_seq1.
have T0 : (0 < bo_threads x)%N by rewrite tx.
have := @C43_uniform_losses R svd cis 1 M _ 4%:R^-1 2 [:: 1]%N x 1 sv ok isT uV q0 (or_intror big) isT hM erefl bx T0 kx pr isT [:: [:: 0]; [:: 0]]%N.
rewrite tx => H; apply: has_exp_eq H _; rewrite /= 2!big_cons big_nil mulr1 -expr2; congr (_ ^+ 2).
rewrite /uniform_loss_prob /binomial_weight [sumn _]/= [sumn _]/= bin0 expr0 !mul1r subn0 expr1.
rewrite /fixed_loss_prob bin0 divr1 -big_filter (_ : [seq T <- subs _ | _] = [:: [:: 0]%N]) // big_seq1.
rewrite [ways _ _](_ : _ = 1%N); last by rewrite /ways big_ord1.
by rewrite mul1r /bs_prob bs_permanent_vac // nsq1 /factprod !big_seq1 fact0 divr1 mulr1.
Qed.
