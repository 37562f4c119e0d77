(* Final forms of the lemmas behind the property theorems: C41, C44, C45, C55, C56 (lossy state strategy). *)
From mathcomp Require Import all_ssreflect all_algebra complex ring zify.
From Verif Require Import Base SpecStates Combi SpecPerm SpecBS BsMath BsComb BsNorm ModelStates ModelPerm ModelDist SpecProb ProbMath ModelGcc ModelGccB SpecGcc ModelNet SpecNet ModelBobs SpecBobs ModelLState SpecLState ProofGccB2 LemGcc ProofSel ProofNet1 ProofNet2 ProofNet3 ProofNet5 ProofNet7 ProofBobs1 ProofBobs2 ProofBobs3 ProofBobs4 ProofBobs5 LemBobs ProofLS1 ProofLS2 ProofLS3 ProofLS4 ProofLS5 ProofLS6.
Set Implicit Arguments.
Unset Strict Implicit.
Unset Printing Implicit Defensive.
Import Order.TTheory GRing.Theory Num.Theory.
Local Open Scope ring_scope.
Local Open Scope py_scope.

Lemma C41_lossy_state_split_lemma :
  forall (samples threads : nat), (0 < threads)%N ->
  exists L, [/\ distribute_uniformly samples threads = Ok L, size L = threads, sumn L = samples
    & forall x y, x \in L -> y \in L -> (x <= y.+1)%N].
Proof.
exact: distribute_spec.
Qed.

Lemma C41_lossy_state_samples_lemma :
  forall (R : rcfType) (H : eqType) (hash : seq nat -> H) (cis : R -> (ComplexField.complex_numFieldType R)) (m h : nat) (U : seq (seq (ComplexField.complex_numFieldType R))) (eta : R) (s : seq nat) (x : lstate R) (fuel : nat) (c : int),
  cis_ok cis -> unitary m U -> size s = m -> lstate_of cis m U h eta x -> 0 <= eta <= 1 ->
  no_collision hash (take h s) ->
  (0 < h)%N -> (h < m)%N -> all (fun n => n <= 1)%N (take h s) -> (2 ^ h * (sumn (drop h s)).+1 <= fuel)%N -> 1 <= c ->
  always (fun r => exists L x', [/\ r = Ok (L, x'), size L = `|c|%N,
      forall t, t \in L -> (size t == m) && (sumn t <= sumn s)%N & lstate_of cis m U h eta x'])
    (lstate_simulate hash cis (@np_rand R) (@np_shuffle R) fuel s c x).
Proof.
move=> R H hash cis m h U eta s x fuel c ok uU ss ox e01 inj h0 hm le1 fu c1.
exact: (ls_simulate_always ok uU ss ox e01 inj (np_rand_always R _) h0 hm le1 fu c1).
Qed.

Lemma C41_nonuniform_samples_refuted_lemma :
  forall (R : rcfType) (svd : seq (seq (ComplexField.complex_numFieldType R)) -> res (seq (seq (ComplexField.complex_numFieldType R)) * seq R * seq (seq (ComplexField.complex_numFieldType R)))) (cis : R -> (ComplexField.complex_numFieldType R)) (m : nat) (M : seq (seq (ComplexField.complex_numFieldType R))) (fuel : nat) (s : seq nat) (x : bobs R) (c : int),
  svd_ok svd -> cis_ok cis -> (0 < m)%N -> subunitary m M -> (exists i j, [/\ (i < m)%N, (j < m)%N & ent M i j != 0]) ->
  size s = m -> bobs_of svd m M x -> (0 < bo_threads x)%N ->
  (forall s', s' \in approx_inputs (bo_modes x) (bo_particles x + sumn (take (bo_modes x) s)) s -> (\prod_(y <- s') y.+1 <= fuel)%N) ->
  (1 <= c)%R ->
  always (fun r => exists2 z, r = Ok z & size z.1 <> `|c|%N) (bobs_simulate svd cis (@np_rand R) fuel s c x).
Proof.
move=> R svd cis m M fuel s x c sv ok m0 sub nz ss bx T0 fu c1.
apply: always_impl (C42_accumulated_particles_lemma sv ok m0 sub nz ss bx T0 fu c1) => _ [L [x' [-> [_ lt] _ _]]].
by exists (L, x') => //= e; rewrite e ltnn in lt.
Qed.

Lemma C44_weights_lemma :
  forall (R : rcfType) (H : eqType) (hash : seq nat -> H) (p : seq nat) (eta : R), no_collision hash p ->
  exists L, [/\ exact_parts hash p = Ok L, uniq L, (forall K, (K \in L) = substate K p),
     exact_weights eta L = Ok [seq left_weight eta p K | K <- L]
   & \sum_(K <- L) left_weight eta p K = \prod_(k <- p) \sum_(l < k.+1) eta ^+ l * (1 - eta) ^+ (k - l)].
Proof.
move=> R H hash p eta inj; have [L [e u mL [L' eL]]] := exact_partsE inj; exists L; split=> //.
- by move=> K; rewrite mL mem_subs.
- exact: exact_weightsE mL eL.
by rewrite (perm_big (subs p)) ?left_total //; apply: uniq_perm; rewrite ?subs_uniq.
Qed.

Lemma C44_distribution_lemma :
  forall (R : rcfType) (H : eqType) (hash : seq nat -> H) (p : seq nat) (eta : R) L ws, no_collision hash p -> 0 <= eta <= 1 -> all (fun k => k <= 1)%N p ->
  exact_parts hash p = Ok L -> exact_weights eta L = Ok ws -> is_distr ws.
Proof.
move=> R H hash p eta L ws inj e01 le1 eL ew.
have [L1 [e u mL [L' rL]]] := exact_partsE inj; move: e; rewrite eL => -[e]; rewrite -{L1}e in u mL rL.
by move: ew; rewrite (exact_weightsE _ mL rL) => -[<-]; exact: left_distr.
Qed.

Lemma C44_distribution_bunched_refuted_lemma :
  forall (R : rcfType) (H : eqType) (hash : seq nat -> H) (p : seq nat) (eta : R) L ws, no_collision hash p -> 0 < eta < 1 -> has (fun k => 1 < k)%N p ->
  exact_parts hash p = Ok L -> exact_weights eta L = Ok ws -> \sum_(w <- ws) w < 1.
Proof.
move=> R H hash p eta L ws inj e01 b eL ew.
have [L1 [e u mL [L' rL]]] := exact_partsE inj; move: e; rewrite eL => -[e]; rewrite -{L1}e in u mL rL.
have e01' : 0 <= eta <= 1 by case/andP: e01 => a b'; rewrite !ltW.
move: ew; rewrite (exact_weightsE _ mL rL) => -[<-]; rewrite big_map (perm_big (subs p)) ?left_total ?left_total_lt1 //.
by apply: uniq_perm; rewrite ?subs_uniq.
Qed.

Lemma C44_bunched_raises_lemma :
  forall (R : rcfType) (H : eqType) (hash : seq nat -> H) (cis : R -> (ComplexField.complex_numFieldType R)) (m h : nat) (U : seq (seq (ComplexField.complex_numFieldType R))) (eta : R) (s : seq nat) (x : lstate R) (fuel : nat) (c : int),
  cis_ok cis -> unitary m U -> size s = m -> lstate_of cis m U h eta x -> 0 <= eta <= 1 ->
  no_collision hash (take h s) ->
  (h <= m)%N -> 1 <= c ->
  @choice_tol R < 1 - \sum_(K <- subs (take h s)) left_weight eta (take h s) K ->
  always (fun r => r = Err ValueError) (lstate_simulate hash cis (@np_rand R) (@np_shuffle R) fuel s c x).
Proof.
move=> R H hash cis m h U eta s x fuel c ok uU ss ox e01 inj hm c1; rewrite left_total => dev.
exact: (ls_bunched uU ss ox e01 inj (@np_rand R) fuel hm c1 dev).
Qed.

Lemma C45_new_object_lemma :
  forall (R : rcfType) (cis : R -> (ComplexField.complex_numFieldType R)) (m h : nat) (U : seq (seq (ComplexField.complex_numFieldType R))) (eta : R) (cpu : nat) (a : any_calc (ComplexField.complex_numFieldType R)) (threads : int),
  calc_matrix a = U -> size (calc_input a) = m -> (h <= m)%N -> (0 < cpu)%N ->
  exists x, [/\ new_lstate cis cpu a eta (Posz h) threads = Ok x, lstate_of cis m U h eta x
    & ls_threads x = (if (1 <= threads) && (threads <= Posz cpu) then `|threads|%N else cpu)].
Proof.
move=> R cis m h U eta cpu a threads ea sa hm c0; rewrite /new_lstate sa [Posz m - Posz h](subzn hm).
rewrite /lstate_of /qft_matrix_first ltnNge leq_subr /=; eexists; split; [reflexivity| |].
  by split=> //=; rewrite /proper_threads; repeat case: ifP => ?; lia.
by rewrite /= /proper_threads; repeat case: ifP => ?; lia.
Qed.

Lemma C45_wrong_level_lemma :
  forall (R : rcfType) (cis : R -> (ComplexField.complex_numFieldType R)) (eta : R) (cpu : nat) (a : any_calc (ComplexField.complex_numFieldType R)) (level threads : int),
  (Posz (size (calc_input a)) < level) \/ (level < 0 /\ (0 < size (calc_input a))%N) ->
  new_lstate cis cpu a eta level threads = Err ValueError.
Proof.
move=> R cis eta cpu a level threads; rewrite /new_lstate; move: (size _) => m [lt|[lt m0]].
  by case e: (Posz m - level) => [k|k] //; lia.
case e: (Posz m - level) => [k|k] //; rewrite /qft_matrix_first.
by have -> : (m < k)%N && (k != 1%N) by lia.
Qed.

Lemma C45_exact_at_extreme_levels_refuted_lemma :
  forall (R : rcfType) (H : eqType) (hash : seq nat -> H) (cis : R -> (ComplexField.complex_numFieldType R)) (m h : nat) (U : seq (seq (ComplexField.complex_numFieldType R))) (eta : R) (s : seq nat) (x : lstate R) (fuel : nat) (c : int),
  cis_ok cis -> unitary m U -> size s = m -> lstate_of cis m U h eta x -> 0 <= eta <= 1 ->
  no_collision hash (take h s) ->
  (0 < m)%N -> (h == 0%N) || (h == m) -> 1 <= c -> all (fun n => n <= 1)%N (take h s) ->
  always (fun r => r = Err TypeError) (lstate_simulate hash cis (@np_rand R) (@np_shuffle R) fuel s c x).
Proof.
move=> R H hash cis m h U eta s x fuel c ok uU ss ox e01 inj m0 ex c1 le1.
exact: (ls_extreme ok uU ss ox e01 inj fuel (np_rand_always R _) m0 ex c1 le1).
Qed.

Lemma C55_shuffle_lemma :
  forall (R : rcfType) (n : nat) (f : seq nat -> R), (0 < n)%N ->
  has_exp (on_ok f) (@np_shuffle R (iota 0 n)) ((\sum_(q <- permutations (iota 0 n)) f q) / n`!%:R).
Proof.
move=> R n f n0; exact: np_shuffle_exp.
Qed.

Lemma C55_law_lemma :
  forall (R : rcfType) (H : eqType) (hash : seq nat -> H) (cis : R -> (ComplexField.complex_numFieldType R)) (m h : nat) (U : seq (seq (ComplexField.complex_numFieldType R))) (eta : R) (s : seq nat) (x : lstate R) (fuel : nat) (c : int)
    (rand : nat -> rprog R (res (seq R))) (S : seq (seq R)) (W : seq R -> R),
  cis_ok cis -> unitary m U -> size s = m -> lstate_of cis m U h eta x -> 0 <= eta <= 1 ->
  no_collision hash (take h s) ->
  (0 < h)%N -> (h < m)%N -> all (fun n => n <= 1)%N (take h s) -> (2 ^ h * (sumn (drop h s)).+1 <= fuel)%N -> 1 <= c ->
  always (fun r => exists2 d, r = Ok d & d \in S) (rand (m - h)%N) ->
  (forall f, has_exp (on_ok f) (rand (m - h)%N) (\sum_(d <- S) W d * f d)) ->
  iid_samples (lstate_simulate hash cis rand (@np_shuffle R) fuel s c x) `|c|
    [pred t | (size t == m) && (sumn t <= sumn s)%N] (lstate_law cis m h U eta s S W).
Proof.
move=> R H hash cis m h U eta s x fuel c rand S W ok uU ss ox e01 inj h0 hm le1 fu c1 rS rE.
have ra : always (fun r => exists d, r = Ok d) (rand (m - h)%N) by apply: always_impl rS => _ [d -> _]; exists d.
apply: (@iid_of_exp _ _ _ _ (lcomps m (sumn s))); first exact: lcomps_uniq.
  by move=> t; rewrite mem_lcomps.
by move=> f; apply: (ls_simulate_exp ok uU ss ox e01 inj ra h0 hm le1 fu rS rE f c1).
Qed.

Lemma C56_modes_left_alone_refuted_lemma :
  forall (R : rcfType) (H : eqType) (hash : seq nat -> H) (cis : R -> (ComplexField.complex_numFieldType R)) (x : lstate R) (fuel : nat) (d : seq R),
  let U := np_eye (ComplexField.complex_numFieldType R) 3 in let s := [:: 1; 1; 0]%N in let t := [:: 2; 0; 0]%N in
  cis_ok cis -> lstate_of cis 3 U 1 1 x -> no_collision hash [:: 1]%N -> (4 <= fuel)%N ->
  has_exp (on_ok (fun z => (z.1 == [:: t])%:R))
    (lstate_simulate hash cis (fun=> Ret (Ok d)) (@np_shuffle R) fuel s 1 x) 3%:R^-1
  /\ forall sigma d', sigma \in permutations (iota 0 3) ->
       lstate_prob 1 3 1 (intended_net cis 3 1 (permuted 3 U sigma) d') s t = 0.
Proof.
move=> R H hash cis x fuel d U s t ok ox inj fu; split=> [|sigma d' hs]; last exact: intended_prob.
have uU : unitary 3 U by exact: eye_unitary.
have e01 : 0 <= (1 : R) <= 1 by rewrite ler01 lexx.
have A2 : always (fun r => exists2 d', r = Ok d' & d' \in [:: d]) (Ret (Ok d) : rprog R (res (seq R))) by exists d; rewrite ?inE.
have E2 f : has_exp (on_ok f) (Ret (Ok d) : rprog R (res (seq R))) (\sum_(d <- [:: d]) 1 * f d).
  by apply: has_exp_eq (@ExpRet _ _ _ _) _; rewrite big_seq1 mul1r.
have := @C55_law_lemma R H hash cis 3 1 U 1 s x fuel 1 (fun=> Ret (Ok d)) [:: d] (fun=> 1) ok uU erefl ox e01 inj isT isT isT fu isT A2 E2 [:: t].
move=> K; apply: has_exp_eq K _; transitivity (lstate_law cis 3 1 U 1 s [:: d] (fun=> 1) t); first exact: big_seq1.
rewrite /lstate_law big_seq1 mul1r.
rewrite (eq_big_seq (fun sigma => if (index 0 sigma < 2)%N then 2%:R^-1 else 0)) => [|sigma hs]; last exact: code_prob.
by rewrite perms3 !big_cons big_nil /= !factS fact0; field.
Qed.
