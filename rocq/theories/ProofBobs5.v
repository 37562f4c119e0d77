(* The samples of the approximate sampler. *)
From mathcomp Require Import all_ssreflect all_algebra complex.
From mathcomp Require Import ring zify.
From Verif Require Import Base SpecStates Combi SpecPerm PermMath SpecBS BsMath BsComb BsNorm.
From Verif Require Import ModelStates ModelPerm ModelDist SpecProb ProbMath ModelGcc ModelGccB ProofSel SpecGcc ModelNet SpecNet.
From Verif Require Import ProofGcc3 LemGcc ProofGccB2 ProofNet5 ProofBobs3 ProofBobs4 ModelBobs SpecBobs.
Set Implicit Arguments.
Unset Strict Implicit.
Unset Printing Implicit Defensive.
Import Order.TTheory GRing.Theory Num.Theory.
Local Open Scope ring_scope.
Local Open Scope py_scope.

Section Threads.
Variables (R : realFieldType) (X : eqType) (S : seq X) (P : X -> R) (work : nat -> rprog R (res (seq X))).

Lemma iid_expD (T : Type) (S' : seq T) (P' : T -> R) a b f :
  iid_exp S' P' (a + b) f = iid_exp S' P' a (fun L => iid_exp S' P' b (fun L' => f (L ++ L'))).
Proof.
elim: a f => [|a IH] f /=; first by apply: iid_exp_ext => L.
by apply: eq_bigr => t _; rewrite IH.
Qed.

Lemma thread_always (Q : X -> Prop) :
  (forall k, always (fun r => exists2 L, r = Ok L & size L = k /\ forall t, t \in L -> Q t) (work k)) ->
  forall loads, always (fun r => exists2 L, r = Ok L & size L = sumn loads /\ forall t, t \in L -> Q t) (thread_loop work loads).
Proof.
move=> H; elim=> [|k loads IH]; first by exists [::].
rewrite [thread_loop _ _]/=; apply: always_rbind; apply: always_impl (H k) => _ [L -> [sL aL]].
apply: always_rbind; apply: always_impl IH => _ [L' -> [sL' aL']]; exists (L ++ L') => //.
by rewrite size_cat sL sL'; split=> // t; rewrite mem_cat => /orP[/aL|/aL'].
Qed.

Lemma thread_exp :
  (forall k, always (fun r => exists L, r = Ok L) (work k)) ->
  (forall k f, has_exp (on_ok f) (work k) (iid_exp S P k f)) ->
  forall loads f, has_exp (on_ok f) (thread_loop work loads) (iid_exp S P (sumn loads) f).
Proof.
move=> HA HE; have HA' loads : always (fun r => exists L, r = Ok L) (thread_loop work loads).
  elim: loads => [|k loads IH]; first by exists [::].
  rewrite [thread_loop _ _]/=; apply: always_rbind; apply: always_impl (HA k) => _ [L ->].
  by apply: always_rbind; apply: always_impl IH => _ [L' ->]; exists (L ++ L').
elim=> [|k loads IH] f; first exact: ExpRet.
rewrite [thread_loop _ _]/= [sumn _]/= iid_expD.
apply: has_exp_rbind (HE k _) _; apply: always_impl (HA k) => _ [L ->].
apply: has_exp_rbind (IH (fun L' => f (L ++ L'))) _; apply: always_impl (HA' loads) => _ [L' ->].
exact: ExpRet.
Qed.
End Threads.

Lemma threads_total k T : (0 < T)%N -> sumn (samples_for_threads k T) = (T * (k %/ T).+1)%N.
Proof.
move=> T0; rewrite sumn_nseq mulnC; congr (_ * _)%N; rewrite {1}(divn_eq k T).
have -> : (k %/ T * T + k %% T + T - k %% T = (k %/ T).+1 * T)%N by lia.
by rewrite mulnK.
Qed.

Lemma np_rand_always (R : rcfType) n : always (fun r => exists d, r = Ok d) (@np_rand R n).
Proof.
elim: n => [|n IH]; first by exists [::].
by move=> u u01; apply: always_rbind; apply: always_impl IH => _ [d ->]; exists (u :: d).
Qed.

Section Samples.
Variable R : rcfType.
Notation C := (ComplexField.complex_numFieldType R).
Notation mat := (seq (seq C)).
Variables (svd : mat -> res (mat * seq R * mat)) (cis : R -> C).
Hypotheses (sv : svd_ok svd) (ok : cis_ok cis).
Variables (m : nat) (M : mat).
Hypotheses (m0 : (0 < m)%N) (sub : subunitary m M).
Hypothesis nz : exists i j, [/\ (i < m)%N, (j < m)%N & ent M i j != 0].
Variables (fuel : nat) (s : seq nat) (x : bobs R).
Let k := bo_modes x.
Let p := (bo_particles x + sumn (take k s))%N.
Hypotheses (ss : size s = m) (bx : bobs_of svd m M x) (T0 : (0 < bo_threads x)%N)
  (fu : forall s', s' \in approx_inputs k p s -> (\prod_(y <- s') y.+1 <= fuel)%N).
Variable rand : nat -> rprog R (res (seq R)).

Lemma start_of x' : bo_modes x' = bo_modes x -> bo_losses x' = bo_losses x -> bo_matrix x' = bo_matrix x ->
  bo_calc x' = bo_calc x -> bobs_of svd m M x'.
Proof. by case: bx => h1 h2 h3 e1 e2 e3 e4; rewrite /bobs_of e1 e2 e3 e4. Qed.

Lemma new_net_ok a : calc_matrix a = M -> exists h, new_lossy_net svd a = Ok h.
Proof.
move=> e; have [E [eE _ _]] := expanded_dilation sv m0 sub.
by rewrite /new_lossy_net e eE; eexists.
Qed.

Lemma bobs_simulate_always (c : int) : (1 <= c)%R -> always (fun r => exists d, r = Ok d) (rand k) ->
  always (fun r => exists L x', [/\ r = Ok (L, x'), size L = (bo_threads x * (`|c| %/ bo_threads x).+1)%N,
      forall t, t \in L -> (size t == m) && (sumn t <= approx_total k p s)%N
    & [/\ bobs_of svd m M x', bo_modes x' = k, bo_threads x' = bo_threads x & bo_particles x' = p]])
    (bobs_simulate svd cis rand fuel s c x).
Proof.
move=> c1 al; rewrite /bobs_simulate ltNge c1 [~~ true]/=.
have km : (bo_modes x <= size s)%N by case: bx; rewrite ss.
have [|x' [-> [e1 e2] [e3 e4 e5] [e6 e7] [mx lmx e8]]] := startE _ km; first by rewrite ss.
rewrite rpbind_ok; have bx' := start_of e1 e3 e4 e5.
have [h eh] := new_net_ok (a := bo_calc x') (let: And3 y _ _ := bx' in y).
have K j : always (fun r => exists2 L, r = Ok L & size L = j /\
     forall t, t \in L -> (size t == m) && (sumn t <= approx_total k p s)%N) (simulate_in_parallel svd cis rand fuel x' j).
  rewrite /simulate_in_parallel eh rpbind_ok; apply: always_rbind.
  apply: always_impl (@sample_loop_always _ _ _ _ _ (fun=> True) (fun t => (size t == m) && (sumn t <= approx_total k p s)%N) j _ _ I); last first.
    move=> [g h'] _; rewrite /=.
    apply: always_impl (@sample_always _ _ _ sv ok _ _ m0 sub nz fuel k p s x' ss bx' e1 e7 e6 mx _ _ fu rand h' al).
    - by move=> _ [t [h2 [-> st le]]]; exists (t, h2), t; rewrite st eqxx le.
    - by rewrite /p -e7.
    - by rewrite e3.
  move=> _ [L [g' [-> sL _ aL]]]; exists L => //; split=> // t tL; apply: aL; exact: aux_in.
apply: always_rbind; apply: always_impl (thread_always K _) => _ [L -> [sL aL]].
exists L, x'; split=> //; first by rewrite sL e2 threads_total.
Qed.

Variables (S : seq (seq R)) (W : seq R -> R).
Hypotheses (randA : always (fun r => exists2 d, r = Ok d & d \in S) (rand k))
  (randE : forall f, has_exp (on_ok f) (rand k) (\sum_(d <- S) W d * f d)).
Variables (e : seq R -> nat) (D : seq R -> mat).
Variable M' : mat.
Hypotheses (hM' : forall i j, (i < m)%N -> (j < m)%N -> ent M' i j = (Num.sqrt (1 - kept_losses (bo_losses x)))%:C%C * ent (bo_matrix x) i j)
  (dD : forall d, d \in S -> dilation m (e d) (approx_net cis m M' k d) (D d)).

Lemma bobs_simulate_iid (c : int) : (1 <= c)%R ->
  iid_samples (bobs_simulate svd cis rand fuel s c x) (bo_threads x * (`|c| %/ bo_threads x).+1)
    [pred t | (size t == m) && (sumn t <= approx_total k p s)%N]
    (fun t => \sum_(d <- S) W d * bobs_prob (e d) (D d) k p s t).
Proof.
move=> c1; apply: (@iid_of_exp _ _ _ _ (lcomps m (approx_total k p s))); first exact: lcomps_uniq.
  by move=> t; rewrite mem_lcomps.
move=> f.
have al : always (fun r => exists d, r = Ok d) (rand k) by apply: always_impl randA => _ [d -> _]; exists d.
rewrite /bobs_simulate ltNge c1 [~~ true]/=.
have km : (bo_modes x <= size s)%N by case: bx; rewrite ss.
have [|x' [-> [e1 e2] [e3 e4 e5] [e6 e7] [mx lmx e8]]] := startE _ km; first by rewrite ss.
rewrite rpbind_ok; have bx' := start_of e1 e3 e4 e5.
have [h eh] := new_net_ok (a := bo_calc x') (let: And3 y _ _ := bx' in y).
have lmx' : (maxn (\max_(y <- s) y) p <= mx)%N by rewrite /p -e7.
have e8' : bo_weights x' = own_binomial_weights (bo_losses x') mx by rewrite e3.
have hM'' i j : (i < m)%N -> (j < m)%N -> ent M' i j = (Num.sqrt (1 - kept_losses (bo_losses x')))%:C%C * ent (bo_matrix x') i j.
  by rewrite e3 e4; exact: hM'.
have SA h' := @sample_always _ _ _ sv ok _ _ m0 sub nz fuel k p s x' ss bx' e1 e7 e6 mx lmx' e8' fu rand h' al.
have K j : always (fun r => exists L, r = Ok L) (simulate_in_parallel svd cis rand fuel x' j).
  rewrite /simulate_in_parallel eh rpbind_ok; apply: always_rbind.
  apply: always_impl (@sample_loop_always _ _ _ _ _ (fun=> True) (fun=> True) j _ _ I); last first.
    move=> [g h'] _; rewrite /=.
    by apply: always_impl (SA h') => _ [t [h2 [-> _ _]]]; exists (t, h2), t.
  by move=> _ [L [g' [-> _ _ _]]]; exists L.
have KE j g : has_exp (on_ok g) (simulate_in_parallel svd cis rand fuel x' j)
   (iid_exp (lcomps m (approx_total k p s)) (fun t => \sum_(d <- S) W d * bobs_prob (e d) (D d) k p s t) j g).
  rewrite /simulate_in_parallel eh rpbind_ok.
  apply: has_exp_rbind (@sample_loop_exp _ _ _ _ _ (fun=> True) _ _ _ _ j g _ I) _.
  - move=> [g0 h'] _; rewrite /=.
    by apply: always_impl (SA h') => _ [t [h2 [-> _ _]]]; exists (t, h2), t.
  - move=> f0 [g0 h'] _; rewrite /=.
    exact: (@sample_exp _ _ _ sv ok _ _ m0 sub nz fuel k p s x' ss bx' e1 e7 e6 mx lmx' e8' fu rand S W randA randE e D M' hM'' dD).
  by apply: always_true => [[a|e']] //; exact: ExpRet.
rewrite -threads_total // -e2.
apply: has_exp_rbind (thread_exp K KE _ f) _.
by apply: always_true => [[a|e']] //; exact: ExpRet.
Qed.
End Samples.
