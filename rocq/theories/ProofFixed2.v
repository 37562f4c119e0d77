(* The samples of the strategies with independent particles. *)
From mathcomp Require Import all_ssreflect all_algebra complex.
From mathcomp Require Import ring zify.
From Verif Require Import Base SpecStates Combi SpecPerm PermMath SpecBS BsMath BsNorm SpecProb ProbMath ModelStates ProofSel.
From Verif Require Import ModelGcc ModelGccB ModelNet SpecNet LemNet ProofGcc3 ProofGccB1 ProofGccB2 SpecGcc LemGcc ModelBobs ProofBobs5.
From Verif Require Import SpecFixed ModelFixed ProofFixed1.
From Verif Require ProofBobs1.
Set Implicit Arguments.
Unset Strict Implicit.
Unset Printing Implicit Defensive.
Import Order.TTheory GRing.Theory Num.Theory.
Local Open Scope ring_scope.
Local Open Scope py_scope.

Section Samples.
Variable R : rcfType.
Notation C := (ComplexField.complex_numFieldType R).
Notation mat := (seq (seq C)).
Variables (svd : mat -> res (mat * seq R * mat)) (cis : R -> C).
Hypotheses (sv : svd_ok svd) (ok : cis_ok cis).
Variables (m : nat) (M : mat).
Hypotheses (m0 : (0 < m)%N) (sub : subunitary m M).

Let sq : is_square m M := proj1 sub.

Lemma net_simulateE l x v : fixed_of svd m M l x -> size v = m ->
  network_simulate (fx_net x) v = Ok [seq \sum_(j < m) ent M i j * v`_j | i <- iota 0 m].
Proof.
move=> [_ _ h] sz; have [E [e1 e2 e3]] := @C37_lossy_network_lemma R svd m M v sv m0 sq sz.
case: h => [->//|[E' e4 ->]]; rewrite /network_simulate; move: e4; rewrite e1 => -[<-]; by rewrite e2.
Qed.

Definition vec (n : nat) (d : seq R) (j : nat) : C := cis d`_j * ((if (j < n)%N then 1 else 0) / Num.sqrt n%:R)%:C%C.

Lemma sqrt_nat n : (0 < n)%N -> (Num.sqrt (n%:R : R)) ^+ 2 = n%:R.
Proof. by move=> n0; rewrite sqr_sqrtr // ler0n. Qed.

Lemma nsq_vec n d j : (0 < n)%N -> nsq (vec n d j) = if (j < n)%N then n%:R^-1 else 0.
Proof.
move=> n0; have [_ h _] := ok; rewrite /vec nsqM h mul1r /nsq /= [0 ^+ 2]expr0n addr0.
by case: ifP => _; rewrite ?mul0r ?expr0n // div1r exprVn sqrt_nat.
Qed.

Lemma smearedE n d : (0 < n)%N ->
  smeared cis m M n d = [seq nsq (\sum_(j < m) ent M i j * vec n d j) | i <- iota 0 m].
Proof.
move=> n0; apply: eq_map => i; rewrite big_mkcond /=.
have -> : \sum_(j < m) ent M i j * vec n d j =
   (\sum_(j < m) if (j < n)%N then ent M i j * cis d`_j else 0) * ((Num.sqrt (n%:R : R))^-1)%:C%C.
  rewrite mulr_suml; apply: eq_bigr => j _; rewrite /vec; case: ifP => _; last by rewrite !mul0r mulr0 mulr0.
  by rewrite mul1r mulrA.
rewrite nsqM; congr (_ * _).
by rewrite /nsq /= [0 ^+ 2]expr0n addr0 exprVn sqrt_nat.
Qed.

Lemma smeared_ge0 n d : all (fun x => 0 <= x) (smeared cis m M n d).
Proof. by apply/allP => x /mapP[i _ ->] /=; rewrite divr_ge0 ?ler0n // nsq_ge0. Qed.

Lemma smeared_sum n d : (0 < n)%N -> \sum_(x <- smeared cis m M n d) x = image_norm m M (vec n d).
Proof.
by move=> n0; rewrite smearedE // big_map -[X in iota _ X](subn0 m) -/(index_iota _ _) big_mkord.
Qed.

Lemma vec_sum n d : (0 < n)%N -> vec_norm m (vec n d) = (minn n m)%:R / n%:R.
Proof.
move=> n0; rewrite /vec_norm (eq_bigr (fun j : 'I_m => if (j < n)%N then n%:R^-1 else 0)) => [|j _]; last exact: nsq_vec.
elim: (m) => [|k IH]; first by rewrite big_ord0 minn0 mul0r.
rewrite big_ord_recr /= IH; case: (ltnP k n) => kn.
  by rewrite !(minn_idPr _) // 1?ltnW // [in RHS]mulrSr mulrDl mul1r.
by rewrite !(minn_idPl _) ?addr0 // ltnW.
Qed.

Lemma smeared_le1 n d : (0 < n)%N -> \sum_(x <- smeared cis m M n d) x <= 1.
Proof.
move=> n0; rewrite smeared_sum //; apply: le_trans (proj2 sub _) _; rewrite -/(vec_norm m (vec n d)) vec_sum //.
by rewrite ler_pdivr_mulr ?ltr0n // mul1r ler_nat geq_minl.
Qed.

Lemma smeared_eq1 n d : unitary m M -> (0 < n <= m)%N -> \sum_(x <- smeared cis m M n d) x = 1.
Proof.
move=> [_ u] /andP[n0 nm]; rewrite smeared_sum // /image_norm.
under eq_bigr => i _ do under eq_bigr => j _ do rewrite mulrC.
rewrite nsq_comb => [|i j im jm _ _]; last exact: u.
by rewrite -/(vec_norm m (vec n d)) vec_sum // (minn_idPl nm) mulfV // pnatr_eq0 -lt0n.
Qed.

Variables (l : nat) (x : fixed R) (s : seq nat).
Hypotheses (fx : fixed_of svd m M l x).
Variable rand : nat -> rprog R (res (seq R)).
Let n := sumn s.

Definition state (d : seq R) : seq C := [seq vec n d i | i <- iota 0 m].

Lemma probE d : exists2 ev, network_simulate (fx_net x) (state d) = Ok ev &
  probabilities n ev = if n == 0%N then nseq m None else [seq Some y | y <- smeared cis m M n d].
Proof.
rewrite (net_simulateE fx) ?size_map ?size_iota //; eexists; first reflexivity.
have [e|n0] := posnP n.
  rewrite e /probabilities -map_comp -[X in nseq X](size_iota 0 m); by elim: (iota 0 m) => //= i L ->.
rewrite smearedE // /probabilities -!map_comp; apply: eq_map => i /=; rewrite gtn_eqF //; congr (Some (nsq _)).
apply: eq_bigr => j _; by rewrite (nth_map 0%N) ?size_iota // nth_iota.
Qed.

Lemma prepare_always (P : seq R -> Prop) :
  always (fun r => exists2 d, r = Ok d & P d) (rand m) ->
  always (fun r => exists2 d, r = Ok (state d) & P d) (prepare_state cis rand m n).
Proof.
move=> H; apply: always_rbind; apply: always_impl H => _ [d -> pd]; exists d => //; congr Ok.
by apply/eq_in_map => i; rewrite mem_iota => im; rewrite /vec (nth_map 0%N) ?size_iota // nth_iota.
Qed.

Lemma prepare_exp (S : seq (seq R)) (W : seq R -> R) f :
  always (fun r => exists2 d, r = Ok d & d \in S) (rand m) ->
  (forall f, has_exp (on_ok f) (rand m) (\sum_(d <- S) W d * f d)) ->
  has_exp (on_ok f) (prepare_state cis rand m n) (\sum_(d <- S) W d * f (state d)).
Proof.
move=> HA HE; apply: has_exp_rbind (HE (fun d => f (state d))) _.
apply: always_impl HA => _ [d -> _]; apply: has_exp_eq (ExpRet _ _) _ => /=; congr f.
by apply/eq_in_map => i; rewrite mem_iota => im; rewrite /vec (nth_map 0%N) ?size_iota // nth_iota.
Qed.

Lemma fixed_sample_always :
  always (fun r => exists d, r = Ok d) (rand m) ->
  always (fun y => exists t, [/\ y = Ok t, size t = m, (sumn t <= l)%N
    & (n = 0%N -> t = l :: nseq m.-1 0%N) /\ (unitary m M -> (0 < n <= m)%N -> sumn t = l)]) (fixed_sample cis rand x s).
Proof.
move=> HA; have := fx => -[el em _]; apply: always_rbind; rewrite em.
have HA' : always (fun r => exists2 d, r = Ok d & True) (rand m) by apply: always_impl HA => _ [d ->]; exists d.
apply: always_impl (prepare_always HA') => _ [d -> _].
have [ev e1 e2] := probE d; rewrite e1 /rpbind /= -/n e2 el.
have [e|n0] := posnP n.
  apply: always_impl (place_nan R l m0 (size_nseq m 0%N)) => _ ->.
  have -> : iter l (incr^~ 0%N) (nseq m 0%N) = l :: nseq m.-1 0%N.
    by case: (m) m0 => // k _ /=; elim: (l) => //= j ->; rewrite incr0.
  by eexists; split; rewrite /= ?size_nseq ?prednK // ?sumn_nseq ?mul0n ?addn0.
have sm : size (smeared cis m M n d) = m by rewrite size_map size_iota.
have so : size (nseq m 0%N) = size (smeared cis m M n d) by rewrite sm size_nseq.
have m0' : (0 < size (smeared cis m M n d))%N by rewrite sm.
have := place_all_always l m0' so; rewrite sm.
apply: always_impl => _ [t [-> st le eq]]; exists t; split=> //; first by move: le; rewrite sumn_nseq mul0n.
split=> [e|u nm]; first by rewrite e in n0.
by rewrite eq ?sumn_nseq ?mul0n // smeared_eq1 // n0.
Qed.

Section Law.
Variables (S : seq (seq R)) (W : seq R -> R).
Hypothesis HA : always (fun r => exists2 d, r = Ok d & d \in S) (rand m).
Hypothesis HE : forall f, has_exp (on_ok f) (rand m) (\sum_(d <- S) W d * f d).
Hypothesis nl : (0 < n)%N || (l == 0)%N.

Lemma fixed_sample_exp f :
  has_exp (on_ok f) (fixed_sample cis rand x s) (\sum_(t <- lcomps m l) fixed_law cis m M n l S W t * f t).
Proof.
have := fx => -[el em _].
have -> : \sum_(t <- lcomps m l) fixed_law cis m M n l S W t * f t =
    \sum_(d <- S) W d * \sum_(t <- lcomps m l) multinomial_prob l (smeared cis m M n d) t * f t.
  rewrite /fixed_law; under eq_bigr => t _ do rewrite mulr_suml.
  rewrite exchange_big; apply: eq_bigr => d _ /=; rewrite mulr_sumr; apply: eq_bigr => t _; by rewrite mulrA.
rewrite /fixed_sample em -/n.
pose h v := if network_simulate (fx_net x) v is Ok ev then
   \sum_(t <- lcomps m l) multinomial_prob l (map (@nsq R) ev) t * f t else 0.
have eh d : h (state d) = \sum_(t <- lcomps m l) multinomial_prob l (smeared cis m M n d) t * f t.
  rewrite /h (net_simulateE fx) ?size_map ?size_iota //.
  case/orP: nl => [n0|/eqP ->]; last by rewrite !mp0.
  rewrite smearedE // -map_comp; apply: eq_bigr => t _; congr (multinomial_prob _ _ _ * _).
  apply: eq_map => i /=; congr nsq; apply: eq_bigr => j _; by rewrite (nth_map 0%N) ?size_iota // nth_iota.
apply: has_exp_eq (has_exp_rbind (prepare_exp h HA HE) _) _; last by apply: eq_bigr => d _; rewrite eh.
apply: always_impl (prepare_always HA) => _ [d -> _]; rewrite eh.
have [ev e1 e2] := probE d; rewrite e1 /rpbind /= -/n e2 el.
have sm : size (smeared cis m M n d) = m by rewrite size_map size_iota.
case/orP: nl => [n0|/eqP ->]; last by rewrite mp0; exact: ExpRet.
rewrite gtn_eqF //.
have so : size (nseq m 0%N) = size (smeared cis m M n d) by rewrite sm size_nseq.
have m0' : (0 < size (smeared cis m M n d))%N by rewrite sm.
have H := place_all_exp (smeared_ge0 n d) (smeared_le1 d n0) l f m0' so; rewrite sm in H.
apply: has_exp_eq H _; apply: eq_big_seq => t; rewrite mem_lcomps => /andP[/eqP st _]; by rewrite add0v.
Qed.

Lemma fixed_simulate_exp k f :
  has_exp (on_ok (fun y => f y.1)) (fixed_simulate cis rand s k x) (iid_exp (lcomps m l) (fixed_law cis m M n l S W) k f).
Proof.
have HA' : always (fun r => exists d, r = Ok d) (rand m) by apply: always_impl HA => _ [d ->]; exists d.
have E := @sample_loop_exp R _ _ (fun _ => fixed_sample cis rand x s) (fun t => Ok t) (fun=> True) (lcomps m l) (fixed_law cis m M n l S W).
apply: has_exp_rbind (E _ _ k f [::] _) _ => //.
- by move=> _ _; apply: always_impl (fixed_sample_always HA') => _ [t [-> _ _ _]]; exists t, t.
- by move=> f' _ _; exact: fixed_sample_exp.
apply: always_true => -[y|] //=; exact: ExpRet.
Qed.
End Law.

Lemma fixed_simulate_always k :
  always (fun r => exists d, r = Ok d) (rand m) ->
  always (fun y => exists L, [/\ y = Ok (L, x), size L = k, forall t, t \in L -> size t = m /\ (sumn t <= l)%N,
      n = 0%N -> L = nseq k (l :: nseq m.-1 0%N)
    & unitary m M -> (0 < n <= m)%N -> forall t, t \in L -> sumn t = l]) (fixed_simulate cis rand s k x).
Proof.
move=> HA.
have H := @sample_loop_always R _ _ (fun _ => fixed_sample cis rand x s) (fun t => Ok t) (fun=> True)
  (fun t => [/\ size t = m, (sumn t <= l)%N & (n = 0%N -> t = l :: nseq m.-1 0%N) /\ (unitary m M -> (0 < n <= m)%N -> sumn t = l)]) k [::].
apply: always_rbind; apply: always_impl (H _ _) => //.
  move=> _ [L [g [-> sL _ h]]]; exists L; split=> //=.
  - by move=> t /aux_in/h[].
  - move=> n0; rewrite -sL; elim: L {sL} h => //= t L IH h; congr (_ :: _); first by have [_ _ [/(_ n0)]] := h t (or_introl erefl).
    by apply: IH => y yL; apply: h; right.
  - by move=> u nm t /aux_in/h[_ _ [_ /(_ u nm)]].
by move=> _ _; apply: always_impl (fixed_sample_always HA) => _ [t [-> a b c]]; exists t, t.
Qed.
End Samples.

Lemma unitary_sub (R : rcfType) m (U : seq (seq R[i])) : unitary m U -> subunitary m U.
Proof.
move=> u; split=> [|v]; first by case: u.
by have := ProofBobs1.unitary_norm v u; rewrite /image_norm /vec_norm => ->.
Qed.
