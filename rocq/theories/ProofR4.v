(* find_probabilities and find_probabilities_of_n_random_states. *)
From mathcomp Require Import all_ssreflect all_fingroup all_algebra complex zify.
From Verif Require Import Base SpecStates Combi ModelStates SpecPerm SpecBS SpecProb ProbMath PermMath BsNorm LemStates ModelPerm ModelDist ModelGcc ModelGccB ModelNet ModelBobs ModelLState ModelR SpecGcc SpecR ProofGcc4 ProofBobs4 ProofSel ProofFactory3 ProofFactory4 ProofR1 ProofR2 ProofR3.
Set Implicit Arguments.
Unset Strict Implicit.
Unset Printing Implicit Defensive.
Import Order.TTheory GRing.Theory Num.Theory.
Local Open Scope ring_scope.
Local Open Scope py_scope.

Lemma same_run_sym (R : realFieldType) (A : Type) (p q : rprog R A) : same_run eq p q -> same_run eq q p.
Proof.
elim: p q => [a|k IH|n k IH] [b|k'|n' k'] //=.
- by move=> h u u01; apply: IH; exact: h.
- by move=> [<- h]; split=> // i ni; apply: IH; exact: h.
Qed.

Section Find.
Variable R : rcfType.
Notation CF := (ComplexField.complex_numFieldType R).
Notation mat := (seq (seq CF)).
Variables (boson_sampler : rmatrix R -> nat -> bool -> rprog R (res (seq int * seq R * seq R))) (m n : nat) (M : mat) (s : seq nat).
Hypotheses (ok : r_sampler_ok boson_sampler) (n0 : (0 < n)%N) (nm : (n <= m)%N) (uM : unitary_on m M (first_modes m n)).
Hypotheses (sm : size s = m) (ns : sumn s = n).
Notation P := (bs_prob M (first_modes m n)).
Notation S := (comps m n).
Notation draw := (r_single boson_sampler s [seq take n row | row <- M]).
Notation dict := (seq (seq nat * R)).
Notation keys d := (map fst (d : dict)).
Let al := r_single_always n0 nm uM ok sm.
Let ex f := r_single_exp n0 nm uM ok f sm.
Let P0 : {in S, forall t, 0 <= P t}. Proof. by move=> t _; exact: bs_prob_ge0. Qed.
Let P1 : \sum_(t <- S) P t = 1.
Proof. by rewrite -{1}(first_sum m n); apply: bs_prob_norm. Qed.

(* ---- find_probabilities ---- *)
Section Outcomes.
Variable outs : seq (seq nat).
Definition fnext (d : dict) (t : seq nat) : dict := if t \in outs then dict_set d t (P t) else d.
Definition fstop (d : dict) : bool := size d == size outs.
Notation floop := (loop draw fstop fnext).

Lemma find_loopE fuel d :
  same_run eq (find_loop boson_sampler fuel s outs [seq take n row | row <- M] d) (floop fuel d).
Proof.
elim: fuel d => [|fuel IH] d //=; rewrite /fstop; case: eqP => _ //=.
apply: same_run_bind (same_always al) _ => x _ [<-] [t -> _] /=.
by rewrite -[X in loop draw X]/fstop /fnext; case: (t \in outs); rewrite ?rpbind_ok; exact: IH.
Qed.

Lemma findE fuel :
  same_run eq (find_probabilities boson_sampler fuel s outs M) (floop fuel [::]).
Proof. by rewrite /find_probabilities ns (first_ok n0 nm uM) rpbind_ok; exact: find_loopE. Qed.

Definition finv (d : dict) : Prop :=
  [/\ uniq (keys d), {subset keys d <= outs}, {subset keys d <= S} & all (fun x => x.2 == P x.1) d].

Lemma finv_next d t : t \in S -> finv d -> finv (fnext d t).
Proof.
move=> tS [h1 h2 h3 h4]; rewrite /fnext; case: ifP => // to; split.
- exact: uniq_dict_set.
- by move=> x; rewrite mem_dict_set => /orP [/eqP ->|/h2].
- by move=> x; rewrite mem_dict_set => /orP [/eqP ->|/h3].
- exact: dict_set_all.
Qed.
Lemma finv0 : finv [::]. Proof. by []. Qed.

Lemma fstop_perm d : finv d -> fstop d -> perm_eq (keys d) outs.
Proof.
move=> [h1 h2 h3 h4] /eqP sz; have le : (size outs <= size (keys d))%N by rewrite size_map sz.
by apply: uniq_perm => //; [exact: leq_size_uniq h1 h2 le|case: (uniq_min_size h1 h2 le)].
Qed.

Lemma find_always fuel :
  always (fun y => (exists2 d, y = Ok d & perm_eq (keys d) outs /\ all (fun x => x.2 == P x.1) d) \/ y = Err OutOfFuel)
    (find_probabilities boson_sampler fuel s outs M).
Proof.
have h := loop_inv al fstop fuel finv0 finv_next; apply: (same_run_right _ (findE fuel) h) => a b -> [[d' -> [i st]]|->]; last by right.
by left; exists d' => //; split; [exact: fstop_perm|case: i].
Qed.

Lemma find_never fuel : ~~ (uniq outs && all (is_state m n) outs) ->
  always (fun y => y = Err OutOfFuel) (find_probabilities boson_sampler fuel s outs M).
Proof.
move=> bad; have ns' d : finv d -> ~~ fstop d.
  move=> i; apply/negP => st; have pe := fstop_perm i st; case: i => h1 _ h3 _; move: bad.
  rewrite -(perm_uniq pe) h1 /= -(perm_all _ pe); case/negP; apply/allP => t /h3.
  by rewrite mem_comps.
have h := loop_never al fuel finv0 finv_next ns'; by apply: (same_run_right _ (findE fuel) h) => a b ->.
Qed.

Lemma find_zero fuel t : t \in outs -> P t = 0 ->
  has_exp (on_ok (fun=> 1)) (find_probabilities boson_sampler fuel s outs M) 0.
Proof.
move=> to Pt; apply: (same_run_exp (same_run_sym (findE fuel)) (fun a b e => f_equal _ e)).
rewrite -(@loop_zero _ S P fstop fnext (fun d => finv d /\ t \notin keys d) (fun=> 1) fuel [::]) //; first exact: (loop_law al ex).
- move=> d x xS Px [i tk]; split; first exact: finv_next.
  rewrite /fnext; case: ifP => // xo; rewrite mem_dict_set negb_or tk andbT.
  by apply: contraNneq Px => <-; rewrite Pt.
- move=> d [i tk]; apply: contraNN tk => st; by rewrite (perm_mem (fstop_perm i st)).
Qed.

Lemma find_terminates fuel : uniq outs -> all (is_state m n) outs ->
  exists2 v, has_exp (on_ok (fun=> 1)) (find_probabilities boson_sampler fuel.+1 s outs M) v
    & 1 - \sum_(t <- outs) (1 - P t) ^+ fuel <= v <= 1.
Proof.
move=> uo so; have os : {subset outs <= S} by move=> t /(allP so); rewrite mem_comps.
exists (loop_exp S P fstop fnext (fun=> 1) fuel.+1 [::]).
  apply: (same_run_exp (same_run_sym (findE fuel.+1)) (fun a b e => f_equal _ e)).
  exact: (loop_law al ex).
have := @loop_bound _ S P fstop fnext outs P0 P1 (comps_uniq _ _) uo os finv fuel [::] finv0 finv_next.
rewrite ler_subl_addl addrC -ler_subl_addl loop_le1 ?andbT //; apply.
- move=> d [h1 h2 _ _] h; have [e _] := uniq_min_size uo h (uniq_leq_size h1 h2).
  by rewrite /fstop e size_map.
- move=> d t x _ _ xo; rewrite /fnext; case: ifP => to; first by rewrite mem_dict_set.
  by case: eqP => // e; rewrite -e xo in to.
Qed.

End Outcomes.

(* ---- find_probabilities_of_n_random_states ---- *)
Section Random.
Variable c : nat.
Definition rnext (d : dict) (t : seq nat) : dict := dict_set d t (P t).
Definition rstop (d : dict) : bool := (c <= size d)%N && close_to_1 (py_sum (map snd d)).
Notation rloop := (loop draw rstop rnext).

Lemma random_loopE fuel d :
  same_run eq (random_loop boson_sampler fuel s c [seq take n row | row <- M] d (py_sum (map snd d))) (rloop fuel d).
Proof.
elim: fuel d => [|fuel IH] d //=; rewrite /rstop ltnNge -negb_and; case: (_ && _) => //=.
apply: same_run_bind (same_always al) _ => x _ [<-] [t -> _].
by rewrite -[X in loop draw X]/rstop rpbind_ok; exact: IH.
Qed.

Definition rinv (d : dict) : Prop :=
  [/\ uniq (keys d), {subset keys d <= S} & all (fun x => x.2 == P x.1) d].

Lemma rinv_next d t : t \in S -> rinv d -> rinv (rnext d t).
Proof.
move=> tS [h1 h3 h4]; split.
- exact: uniq_dict_set.
- by move=> x; rewrite mem_dict_set => /orP [/eqP ->|/h3].
- exact: dict_set_all.
Qed.
Lemma rinv0 : rinv [::]. Proof. by []. Qed.

(* the states of positive probability *)
Definition support : seq (seq nat) := [seq t <- S | P t != 0].
Lemma support_uniq : uniq support. Proof. by rewrite filter_uniq // comps_uniq. Qed.
Lemma support_in : {subset support <= S}. Proof. by move=> t; rewrite mem_filter => /andP []. Qed.

Lemma sum_support : \sum_(t <- support) P t = 1.
Proof.
rewrite -P1 big_filter [RHS](bigID (fun t => P t != 0)) /= [X in _ + X]big1 ?addr0 //.
by move=> t; rewrite negbK => /eqP.
Qed.

(* all states of positive probability are enough for the sum *)
Lemma sum_all d : rinv d -> {subset support <= keys d} -> py_sum (map snd d) = 1.
Proof.
move=> [h1 h3 h4] h; rewrite py_sumE (dict_values h4) big_map -sum_support.
rewrite (bigID (fun t => P t != 0)) /= [X in _ + X]big1 ?addr0; last by move=> t; rewrite negbK => /eqP.
rewrite -big_filter; apply: perm_big; apply: uniq_perm; rewrite ?filter_uniq ?comps_uniq // => t.
rewrite !mem_filter; case: (P t != 0) / idP => // nz /=.
by apply/idP/idP => [/h3 //|tS]; apply: h; rewrite mem_filter nz.
Qed.
Lemma close1 : close_to_1 (1 : R).
Proof. by rewrite /close_to_1 subrr normr0; apply: addr_ge0; rewrite invr_ge0; apply: exprn_ge0; exact: ler0n. Qed.

Lemma rstop_all d : (c <= size support)%N -> rinv d -> {subset support <= keys d} -> rstop d.
Proof.
move=> cs i h; rewrite /rstop sum_all // close1 andbT; apply: leq_trans cs _.
by rewrite -(size_map fst d); apply: uniq_leq_size => //; exact: support_uniq.
Qed.

Lemma random_terminates fuel : (c <= size support)%N ->
  1 - \sum_(t <- support) (1 - P t) ^+ fuel <= loop_exp S P rstop rnext (fun=> 1) fuel.+1 [::] <= 1.
Proof.
move=> cs.
have := @loop_bound _ S P rstop rnext support P0 P1 (comps_uniq _ _) support_uniq support_in rinv fuel [::] rinv0 rinv_next.
rewrite ler_subl_addl addrC -ler_subl_addl loop_le1 ?andbT //; apply.
- by move=> d i h; exact: rstop_all.
- by move=> d t x _ _ _; rewrite mem_dict_set.
Qed.

Lemma random_zero fuel : (size support < c)%N -> loop_exp S P rstop rnext (fun=> 1) fuel [::] = 0.
Proof.
move=> cs; apply: (@loop_zero _ S P rstop rnext (fun d => uniq (keys d) /\ {subset keys d <= support})) => //.
- move=> d t tS nz [h1 h2]; split; first exact: uniq_dict_set.
  by move=> x; rewrite mem_dict_set => /orP [/eqP ->|/h2 //]; rewrite mem_filter nz.
- move=> d [h1 h2]; rewrite /rstop negb_and -ltnNge (leq_ltn_trans _ cs) //.
  by rewrite -(size_map fst); apply: uniq_leq_size.
Qed.
End Random.

Lemma m_gt0 : (0 < m)%N. Proof. exact: leq_trans n0 nm. Qed.
Lemma cap_ok count : states_cap s count = Ok (minn count (size S)).
Proof.
rewrite /states_cap; case: s sm ns => [m0|x s' <- <-]; first by have := m_gt0; rewrite -m0.
by congr (Ok (minn _ _)); rewrite [in RHS]/= size_comps /= addnS -[LHS]bin_sub ?leq_addl //= addnK.
Qed.

Lemma randomE count fuel :
  same_run eq (find_random_states boson_sampler fuel s count M)
    (loop draw (rstop (minn count (size S))) rnext fuel [::]).
Proof.
rewrite /find_random_states cap_ok ns (first_ok n0 nm uM) 2!rpbind_ok.
exact: (random_loopE _ fuel [::]).
Qed.

Lemma random_always count fuel :
  always (fun y => (exists2 d, y = Ok d &
      [/\ uniq (keys d), {subset keys d <= S}, all (fun x => x.2 == P x.1) d,
          (minn count (size S) <= size d)%N & close_to_1 (\sum_(x <- d) x.2)]) \/ y = Err OutOfFuel)
    (find_random_states boson_sampler fuel s count M).
Proof.
have h := loop_inv al (rstop (minn count (size S))) fuel rinv0 rinv_next.
apply: (same_run_right _ (randomE count fuel) h) => a b -> [[d' -> [[h1 h2 h3] st]]|->]; last by right.
left; exists d' => //; split=> //; first by case/andP: st.
by case/andP: st => _; rewrite py_sumE big_map.
Qed.

Lemma random_law count fuel f :
  has_exp (on_ok f) (find_random_states boson_sampler fuel s count M)
    (loop_exp S P (rstop (minn count (size S))) rnext f fuel [::]).
Proof.
apply: (same_run_exp (same_run_sym (randomE count fuel)) (fun a b e => f_equal _ e)).
exact: (loop_law al ex).
Qed.

End Find.
