(* What a single generation gives, and the calculator of the factory. *)
From mathcomp Require Import all_ssreflect all_algebra complex.
From Verif Require Import Base ModelStates ModelPerm ModelDist SpecProb ProbMath ModelGcc ModelGccB SpecGcc ProofGcc4 ModelNet ModelBobs ModelLState ModelFixed ModelR ModelFactory SpecFactory ProofFactory1 ProofFactory2 ProofFactory3.
Set Implicit Arguments.
Unset Strict Implicit.
Unset Printing Implicit Defensive.
Import GRing.Theory Num.Theory.
Local Open Scope ring_scope.
Local Open Scope py_scope.

Section One.
Variable R : rcfType.
Notation CF := (ComplexField.complex_numFieldType R).
Notation calc := (any_calc CF).
Variables (svd : seq (seq CF) -> res (seq (seq CF) * seq R * seq (seq CF))) (cis : R -> CF).
Variables (rand : nat -> rprog R (res (seq R))) (shuf : seq nat -> rprog R (res (seq nat))).
Variables (H : eqType) (hash : seq nat -> H) (gray : nat -> seq nat).
Variables (cpu fuel : nat).
Variable boson_sampler : rmatrix R -> nat -> bool -> rprog R (res (seq int * seq R * seq R)).
Variables (rpy2 : bool) (installed : r_package -> bool).
Notation entry := (option nat * strategy R)%type.
Notation stepw := (step svd cis rand shuf hash gray cpu fuel boson_sampler rpy2 installed).
Notation stepv := (v_step svd cis rand shuf hash gray cpu fuel boson_sampler rpy2 installed).
Notation runw := (run svd cis rand shuf hash gray cpu fuel boson_sampler rpy2 installed).
Notation runv := (v_run svd cis rand shuf hash gray cpu fuel boson_sampler rpy2 installed).
Implicit Types (w : world R) (v : values R).

Record generated w (y : seq calc * entry) (x : strategy R) : Prop := Generated {
  gen_load : load y.1 y.2 = Ok x;
  gen_value : y.2.2 = x;
  gen_ref : forall r, y.2.1 = Some r -> (r < size y.1)%N;
  gen_frame : forall r, (r < size (w_heap w))%N -> onth y.1 r = onth (w_heap w) r;
  gen_type : has_type (w_type w) x;
  gen_kind : y.2.1 = (if kind x == 0%N then None else if kind x == 2%N then Some (w_calc w) else Some (size (w_heap w)))
}.

Lemma generatedE w a : onth (w_heap w) (w_calc w) = Some a ->
  same_res (generated w) (generate svd cis cpu rpy2 installed w)
    (build svd cis cpu rpy2 installed (w_type w) (w_conf w) (w_threads w) a).
Proof.
move=> c; have dc := deepcopyE c; have lc : (w_calc w < size (w_heap w))%N by rewrite onth_lt c.
have fr1 := @rcons_frame _ (w_heap w) a.
have el1 : onth (rcons (w_heap w) a) (size (w_heap w)) = Some a by rewrite onth_rcons eqxx.
rewrite /generate.
have own z h' b : has_type (w_type w) z -> kind z = 1%N -> calc_of z = Some b -> size h' = (size (w_heap w)).+1 ->
    (forall r, (r < size (w_heap w))%N -> onth h' r = onth (w_heap w) r) -> onth h' (size (w_heap w)) = Some b ->
    generated w (h', (Some (size (w_heap w)), z)) z.
  move=> tz kz cz sh fr el; split=> //=.
  - by rewrite loadE /= el (with_calc_of cz).
  - by move=> r [<-]; rewrite sh.
  - by rewrite kz.
case et: (w_type w) => /=.
- by rewrite /generate_fixed; case: (new_fixed _ _ _ _ _) => [x|e] //=; split; rewrite // et.
- by split; rewrite // et.
- rewrite /generate_r /= andbT; case: rpy2 => //=.
  by case: ifP => /= [/negbTE ->|/negbFE ->] //=; split; rewrite // et.
- rewrite /generate_gcc dc /= copied /=; apply: own el1; rewrite ?et ?size_rcons //=.
- rewrite /generate_lossy_net dc /= /construct_lossy_net copied /=.
  case e: (new_lossy_net svd a) => [y|] //=.
  rewrite py_setE size_rcons ltnSn /=; apply: (own _ _ y.2) => //=.
  + by rewrite et.
  + by move: e; rewrite /new_lossy_net; case: (prepare_expanded _ _) => //= E [<-].
  + by rewrite size_upd size_rcons.
  + by move=> r lr; rewrite onth_upd; case: eqP lr => [->|_ lr]; rewrite ?ltnn //= fr1.
  + by rewrite onth_upd eqxx size_rcons ltnSn.
- by rewrite /generate_fixed; case: (new_fixed _ _ _ _ _) => [x|e] //=; split; rewrite // et.
- rewrite /generate_uniform_gcc dc /= copied /=; apply: own el1; rewrite ?et ?size_rcons //=.
- rewrite /generate_bobs dc /= copied /=.
  case e: (new_bobs _ _ _ _ _) => [x|] //=.
  apply: (own _ _ a) => //=; rewrite ?et ?size_rcons //.
  by move: e; rewrite /new_bobs; case: (extract_losses _ _) => //= lm [<-].
- rewrite /generate_uniform_bobs py_getE c /=.
  case e: (new_lstate _ _ _ _ _ _) => [x|] //=; split; rewrite //= ?et //; last by move=> r [<-].
  rewrite loadE /= c; congr Ok; move: e; rewrite /new_lstate.
  by case: (Posz _ - _) => // k; case: (qft_matrix_first _ _ _) => //= Q [<-].
Qed.

Lemma generate_load w a : onth (w_heap w) (w_calc w) = Some a ->
  (let! y := generate svd cis cpu rpy2 installed w in load y.1 y.2)
  = build svd cis cpu rpy2 installed (w_type w) (w_conf w) (w_threads w) a.
Proof.
move=> /generatedE; case: (generate _ _ _ _ _ _) => [y|e]; case: (build _ _ _ _ _ _ _ _ _) => [x|e'] //=; last by move=> ->.
by case.
Qed.

Lemma same_run_tail (A B C : Type) (P : A -> B -> Prop) (Q : C -> B -> Prop) (p : rprog R A) (q : rprog R B) g :
  same_run P p q -> (forall a b, P a b -> exists c, g a = Ret c /\ Q c b) -> same_run Q (pbind p g) q.
Proof.
move=> h hg; elim: p q h => [a|k IH|n k IH] [b|k'|n' k'] //=; first by move=> /hg [c [-> ?]].
- by move=> h u u01; apply: IH; exact: h.
- by move=> [e h]; split=> // i ni; apply: IH; exact: h.
Qed.

Lemma generate_simulate w a s k : onth (w_heap w) (w_calc w) = Some a ->
  same_run (same_res (fun x y => x.1 = [:: None; Some y.1]))
    (runw [:: Generate R; Simulate R (size (w_strategies w)) s k] w)
    (build_and_simulate svd cis rand shuf hash gray cpu fuel boson_sampler rpy2 installed
       (w_type w) (w_conf w) (w_threads w) a s k).
Proof.
move=> /generatedE; rewrite /build_and_simulate /=.
case: (generate _ _ _ _ _ _) => [y|e]; case: (build _ _ _ _ _ _ _ _ _) => [x|e'] // [ly vy ry _ _ _].
rewrite /rpbind /= -cats1 py_getE /onth drop_size_cat //= ly /=.
apply: (@same_run_tail _ _ _ (same_res (fun a b => a.1 = [:: Some b.1]))); last first.
  by move=> [x0|e0] [z|e] //= e1; eexists; (split; first reflexivity); rewrite /= e1.
apply: (@same_run_tail _ _ _ (same_res (fun a b => a.1 = Some b.1))); last first.
  by move=> [x0|e0] [z|e] //= e1; eexists; (split; first reflexivity); rewrite /= e1.
apply: same_run_tail (same_always (simulate_kind svd cis rand shuf hash gray fuel boson_sampler s k x)) _ => -[z|e] _ [<-] /=; last by move=> _; eexists.
move=> _; have [h' ->] : exists h', store y.1 y.2.1 z.2 = Ok h'.
  rewrite /store; case er: y.2.1 => [r|]; last by exists y.1.
  by case: (calc_of _) => [b|]; [rewrite py_setE (ry _ er); eexists|exists y.1].
by rewrite py_setE size_cat addn1 ltnSn /=; eexists.
Qed.

Lemma v_step_calc o v : ~~ is_set_calculator o ->
  always (fun y => if y is Ok y then v_calc y.2 = v_calc v else True) (stepv o v).
Proof.
case: o => [|i s k|i M|t|c|n|i|a|i a|] //= _.
- by case: (build _ _ _ _ _ _ _ _ _).
- case: (py_get _ _) => //= x; rewrite /rpbind /=; apply: always_any => // y /=.
  by rewrite /rpbind /=; case: (py_set _ (Posz i) _).
- case: (py_get _ _) => //= x; rewrite /rpbind /=; case: (strategy_set_matrix _ _ _) => //= y.
  by case: (py_set _ (Posz i) _).
- by rewrite /rpbind /=; case: (py_set _ (Posz i) _).
Qed.

Lemma v_run_calc ops v : ~~ has (@is_set_calculator R) ops ->
  always (fun y => if y is Ok y then v_calc y.2 = v_calc v else True) (runv ops v).
Proof.
elim: ops v => [|o ops IH] v //=; rewrite negb_or => /andP [no nops].
apply: always_rbind; apply: always_impl (v_step_calc v no) => -[x|e] //= ex.
by apply: always_rbind; apply: always_impl (IH x.2 nops) => -[y|e] //= ->.
Qed.

Lemma same_run_right (A B : Type) (P : A -> B -> Prop) (Q : B -> Prop) (S : A -> Prop) (p : rprog R A) (q : rprog R B) :
  (forall a b, P a b -> Q b -> S a) -> same_run P p q -> always Q q -> always S p.
Proof.
move=> h; elim: p q => [a|k IH|n k IH] [b|k'|n' k'] //=; first exact: h.
- by move=> h1 h2 u u01; apply: IH (h1 _ u01) (h2 _ u01).
- by move=> [e h1] h2 i ni; apply: IH (h1 _ ni) (h2 _ _); rewrite -e.
Qed.

Lemma history a l conf t ops : ~~ has (@is_get R) ops -> ~~ has (@is_set_calculator R) ops ->
  always (fun y => if y is Ok y then onth (w_heap y.2) (w_calc y.2) = Some a else True)
    (draw! w := Ret (new_world (a :: l) conf t) in runw ops w).
Proof.
move=> ng ns; case e: (new_world (a :: l) conf t) => [w|] //; rewrite -[rpbind _ _]/(runw ops w).
have := new_good (a :: l) conf t; rewrite e /= => gw.
apply: same_run_right (run_good svd cis rand shuf hash gray cpu fuel boson_sampler rpy2 installed ng gw) (v_run_calc _ ns).
by move=> [x|e1] [y|e2] //= [_ [_ /seesE sn]] cy; rewrite (seen_calc sn) cy.
Qed.

Lemma calc_matrix_set M (a : calc) : calc_matrix (set_matrix M a) = M. Proof. by case: a. Qed.

(* independent samples of the strategies *)
Lemma iid_wrap (X : eqType) (G G' : Type) (F : G -> G') (p : rprog R (res (seq X * G))) k S (P : X -> R) :
  iid_samples p k S P -> iid_samples (draw! y := p in Ret (Ok (y.1, F y.2))) k S P.
Proof.
move=> h L; apply: has_exp_rbind (h L) _; apply: always_true => -[y|] //=; exact: (ExpRet (on_ok _) (Ok _)).
Qed.

End One.
