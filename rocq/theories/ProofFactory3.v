(* Histories of operations: references and values agree. *)
From mathcomp Require Import all_ssreflect all_algebra complex.
From Verif Require Import Base ModelStates ModelPerm ModelDist SpecProb ProbMath ModelGcc ModelGccB SpecGcc ProofGcc4 ModelNet ModelBobs ModelLState ModelFixed ModelR ModelFactory SpecFactory ProofFactory1 ProofFactory2.
Set Implicit Arguments.
Unset Strict Implicit.
Unset Printing Implicit Defensive.
Import GRing.Theory Num.Theory.
Local Open Scope ring_scope.
Local Open Scope py_scope.

Section Runs.
Variable R : rcfType.
Notation CF := (ComplexField.complex_numFieldType R).
Notation calc := (any_calc CF).
Variables (svd : seq (seq CF) -> res (seq (seq CF) * seq R * seq (seq CF))) (cis : R -> CF).
Variables (rand : nat -> rprog R (res (seq R))) (shuf : seq nat -> rprog R (res (seq nat))).
Variables (H : eqType) (hash : seq nat -> H) (gray : nat -> seq nat).
Variables (cpu fuel : nat).
Variable boson_sampler : rmatrix R -> nat -> bool -> rprog R (res (seq int * seq R * seq R)).
Variables (rpy2 : bool) (installed : r_package -> bool).
Notation entry := (option nat * strategy R)%type.
Notation stepw := (step svd cis rand shuf hash gray cpu fuel boson_sampler rpy2 installed).
Notation stepv := (v_step svd cis rand shuf hash gray cpu fuel boson_sampler rpy2 installed).
Notation runw := (run svd cis rand shuf hash gray cpu fuel boson_sampler rpy2 installed).
Notation runv := (v_run svd cis rand shuf hash gray cpu fuel boson_sampler rpy2 installed).
Implicit Types (w : world R) (v : values R).
Notation both := (fun a b => a.1 = b.1 /\ good a.2 b.2).

Lemma same_always (A : Type) (Q : A -> Prop) (p : rprog R A) :
  always Q p -> same_run (fun a b => a = b /\ Q a) p p.
Proof. by elim: p => [a|k IH|n k IH] //= h; [move=> u u01; apply: IH; exact: h|split=> // i ni; apply: IH; exact: h]. Qed.

Lemma fetch w v i : sep w -> seen w v ->
  (exists x z, [/\ onth (w_strategies w) i = Some x, py_get (w_strategies w) (Posz i) = Ok x,
     py_get (v_strategies v) (Posz i) = Ok z & load (w_heap w) x = Ok z]) \/
  (py_get (w_strategies w) (Posz i) = Err IndexError /\ py_get (v_strategies v) (Posz i) = Err IndexError).
Proof.
move=> sw sn; rewrite !py_getE.
have : isSome (onth (w_strategies w) i) = isSome (onth (v_strategies v) i) by rewrite -!onth_lt (seen_size sn).
case e1: (onth (w_strategies w) i) => [x|]; case e2: (onth (v_strategies v) i) => [z|] // _.
- by left; exists x, z; rewrite (seen_load sn e1 e2).
- by right.
Qed.

Lemma changed w v i (x : entry) z y : sep w -> seen w v -> onth (w_strategies w) i = Some x ->
  load (w_heap w) x = Ok z -> kind y = kind z -> (kind z = 2%N -> calc_of y = calc_of z) ->
  exists h', [/\ store (w_heap w) x.1 y = Ok h',
    py_set (w_strategies w) (Posz i) (x.1, y) = Ok (upd (w_strategies w) i (x.1, y)),
    py_set (v_strategies v) (Posz i) y = Ok (upd (v_strategies v) i y)
  & good (w_set w h' (upd (w_strategies w) i (x.1, y))) (v_set v (upd (v_strategies v) i y))].
Proof.
move=> sw sn ex lx ky kc.
have li : (i < size (w_strategies w))%N by rewrite onth_lt ex.
have lt r : x.1 = Some r -> (r < size (w_heap w))%N by exact: (sep_lt sw ex).
have [h' [e1 e2 e3 [e4 e5]]] := store_frame (sep_ref sw ex) lt lx ky kc.
exists h'; rewrite !py_setE li -(seen_size sn) li; split=> //.
exact: change_strategy.
Qed.

Lemma step_good o w v : ~~ is_get o -> good w v -> same_run (same_res both) (stepw o w) (stepv o v).
Proof.
move=> no [sw /seesE sn]; case: o no => [|i s k|i M|t|c|n|i|a|i a|] //= _.
- by have := generate_good svd cis cpu rpy2 installed sw sn; case: (generate _ _ _ _ _ _) => [y|e]; case: (build _ _ _ _ _ _ _ _ _).
- case: (fetch i sw sn) => [[x [z [ex -> -> lx]]]|[-> ->]] //; rewrite /rpbind /= lx /=.
  apply: same_run_bind (same_always (simulate_kind svd cis rand shuf hash gray fuel boson_sampler s k z)) _.
  move=> [y|e] _ [<-] //= [ky kc]; have [h' [-> -> -> g]] := changed sw sn ex lx ky kc.
  by split.
- case: (fetch i sw sn) => [[x [z [ex -> -> lx]]]|[-> ->]] //; rewrite /rpbind /= lx /=.
  case e: (strategy_set_matrix svd M z) => [y|] //=.
  have [k1 k2] := set_matrix_kind e.
  have ky : kind y = kind z by rewrite k1 k2.
  have [|h' [-> -> -> g]] := changed sw sn ex lx ky; first by rewrite k1.
  by split.
- split=> //; split=> /=; first by case: sw.
  by apply/seesE; case: sn => *; split.
- split=> //; split=> /=; first by case: sw.
  by apply/seesE; case: sn => *; split.
- split=> //; split=> /=; first by case: sw.
  by apply/seesE; case: sn => *; split.
- rewrite !py_getE; have : isSome (onth (w_vars w) i) = isSome (onth (v_vars v) i) by rewrite -!onth_lt (seen_vsize sn).
  case e1: (onth (w_vars w) i) => [r|]; case e2: (onth (v_vars v) i) => [a|] // _; rewrite /rpbind /=.
  have er := seen_vars sn e1 e2; rewrite (deepcopyE er) /=; split=> //; split=> /=.
    case: sw => h1 h2 h3 h4 h5 h6 h7 h8 h9; split=> //=.
    + move=> j x ex; rewrite /own; case: ifP => // _ /(h7 _ _ _ ex); by rewrite ltnn.
    + by apply/negP => /h8; rewrite ltnn.
    + by move=> j x q ex /(h7 _ _ _ ex); rewrite size_rcons; exact: leqW.
    + by move=> q /h8; rewrite size_rcons; exact: leqW.
    + by rewrite size_rcons.
  apply/seesE; split=> /=; try by case: sn.
  + move=> j q b f1 f2; rewrite rcons_frame; first exact: (seen_vars sn f1 f2).
    exact: (sep_lt_var sw) (onth_in f1).
  + by rewrite onth_rcons eqxx.
  + move=> j x z f1 f2; rewrite -(seen_load sn f1 f2); apply: load_frame => q eq.
    by rewrite rcons_frame //; exact: (sep_lt sw f1 eq).
- split=> //; split=> /=.
    case: sw => h1 h2 h3 h4 h5 h6 h7 h8 h9; split=> //=.
    + rewrite rcons_uniq h2 andbT; by apply/negP => /h8; rewrite ltnn.
    + move=> j x r ex er; rewrite mem_rcons inE negb_or (h4 _ _ _ ex er) andbT.
      by apply/eqP => e; have := h7 _ _ _ ex er; rewrite e ltnn.
    + by rewrite mem_rcons inE negb_or h6 andbT; apply/eqP => e; move: h9; rewrite e ltnn.
    + by move=> j x q ex /(h7 _ _ _ ex); rewrite size_rcons; exact: leqW.
    + by move=> q; rewrite size_rcons mem_rcons inE => /orP [/eqP ->|/h8 /leqW].
    + by rewrite size_rcons leqW.
  apply/seesE; split=> /=; try by case: sn.
  + by rewrite !size_rcons (seen_vsize sn).
  + move=> j q b f1 f2; case: (onth_rconsP f1) => [[e1 ->]|[l1 g1]]; case: (onth_rconsP f2) => [[e2 ->]|[l2 g2]].
    * by rewrite onth_rcons eqxx.
    * by move: l2; rewrite e1 (seen_vsize sn) ltnn.
    * by move: l1; rewrite e2 (seen_vsize sn) ltnn.
    * by rewrite rcons_frame; [exact: (seen_vars sn g1 g2)|exact: (sep_lt_var sw) (onth_in g1)].
  + by rewrite rcons_frame; [exact: (seen_calc sn)|exact: (sep_lt_calc sw)].
  + move=> j x z f1 f2; rewrite -(seen_load sn f1 f2); apply: load_frame => q eq.
    by rewrite rcons_frame //; exact: (sep_lt sw f1 eq).
- rewrite !py_getE; have l2 := onth_lt (w_vars w) i.
  rewrite py_setE -(seen_vsize sn); case e1: (onth (w_vars w) i) l2 => [r|] /= l2; rewrite l2 // /rpbind /=.
  have lr := sep_lt_var sw (onth_in e1); rewrite py_setE lr /=; split=> //; split=> /=.
    by case: sw => h1 h2 h3 h4 h5 h6 h7 h8 h9; split=> //=; rewrite size_upd.
  have ux (l : seq nat) j k q : uniq l -> onth l j = Some q -> onth l k = Some q -> j = k.
    elim: l j k => [|y l IH] [|j] [|k] //= /andP [yl ul] => [[f] g|f [g]|f g].
    - by move: yl; rewrite f (onth_in (g : onth l k = Some q)).
    - by move: yl; rewrite g (onth_in (f : onth l j = Some q)).
    - by rewrite (IH j k).
  apply/seesE; split=> /=; try by case: sn.
  + by rewrite size_upd (seen_vsize sn).
  + move=> j q b f1; rewrite !onth_upd lr -(seen_vsize sn) l2 !andbT.
    case: eqP => [ej [<-]|ne].
      by move: f1; rewrite ej e1 => -[->]; rewrite eqxx.
    case: eqP => [eq|_ f2]; last exact: (seen_vars sn f1 f2).
    by case: ne; rewrite eq in f1; exact: (ux _ _ _ _ (sep_vars sw) f1 e1).
  + rewrite onth_upd; case: eqP => [e|_]; last exact: (seen_calc sn).
    by have := sep_calc_var sw; rewrite e (onth_in e1).
  + move=> j x z f1 f2; rewrite -(seen_load sn f1 f2); apply: load_frame => q eq.
    rewrite onth_upd; case: eqP => // e; have := sep_var sw f1 eq.
    by rewrite e (onth_in e1).
Qed.

Lemma run_good ops w v : ~~ has (@is_get R) ops -> good w v ->
  same_run (same_res both) (runw ops w) (runv ops v).
Proof.
elim: ops w v => [|o ops IH] w v //=; rewrite negb_or => /andP [no nops] g.
apply: same_run_rbind (step_good no g) _ => x y [e gx].
apply: same_run_rbind (IH _ _ nops gx) _ => x' y' [e' gx'].
by rewrite /= e e'.
Qed.

Lemma new_good vars conf t : same_res (@good R) (new_world vars conf t) (new_values vars conf t).
Proof.
rewrite /new_world /new_values; case e: vars => [|a l] //; rewrite -e (@deepcopyE _ _ _ a) ?e // -e.
have so i : onth (iota 0 (size vars)) i = if (i < size vars)%N then Some i else None.
  case: ltnP => h; first by rewrite /onth (drop_nth 0%N) ?size_iota // nth_iota.
  by rewrite onth_oversize // size_iota.
split.
  split; rewrite /w_vars /w_heap /w_calc /w_strategies ?[(_, _).1]/= ?[(_, _).2]/= ?size_rcons.
  - by move=> i x; rewrite onth_nil.
  - exact: iota_uniq.
  - by move=> i j x y r; rewrite onth_nil.
  - by move=> i x r; rewrite onth_nil.
  - by move=> i x; rewrite onth_nil.
  - by rewrite mem_iota ltnn.
  - by move=> i x r; rewrite onth_nil.
  - by move=> r; rewrite mem_iota => /andP [_ /leqW].
  - exact: ltnSn.
apply/seesE; split; rewrite /w_vars /w_heap /w_calc /w_strategies ?[(_, _).1]/= ?[(_, _).2]/= //.
- exact: size_iota.
- by move=> i r b; rewrite so; case: ifP => // h [<-]; rewrite rcons_frame.
- by rewrite onth_rcons eqxx.
Qed.

End Runs.
