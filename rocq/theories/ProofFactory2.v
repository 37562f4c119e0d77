(* The operations on the heap and on the values agree. *)
From mathcomp Require Import all_ssreflect all_algebra complex.
From Verif Require Import Base ModelStates ModelPerm ModelDist SpecProb ProbMath ModelGcc ModelGccB SpecGcc ProofGcc4 ModelNet ModelBobs ModelLState ModelFixed ModelR ModelFactory SpecFactory ProofFactory1.
Set Implicit Arguments.
Unset Strict Implicit.
Unset Printing Implicit Defensive.
Import GRing.Theory Num.Theory.
Local Open Scope ring_scope.
Local Open Scope py_scope.

Section Steps.
Variable R : rcfType.
Notation CF := (ComplexField.complex_numFieldType R).
Notation calc := (any_calc CF).
Variables (svd : seq (seq CF) -> res (seq (seq CF) * seq R * seq (seq CF))) (cis : R -> CF).
Variables (rand : nat -> rprog R (res (seq R))) (shuf : seq nat -> rprog R (res (seq nat))).
Variables (H : eqType) (hash : seq nat -> H) (gray : nat -> seq nat).
Variables (cpu fuel : nat).
Variable boson_sampler : rmatrix R -> nat -> bool -> rprog R (res (seq int * seq R * seq R)).
Variables (rpy2 : bool) (installed : r_package -> bool).

Notation entry := (option nat * strategy R)%type.

Record seen (w : world R) (v : values R) : Prop := Seen {
  seen_vsize : size (w_vars w) = size (v_vars v);
  seen_vars : forall i r a, onth (w_vars w) i = Some r -> onth (v_vars v) i = Some a -> onth (w_heap w) r = Some a;
  seen_calc : onth (w_heap w) (w_calc w) = Some (v_calc v);
  seen_size : size (w_strategies w) = size (v_strategies v);
  seen_load : forall i (x : entry) z, onth (w_strategies w) i = Some x -> onth (v_strategies v) i = Some z ->
    load (w_heap w) x = Ok z;
  seen_conf : w_conf w = v_conf v;
  seen_type : w_type w = v_type v;
  seen_threads : w_threads w = v_threads v
}.

Lemma get_ok (T : Type) (l : seq T) i a : py_get l (Posz i) = Ok a <-> onth l i = Some a.
Proof. by rewrite py_getE; case: (onth l i) => [x|]; split=> // -[->]. Qed.

Lemma seesE w v : sees w v <-> seen w v.
Proof.
split.
  case=> /rmapM_onth [s1 h1] /get_ok h2 /rmapM_onth [s3 h3] h4 [h5 h6]; split=> //.
  by move=> i r a e1 e2; apply/get_ok; exact: h1 e1 e2.
case=> s1 h1 h2 s3 h3 h4 h5 h6; split=> //.
- by apply/rmapM_onth; split=> // i x y e1 e2; apply/get_ok; exact: h1 e1 e2.
- exact/get_ok.
- exact/rmapM_onth.
Qed.

Lemma loadE (h : seq calc) (x : entry) : load h x =
  if x.1 is Some r then (if onth h r is Some a then Ok (with_calc a x.2) else Err IndexError) else Ok x.2.
Proof. by rewrite /load; case: x.1 => // r; rewrite py_getE; case: (onth h r). Qed.

Lemma load_frame (h h' : seq calc) (x : entry) :
  (forall r, x.1 = Some r -> onth h' r = onth h r) -> load h' x = load h x.
Proof. by move=> e; rewrite !loadE; case e1: x.1 => [r|] //; rewrite e. Qed.

Lemma onth_in (T : eqType) (l : seq T) i x : onth l i = Some x -> x \in l.
Proof. by elim: l i => [|y l IH] [|i] //= => [[->]|/IH]; rewrite inE ?eqxx // => ->; rewrite orbT. Qed.

Lemma onth_rconsP (T : Type) (l : seq T) x j y : onth (rcons l x) j = Some y ->
  (j = size l /\ y = x) \/ ((j < size l)%N /\ onth l j = Some y).
Proof.
rewrite onth_rcons; case: eqP => [-> [->]|_ e]; first by left.
by right; rewrite onth_lt e.
Qed.

(* a new strategy *)
Lemma add_strategy w v h' (y : entry) z :
  sep w -> seen w v -> (size (w_heap w) <= size h')%N ->
  (forall r, (r < size (w_heap w))%N -> onth h' r = onth (w_heap w) r) ->
  load h' y = Ok z -> isSome y.1 = (kind y.2 != 0%N) ->
  (forall r, y.1 = Some r -> (r < size h')%N /\
     ((size (w_heap w) <= r)%N \/ (kind y.2 = 2%N /\ r = w_calc w))) ->
  good (w_set w h' (rcons (w_strategies w) y)) (v_set v (rcons (v_strategies v) z)).
Proof.
move=> sw sn hs fr ly ky ry; have fresh r x i : onth (w_strategies w) i = Some x -> x.1 = Some r -> (size (w_heap w) <= r)%N -> False.
  by move=> e1 e2; rewrite leqNgt (sep_lt sw e1 e2).
split; last apply/seesE.
  split=> /=.
  - move=> i x ex; have [[_ ->]|[_ e]] := onth_rconsP ex; [exact: ky|exact: (sep_ref sw e)].
  - exact: (sep_vars sw).
  - move=> i j x x' r e1 e2; have [[ei ->]|[_ ex]] := onth_rconsP e1; have [[ej ->]|[_ ex']] := onth_rconsP e2 => o o'; first by rewrite ei ej.
    + move: o; rewrite /own; case: eqP => // k1 /ry [_ [le|[k2 _]]]; last by rewrite k1 in k2.
      by case: (fresh _ _ _ ex' o').
    + case/ry: o' => _ [le|[_ er]].
        have o2 : x.1 = Some r by move: o; rewrite /own; case: ifP.
        by case: (fresh _ _ _ ex o2).
      by move: o; rewrite er => /(sep_calc sw ex).
    + exact: (sep_own sw ex ex' o o').
  - move=> i x r ex; have [[_ ->]|[_ e]] := onth_rconsP ex; last exact: (sep_var sw e).
    move=> /ry [_ [le|[_ ->]]]; last exact: (sep_calc_var sw).
    by apply/negP => /(sep_lt_var sw); rewrite ltnNge le.
  - move=> i x ex; have [[_ ->]|[_ e]] := onth_rconsP ex; last exact: (sep_calc sw e).
    rewrite /own; case: eqP => // k1 /ry [_ [le|[k2 _]]]; last by rewrite k1 in k2.
    by move: (sep_lt_calc sw); rewrite ltnNge le.
  - exact: (sep_calc_var sw).
  - move=> i x r ex; have [[_ ->]|[_ e]] := onth_rconsP ex; first by move=> /ry [].
    by move=> /(sep_lt sw e) lt; exact: leq_trans lt hs.
  - by move=> r /(sep_lt_var sw) lt; exact: leq_trans lt hs.
  - exact: leq_trans (sep_lt_calc sw) hs.
split=> //=.
- exact: (seen_vsize sn).
- by move=> i r a e1 e2; rewrite fr; [exact: (seen_vars sn) e1 e2|exact: (sep_lt_var sw) (onth_in e1)].
- by rewrite fr ?(seen_calc sn) //; exact: (sep_lt_calc sw).
- by rewrite !size_rcons (seen_size sn).
- move=> i x x' e1 e2; have [[ei ->]|[li ex]] := onth_rconsP e1; have [[ei' ->]|[li' ex']] := onth_rconsP e2 => //.
  + by rewrite ei (seen_size sn) ltnn in li'.
  + by rewrite ei' (seen_size sn) ltnn in li.
  + rewrite -(seen_load sn ex ex'); apply: load_frame => r e; apply: fr; exact: (sep_lt sw ex e).
- exact: (seen_conf sn).
- exact: (seen_type sn).
- exact: (seen_threads sn).
Qed.

(* the strategy i has changed *)
Lemma change_strategy w v h' i (x : entry) y :
  sep w -> seen w v -> onth (w_strategies w) i = Some x -> kind y = kind x.2 ->
  size h' = size (w_heap w) ->
  (forall r, own x <> Some r -> onth h' r = onth (w_heap w) r) ->
  load h' (x.1, y) = Ok y ->
  good (w_set w h' (upd (w_strategies w) i (x.1, y))) (v_set v (upd (v_strategies v) i y)).
Proof.
move=> sw sn ex ky hs fr ly.
have li : (i < size (w_strategies w))%N by rewrite onth_lt ex.
have U j (z : entry) : onth (upd (w_strategies w) i (x.1, y)) j = Some z ->
    exists2 x', onth (w_strategies w) j = Some x' & x'.1 = z.1 /\ kind x'.2 = kind z.2.
  rewrite onth_upd li andbT; case: eqP => [->|_] e; last by exists z.
  by exists x => //; case: e => <-.
have ow (a b : entry) : a.1 = b.1 -> kind a.2 = kind b.2 -> own a = own b by rewrite /own => -> ->.
split; last apply/seesE.
  split=> /=.
  - by move=> j z /U [x' e [e1 e2]]; rewrite -e1 -e2; exact: (sep_ref sw e).
  - exact: (sep_vars sw).
  - move=> j k z z' r /U [a ea [a1 a2]] /U [b eb [b1 b2]]; rewrite -(ow _ _ a1 a2) -b1.
    exact: (sep_own sw ea eb).
  - by move=> j z r /U [a ea [a1 a2]]; rewrite -a1; exact: (sep_var sw ea).
  - by move=> j z /U [a ea [a1 a2]]; rewrite -(ow _ _ a1 a2); exact: (sep_calc sw ea).
  - exact: (sep_calc_var sw).
  - by move=> j z r /U [a ea [a1 a2]]; rewrite -a1 hs; exact: (sep_lt sw ea).
  - by rewrite hs; exact: (sep_lt_var sw).
  - by rewrite hs; exact: (sep_lt_calc sw).
have ox r : own x = Some r -> x.1 = Some r by rewrite /own; case: ifP.
split=> //=.
- exact: (seen_vsize sn).
- move=> j r a e1 e2; rewrite fr; first exact: (seen_vars sn) e1 e2.
  by move/ox => /(sep_var sw ex); rewrite (onth_in e1).
- by rewrite fr ?(seen_calc sn) //; exact: (sep_calc sw ex).
- by rewrite !size_upd (seen_size sn).
- move=> j z z'; rewrite !onth_upd li -(seen_size sn) li !andbT; case: eqP => [_ [<-] [<-] //|ne e1 e2].
  rewrite -(seen_load sn e1 e2); apply: load_frame => r e; apply: fr => o.
  by apply: ne; rewrite (sep_own sw ex e1 o e).
- exact: (seen_conf sn).
- exact: (seen_type sn).
- exact: (seen_threads sn).
Qed.

(* writing back *)
Lemma store_frame (h : seq calc) (x : entry) z y :
  isSome x.1 = (kind x.2 != 0%N) -> (forall r, x.1 = Some r -> (r < size h)%N) -> load h x = Ok z ->
  kind y = kind z -> (kind z = 2%N -> calc_of y = calc_of z) ->
  exists h', [/\ store h x.1 y = Ok h', size h' = size h,
    forall r, own x <> Some r -> onth h' r = onth h r & load h' (x.1, y) = Ok y /\ kind y = kind x.2].
Proof.
rewrite loadE /store /own /=; case e1: x.1 => [r|] /= k0 lt; last first.
  by move=> [<-] ky _; exists h; rewrite ky.
case ea: (onth h r) => [a|] // [<-] {z}; rewrite kind_with => ky kc.
have kx : kind x.2 != 0%N by rewrite -k0.
have := calc_of_kind y; rewrite ky kx; case ey: (calc_of y) => [b|] // _.
have lr := lt _ erefl.
exists (upd h r b); split.
- by rewrite py_setE lr.
- exact: size_upd.
- move=> r' ne; rewrite onth_upd lr andbT; case: (r' =P r) => // er; rewrite er ea.
  case: eqP ne => [_ ne|k1 _]; first by case: ne; rewrite er.
  have k2 : kind x.2 = 2%N by case: (x.2) kx k1.
  by have := kc k2; rewrite ey (calc_with _ kx).
- by rewrite loadE /= onth_upd eqxx lr /= (with_calc_of ey).
Qed.

Lemma deepcopyE (h : seq calc) r a : onth h r = Some a -> deepcopy h r = Ok (rcons h a, size h).
Proof. by move=> e; rewrite /deepcopy py_getE e. Qed.

Lemma rcons_frame (h : seq calc) a r : (r < size h)%N -> onth (rcons h a) r = onth h r.
Proof. by move=> lt; rewrite onth_rcons; case: eqP => // e; rewrite e ltnn in lt. Qed.

Lemma copied (h : seq calc) a : py_get (rcons h a) (Posz (size h)) = Ok a.
Proof. by rewrite py_getE onth_rcons eqxx. Qed.

Lemma add_own w v (z : strategy R) h' a : sep w -> seen w v -> kind z = 1%N -> calc_of z = Some a ->
  size h' = (size (w_heap w)).+1 ->
  (forall r, (r < size (w_heap w))%N -> onth h' r = onth (w_heap w) r) -> onth h' (size (w_heap w)) = Some a ->
  good (w_set w h' (rcons (w_strategies w) (Some (size (w_heap w)), z))) (v_set v (rcons (v_strategies v) z)).
Proof.
move=> sw sn kz cz sh fr el; apply: add_strategy => //=.
- by rewrite sh.
- by rewrite loadE /= el (with_calc_of cz).
- by rewrite kz.
- by move=> r [<-]; rewrite sh; split=> //; left.
Qed.

Lemma generate_good w v : sep w -> seen w v ->
  same_res (fun y x => good (w_set w y.1 (rcons (w_strategies w) y.2)) (v_set v (rcons (v_strategies v) x)))
    (generate svd cis cpu rpy2 installed w)
    (build svd cis cpu rpy2 installed (v_type v) (v_conf v) (v_threads v) (v_calc v)).
Proof.
move=> sw sn; rewrite /generate (seen_type sn).
have c := seen_calc sn; have dc := deepcopyE c.
have fixedE : same_res (fun y x => good (w_set w y.1 (rcons (w_strategies w) y.2)) (v_set v (rcons (v_strategies v) x)))
    (generate_fixed svd w)
    (rmap (@SFixed R) (new_fixed svd (cf_matrix (fc_conf (v_conf v))) (cf_left (fc_conf (v_conf v)))
       (cf_modes (fc_conf (v_conf v))) (fc_net (v_conf v)))).
  rewrite /generate_fixed (seen_conf sn); case: (new_fixed _ _ _ _ _) => [x|e] //=.
  by apply: add_strategy => //=.
have fr1 := @rcons_frame (w_heap w) (v_calc v).
have el1 : onth (rcons (w_heap w) (v_calc v)) (size (w_heap w)) = Some (v_calc v) by rewrite onth_rcons eqxx.
case: (v_type v) => //=.
- rewrite /generate_uniform /= (seen_conf sn); exact: add_strategy.
- rewrite /generate_r (seen_conf sn) /= andbT; case: rpy2 => //=.
  by case: ifP => /= [/negbTE ->|/negbFE ->] //=; exact: add_strategy.
- rewrite /generate_gcc dc /= copied /=; apply: (@add_own w v (SGcc (new_gcc (v_calc v))) _ (v_calc v)) => //.
  by rewrite size_rcons.
- rewrite /generate_lossy_net dc /= /construct_lossy_net copied /=.
  case e: (new_lossy_net svd (v_calc v)) => [y|] //=.
  rewrite py_setE size_rcons ltnSn /=.
  apply: (@add_own w v (SLossyNet y.1) _ y.2) => //=.
  + by move: e; rewrite /new_lossy_net; case: (prepare_expanded _ _) => //= E [<-].
  + by rewrite size_upd size_rcons.
  + by move=> r lr; rewrite onth_upd; case: eqP lr => [->|_ lr]; rewrite ?ltnn //= fr1.
  + by rewrite onth_upd eqxx size_rcons ltnSn.
- rewrite /generate_uniform_gcc dc /= copied /= (seen_conf sn).
  apply: (@add_own w v (SUGcc (new_ugcc (v_calc v) (cf_eta (fc_conf (v_conf v))))) _ (v_calc v)) => //.
  by rewrite size_rcons.
- rewrite /generate_bobs dc /= copied /= (seen_conf sn).
  case e: (new_bobs _ _ _ _ _) => [x|] //=.
  apply: (@add_own w v (SBobs x) _ (v_calc v)) => //=; last by rewrite size_rcons.
  by move: e; rewrite /new_bobs; case: (extract_losses _ _) => //= lm [<-].
- rewrite /generate_uniform_bobs py_getE c /= (seen_conf sn) (seen_threads sn).
  case e: (new_lstate _ _ _ _ _ _) => [x|] //=; apply: add_strategy => //=.
  + rewrite loadE /= c; congr Ok; move: e; rewrite /new_lstate.
    by case: (Posz _ - _) => // k; case: (qft_matrix_first _ _ _) => //= Q [<-].
  + by move=> r [<-]; split; [exact: (sep_lt_calc sw)|right].
Qed.

End Steps.
