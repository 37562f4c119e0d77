(* Version B with arrays as objects. *)
From mathcomp Require Import all_ssreflect all_algebra complex zify.
From Verif Require Import Base ModelStates ModelPerm ModelDist SpecProb ProbMath SpecGcc ModelGcc ModelGccB ModelHeap SpecHeap ProofPerm6 ProofGcc4 ProofHeap1.
Set Implicit Arguments.
Unset Strict Implicit.
Unset Printing Implicit Defensive.
Import GRing.Theory Num.Theory.
Local Open Scope ring_scope.
Local Open Scope py_scope.

Section Heap.
Variable R : rcfType.
Notation CF := (ComplexField.complex_numFieldType R).
Variables (fuel : nat).
Implicit Types (h : store R) (a p : nat) (b : hgccb R).

Lemma vec_put h p s q : vec (put_vec h p s) q = if q == p then s else vec h q.
Proof. by rewrite /vec /= nth_set_nth. Qed.

Lemma size_put h p s : is_vec h p -> size (st_vecs (put_vec h p s)) = size (st_vecs h).
Proof. by move=> hp; rewrite /= size_set_nth; apply/maxn_idPr. Qed.

Lemma put_unchanged a h0 h p s : unchanged a h0 h -> (size (st_vecs h0) <= p)%N -> unchanged a h0 (put_vec h p s).
Proof.
move=> [[t e] e2 e3 e4] hp; split=> //; exists (set_nth [::] t (p - size (st_vecs h0)) s); rewrite /= e.
elim: (st_vecs h0) p hp {e} => [|x l IH] p hp; first by rewrite subn0.
by case: p hp => [//|p] hp /=; rewrite IH.
Qed.

Lemma is_vec_put h p s q : is_vec h p -> is_vec (put_vec h p s) q = is_vec h q.
Proof. by move=> hp; rewrite /is_vec size_put. Qed.

Lemma calc_ok_put h p s c : is_vec h p -> calc_ok (put_vec h p s) c = calc_ok h c.
Proof. by move=> hp; rewrite /calc_ok !is_vec_put. Qed.

Lemma store_ok_put h p s : is_vec h p -> store_ok h -> store_ok (put_vec h p s).
Proof. by move=> hp; apply: sub_all => c; rewrite calc_ok_put. Qed.

Lemma set_input2 (s t : seq nat) (c : any_calc CF) : set_input s (set_input t c) = set_input s c.
Proof. by case: c. Qed.
Lemma calc_matrix_input (s : seq nat) (c : any_calc CF) : calc_matrix (set_input s c) = calc_matrix c.
Proof. by case: c. Qed.
Lemma matrix_view h c : calc_matrix (hc_view h c) = mat h (hc_mat c).
Proof. by case: c => -[? ? ?|? ? ?|k c]. Qed.
Lemma input_view h c s : set_input s (hc_view h c) = set_output (vec h (hc_out c)) (set_input s (set_matrix (mat h (hc_mat c)) (hc_own c))).
Proof. by case: c => -[? ? ?|? ? ?|k c]. Qed.

(* inside a sample that began with the store h0 *)
Definition inB h0 h b : Prop :=
  let N := size (st_vecs h0) in let c := cal h (hb_calc b) in
  [/\ (N <= hb_current b)%N, (N <= hb_r b)%N, hb_current b != hb_r b, (hb_input b < N)%N &
      ((hc_in c < N)%N || (hc_in c == hb_current b)) /\ (hc_out c < N)%N].

Definition relB a h0 (x : store R * hgccb R) (y : gccb R) : Prop :=
  [/\ unchanged a h0 x.1, store_ok x.1, gccb_ok x.1 x.2, inB h0 x.1 x.2 & gccb_view x.1 x.2 = y /\ hb_calc x.2 = a].

(* the calculator up to its input state *)
Definition relW a h0 (x : store R * hgccb R) (y : gccb R) : Prop :=
  [/\ unchanged a h0 x.1, store_ok x.1, gccb_ok x.1 x.2, inB h0 x.1 x.2 &
    [/\ gccb_view x.1 x.2 = GccB (b_r y) (b_n y) (calc_view x.1 a) (b_input y) (b_current y) (b_working y) (b_pmf y),
        set_input [::] (calc_view x.1 a) = set_input [::] (b_calc y) & hb_calc x.2 = a]].

Lemma h_updateE a h0 x y : relB a h0 x y ->
  same_run (same_res (relW a h0)) (h_update_current x) (update_current_input y).
Proof.
case: x => h b [/= u so ok ib [<- ba]]; rewrite /h_update_current /update_current_input /=.
case: (hb_working b) => [//|w0 ws]; split=> // i il.
case: (py_pop _ _) => [xw|e] //=; rewrite /h_incr; case: (incr_at _ _) => [s|e] //=.
have [i1 i2 i3 i4 [i5 i6]] := ib; have /and4P[o1 o2 o3 o4] := ok.
split=> //=; first exact: put_unchanged.
- exact: store_ok_put.
- by rewrite /gccb_ok /= !is_vec_put //; apply/and4P.
split=> //; last first.
  rewrite /calc_view /cal /= -/(cal h a) !input_view /= vec_put ifF ?ba //.
  by move: i6; rewrite ba => i6; apply/negbTE; rewrite neq_ltn (leq_trans i6).
rewrite /gccb_view /= !vec_put eqxx /= eq_sym (negPf i3) ba ifF //.
by apply/negbTE; rewrite neq_ltn (leq_trans i4).
Qed.

Lemma h_pmfE a h0 x y : relW a h0 x y -> same_res (relB a h0) (h_compute_pmf fuel x) (compute_pmf fuel y).
Proof.
case: x => h b [/= u so ok ib [vw cv ba]]; rewrite /h_compute_pmf /compute_pmf ba.
have [i1 i2 i3 i4 [i5 i6]] := ib; have /and4P[o1 o2 o3 o4] := ok.
have [E1 E2 E3 E4 E5] : [/\ vec h (hb_r b) = b_r y, hb_n b = b_n y, vec h (hb_input b) = b_input y,
   vec h (hb_current b) = b_current y & hb_working b = b_working y] by case: vw.
have -> : mat h (hc_mat (cal h a)) = calc_matrix (b_calc y).
  by rewrite -(calc_matrix_input [::]) -cv calc_matrix_input matrix_view.
rewrite E1 E4; case: (compute_permanents _ _ _) => [pc|e] //=.
rewrite -[vec (h_set_input _ _ _) _]/(vec h (hb_current b)) -[vec (h_set_input _ _ _) _]/(vec h (hb_r b)) E1 E4.
case: (rmapM _ _) => [pmf|e] //=; rewrite ba in o4.
have ok1 : calc_ok h (HCalc (hc_own (cal h a)) (hc_mat (cal h a)) (hb_current b) (hc_out (cal h a))).
  by have /and3P[_ c2 c3] := cal_ok so o4; apply/and3P.
have un := put_un (HCalc (hc_own (cal h a)) (hc_mat (cal h a)) (hb_current b) (hc_out (cal h a))) o4.
split=> //=; first exact: unchanged_trans un.
- exact: put_ok.
- by rewrite /gccb_ok /=; apply/and4P; split=> //; case: un => _ _ -> _; rewrite ?ba.
- by split=> //=; rewrite ?ba ?cal_put /= ?eqxx ?orbT //; rewrite ba in i6.
split=> //; rewrite /gccb_view /= ?ba /calc_view cal_put -[hc_view _ _]/(hc_view h _) view_input E2 E5.
rewrite -[vec (put_cal _ _ _) (hb_r b)]/(vec h (hb_r b)) -[vec (put_cal _ _ _) (hb_current b)]/(vec h (hb_current b)).
rewrite -[vec (put_cal _ _ _) (hb_input b)]/(vec h (hb_input b)) E1 E3 E4; congr GccB.
by rewrite -(set_input2 _ [::]) cv set_input2.
Qed.

Lemma h_drawE a h0 x y : relB a h0 x y ->
  same_run (same_res (relB a h0)) (h_sample_from_pmf x) (sample_from_pmf y).
Proof.
case: x => h b [/= u so ok ib [<- ba]]; rewrite /h_sample_from_pmf /sample_from_pmf /=.
case: ifP => // _; apply: (@same_run_rbind _ _ _ _ _ eq).
  by rewrite /np_choice; case: ifP.
move=> m _ <- /=; rewrite /h_incr; case: (incr_at _ _) => [s|e] //=.
have [i1 i2 i3 i4 [i5 i6]] := ib; have /and4P[o1 o2 o3 o4] := ok.
have ne q : (q < size (st_vecs h0))%N -> (q == hb_r b) = false.
  by move=> ql; apply/negbTE; rewrite neq_ltn (leq_trans ql).
split=> //=; first exact: put_unchanged.
- exact: store_ok_put.
- by rewrite /gccb_ok /= !is_vec_put //; apply/and4P.
split=> //; rewrite /gccb_view /= !vec_put eqxx (negPf i3) ne //; congr GccB.
rewrite /calc_view /cal /= -/(cal h (hb_calc b)) /hc_view !vec_put (ne _ i6) ifF //.
by case/orP: i5 => [/ne //|/eqP ->]; exact: negbTE.
Qed.

Lemma h_b_loopE a h0 n target x y : relB a h0 x y ->
  same_run (same_res (relB a h0)) (h_b_fill_loop fuel n target x) (b_fill_loop fuel n target y).
Proof.
elim: n x y => [|n IH] x y r //=.
have -> : (sumn (vec x.1 (hb_r x.2)) < target)%N = (sumn (b_r y) < target)%N by case: r => _ _ _ _ [<- _].
case: ifP => // _.
apply: (same_run_rbind (h_updateE r)) => x1 y1 r1.
apply: (@same_run_rbind _ _ _ _ _ (relB a h0)) => [|x2 y2 r2]; first exact: h_pmfE.
by apply: (same_run_rbind (h_drawE r2)) => x3 y3 r3; exact: IH.
Qed.

(* between two samples *)
Definition relC a h (x : store R * hgccb R) (y : gccb R) : Prop :=
  [/\ unchanged a h x.1, store_ok x.1, gccb_ok x.1 x.2, gccb_view x.1 x.2 = y & hb_calc x.2 = a].

Lemma relBC a h h0 x y : unchanged a h h0 -> relB a h0 x y -> relC a h x y.
Proof. by move=> u0 [u so ok _ [vw ba]]; split=> //; exact: unchanged_trans u. Qed.

Lemma h_b_resetE a h x y : relC a h x y -> relB a x.1 (h_b_reset x) (b_reset y).
Proof.
case: x => h0 b [/= u so ok <- ba]; have /and4P[o1 o2 o3 o4] := ok.
set s := nseq _ _; have u1 := push_un a h0 s; have u2 := push_un a (push_vec h0 s) s.
have u12 := unchanged_trans u1 u2; rewrite ba in o4.
have /and3P[c1 c2 c3] := cal_ok so o4.
split=> //=; first exact: store_ok_un u12 _ so.
- rewrite /gccb_ok /= is_vec_push (is_vec_un u12 o2) (is_vec_un u2) ?is_vec_push //=.
  by rewrite ba.
- split=> //=; rewrite ?size_rcons ?ba //; last by split=> //; apply/orP; left.
  by rewrite neq_ltn ltnSn.
split=> //; rewrite /gccb_view /b_reset /= vec_push (vec_un u12 o2) (vec_un u2) ?is_vec_push // vec_push ba.
congr GccB.
by rewrite /calc_view -[cal (push_vec (push_vec _ _) _) _]/(cal h0 a) (hc_view_un u12) ?cal_ok.
Qed.

Lemma h_b_startE h b p : store_ok h -> gccb_ok h b -> is_vec h p ->
  relC (hb_calc b) h (h_b_start p (h, b)) (b_start (vec h p) (gccb_view h b)).
Proof.
move=> so /and4P[o1 o2 o3 o4] hp; split=> //=; first exact: unchanged_refl.
by apply/and4P.
Qed.

Lemma h_gccbE h b p k : store_ok h -> gccb_ok h b -> is_vec h p ->
  same_run (same_res (same_call (@gccb_view R) (@gccb_ok R) (hb_calc b) h))
    (h_gccb_simulate fuel p k (h, b)) (gccb_simulate fuel (vec h p) k (gccb_view h b)).
Proof.
move=> so go hp; set a := hb_calc b.
apply: (@same_run_impl _ _ _ (same_res (fun x y => x.1 = y.1 /\ relC a h x.2 y.2))).
  by move=> [x|e] [y|e'] //= [E [u so' go' vw _]]; split.
apply: sample_loop_same (h_b_startE so go hp).
  move=> x y r; rewrite /h_b_fill /b_fill.
  have <- : hb_n x.2 = b_n y by case: r => _ _ _ <- _.
  apply: (@same_run_impl _ _ _ (same_res (relB a x.1))) (h_b_loopE _ _ (h_b_resetE r)).
  by move=> [x'|e] [y'|e'] //= r'; apply: relBC r'; case: r.
by move=> x y [_ _ _ <- _].
Qed.

Lemma h_ugccbE h (v : hugccb R) p k : store_ok h -> ugccb_ok h v -> is_vec h p ->
  same_run (same_res (same_call (@ugccb_view R) (@ugccb_ok R) (hb_calc (hub_b v)) h))
    (h_ugccb_simulate fuel p k (h, v)) (ugccb_simulate fuel (vec h p) k (ugccb_view h v)).
Proof.
move=> so go hp; set a := hb_calc (hub_b v).
pose relU (x : store R * hugccb R) (y : ugccb R) := relC a h (x.1, hub_b x.2) (ub_b y) /\
  [/\ hub_eta x.2 = ub_eta y, hub_weights x.2 = ub_weights y & hub_left x.2 = ub_left y].
apply: (@same_run_impl _ _ _ (same_res (fun x y => x.1 = y.1 /\ relU x.2 y.2))).
  move=> [x|e] [y|e'] //= [E [[u so' go' vw _] [e1 e2 e3]]]; split=> //.
  by rewrite /ugccb_view vw e1 e2 e3; case: (y.2).
rewrite /h_ugccb_simulate /=; apply: sample_loop_same.
- move=> [x v1] y [r [e1 e2 e3]]; rewrite /h_ub_fill /ub_fill; rewrite /= in e1 e2 e3.
  rewrite e2; apply: (@same_run_rbind _ _ _ _ _ eq) => // l _ <-.
  apply: (@same_run_rbind _ _ _ _ _ (relC a h)); last by move=> x2 y2 r2 /=; split=> //; case: x2 r2.
  apply: (@same_run_impl _ _ _ (same_res (relB a x))) (h_b_loopE _ _ (h_b_resetE r)).
  by move=> [x'|e] [y'|e'] //= r'; apply: relBC r'; case: r.
- by move=> x y [[_ _ _ <- _] _].
by split=> //=; exact: (h_b_startE so go hp).
Qed.

End Heap.
