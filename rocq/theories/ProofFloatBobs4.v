(* The strategy for different losses in rounded arithmetic: the sampler. *)
From mathcomp Require Import all_ssreflect all_algebra complex.
From mathcomp Require Import ring zify.
From Verif Require Import Base SpecStates Combi SpecPerm PermMath SpecBS BsMath BsComb BsNorm SpecProb ProbMath ModelStates ProofStates1 ModelPerm ModelDist ModelGcc ModelGccB ProofGcc3 ProofSel SpecGcc LemGcc ModelNet SpecNet LemNet ProofGccB2
  ProofNet1 ProofNet2 ProofNet3 ProofNet4 ProofNet5 ProofNet7 ProofThin ModelBobs SpecBobs ProofBobs1 ProofBobs2 ProofBobs3 ProofBobs4 ProofBobs5 ProofPert3.
From Verif Require ProofLim5.
From Verif Require Import ModelFloat SpecFloat ModelFloatGcc ModelFloatGccB SpecFloatSub SpecFloatGcc SpecFloatGccB ProofFloat ProofFloat4 ProofFloatSel ProofFloatGcc2 ProofFloatDist2 ProofFloatGccB2 ProofFloatGccB3 ModelFloatNet SpecFloatNet
  ProofFloatNet1 ProofFloatNet2 ProofFloatNet3 ProofFloatNet4 ProofFloatNet5
  SpecFloatFixed ProofFloatFixed1 ProofFloatFixed2 ProofFloatFixed3 ModelFloatLState SpecFloatLState ProofFloatLState1 ProofFloatLState2 ProofFloatLState4 ModelFloatBobs SpecFloatBobs ProofFloatBobs1 ProofFloatBobs2 ProofFloatBobs3.
Set Implicit Arguments.
Unset Strict Implicit.
Unset Printing Implicit Defensive.
Import Order.TTheory GRing.Theory Num.Theory.
Local Open Scope ring_scope.
Local Open Scope py_scope.

Section Simulate.
Variable R : rcfType.
Notation C := (ComplexField.complex_numFieldType R).
Notation mat := (seq (seq C)).
Variables (u c eps dv e1 : R) (A : arith C) (B : arith R) (f_sqrt : R -> R) (f_dot : seq C -> seq C -> C).
Variables (cis f_cis : R -> C) (f_root : nat -> nat -> C).
Variables (f_abs : C -> R) (f_sum f_check : seq R -> R) (f_search : R -> seq R -> nat) (fuel N : nat).
Variable svd : mat -> res (mat * seq R * mat).
Hypotheses (u0 : 0 <= u) (c0 : 0 <= c) (e0 : 0 <= eps) (dv0 : 0 <= dv) (e10 : 0 <= e1).
Hypotheses (accA : accurate (u%:C)%C A) (accB : accurate u B) (acc_sqrt : accurate_sqrt u f_sqrt).
Hypothesis accD : accurate_dot (u%:C)%C f_dot.
Hypotheses (ok : cis_ok cis) (acc_cis : accurate_cis c cis f_cis) (acc_root : accurate_root c cis f_root).
Hypothesis acc_abs : forall z, `|f_abs z - py_abs z| <= u * py_abs z.
Hypotheses (acc_sum : accurate_sum u f_sum) (acc_check : accurate_sum u f_check) (srch : right_search f_search) (N0 : (0 < N)%N).
Variables (m : nat) (M0 : mat) (s : seq nat).
Hypotheses (m0 : (0 < m)%N) (su : subunitary m M0) (ss : size s = m).
Hypothesis small : (9 * (m + m) + 4)%:R * u <= (2%:R ^+ 27)^-1.
Notation ne := (approx_net_error u c eps m).
Hypothesis stab : stable_svd svd m ne dv e1.
Let ne0 : 0 <= ne. Proof. exact: approx_net_error_ge0. Qed.
Let u10 : u <= (10%:R ^+ 8)^-1. Proof. exact: tiny_u small. Qed.

Lemma u8_of : u <= 8%:R^-1.
Proof.
apply: le_trans u10 _; rewrite lef_pinv ?posrE ?exprn_gt0 ?ltr0n //.
apply: (@le_trans _ _ (10%:R : R)); first by rewrite ler_nat.
by rewrite -[X in X <= _]expr1 ler_eexpn2l // ltr1n.
Qed.

Lemma kept01 l : 0 <= l <= 1 -> ~~ close_to_0 l -> 0 <= f_sub B 1 l <= 1.
Proof.
move=> /andP[l0 l1]; rewrite /close_to_0 ger0_norm // -ltNge => h.
have p : 0 <= 1 - l by rewrite subr_ge0.
have := acc_sub accB 1 l; rewrite (ger0_norm p) ler_distl => /andP[a b].
have u1 : u <= 1 by apply: le_trans u8_of _; rewrite invf_le1 ?ltr0n // ler1n.
apply/andP; split; first by apply: le_trans a; rewrite subr_ge0 -[X in _ <= X]mul1r; apply: ler_wpmul2r.
apply: le_trans b _; rewrite -ler_subr_addl subKr; apply: (@le_trans _ _ u).
  by rewrite -[X in _ <= X]mulr1 ler_wpmul2l // ler_subl_addr ler_addl.
by apply: le_trans u10 _; exact: ltW.
Qed.

Lemma fl_kept01 l : (~~ close_to_0 l -> 0 <= l <= 1) -> 0 <= fl_kept_losses B l <= 1.
Proof.
move=> l01; rewrite /fl_kept_losses; case: ifP => [_|/negbT h]; first by rewrite lexx ler01.
have /andP[a b] := kept01 (l01 h) h.
by rewrite subr_ge0 b ler_subl_addr ler_addl.
Qed.

Variables (k p : nat) (l : R).
Hypotheses (km : (k <= m)%N) (l01 : ~~ close_to_0 l -> 0 <= l <= 1).
Hypothesis fu : forall s', s' \in approx_inputs k p s -> (\prod_(y <- s') y.+1 <= fuel)%N.
Notation lk := (fl_kept_losses B l).
Variables (rand : nat -> rprog R (res (seq R))) (S : seq (seq R)) (W : seq R -> R).
Hypotheses (randA : always (fun r => exists2 d, r = Ok d & d \in S) (rand k))
  (randE : forall f, has_exp (on_ok f) (rand k) (\sum_(d <- S) W d * f d)).
Variables (e : seq R -> nat) (D : seq R -> mat) (M' : mat).
Hypotheses (hM' : forall i j, (i < m)%N -> (j < m)%N -> ent M' i j = (Num.sqrt (1 - lk))%:C%C * ent M0 i j)
  (dD : forall d, d \in S -> dilation m (e d) (approx_net cis m M' k d) (D d)).
Notation law := (bobs_law k p s S W e D).
Notation err := (bobs_error u dv (ne + e1) lk N m k p s).
Notation tot := (approx_total k p s).

Variable x : bobs R.
Variable mx : nat.
Hypotheses (ek : bo_modes x = k) (ep : bo_particles x = p) (el : bo_losses x = l)
  (es : bo_state x = nseq k 0%N ++ drop k s) (lmx : (maxn (\max_(y <- s) y) p <= mx)%N)
  (ew : bo_weights x = fl_own_weights B l mx)
  (sqx : is_square m (bo_matrix x)) (clx : close m eps (bo_matrix x) M0).

Notation fsample := (fl_bobs_sample A B f_sqrt f_dot f_root f_cis f_abs f_sum f_check f_search fuel N svd rand x).
Notation fmatrix := (fl_approximate_matrix A B f_sqrt f_dot f_root f_cis rand x).
Notation ftail := (fl_bobs_tail A B f_sqrt f_dot f_abs f_sum f_check f_search fuel N svd).

Lemma fl_bobs_sampleE h : fsample h =
  draw! s' := symmetrized x in draw! L := fl_lossy_input B N x s' in draw! M := fmatrix in ftail M L h.
Proof. by []. Qed.

Lemma fl_sym_always : always (fun r => exists2 s', r = Ok s' & s' \in approx_inputs k p s) (symmetrized x).
Proof.
rewrite /symmetrized ek ep es /approx_inputs lt0n; case: eqP => [->|k0] /=.
  by exists s; rewrite ?drop0 // mem_head.
move=> i il; rewrite (py_set_nth 0%N) ?size_cat ?size_nseq ?ltn_addr //.
by eexists; first reflexivity; apply: map_f; rewrite mem_iota.
Qed.

Lemma fl_sym_exp f : has_exp (on_ok f) (symmetrized x)
  (\sum_(s' <- approx_inputs k p s) (size (approx_inputs k p s))%:R^-1 * f s').
Proof.
rewrite -mulr_sumr mulrC /symmetrized ek ep es /approx_inputs lt0n; case: eqP => [->|/eqP k0] /=.
  by rewrite big_seq1 divr1 drop0; exact: ExpRet.
rewrite size_map size_iota big_map -[X in iota _ X]subn0 -/(index_iota _ _) big_mkord.
apply: (ExpInt (v := fun i => f (set_nth 0%N (nseq k 0%N ++ drop k s) i p))); rewrite ?lt0n // => i il.
rewrite (py_set_nth 0%N) ?size_cat ?size_nseq ?ltn_addr //; exact: ExpRet.
Qed.

Definition some_expanded (d : seq R) (G : mat) : Prop := dilation m m (approx_net cis m M0 k d) G.

Lemma net_sub d : subunitary m (approx_net cis m M0 k d).
Proof. by split; [exact: rect_tab|move=> v; exact: (approx_norm ok km d v su.2)]. Qed.

Section Cont.
Variables (EN : seq R -> mat).
Hypothesis dilN : forall d, dilation m m (approx_net cis m M0 k d) (EN d).
Variables (Y : Type) (f : Y -> R) (cont : seq nat * gccb R -> rprog R (res Y)) (E : seq nat -> R) (del : R).
Hypothesis E01 : forall t, 0 <= E t <= 1.
Hypothesis del0 : 0 <= del.
Hypothesis Hcont : forall t g, napx (on_ok f) (cont (t, g)) (E t) del.
Notation F := (on_ok f).

Lemma terr_ge0 K : 0 <= tail_error u dv (ne + e1) N m K.
Proof.
rewrite /tail_error addr_ge0 //.
  apply: le_trans (err_mono N u0 _ _ (expand_error_ge0 u0 dv0 m) (leq0n _)).
  by rewrite /gccb_error big_ord0.
have n0 : 0 <= ne + e1 by rewrite addr_ge0.
rewrite /network_error; repeat apply: mulr_ge0; rewrite ?invr_ge0 ?ler0n ?exprn_ge0 ?ler0n //.
by rewrite subr_ge0 exprn_ege1 // ler_addl.
Qed.

Lemma matrix_none L h : None \in L -> has_exp F (rpbind (draw! M := fmatrix in ftail M L h) cont) 0.
Proof.
move=> nL; apply: has_exp_rpbindA.
have sz : size (bo_matrix x) = m by case/andP: sqx => /eqP.
have [Q [eQ _ _]] := fl_fourierE u0 u8_of c0 accA accB acc_sqrt ok acc_root km.
rewrite /fl_approximate_matrix ek sz eQ rpbind_ok; apply: has_exp_rpbindA.
have := randE (fun=> 0); rewrite big1 => [h0|d _]; last by rewrite mulr0.
apply: has_exp_rbind h0 _; apply: always_impl randA => _ [d -> dS].
have [Z [eZ sZ _ cZ]] := fl_bobs_step u0 u8_of c0 e0 accA accB acc_sqrt accD ok acc_cis acc_root m0 km su sqx clx eQ d.
move: eZ; rewrite /fl_bobs_calc; case: fl_phases_matrix_first => // P; rewrite [rbind (Ok P) _]/= rpbind_ok.
case: fl_matmul => // X; rewrite [rbind (Ok X) _]/= rpbind_ok => ->; rewrite rpbind_ok.
exact: (bobs_tail_none A f_abs f_sum f_check f_search fuel N u0 dv0 accB acc_sqrt accD m0 stab f cont sZ (net_sub d) cZ h nL).
Qed.

Lemma matrix_napx K s' h : s' \in approx_inputs k p s -> substate K s' ->
  napx F (rpbind (draw! M := fmatrix in ftail M (map Some K) h) cont)
    (\sum_(d <- S) W d * \sum_(t <- lcomps m (sumn K)) traced_prob m (EN d) K t * E t)
    (tail_error u dv (ne + e1) N m K + del).
Proof.
move=> si sK; apply: napxA.
have szK : size K = m by have [-> _] := substateP _ _ sK; rewrite (approx_inputs_size ss km si).
have sz : size (bo_matrix x) = m by case/andP: sqx => /eqP.
have [Q [eQ _ _]] := fl_fourierE u0 u8_of c0 accA accB acc_sqrt ok acc_root km.
rewrite /fl_approximate_matrix ek sz eQ rpbind_ok; apply: napxA.
apply: (napx_draw _ randA randE) => [|d dS]; first by rewrite addr_ge0 ?terr_ge0.
have [Z [eZ sZ _ cZ]] := fl_bobs_step u0 u8_of c0 e0 accA accB acc_sqrt accD ok acc_cis acc_root m0 km su sqx clx eQ d.
move: eZ; rewrite /fl_bobs_calc; case: fl_phases_matrix_first => // P; rewrite [rbind (Ok P) _]/= rpbind_ok.
case: fl_matmul => // X; rewrite [rbind (Ok X) _]/= rpbind_ok => ->; rewrite rpbind_ok.
exact: (bobs_tail_napx u0 dv0 ne0 e10 accA accB acc_sqrt accD acc_abs acc_sum acc_check srch N0 m0 szK (fuel_sub fu si sK)
  small stab E01 Hcont sZ (net_sub d) cZ h (dilN d)).
Qed.

Lemma thin0 s' (G : seq nat -> R) : \sum_(K <- subs s') thin_weight 0 s' K * G K = G s'.
Proof.
rewrite (bigD1_seq s') ?subs_uniq ?mem_subs ?substate_refl //=.
rewrite {1}/thin_weight subnn expr0 subr0 expr1n !mulr1 ways_self mul1r big1_seq ?addr0 // => K /andP[ne'].
rewrite mem_subs => sK; rewrite /thin_weight expr0n subn_eq0 leqNgt.
have -> : (sumn K < sumn s')%N; last by rewrite /= mulr0 mul0r.
rewrite ltn_neqAle substate_sumn // andbT; apply: contraNneq ne' => e'; apply/eqP.
by have := substate_sumn_eq sK e'.
Qed.

Lemma input_napx s' h : s' \in approx_inputs k p s ->
  napx F (rpbind (draw! L := fl_lossy_input B N x s' in draw! M := fmatrix in ftail M L h) cont)
    (\sum_(K <- subs s') thin_weight lk s' K * \sum_(d <- S) W d * \sum_(t <- lcomps m (sumn K)) traced_prob m (EN d) K t * E t)
    (own_error u N s' + \sum_(K <- subs s') thin_weight lk s' K * (tail_error u dv (ne + e1) N m K + del)).
Proof.
move=> si; apply: napxA; rewrite /fl_lossy_input el /fl_kept_losses; case: ifP => [_|/negbT nc].
  rewrite rpbind_ok !thin0; apply: napx_eq (matrix_napx h si (substate_refl s')) _ _ => //.
  by rewrite ler_addr; apply: own_error_ge0.
have al : all (fun n => n <= mx)%N s'.
  by apply/allP => y ys; apply: leq_trans lmx; exact: approx_inputs_le si ys.
rewrite ew; apply: (napx_modes u0 accB N0 (kept01 (l01 nc) nc) al) => [L nL|K sK].
  exact: matrix_none.
exact: matrix_napx si sK.
Qed.

Lemma thin_one s' : \sum_(K <- subs s') thin_weight lk s' K = 1.
Proof.
have lk01 := fl_kept01 l01; elim: s' => [|n s' IH].
  have -> : subs [::] = [:: [::]] by [].
  by rewrite big_seq1 /thin_weight ways_self /= !expr0 !mulr1.
rewrite big_subs_cons -[RHS](binomial_weight_sum n (1 - lk)); apply: eq_bigr => j _.
rewrite -[RHS]mulr1 -[X in _ = _ * X]IH mulr_sumr; apply: eq_big_seq => K; rewrite mem_subs => sK.
have jn : (val j <= n)%N by have := ltn_ord j.
exact: thin_weight_cons.
Qed.

Lemma fl_sample_napx h : napx F (rpbind (fsample h) cont) (\sum_(t <- lcomps m tot) law t * E t) (err + del).
Proof.
rewrite fl_bobs_sampleE; apply: napxA.
rewrite -(bobs_value p ss km (fl_kept01 l01) W hM' dD dilN E).
apply: napx_eq (napx_drawE fl_sym_always fl_sym_exp (fun s' si => input_napx h si)) _ _ => //.
rewrite le_eqVlt; apply/orP; left; apply/eqP; rewrite -mulr_sumr mulrC /bobs_error.
have n0 : (size (approx_inputs k p s))%:R != 0 :> R by rewrite pnatr_eq0 -lt0n inputs_pos.
have -> : \sum_(s' <- approx_inputs k p s) (own_error u N s' + \sum_(K <- subs s') thin_weight lk s' K * (tail_error u dv (ne + e1) N m K + del)) =
  \sum_(s' <- approx_inputs k p s) (own_error u N s' + \sum_(K <- subs s') kept_weight lk s' K * tail_error u dv (ne + e1) N m K) +
  (size (approx_inputs k p s))%:R * del.
  transitivity (\sum_(s' <- approx_inputs k p s) ((own_error u N s' + \sum_(K <- subs s') kept_weight lk s' K * tail_error u dv (ne + e1) N m K) + del)).
    apply: eq_bigr => s' _; rewrite -addrA; congr (_ + _); under eq_bigr => K _ do rewrite mulrDr.
    by rewrite big_split /= -mulr_suml thin_one mul1r.
  by rewrite big_split /= big_const_seq count_predT iter_addr addr0 mulr_natl.
by rewrite mulrDl [X in _ + X]mulrAC divff // mul1r.
Qed.
End Cont.

Lemma exists_EN : exists EN, forall d, dilation m m (approx_net cis m M0 k d) (EN d).
Proof.
have [sv' sv] := C35_svd_exists_lemma R.
exists (fun d => if prepare_expanded sv' (approx_net cis m M0 k d) is Ok G then G else [::]) => d.
by have [G [eG _ dG]] := expanded_dilation sv m0 (net_sub d); rewrite eG.
Qed.

Lemma bobs_error_ge0 : 0 <= err.
Proof.
have [EN dN] := exists_EN.
have [v [_ _ hv]] := fl_sample_napx dN (f := fun _ : unit => 0) (cont := fun=> Ret (Ok tt)) (E := fun=> 0) (del := 0)
  (fun t => introT andP (conj (lexx 0) ler01)) (lexx 0)
  (fun t g => napx_ret (f := fun=> 0) (y := tt) (introT andP (conj (lexx 0) ler01))) (new_gccb (bo_calc x)).
by rewrite addr0 in hv; apply: le_trans hv.
Qed.

Lemma fl_loop_napx (Y : Type) (f : Y -> R) j st (cont : seq (seq nat) * (seq nat * gccb R) -> rprog R (res Y)) (E : seq (seq nat) -> R) del :
  (forall L, 0 <= E L <= 1) -> 0 <= del -> (forall Q g, napx (on_ok f) (cont (Q, g)) (E Q) del) ->
  napx (on_ok f) (rpbind (sample_loop (fun st => fsample st.2) (fun st => Ok st.1) j st) cont)
    (iid_exp (lcomps m tot) law j E) (j%:R * err + del).
Proof.
have [EN dN] := exists_EN.
elim: j st cont E del => [|j IH] st cont E del E01 del0 H.
  by rewrite [sample_loop _ _ _ _]/= rpbind_ok mul0r add0r [iid_exp _ _ _ _]/=; case: st => t g; exact: H.
rewrite [sample_loop _ _ _ _]/=; apply: napxA.
have kd : 0 <= j%:R * err + del by apply: addr_ge0 => //; apply: mulr_ge0; [exact: ler0n|exact: bobs_error_ge0].
apply: napx_eq (fl_sample_napx dN (E := fun t => iid_exp (lcomps m tot) law j (fun Q => E (t :: Q))) _ kd _ st.2) _ _.
- by move=> t; apply: (bobs_iid01 p ss km randA randE dD).
- move=> t g; rewrite rpbind_ok; apply: napxA.
  by apply: (IH (t, g) _ (fun Q => E (t :: Q))) => // Q g'; rewrite rpbind_ok; exact: H.
- by [].
by rewrite -[j.+1]addn1 natrD mulrDl mul1r [j%:R * err + err]addrC addrA.
Qed.

Hypothesis eE : exists G, fl_prepare_expanded B f_sqrt f_dot svd (calc_matrix (bo_calc x)) = Ok G.

Lemma fl_threads_napx (Y : Type) (f : Y -> R) loads (cont : seq (seq nat) -> rprog R (res Y)) (E : seq (seq nat) -> R) del :
  (forall L, 0 <= E L <= 1) -> 0 <= del -> (forall Q, napx (on_ok f) (cont Q) (E Q) del) ->
  napx (on_ok f) (rpbind (thread_loop (fl_simulate_in_parallel A B f_sqrt f_dot f_root f_cis f_abs f_sum f_check f_search fuel N svd rand x) loads) cont)
    (iid_exp (lcomps m tot) law (sumn loads) E) ((sumn loads)%:R * err + del).
Proof.
have [G eG] := eE.
elim: loads cont E del => [|j loads IH] cont E del E01 del0 H.
  by rewrite [thread_loop _ _]/= rpbind_ok mul0r add0r; exact: H.
rewrite [thread_loop _ _]/= [sumn _]/= iid_expD; apply: napxA; rewrite {1}/fl_simulate_in_parallel /fl_new_lossy_net eG.
rewrite [rbind (Ok G) _]/= rpbind_ok; apply: napxA.
have kd : 0 <= (sumn loads)%:R * err + del by apply: addr_ge0 => //; apply: mulr_ge0; [exact: ler0n|exact: bobs_error_ge0].
apply: napx_eq (fl_loop_napx j _ (E := fun Q => iid_exp (lcomps m tot) law (sumn loads) (fun Q' => E (Q ++ Q'))) _ kd _) _ _ => //.
- by move=> Q; apply: (bobs_iid01 p ss km randA randE dD).
- move=> Q g; rewrite rpbind_ok; apply: napxA.
  by apply: (IH _ (fun Q' => E (Q ++ Q'))) => // Q'; rewrite rpbind_ok; exact: H.
by rewrite natrD mulrDl addrA.
Qed.
End Simulate.

Section Run.
Variable R : rcfType.
Notation C := (ComplexField.complex_numFieldType R).
Notation mat := (seq (seq C)).
Variables (u c eps dv e1 : R) (A : arith C) (B : arith R) (f_sqrt : R -> R) (f_dot : seq C -> seq C -> C).
Variables (cis f_cis : R -> C) (f_root : nat -> nat -> C).
Variables (f_abs : C -> R) (f_sum f_check : seq R -> R) (f_search : R -> seq R -> nat) (fuel N : nat).
Variable svd : mat -> res (mat * seq R * mat).
Hypotheses (u0 : 0 <= u) (c0 : 0 <= c) (e0 : 0 <= eps) (dv0 : 0 <= dv) (e10 : 0 <= e1).
Hypotheses (accA : accurate (u%:C)%C A) (accB : accurate u B) (acc_sqrt : accurate_sqrt u f_sqrt).
Hypothesis accD : accurate_dot (u%:C)%C f_dot.
Hypotheses (ok : cis_ok cis) (acc_cis : accurate_cis c cis f_cis) (acc_root : accurate_root c cis f_root).
Hypothesis acc_abs : forall z, `|f_abs z - py_abs z| <= u * py_abs z.
Hypotheses (acc_sum : accurate_sum u f_sum) (acc_check : accurate_sum u f_check) (srch : right_search f_search) (N0 : (0 < N)%N).
Variables (m : nat) (M0 : mat) (s : seq nat).
Hypotheses (m0 : (0 < m)%N) (su : subunitary m M0) (ss : size s = m).
Hypothesis small : (9 * (m + m) + 4)%:R * u <= (2%:R ^+ 27)^-1.
Notation ne := (approx_net_error u c eps m).
Hypothesis stab : stable_svd svd m ne dv e1.
Variable x : bobs R.
Hypothesis ox : fl_bobs_of B f_sqrt f_dot svd m M0 eps x.
Let k := bo_modes x.
Let p := (bo_particles x + sumn (take k s))%N.
Hypothesis fu : forall s', s' \in approx_inputs k p s -> (\prod_(y <- s') y.+1 <= fuel)%N.
Notation lk := (fl_kept_losses B (bo_losses x)).
Variables (rand : nat -> rprog R (res (seq R))) (S : seq (seq R)) (W : seq R -> R).
Hypotheses (randA : always (fun r => exists2 d, r = Ok d & d \in S) (rand k))
  (randE : forall f, has_exp (on_ok f) (rand k) (\sum_(d <- S) W d * f d)).
Variables (e : seq R -> nat) (D : seq R -> mat) (M' : mat).
Hypotheses (hM' : forall i j, (i < m)%N -> (j < m)%N -> ent M' i j = (Num.sqrt (1 - lk))%:C%C * ent M0 i j)
  (dD : forall d, d \in S -> dilation m (e d) (approx_net cis m M' k d) (D d)).

Lemma fl_bobs_simulate_exp (j : int) (f : seq (seq nat) -> R) : 1 <= j -> (forall Q, 0 <= f Q <= 1) ->
  exists v, has_exp (on_ok (fun z => f z.1))
      (fl_bobs_simulate A B f_sqrt f_dot f_root f_cis f_abs f_sum f_check f_search fuel N svd rand s j x) v /\
    `|v - iid_exp (lcomps m (approx_total k p s)) (bobs_law k p s S W e D) (bo_threads x * (`|j| %/ bo_threads x).+1) f|
      <= (bo_threads x * (`|j| %/ bo_threads x).+1)%:R * bobs_error u dv (ne + e1) lk N m k p s.
Proof.
move=> j1 f01; rewrite /fl_bobs_simulate ltNge j1 [~~ true]/=.
have [[sq cl] l01 km T0 eE] := ox.
have ks : (bo_modes x <= size s)%N by rewrite ss.
have [|y [-> [h1 h2] [h3 h4 h5] [h6 h7] [mx lmx h8]]] := fl_bobs_startE B _ ks; first by rewrite ss.
rewrite rpbind_ok -(threads_total `|j| T0) h2.
rewrite h7 -/p in lmx.
have sqy : is_square m (bo_matrix y) by rewrite h4.
have cly : close m eps (bo_matrix y) M0 by rewrite h4.
have eEy : exists G, fl_prepare_expanded B f_sqrt f_dot svd (calc_matrix (bo_calc y)) = Ok G by rewrite h5.
have [v [Hv v01 hv]] := fl_threads_napx u0 c0 e0 dv0 e10 accA accB acc_sqrt accD ok acc_cis acc_root acc_abs acc_sum acc_check srch N0
  m0 su ss small stab km l01 fu randA randE hM' dD h1 h7 h3 h6 lmx h8 sqy cly eEy
  (f := fun z : seq (seq nat) * bobs R => f z.1) (samples_for_threads `|j| (bo_threads x)) (cont := fun L => Ret (Ok (L, y))) (E := f) f01 (lexx 0)
  (fun Q => napx_ret (f := fun z : seq (seq nat) * bobs R => f z.1) (y := (Q, y)) (f01 Q)).
by exists v; rewrite -[X in _ <= X]addr0.
Qed.
End Run.
