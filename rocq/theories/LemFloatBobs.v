(* Final forms of the lemmas behind the property theorems: C87 (rounding errors of the strategy for losses that differ between the modes). *)
From mathcomp Require Import all_ssreflect all_algebra complex ring zify.
From Verif Require Import Base SpecStates Combi SpecPerm SpecBS ModelStates ModelPerm ModelDist SpecProb ModelGcc ModelGccB ModelNet SpecNet ModelBobs SpecBobs ModelLState SpecLState ModelFloat ModelFloatGcc ModelFloatGccB ModelFloatNet ModelFloatLState ModelFloatBobs SpecFloat SpecFloatGcc SpecFloatSub SpecFloatGccB SpecFloatNet SpecFloatFixed SpecFloatLState SpecFloatBobs ProofBobs1 ProofBobs2 ProofBobs3 ProofBobs4 ProofBobs5 ProofGccB2 ProofSample1 ProbMath ProofFloat ProofFloatSel ProofNet1 ProofNet5 LemNet ProofFloatNet1 ProofFloatNet2 ProofFloatNet3 ProofFloatNet4 ProofFloatNet5 ProofFloatGccB2 ProofFloatLState2 ProofFloatLState4 ProofFloatBobs1 ProofFloatBobs2 ProofFloatBobs3 ProofFloatBobs4 ProofFloatBobs5 ProofFloatBobs6 ProofFloatBobs7 ProofFloatBobs8.
Set Implicit Arguments.
Unset Strict Implicit.
Unset Printing Implicit Defensive.
Import Order.TTheory GRing.Theory Num.Theory.
Local Open Scope ring_scope.
Local Open Scope py_scope.

Lemma C87_exact_arithmetic_lemma :
  forall (R : rcfType) (svd : (seq (seq (ComplexField.complex_numFieldType R))) -> res ((seq (seq (ComplexField.complex_numFieldType R))) * seq R * (seq (seq (ComplexField.complex_numFieldType R))))) (cpu : nat) (a : any_calc (ComplexField.complex_numFieldType R)) (modes threads : int) (s : seq nat) (x : bobs R) (M : (seq (seq (ComplexField.complex_numFieldType R))))
    (z acc l : R) (values : seq nat) (weights : seq R) (mx : nat),
  let B := exact_arith R in let dot := @exact_dot (ComplexField.complex_numFieldType R) in
  [/\ fl_extract_losses B Num.sqrt dot svd M = extract_losses svd M,
      fl_new_bobs B Num.sqrt dot svd cpu a modes threads = new_bobs svd cpu a modes threads,
      fl_bobs_start B s x = bobs_start s x,
      fl_choice_loop B z acc values weights = choice_loop z acc values weights
    & fl_own_weights B l mx = own_binomial_weights l mx].
Proof.
move=> R svd cpu a modes threads s x M z acc l values weights mx B dot.
have eX P : fl_extract_losses B Num.sqrt dot svd P = extract_losses svd P.
  rewrite /fl_extract_losses /extract_losses; case: (svd P) => [[[V q] U]|] //=.
  case: (py_min _) => //= v; rewrite fl_matmul_exact; case: (np_matmul _ _) => //= X.
  by rewrite fl_matmul_exact.
by split=> //; rewrite /fl_new_bobs eX.
Qed.

Lemma C87_common_losses_lemma :
  forall (R : rcfType) (u d : R) (B : arith R) (f_sqrt : R -> R) (f_dot : seq (ComplexField.complex_numFieldType R) -> seq (ComplexField.complex_numFieldType R) -> (ComplexField.complex_numFieldType R)) (svd : (seq (seq (ComplexField.complex_numFieldType R))) -> res ((seq (seq (ComplexField.complex_numFieldType R))) * seq R * (seq (seq (ComplexField.complex_numFieldType R)))))
    (m : nat) (M M0 V U : (seq (seq (ComplexField.complex_numFieldType R)))) (q : seq R) (t : R) (N0 : (seq (seq (ComplexField.complex_numFieldType R)))),
  0 <= u -> u <= 8%:R^-1 -> 0 <= d -> accurate u B -> accurate_sqrt u f_sqrt -> accurate_dot (u%:C)%C f_dot ->
  (0 < m)%N -> svd M = Ok (V, q, U) -> near_svd m d M0 V q U -> subunitary m M0 ->
  common_losses m M0 t N0 -> divisor_error u d <= t / 2%:R ->
  exists l Y, [/\ fl_extract_losses B f_sqrt f_dot svd M = Ok (l, Y), is_square m Y,
    `|l - (1 - t)| <= loss_sv_error u d & close m (extract_error u d t m) Y N0].
Proof.
move=> R u d B f_sqrt f_dot svd m M M0 V U q t N0 u0 u8 d0 aB aS aD m0 eM ns su cm sm.
exact: (fl_extract_ok u0 u8 d0 aB aS aD m0 eM ns su cm sm).
Qed.

Lemma C87_network_left_lemma :
  forall (R : rcfType) (m : nat) (M0 : (seq (seq (ComplexField.complex_numFieldType R)))) (t : R) (N0 : (seq (seq (ComplexField.complex_numFieldType R)))),
  common_losses m M0 t N0 -> is_square m N0 ->
  subunitary m N0 /\ exists v, vec_norm m v = 1 /\ image_norm m N0 v = 1.
Proof.
move=> R m M0 t N0 [t0 top [w [w1 ew]] eN] sq.
have iE v : image_norm m M0 v = t * image_norm m N0 v.
  rewrite /image_norm mulr_sumr; apply: eq_bigr => i _.
  have -> : \sum_(j < m) ent M0 i j * v j = (Num.sqrt t)%:C%C * \sum_(j < m) ent N0 i j * v j.
    by rewrite mulr_sumr; apply: eq_bigr => j _; rewrite eN // mulrA.
  case: (\sum_(j < m) _) => a b; rewrite /nsq; simpc => /=.
  by rewrite !exprMn sqr_sqrtr ?ltW // mulrDr.
split; first split=> // v.
  by have := top v; rewrite iE ler_pmul2l.
by exists w; split=> //; apply: (@mulfI _ t); rewrite ?gt_eqF // -iE ew mulr1.
Qed.

Lemma C87_new_object_lemma :
  forall (R : rcfType) (u d : R) (B : arith R) (f_sqrt : R -> R) (f_dot : seq (ComplexField.complex_numFieldType R) -> seq (ComplexField.complex_numFieldType R) -> (ComplexField.complex_numFieldType R)) (svd : (seq (seq (ComplexField.complex_numFieldType R))) -> res ((seq (seq (ComplexField.complex_numFieldType R))) * seq R * (seq (seq (ComplexField.complex_numFieldType R)))))
    (m : nat) (M M0 V U : (seq (seq (ComplexField.complex_numFieldType R)))) (q : seq R) (t : R) (N0 : (seq (seq (ComplexField.complex_numFieldType R)))) (cpu : nat) (a : any_calc (ComplexField.complex_numFieldType R)) (modes threads : int),
  0 <= u -> u <= 8%:R^-1 -> 0 <= d -> accurate u B -> accurate_sqrt u f_sqrt -> accurate_dot (u%:C)%C f_dot ->
  (0 < m)%N -> svd M = Ok (V, q, U) -> near_svd m d M0 V q U -> subunitary m M0 ->
  common_losses m M0 t N0 -> divisor_error u d <= t / 2%:R -> loss_sv_error u d <= (10%:R ^+ 8)^-1 ->
  is_square m M -> calc_matrix a = M -> (0 < cpu)%N ->
  exists x, [/\ fl_new_bobs B f_sqrt f_dot svd cpu a modes threads = Ok x,
    fl_bobs_of B f_sqrt f_dot svd m N0 (extract_error u d t m) x /\ bo_particles x = 0%N,
    bo_modes x = (if (modes < 0)%R then 0%N else minn `|modes| m),
    `|bo_losses x - (1 - t)| <= loss_sv_error u d
  & `|fl_kept_losses B (bo_losses x) - (1 - t)| <= divisor_error u d + (10%:R ^+ 8)^-1].
Proof.
move=> R u d B f_sqrt f_dot svd m M M0 V U q t N0 cpu a modes threads u0 u8 d0 aB aS aD m0 eM ns su cm sm tiny sq ea c0.
have [l [Y [eE sqY el cY]]] := fl_extract_ok u0 u8 d0 aB aS aD m0 eM ns su cm sm.
have t1 := common_le1 su cm; have [t0 _ _ _] := cm.
have sM : size M = m by case/andP: sq => /eqP.
have mE : proper_modes m modes = if (modes < 0)%R then 0%N else minn `|modes| m.
  by rewrite /proper_modes; case: modes => n //=; rewrite ltz_nat; case: ltnP => h //=; lia.
have mle : (proper_modes m modes <= m)%N by rewrite mE; case: ifP => // _; exact: geq_minr.
have thr0 : (0 < proper_threads cpu threads)%N.
  by rewrite /proper_threads; case: ifP => // /negbT; rewrite negb_or -!leNgt => /andP[]; case: threads.
have [E [_ [eP _ _ _ _]]] := fl_prepare_ok u0 d0 aB aS aD m0 eM ns su.
have t01 : 0 < t <= 1 by rewrite t0.
have tol0 : 0 <= (10%:R ^+ 8)^-1 :> R by rewrite invr_ge0 exprn_ge0 ?ler0n.
have lh := ls_le_h1 d u0.
rewrite /fl_new_bobs ea eE [rbind _ _]/= /= sM; eexists; split; first by reflexivity.
- split=> //; split=> //=; last by exists E; rewrite ea.
  move: el; rewrite ler_distl => /andP[lo hi] nc; apply/andP; split.
    rewrite leNgt; apply: contra nc => ln; rewrite /close_to_0 ltr0_norm //; apply: le_trans tiny.
    by rewrite ler_oppl; apply: le_trans lo; rewrite ler_addr subr_ge0.
  apply: le_trans hi _; rewrite -addrA ger_addl addrC subr_le0; apply: le_trans lh (le_trans sm _).
  by rewrite ler_pdivr_mulr ?ltr0n // ler_pmulr // ler1n.
- by [].
- by [].
rewrite /fl_kept_losses; case: ifP => c.
  rewrite (_ : 0 - (1 - t) = (l - (1 - t)) - l); last by ring.
  by apply: le_trans (ler_norm_sub _ _) _; apply: ler_add => //; apply: le_trans el lh.
rewrite (_ : 1 - f_sub B 1 l - (1 - t) = - (f_sub B 1 l - t)); last by ring.
rewrite normrN; apply: le_trans (divisor_close u0 aB t01 el) _.
by rewrite ler_addl.
Qed.

Lemma C87_choice_lemma :
  forall (R : rcfType) (u : R) (B : arith R) (N n mx : nat) (l : R) (f : nat -> R),
  0 <= u -> accurate u B -> (0 < N)%N -> 0 <= f_sub B 1 l <= 1 -> (0 < n)%N -> (n <= mx)%N -> (forall i, 0 <= f i <= 1) ->
  exists w v, [/\ dget_res (fl_own_weights B l mx) n = Ok w, size w = n.+1,
    forall i : nat, (i <= n)%N -> `|w`_i - binomial_weight n (f_sub B 1 l) i| <=
      ((1 + u) ^+ (2 * n + 3) - 1) * binomial_weight n (f_sub B 1 l) i,
    has_exp (on_ok (fun r => if r is Some i then f i else 0)) (fl_own_choice B N (iota 0 n.+1) w) v
  & `|v - \sum_(i < n.+1) binomial_weight n (f_sub B 1 l) i * f i| <= (n.+1 + n.+2)%:R * left_error u N n].
Proof.
move=> R u B N n mx l f u0 aB N0 e01 n0 nm f01.
have [|i ii|v [Hv _ hv]] := napx_own (n := n) u0 aB N0 e01 (f := fun r => if r is Some i then f i else 0)
  (g := fun r => Ret (Ok r)) (E := f) (e := fun=> 0).
- exact: (ExpRet (on_ok _) (Ok None)).
- exact: (napx_ret (f := fun r => if r is Some i then f i else 0) (y := Some i) (f01 i)).
exists (own_ws B n (f_sub B 1 l)), v; split.
- exact: fl_own_weightsE.
- by rewrite size_own.
- move=> i ii; have [_] := own_near u0 aB N0 e01 (ii : (i < n.+1)%N).
  have -> // : [seq binomial_weight n (f_sub B 1 l) j | j <- iota 0 n.+1]`_i = binomial_weight n (f_sub B 1 l) i.
  by rewrite (nth_map 0%N) ?size_iota // nth_iota.
- exact: has_exp_retr Hv.
by move: hv; rewrite [X in _ <= _ + X]big1 ?addr0 // => i _; rewrite mulr0.
Qed.

Lemma C87_lossy_input_lemma :
  forall (R : rcfType) (u : R) (B : arith R) (N mx : nat) (l : R) (s : seq nat) (f : seq (option nat) -> R),
  0 <= u -> accurate u B -> (0 < N)%N -> 0 <= f_sub B 1 l <= 1 -> all (fun n => n <= mx)%N s ->
  (forall L, 0 <= f L <= 1) -> (forall L, None \in L -> f L = 0) ->
  exists v, has_exp (on_ok f) (fl_lossy_modes B N (fl_own_weights B l mx) s) v /\
    `|v - \sum_(K <- subs s) kept_weight (1 - f_sub B 1 l) s K * f (map Some K)| <= own_error u N s.
Proof.
move=> R u B N mx l s f u0 aB N0 e01 al f01 fN.
have [L nL|K sK|v [Hv _ hv]] := napx_modes u0 aB N0 e01 (f := f) (g := fun r => Ret (Ok r)) (E := fun K => f (map Some K)) (e := fun=> 0) al.
- by rewrite -(fN L nL); exact: (ExpRet (on_ok f) (Ok L)).
- exact: (napx_ret (f := f) (y := map Some K) (f01 _)).
exists v; split; first exact: has_exp_retr Hv.
by move: hv; rewrite [X in _ <= _ + X]big1 ?addr0 // => K _; rewrite mulr0.
Qed.

Lemma C87_stable_decomposition_lemma :
  forall (R : rcfType) (svd : (seq (seq (ComplexField.complex_numFieldType R))) -> res ((seq (seq (ComplexField.complex_numFieldType R))) * seq R * (seq (seq (ComplexField.complex_numFieldType R))))) (m : nat),
  (0 < m)%N ->
  (forall b d e : R, 0 <= b -> 0 <= d -> 0 <= e -> backward_svd svd m b d ->
    stable_svd svd m e (d + m%:R * (e + b)) (b + m%:R * (m%:R * (e + b)))) /\
  (svd_ok svd -> backward_svd svd m 0 0).
Proof.
move=> R svd m m0; split=> [b d e b0 d0 e0 ok|ok]; first exact: svd_stable.
exact: exact_backward.
Qed.

Lemma C87_network_lemma :
  forall (R : rcfType) (u c eps : R) (A : arith (ComplexField.complex_numFieldType R)) (B : arith R) (f_sqrt : R -> R) (f_dot : seq (ComplexField.complex_numFieldType R) -> seq (ComplexField.complex_numFieldType R) -> (ComplexField.complex_numFieldType R))
    (cis f_cis : R -> (ComplexField.complex_numFieldType R)) (f_root : nat -> nat -> (ComplexField.complex_numFieldType R)) (svd : (seq (seq (ComplexField.complex_numFieldType R))) -> res ((seq (seq (ComplexField.complex_numFieldType R))) * seq R * (seq (seq (ComplexField.complex_numFieldType R))))) (m : nat) (N0 : (seq (seq (ComplexField.complex_numFieldType R)))) (x : bobs R) (rand : nat -> rprog R (res (seq R))),
  0 <= u -> u <= 8%:R^-1 -> 0 <= c -> 0 <= eps -> accurate (u%:C)%C A -> accurate u B -> accurate_sqrt u f_sqrt -> accurate_dot (u%:C)%C f_dot ->
  cis_ok cis -> accurate_cis c cis f_cis -> accurate_root c cis f_root ->
  (0 < m)%N -> subunitary m N0 -> fl_bobs_of B f_sqrt f_dot svd m N0 eps x ->
  always (fun r => exists d, r = Ok d) (rand (bo_modes x)) ->
  always (fun r => exists d Y, [/\ r = Ok Y, is_square m Y, subunitary m (approx_net cis m N0 (bo_modes x) d)
    & close m (approx_net_error u c eps m) Y (approx_net cis m N0 (bo_modes x) d)])
    (fl_approximate_matrix A B f_sqrt f_dot f_root f_cis rand x).
Proof.
move=> R u c eps A B f_sqrt f_dot cis f_cis f_root svd m N0 x rand u0 u8 c0 e0 aA aB aS aD ok aC aR m0 su ox HA.
have [[sq cl] _ km _ _] := ox; have sM : size (bo_matrix x) = m by case/andP: sq => /eqP.
rewrite /fl_approximate_matrix sM.
have [Q [eQ _ _]] := fl_fourierE u0 u8 c0 aA aB aS ok aR km.
rewrite eQ rpbind_ok; apply: always_rbind; apply: always_impl HA => _ [d ->].
have [Y [eY sqY sY cY]] := fl_bobs_step u0 u8 c0 e0 aA aB aS aD ok aC aR m0 km su sq cl eQ d.
move: eY; rewrite /fl_bobs_calc; case: fl_phases_matrix_first => // P; rewrite [rbind (Ok P) _]/= rpbind_ok.
case: fl_matmul => // X; rewrite [rbind (Ok X) _]/= rpbind_ok => ->.
by exists d, Y.
Qed.

Lemma C87_sampler_lemma :
  forall (R : rcfType) (u c eps dv e1 : R) (A : arith (ComplexField.complex_numFieldType R)) (B : arith R) (f_sqrt : R -> R) (f_dot : seq (ComplexField.complex_numFieldType R) -> seq (ComplexField.complex_numFieldType R) -> (ComplexField.complex_numFieldType R))
    (cis f_cis : R -> (ComplexField.complex_numFieldType R)) (f_root : nat -> nat -> (ComplexField.complex_numFieldType R)) (svd : (seq (seq (ComplexField.complex_numFieldType R))) -> res ((seq (seq (ComplexField.complex_numFieldType R))) * seq R * (seq (seq (ComplexField.complex_numFieldType R))))) (m : nat) (N0 : (seq (seq (ComplexField.complex_numFieldType R)))) (x : bobs R) (rand : nat -> rprog R (res (seq R)))
    (f_abs : (ComplexField.complex_numFieldType R) -> R) (f_sum f_check : seq R -> R) (f_search : R -> seq R -> nat) (fuel N : nat) (s : seq nat)
    (S : seq (seq R)) (W : seq R -> R) (e : seq R -> nat) (D : seq R -> (seq (seq (ComplexField.complex_numFieldType R)))) (M' : (seq (seq (ComplexField.complex_numFieldType R)))) (j : int) (f : seq (seq nat) -> R),
  0 <= u -> 0 <= c -> 0 <= eps -> 0 <= dv -> 0 <= e1 -> accurate (u%:C)%C A -> accurate u B -> accurate_sqrt u f_sqrt -> accurate_dot (u%:C)%C f_dot ->
  cis_ok cis -> accurate_cis c cis f_cis -> accurate_root c cis f_root ->
  (0 < m)%N -> subunitary m N0 -> fl_bobs_of B f_sqrt f_dot svd m N0 eps x ->
  (forall z, `|f_abs z - py_abs z| <= u * py_abs z) -> accurate_sum u f_sum -> accurate_sum u f_check -> right_search f_search -> (0 < N)%N ->
  size s = m -> (9 * (m + m) + 4)%:R * u <= (2%:R ^+ 27)^-1 -> stable_svd svd m (approx_net_error u c eps m) dv e1 ->
  let k := bo_modes x in let p := (bo_particles x + sumn (take k s))%N in let lk := fl_kept_losses B (bo_losses x) in
  let n := (bo_threads x * (`|j| %/ bo_threads x).+1)%N in
  (forall s', s' \in approx_inputs k p s -> (\prod_(y <- s') y.+1 <= fuel)%N) ->
  always (fun r => exists2 d, r = Ok d & d \in S) (rand k) ->
  (forall f, has_exp (on_ok f) (rand k) (\sum_(d <- S) W d * f d)) ->
  (forall i i', (i < m)%N -> (i' < m)%N -> ent M' i i' = (Num.sqrt (1 - lk))%:C%C * ent N0 i i') ->
  (forall d, d \in S -> dilation m (e d) (approx_net cis m M' k d) (D d)) -> 1 <= j -> (forall L, 0 <= f L <= 1) ->
  exists v, has_exp (on_ok (fun y => f y.1)) (fl_bobs_simulate A B f_sqrt f_dot f_root f_cis f_abs f_sum f_check f_search fuel N svd rand s j x) v /\
    `|v - iid_exp (lcomps m (approx_total k p s)) (bobs_law k p s S W e D) n f| <=
      n%:R * bobs_error u dv (approx_net_error u c eps m + e1) lk N m k p s.
Proof.
move=> R u c eps dv e1 A B f_sqrt f_dot cis f_cis f_root svd m N0 x rand f_abs f_sum f_check f_search fuel N s S W e D M' j f u0 c0 e0 dv0 e10 aA aB aS aD ok aC aR m0 su ox ab asum ach sr Np ss sm stab k p lk n fu HA HE hM dD j1 f01.
exact: (fl_bobs_simulate_exp u0 c0 e0 dv0 e10 aA aB aS aD ok aC aR ab asum ach sr Np m0 su ss sm stab ox fu HA HE hM dD j1 f01).
Qed.

Lemma C87_seldom_fails_lemma :
  forall (R : rcfType) (u c eps dv e1 : R) (A : arith (ComplexField.complex_numFieldType R)) (B : arith R) (f_sqrt : R -> R) (f_dot : seq (ComplexField.complex_numFieldType R) -> seq (ComplexField.complex_numFieldType R) -> (ComplexField.complex_numFieldType R))
    (cis f_cis : R -> (ComplexField.complex_numFieldType R)) (f_root : nat -> nat -> (ComplexField.complex_numFieldType R)) (svd : (seq (seq (ComplexField.complex_numFieldType R))) -> res ((seq (seq (ComplexField.complex_numFieldType R))) * seq R * (seq (seq (ComplexField.complex_numFieldType R))))) (m : nat) (N0 : (seq (seq (ComplexField.complex_numFieldType R)))) (x : bobs R) (rand : nat -> rprog R (res (seq R)))
    (f_abs : (ComplexField.complex_numFieldType R) -> R) (f_sum f_check : seq R -> R) (f_search : R -> seq R -> nat) (fuel N : nat) (s : seq nat)
    (S : seq (seq R)) (W : seq R -> R) (e : seq R -> nat) (D : seq R -> (seq (seq (ComplexField.complex_numFieldType R)))) (M' : (seq (seq (ComplexField.complex_numFieldType R)))) (j : int),
  0 <= u -> 0 <= c -> 0 <= eps -> 0 <= dv -> 0 <= e1 -> accurate (u%:C)%C A -> accurate u B -> accurate_sqrt u f_sqrt -> accurate_dot (u%:C)%C f_dot ->
  cis_ok cis -> accurate_cis c cis f_cis -> accurate_root c cis f_root ->
  (0 < m)%N -> subunitary m N0 -> fl_bobs_of B f_sqrt f_dot svd m N0 eps x ->
  (forall z, `|f_abs z - py_abs z| <= u * py_abs z) -> accurate_sum u f_sum -> accurate_sum u f_check -> right_search f_search -> (0 < N)%N ->
  size s = m -> (9 * (m + m) + 4)%:R * u <= (2%:R ^+ 27)^-1 -> stable_svd svd m (approx_net_error u c eps m) dv e1 ->
  let k := bo_modes x in let p := (bo_particles x + sumn (take k s))%N in let lk := fl_kept_losses B (bo_losses x) in
  let n := (bo_threads x * (`|j| %/ bo_threads x).+1)%N in
  (forall s', s' \in approx_inputs k p s -> (\prod_(y <- s') y.+1 <= fuel)%N) ->
  always (fun r => exists2 d, r = Ok d & d \in S) (rand k) ->
  (forall f, has_exp (on_ok f) (rand k) (\sum_(d <- S) W d * f d)) ->
  (forall i i', (i < m)%N -> (i' < m)%N -> ent M' i i' = (Num.sqrt (1 - lk))%:C%C * ent N0 i i') ->
  (forall d, d \in S -> dilation m (e d) (approx_net cis m M' k d) (D d)) -> 1 <= j ->
  exists v, has_exp (on_ok (fun=> 1)) (fl_bobs_simulate A B f_sqrt f_dot f_root f_cis f_abs f_sum f_check f_search fuel N svd rand s j x) v /\ 1 - n%:R * bobs_error u dv (approx_net_error u c eps m + e1) lk N m k p s <= v.
Proof.
move=> R u c eps dv e1 A B f_sqrt f_dot cis f_cis f_root svd m N0 x rand f_abs f_sum f_check f_search fuel N s S W e D M' j u0 c0 e0 dv0 e10 aA aB aS aD ok aC aR m0 su ox ab asum ach sr Np ss sm stab k p lk n fu HA HE hM dD j1.
have f01 (L : seq (seq nat)) : 0 <= (1 : R) <= 1 by rewrite ler01 lexx.
have [v [hv er]] := fl_bobs_simulate_exp u0 c0 e0 dv0 e10 aA aB aS aD ok aC aR ab asum ach sr Np m0 su ss sm stab ox fu HA HE hM dD j1 f01.
exists v; split=> //; have [_ _ km _ _] := ox.
move: er; rewrite iid_exp_const ?ler_distl; first by case/andP.
exact: (bobs_law_sum p ss km HA HE dD).
Qed.

Lemma C87_near_network_lemma :
  forall (R : rcfType) (cis : R -> (ComplexField.complex_numFieldType R)) (m k p : nat) (s : seq nat) (M1 M0 : (seq (seq (ComplexField.complex_numFieldType R)))) (g : R) (rand : nat -> rprog R (res (seq R)))
    (S : seq (seq R)) (W : seq R -> R) (e e0 : seq R -> nat) (D D0 : seq R -> (seq (seq (ComplexField.complex_numFieldType R)))) (n : nat) (f : seq (seq nat) -> R),
  cis_ok cis -> (0 < m)%N -> size s = m -> (k <= m)%N -> 0 <= g -> subunitary m M0 -> close m g M1 M0 ->
  always (fun r => exists2 d, r = Ok d & d \in S) (rand k) ->
  (forall f, has_exp (on_ok f) (rand k) (\sum_(d <- S) W d * f d)) ->
  (forall d, d \in S -> dilation m (e d) (approx_net cis m M1 k d) (D d)) ->
  (forall d, d \in S -> dilation m (e0 d) (approx_net cis m M0 k d) (D0 d)) ->
  (forall L, 0 <= f L <= 1) ->
  `|iid_exp (lcomps m (approx_total k p s)) (bobs_law k p s S W e D) n f
    - iid_exp (lcomps m (approx_total k p s)) (bobs_law k p s S W e0 D0) n f| <= n%:R * near_network_error g m k p s.
Proof.
move=> R cis m k p s M1 M0 g rand S W e e0 D D0 n f ok m0 ss km g0 su cl HA HE dD dD0 f01.
exact: (bobs_law_near p ok ss km g0 su cl HA HE dD dD0 n f01).
Qed.

Lemma C87_from_the_network_lemma :
  forall (R : rcfType) (u c d dv e1 : R) (A : arith (ComplexField.complex_numFieldType R)) (B : arith R) (f_sqrt : R -> R) (f_dot : seq (ComplexField.complex_numFieldType R) -> seq (ComplexField.complex_numFieldType R) -> (ComplexField.complex_numFieldType R))
    (cis f_cis : R -> (ComplexField.complex_numFieldType R)) (f_root : nat -> nat -> (ComplexField.complex_numFieldType R)) (svd : (seq (seq (ComplexField.complex_numFieldType R))) -> res ((seq (seq (ComplexField.complex_numFieldType R))) * seq R * (seq (seq (ComplexField.complex_numFieldType R))))) (m : nat) (M M0 V U : (seq (seq (ComplexField.complex_numFieldType R)))) (q : seq R) (t : R) (N0 : (seq (seq (ComplexField.complex_numFieldType R))))
    (cpu : nat) (a : any_calc (ComplexField.complex_numFieldType R)) (modes threads : int) (rand : nat -> rprog R (res (seq R)))
    (f_abs : (ComplexField.complex_numFieldType R) -> R) (f_sum f_check : seq R -> R) (f_search : R -> seq R -> nat) (fuel N : nat) (s : seq nat)
    (S : seq (seq R)) (W : seq R -> R) (e0 : seq R -> nat) (D0 : seq R -> (seq (seq (ComplexField.complex_numFieldType R)))) (j : int) (f : seq (seq nat) -> R),
  0 <= u -> 0 <= c -> 0 <= d -> 0 <= dv -> 0 <= e1 ->
  accurate (u%:C)%C A -> accurate u B -> accurate_sqrt u f_sqrt -> accurate_dot (u%:C)%C f_dot ->
  cis_ok cis -> accurate_cis c cis f_cis -> accurate_root c cis f_root ->
  (forall z, `|f_abs z - py_abs z| <= u * py_abs z) -> accurate_sum u f_sum -> accurate_sum u f_check -> right_search f_search -> (0 < N)%N ->
  (0 < m)%N -> size s = m -> (9 * (m + m) + 4)%:R * u <= (2%:R ^+ 27)^-1 ->
  is_square m M -> calc_matrix a = M -> (0 < cpu)%N ->
  svd M = Ok (V, q, U) -> near_svd m d M0 V q U -> subunitary m M0 -> common_losses m M0 t N0 -> is_square m N0 ->
  divisor_error u d <= t / 2%:R -> loss_sv_error u d <= (10%:R ^+ 8)^-1 ->
  let eps := extract_error u d t m in
  stable_svd svd m (approx_net_error u c eps m) dv e1 ->
  exists x, fl_new_bobs B f_sqrt f_dot svd cpu a modes threads = Ok x /\
  let k := bo_modes x in let p := sumn (take k s) in let lk := fl_kept_losses B (bo_losses x) in
  let n := (bo_threads x * (`|j| %/ bo_threads x).+1)%N in
  ((forall s', s' \in approx_inputs k p s -> (\prod_(y <- s') y.+1 <= fuel)%N) ->
  always (fun r => exists2 d, r = Ok d & d \in S) (rand k) ->
  (forall f, has_exp (on_ok f) (rand k) (\sum_(d <- S) W d * f d)) ->
  (forall d, d \in S -> dilation m (e0 d) (approx_net cis m M0 k d) (D0 d)) -> 1 <= j -> (forall L, 0 <= f L <= 1) ->
  exists v, has_exp (on_ok (fun y => f y.1)) (fl_bobs_simulate A B f_sqrt f_dot f_root f_cis f_abs f_sum f_check f_search fuel N svd rand s j x) v /\
    `|v - iid_exp (lcomps m (approx_total k p s)) (bobs_law k p s S W e0 D0) n f| <=
      n%:R * (bobs_error u dv (approx_net_error u c eps m + e1) lk N m k p s
              + near_network_error (Num.sqrt (divisor_error u d + (10%:R ^+ 8)^-1)) m k p s)).
Proof.
move=> R u c d dv e1 A B f_sqrt f_dot cis f_cis f_root svd m M M0 V U q t N0 cpu a modes threads rand f_abs f_sum f_check f_search fuel N s S W e0 D0 j f.
move=> u0 c0 d0 dv0 e10 aA aB aS aD ok aC aR ab asum ach sr Np m0 ss sm sq ea cp eM ns su cm sqN hd tiny eps stab.
have u8 := u8_of u0 sm.
have [x [ex [ox px] _ _ ek]] := @C87_new_object_lemma R u d B f_sqrt f_dot svd m M M0 V U q t N0 cpu a modes threads
  u0 u8 d0 aB aS aD m0 eM ns su cm hd tiny sq ea cp.
exists x; split=> //= fu HA HE dD0 j1 f01.
have [suN _] := C87_network_left_lemma cm sqN.
have [_ l01 km _ _] := ox; have /andP[lk0 lk1] := fl_kept01 u0 aB sm l01.
set lk := fl_kept_losses _ _ in ek lk0 lk1 *; set g := Num.sqrt _.
have [t0 _ _ eN] := cm.
pose M1 : seq (seq (ComplexField.complex_numFieldType R)) :=
  [seq [seq (Num.sqrt (1 - lk))%:C%C * ent N0 i i' | i' <- iota 0 m] | i <- iota 0 m].
have hM i i' : (i < m)%N -> (i' < m)%N -> ent M1 i i' = (Num.sqrt (1 - lk))%:C%C * ent N0 i i' by move=> il jl; rewrite ent_tab.
have l1 : 0 <= 1 - lk by rewrite subr_ge0.
have su1 : subunitary m M1.
  split=> [|v]; first exact: rect_tab.
  apply: le_trans (suN.2 v); apply: ler_sum => i _.
  have -> : \sum_(i' < m) ent M1 i i' * v i' = (Num.sqrt (1 - lk))%:C%C * \sum_(i' < m) ent N0 i i' * v i'.
    by rewrite mulr_sumr; apply: eq_bigr => i' _; rewrite hM // mulrA.
  case: (\sum_(i' < m) _) => x1 y1; rewrite /nsq; simpc => /=.
  rewrite !exprMn sqr_sqrtr // -mulrDr -[X in _ <= X]mul1r; apply: ler_wpmul2r; first by rewrite addr_ge0 ?sqr_ge0.
  by rewrite ler_subl_addr ler_addl.
have g0 : 0 <= g by exact: sqrtr_ge0.
have cg : close m g M1 M0.
  move=> i i' il jl; rewrite hM // eN // -mulrBl -rmorphB normrM normC -[X in _ <= X]mulr1.
  apply: ler_pmul; rewrite ?normr_ge0 ?ler0c ?normr_ge0 //; last exact: (subunitary_entries suN il jl).
  rewrite lecR; apply: sqrt_close => //; first exact: ltW.
  by rewrite (_ : 1 - lk - t = - (lk - (1 - t))) ?normrN //; ring.
have [sv' sv] := C35_svd_exists_lemma R.
pose D dd := if prepare_expanded sv' (approx_net cis m M1 (bo_modes x) dd) is Ok G then G else [::].
have dD dd : dd \in S -> dilation m m (approx_net cis m M1 (bo_modes x) dd) (D dd).
  move=> _; have su' : subunitary m (approx_net cis m M1 (bo_modes x) dd).
    by split; [exact: rect_tab|move=> v; exact: (approx_norm ok km dd v su1.2)].
  by rewrite /D; have [G [eG _ dG]] := expanded_dilation sv m0 su'; rewrite eG.
have ee0 : 0 <= eps.
  have ls0 : 0 <= left_sv_error u d t.
    by rewrite subr_ge0 -[X in X <= _]mulr1; apply: ler_pmul; rewrite ?ler01 ?ler_addl ?sqrtr_ge0.
  apply: (product_error_ge0 u0 m _ d0); exact: (product_error_ge0 u0 m d0 ls0).
have fu' : forall s', s' \in approx_inputs (bo_modes x) (bo_particles x + sumn (take (bo_modes x) s)) s -> (\prod_(y <- s') y.+1 <= fuel)%N by rewrite px.
have [v [hv er]] := fl_bobs_simulate_exp u0 c0 ee0 dv0 e10 aA aB aS aD ok aC aR ab asum ach sr Np m0 suN ss sm stab ox fu' HA HE hM dD j1 f01.
exists v; split=> //; rewrite mulrDr.
rewrite px add0n in er.
apply: le_trans (ler_dist_add _ _ _) (ler_add er _).
exact: (bobs_law_near _ ok ss km g0 su cg HA HE dD dD0 _ f01).
Qed.
