(* Final forms of the lemmas behind the property theorems: C86 (rounding errors of the strategy with an approximated state). *)
From mathcomp Require Import all_ssreflect all_algebra complex ring zify.
From Verif Require Import Base SpecStates Combi SpecPerm SpecBS ModelStates ModelPerm ModelDist SpecProb ModelGcc ModelGccB ModelNet SpecNet ModelBobs SpecBobs ModelLState SpecLState ModelFloat ModelFloatGcc ModelFloatGccB ModelFloatNet ModelFloatLState SpecFloat SpecFloatGcc SpecFloatSub SpecFloatGccB SpecFloatNet SpecFloatFixed SpecFloatLState ProofLS1 ProofLS2 ProofLS3 ProofLS4 ProofGccB2 ProofSample1 ProbMath ProofFloat ProofFloatNet5 ProofFloatLState2 ProofFloatLState3 ProofFloatLState5 ProofFloatLState6.
Set Implicit Arguments.
Unset Strict Implicit.
Unset Printing Implicit Defensive.
Import Order.TTheory GRing.Theory Num.Theory.
Local Open Scope ring_scope.
Local Open Scope py_scope.

Lemma C86_exact_arithmetic_lemma :
  forall (R : rcfType) (H : eqType) (hash : seq nat -> H) (cis : R -> (ComplexField.complex_numFieldType R)) (cpu : nat) (a : any_calc (ComplexField.complex_numFieldType R)) (eta : R) (level threads : int)
    (s : seq nat) (x : lstate R) (k m : nat) (d : seq R) (P Q : (seq (seq (ComplexField.complex_numFieldType R)))),
  let A := exact_arith (ComplexField.complex_numFieldType R) in let B := exact_arith R in let dot := @exact_dot (ComplexField.complex_numFieldType R) in
  let root (n k : nat) := cis (1 / n%:R) ^+ k in
  [/\ fl_new_lstate A B Num.sqrt root cpu a eta level threads = new_lstate cis cpu a eta level threads,
      fl_lstate_start B hash s x = lstate_start hash s x,
      fl_phases_matrix_first cis k m d = phases_matrix_first cis k m d
    & fl_matmul dot P Q = np_matmul P Q].
Proof.
move=> R H hash cis cpu a eta level threads s x k m d P Q A B dot root.
have qE n : fl_qft_matrix A B Num.sqrt root n = compute_qft_matrix cis n by case: n.
split=> //.
- by rewrite /fl_new_lstate /new_lstate; case: (_ - level) => // n; rewrite /fl_qft_matrix_first /qft_matrix_first qE.
exact: fl_matmul_exact.
Qed.

Lemma C86_new_object_lemma :
  forall (R : rcfType) (u c eps : R) (A : arith (ComplexField.complex_numFieldType R)) (B : arith R) (f_sqrt : R -> R) (cis : R -> (ComplexField.complex_numFieldType R)) (f_root : nat -> nat -> (ComplexField.complex_numFieldType R))
    (m h : nat) (U : (seq (seq (ComplexField.complex_numFieldType R)))) (eta : R) (cpu : nat) (a : any_calc (ComplexField.complex_numFieldType R)) (threads : int),
  0 <= u -> u <= 8%:R^-1 -> 0 <= c -> accurate (u%:C)%C A -> accurate u B -> accurate_sqrt u f_sqrt ->
  cis_ok cis -> accurate_root c cis f_root ->
  (h < m)%N -> size (calc_input a) = m -> is_square m (calc_matrix a) -> close m eps (calc_matrix a) U -> (0 < cpu)%N ->
  exists2 x, fl_new_lstate A B f_sqrt f_root cpu a eta (Posz h) threads = Ok x &
    fl_lstate_of A B f_sqrt f_root m U eps h eta x /\
    forall i j : nat, (i < m)%N -> (j < m)%N -> `|ent (ls_qft x) i j - fourier_of cis (m - h) i j| <= ((fourier_error u c)%:C)%C.
Proof.
move=> R u c eps A B f_sqrt cis f_root m h U eta cpu a threads u0 u8 c0 aA aB aS ok aR hm sa sq cl c1.
have [Q [eQ sQ hQ]] := fl_fourierE u0 u8 c0 aA aB aS ok aR (leq_subr h m).
have t0 : (0 < proper_threads cpu threads)%N.
  by rewrite /proper_threads; case: ifP => // /negbT; rewrite negb_or -!leNgt => /andP[]; case: threads.
rewrite /fl_new_lstate sa (_ : Posz m - Posz h = Posz (m - h)) ?subzn 1?ltnW // eQ [rbind _ _]/=.
eexists; first by reflexivity.
by split.
Qed.

Lemma C86_network_lemma :
  forall (R : rcfType) (u c eps : R) (A : arith (ComplexField.complex_numFieldType R)) (B : arith R) (f_sqrt : R -> R) (f_dot : seq (ComplexField.complex_numFieldType R) -> seq (ComplexField.complex_numFieldType R) -> (ComplexField.complex_numFieldType R))
    (cis f_cis : R -> (ComplexField.complex_numFieldType R)) (f_root : nat -> nat -> (ComplexField.complex_numFieldType R)) (m h : nat) (U : (seq (seq (ComplexField.complex_numFieldType R)))) (eta : R) (x : lstate R) (rand : nat -> rprog R (res (seq R))),
  0 <= u -> u <= 8%:R^-1 -> 0 <= c -> 0 <= eps -> accurate (u%:C)%C A -> accurate u B -> accurate_sqrt u f_sqrt -> accurate_dot (u%:C)%C f_dot ->
  cis_ok cis -> accurate_cis c cis f_cis -> accurate_root c cis f_root ->
  unitary m U -> (h < m)%N -> fl_lstate_of A B f_sqrt f_root m U eps h eta x ->
  always (fun r => exists d, r = Ok d) (rand (m - h)%N) ->
  always (fun r => exists d sigma Y, [/\ r = Ok Y, is_square m Y, sigma \in permutations (iota 0 m),
      unitary m (approx_net cis m (permuted m U sigma) (m - h) d)
    & close m (approx_net_error u c eps m) Y (approx_net cis m (permuted m U sigma) (m - h) d)])
    (fl_lstate_matrix f_dot f_cis rand (@np_shuffle R) x).
Proof.
move=> R u c eps A B f_sqrt f_dot cis f_cis f_root m h U eta x rand u0 u8 c0 e0 aA aB aS aD ok aC aR uU hm ox HA.
exact: (fl_matrix_always u0 u8 c0 e0 aA aB aS aD ok aC aR uU hm ox HA).
Qed.

Lemma C86_weights_lemma :
  forall (R : rcfType) (H : eqType) (hash : seq nat -> H) (u eps : R) (A : arith (ComplexField.complex_numFieldType R)) (B : arith R) (f_sqrt : R -> R) (f_root : nat -> nat -> (ComplexField.complex_numFieldType R))
    (m h : nat) (U : (seq (seq (ComplexField.complex_numFieldType R)))) (eta : R) (s : seq nat) (x : lstate R),
  0 <= u -> u <= 8%:R^-1 -> accurate u B -> 0 <= eta <= 1 -> (h < m)%N -> size s = m ->
  fl_lstate_of A B f_sqrt f_root m U eps h eta x -> no_collision hash (take h s) ->
  exists y, [/\ fl_lstate_start B hash s x = Ok y, fl_lstate_of A B f_sqrt f_root m U eps h eta y,
    ls_approx y = [seq l :: nseq (m - h).-1 0%N | l <- iota 0 (sumn (drop h s)).+1]
      /\ uniq (ls_exact y) /\ ls_exact y =i subs (take h s),
    size (ls_approx_w y) = size (ls_approx y) /\ forall l : nat, (l <= sumn (drop h s))%N ->
      `|(ls_approx_w y)`_l - binomial_weight (sumn (drop h s)) eta l| <=
        ((1 + u) ^+ (2 * sumn (drop h s) + 3) - 1) * binomial_weight (sumn (drop h s)) eta l
  & size (ls_exact_w y) = size (ls_exact y) /\ forall i : nat, (i < size (ls_exact y))%N ->
      `|(ls_exact_w y)`_i - left_weight eta (take h s) (nth [::] (ls_exact y) i)| <=
        ((1 + u) ^+ (2 * code_number (take h s) + 5) - 1) * left_weight eta (take h s) (nth [::] (ls_exact y) i)].
Proof.
move=> R H hash u eps A B f_sqrt f_root m h U eta s x u0 u8 aB e01 hm ss ox inj.
have [y [L [es oy [eA ewA] [eL sL nL] [uL mL eC eT]]]] := fl_startE u0 u8 aB e01 hm ss ox inj.
exists y; rewrite eA eL ewA /approx_list hm; split=> //.
- by rewrite fl_size_weights size_map size_iota; split=> // l ll; have [] := fl_ws_nth u0 aB e01 ll.
split=> // i il; have [_] := nL i il.
by rewrite (_ : 2 * (code_number (take h s) + 2) + 1 = 2 * code_number (take h s) + 5)%N // mulnDr -addnA.
Qed.

Lemma C86_sampler_lemma :
  forall (R : rcfType) (H : eqType) (hash : seq nat -> H) (u c eps : R) (A : arith (ComplexField.complex_numFieldType R)) (B : arith R) (f_sqrt : R -> R) (f_dot : seq (ComplexField.complex_numFieldType R) -> seq (ComplexField.complex_numFieldType R) -> (ComplexField.complex_numFieldType R))
    (cis f_cis : R -> (ComplexField.complex_numFieldType R)) (f_root : nat -> nat -> (ComplexField.complex_numFieldType R)) (m h : nat) (U : (seq (seq (ComplexField.complex_numFieldType R)))) (eta : R) (x : lstate R) (rand : nat -> rprog R (res (seq R))) (S : seq (seq R)) (W : seq R -> R)
    (f_abs : (ComplexField.complex_numFieldType R) -> R) (f_sum f_check : seq R -> R) (f_search : R -> seq R -> nat) (N : nat) (s : seq nat) (fuel : nat) (k : int) (f : seq (seq nat) -> R),
  0 <= u -> u <= 8%:R^-1 -> 0 <= c -> 0 <= eps -> accurate (u%:C)%C A -> accurate u B -> accurate_sqrt u f_sqrt -> accurate_dot (u%:C)%C f_dot ->
  cis_ok cis -> accurate_cis c cis f_cis -> accurate_root c cis f_root ->
  unitary m U -> (h < m)%N -> fl_lstate_of A B f_sqrt f_root m U eps h eta x ->
  (forall z, `|f_abs z - py_abs z| <= u * py_abs z) -> accurate_sum u f_sum -> accurate_sum u f_check -> right_search f_search -> (0 < N)%N ->
  (0 < h)%N -> size s = m -> 0 <= eta <= 1 -> all (fun n => n <= 1)%N (take h s) -> no_collision hash (take h s) ->
  (2 ^ h * (sumn (drop h s)).+1 <= fuel)%N ->
  always (fun r => exists2 d, r = Ok d & d \in S) (rand (m - h)%N) ->
  (forall f, has_exp (on_ok f) (rand (m - h)%N) (\sum_(d <- S) W d * f d)) ->
  (9 * m + 4)%:R * u <= (2%:R ^+ 27)^-1 -> (9 * (sumn (drop h s)).+1 + 4)%:R * u <= (2%:R ^+ 27)^-1 ->
  (9 * (code_number (take h s) + 2) + 4)%:R * u <= (2%:R ^+ 27)^-1 -> 1 <= k -> (forall L, 0 <= f L <= 1) ->
  exists v, has_exp (on_ok (fun y => f y.1)) (fl_lstate_simulate A B f_dot f_cis hash f_check f_search N rand (@np_shuffle R) f_abs f_sum fuel s k x) v /\
    `|v - iid_exp (lcomps m (sumn s)) (lstate_law cis m h U eta s S W) `|k| f| <= `|k|%:R * lstate_error u c eps eta N m h s.
Proof.
move=> R H hash u c eps A B f_sqrt f_dot cis f_cis f_root m h U eta x rand S W f_abs f_sum f_check f_search N s fuel k f u0 u8 c0 e0 aA aB aS aD ok aC aR uU hm ox ab asum ach sr N0 h0 ss e01 le1 inj fu HA HE sm sa sl k1 f01.
exact: (fl_lstate_simulate_exp u0 u8 c0 e0 aA aB aS aD ok aC aR ab asum ach sr N0 uU h0 hm ss e01 le1 inj fu HA HE ox sm sa sl k1 f01).
Qed.

Lemma C86_seldom_fails_lemma :
  forall (R : rcfType) (H : eqType) (hash : seq nat -> H) (u c eps : R) (A : arith (ComplexField.complex_numFieldType R)) (B : arith R) (f_sqrt : R -> R) (f_dot : seq (ComplexField.complex_numFieldType R) -> seq (ComplexField.complex_numFieldType R) -> (ComplexField.complex_numFieldType R))
    (cis f_cis : R -> (ComplexField.complex_numFieldType R)) (f_root : nat -> nat -> (ComplexField.complex_numFieldType R)) (m h : nat) (U : (seq (seq (ComplexField.complex_numFieldType R)))) (eta : R) (x : lstate R) (rand : nat -> rprog R (res (seq R))) (S : seq (seq R)) (W : seq R -> R)
    (f_abs : (ComplexField.complex_numFieldType R) -> R) (f_sum f_check : seq R -> R) (f_search : R -> seq R -> nat) (N : nat) (s : seq nat) (fuel : nat) (k : int),
  0 <= u -> u <= 8%:R^-1 -> 0 <= c -> 0 <= eps -> accurate (u%:C)%C A -> accurate u B -> accurate_sqrt u f_sqrt -> accurate_dot (u%:C)%C f_dot ->
  cis_ok cis -> accurate_cis c cis f_cis -> accurate_root c cis f_root ->
  unitary m U -> (h < m)%N -> fl_lstate_of A B f_sqrt f_root m U eps h eta x ->
  (forall z, `|f_abs z - py_abs z| <= u * py_abs z) -> accurate_sum u f_sum -> accurate_sum u f_check -> right_search f_search -> (0 < N)%N ->
  (0 < h)%N -> size s = m -> 0 <= eta <= 1 -> all (fun n => n <= 1)%N (take h s) -> no_collision hash (take h s) ->
  (2 ^ h * (sumn (drop h s)).+1 <= fuel)%N ->
  always (fun r => exists2 d, r = Ok d & d \in S) (rand (m - h)%N) ->
  (forall f, has_exp (on_ok f) (rand (m - h)%N) (\sum_(d <- S) W d * f d)) ->
  (9 * m + 4)%:R * u <= (2%:R ^+ 27)^-1 -> (9 * (sumn (drop h s)).+1 + 4)%:R * u <= (2%:R ^+ 27)^-1 ->
  (9 * (code_number (take h s) + 2) + 4)%:R * u <= (2%:R ^+ 27)^-1 -> 1 <= k ->
  exists v, has_exp (on_ok (fun=> 1)) (fl_lstate_simulate A B f_dot f_cis hash f_check f_search N rand (@np_shuffle R) f_abs f_sum fuel s k x) v /\ 1 - `|k|%:R * lstate_error u c eps eta N m h s <= v.
Proof.
move=> R H hash u c eps A B f_sqrt f_dot cis f_cis f_root m h U eta x rand S W f_abs f_sum f_check f_search N s fuel k u0 u8 c0 e0 aA aB aS aD ok aC aR uU hm ox ab asum ach sr N0 h0 ss e01 le1 inj fu HA HE sm sa sl k1.
have f01 (L : seq (seq nat)) : 0 <= (1 : R) <= 1 by rewrite ler01 lexx.
have [v [hv e]] := fl_lstate_simulate_exp u0 u8 c0 e0 aA aB aS aD ok aC aR ab asum ach sr N0 uU h0 hm ss e01 le1 inj fu HA HE ox sm sa sl k1 f01.
exists v; split=> //; move: e; rewrite iid_exp_const ?ler_distl; first by case/andP.
exact: (sum_law ok uU h0 hm ss e01 le1 fu HA HE).
Qed.
