(* The strategy with an approximated state in rounded arithmetic: the weights. *)
From mathcomp Require Import all_ssreflect all_algebra complex.
From mathcomp Require Import ring zify.
From Verif Require Import Base SpecStates Combi SpecPerm PermMath SpecBS BsMath SpecProb ProbMath ModelStates ModelPerm ModelDist ModelGcc ModelGccB ProofGcc1 ProofGcc3 ModelNet SpecNet
  ModelBobs SpecBobs ProofBobs4 ModelLState SpecLState ProofLS1 ProofLS2 ProofLS3.
From Verif Require Import ModelFloat SpecFloat ModelFloatGccB SpecFloatGccB ProofFloat ProofFloatSub ProofFloatGccB2 ProofFloatGccB3 ModelFloatNet SpecFloatNet
  SpecFloatFixed ModelFloatLState SpecFloatLState.
Set Implicit Arguments.
Unset Strict Implicit.
Unset Printing Implicit Defensive.
Import Order.TTheory GRing.Theory Num.Theory.
Local Open Scope ring_scope.
Local Open Scope py_scope.

Section Weights.
Variables (R : rcfType) (H : eqType) (hash : seq nat -> H).
Notation C := (ComplexField.complex_numFieldType R).
Variables (u eps : R) (A : arith C) (B : arith R) (f_sqrt : R -> R) (f_root : nat -> nat -> C).
Hypotheses (u0 : 0 <= u) (u8 : u <= 8%:R^-1) (accB : accurate u B).
Notation near := (near u).
Variable eta : R.
Hypotheses (eta01 : 0 <= eta <= 1).

Lemma fl_ws_nth n l : (l <= n)%N ->
  near (2 * n + 3) (binomial_weight n eta l) (binomial_weight n eta l) (fl_possible_weights B eta n)`_l.
Proof.
move=> ln; have ln' : (l < n.+1)%N by rewrite ltnS.
have := @ws_near R u B 1 n eta u0 accB (ltnSn 0) eta01 l ln'.
by rewrite (nth_map 0%N) ?size_iota // nth_iota // add0n.
Qed.

Lemma fl_size_weights n : size (fl_possible_weights B eta n) = n.+1.
Proof. by rewrite size_map size_iota. Qed.

Lemma near_bin n l : (l <= n)%N ->
  `|f_int B (Posz 'C(n, l)) - 'C(n, l)%:R| <= ((1 + u) ^+ 1 - 1) * `|'C(n, l)%:R : R|.
Proof.
move=> ln; have [_] := near_int u0 accB (Posz 'C(n, l)).
by rewrite -pmulrn.
Qed.

Lemma left_weight_near p K : substate K p ->
  near (2 * (code_number p + 2) + 1) (left_weight eta p K) (left_weight eta p K)
    (f_fdiv B (fl_possible_weights B eta (sumn p))`_(sumn K) (f_int B (Posz 'C(sumn p, sumn K)))).
Proof.
move=> sK; have le := substate_sumn sK.
have c0 : 'C(sumn p, sumn K)%:R != 0 :> R by rewrite pnatr_eq0 -lt0n bin_gt0.
have u3 : (1 + u) ^+ 1 <= 3%:R / 2%:R.
  rewrite expr1; apply: le_trans (_ : 1 + 8%:R^-1 <= _); first by rewrite ler_add2l.
  by rewrite -subr_ge0; have -> : 3%:R / 2%:R - (1 + 8%:R^-1) = 3%:R / 8%:R :> R by [field]; rewrite divr_ge0 ?ler0n.
have [_] := near_fdivK u0 accB u3 c0 (near_bin le) (fl_ws_nth le).
have -> : binomial_weight (sumn p) eta (sumn K) / 'C(sumn p, sumn K)%:R = left_weight eta p K.
  by rewrite /binomial_weight /left_weight -[X in X / _]mulrA mulrC mulKf.
rewrite ger0_norm ?ler0n //.
have -> : binomial_weight (sumn p) eta (sumn K) / 'C(sumn p, sumn K)%:R = left_weight eta p K.
  by rewrite /binomial_weight /left_weight -[X in X / _]mulrA mulrC mulKf.
by apply: near_k => //; have := prod_gt p; rewrite /code_number; lia.
Qed.

Lemma fl_exact_weightsE p L L' : L =i subs p -> L = rcons L' p ->
  exists ws, [/\ fl_exact_weights B eta L = Ok ws, size ws = size L
    & forall i, (i < size L)%N -> near (2 * (code_number p + 2) + 1) (left_weight eta p (nth [::] L i))
        (left_weight eta p (nth [::] L i)) ws`_i].
Proof.
move=> h eL; rewrite /fl_exact_weights.
have -> : py_get L (-1) = Ok p by rewrite eL; exact: py_get_last.
pose g K := f_fdiv B (fl_possible_weights B eta (sumn p))`_(sumn K) (f_int B (Posz 'C(sumn p, sumn K))).
exists (map g L); rewrite size_map; split=> //.
  rewrite [rbind (Ok p) _]/=; apply: rmapM_ok => K; rewrite h mem_subs => sK.
  by rewrite (py_get_nth 0) // fl_size_weights ltnS substate_sumn.
move=> i il; rewrite (nth_map [::]) //; apply: left_weight_near.
by rewrite -mem_subs -h mem_nth.
Qed.

Variables (m h : nat) (U : seq (seq C)) (s : seq nat) (x : lstate R).
Hypotheses (hm : (h < m)%N) (ss : size s = m) (ox : fl_lstate_of A B f_sqrt f_root m U eps h eta x)
  (inj : no_collision hash (take h s)).

Lemma fl_startE : exists y L, [/\ fl_lstate_start B hash s x = Ok y, fl_lstate_of A B f_sqrt f_root m U eps h eta y,
  ls_approx y = approx_list m h s /\ ls_approx_w y = fl_possible_weights B eta (sumn (drop h s)),
  [/\ ls_exact y = L, size (ls_exact_w y) = size L
    & forall i, (i < size L)%N -> near (2 * (code_number (take h s) + 2) + 1) (left_weight eta (take h s) (nth [::] L i))
        (left_weight eta (take h s) (nth [::] L i)) (ls_exact_w y)`_i]
  & [/\ uniq L, L =i subs (take h s), ls_calc y = ls_calc x & ls_threads y = ls_threads x]].
Proof.
case: (ox) => -[sq cl] o2 o3 o4 o5; have [L [eL uL mL [L' rL]]] := exact_partsE inj.
have [ws [ew sw hw]] := fl_exact_weightsE mL rL.
rewrite /fl_lstate_start /py_upto /py_from /py_cut o2 ltNge /= eL /= o3 ew /=.
have /andP[/eqP sU _] := sq.
rewrite /fl_prepare_approx o2 sU le0z_nat /= ltz_nat o3 hm.
have -> : approx_parts (drop h s) = Ok (approx_list m h s).
  rewrite /approx_parts /approx_list hm; apply: rmapM_ok => l _.
  by rewrite size_drop ss; case: (m - h)%N (subn_gt0 h m) => [|r] //; rewrite hm.
have eAr : exists A', approx_list m h s = rcons A' (sumn (drop h s) :: nseq (m - h).-1 0%N).
  rewrite /approx_list hm; exists [seq l :: nseq (m - h).-1 0%N | l <- iota 0 (sumn (drop h s))].
  by rewrite -[in RHS]map_rcons; congr map; rewrite -addn1 iotaD cats1 add0n.
have gl : py_get (approx_list m h s) (-1) = Ok (sumn (drop h s) :: nseq (m - h).-1 0%N).
  by have [A' ->] := eAr; exact: py_get_last.
rewrite [~~ true]/= [rbind (Ok (approx_list m h s)) _]/= gl [rbind (Ok (_ :: _)) _]/= [rbind (Ok (_, _)) _]/=.
eexists; exists L; split; [reflexivity|by []| |by []|by []].
by split=> //; rewrite [LHS]/= sumn_nseq mul0n addn0.
Qed.
End Weights.
