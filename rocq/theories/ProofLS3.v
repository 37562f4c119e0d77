(* The lossy-state sampler: the law of one sample. *)
From mathcomp Require Import all_ssreflect all_algebra complex.
From mathcomp Require Import ring zify.
From Verif Require Import Base SpecStates Combi SpecPerm PermMath SpecBS BsMath BsComb BsNorm.
From Verif Require Import ModelStates ModelPerm ModelDist SpecProb ProbMath ModelGcc ModelGccB ProofSel SpecGcc ModelNet SpecNet.
From Verif Require Import ProofGccB2 ProofNet1 ProofNet2 ProofNet5 ProofNet7 ProofBobs1 ProofBobs2 ProofBobs3 ProofBobs4.
From Verif Require Import ModelBobs ModelLState SpecBobs SpecLState ProofLS1 ProofLS2.
Set Implicit Arguments.
Unset Strict Implicit.
Unset Printing Implicit Defensive.
Import Order.TTheory GRing.Theory Num.Theory.
Local Open Scope ring_scope.
Local Open Scope py_scope.

Lemma py_get_last (T : Type) (L : seq T) (y : T) : py_get (rcons L y) (-1) = Ok y.
Proof. by rewrite /py_get /= size_rcons /= subn1 /= -cats1 drop_size_cat. Qed.

Section Inputs.
Variable R : rcfType.
Variables (x : lstate R) (As L : seq (seq nat)) (wa we : seq nat -> R).
Hypotheses (eA : ls_approx x = As) (ewA : ls_approx_w x = map wa As)
  (eL : ls_exact x = L) (ewL : ls_exact_w x = map we L) (dA : is_distr (map wa As)) (dL : is_distr (map we L)).

Lemma input_always : always (fun r => exists K a, [/\ r = Ok (np_hstack1 K a), K \in L & a \in As]) (lstate_input x).
Proof.
rewrite /lstate_input eA ewA eL ewL; apply: always_rbind.
apply: always_impl (choice_always (L := As) _ dA) => [_ [i -> il]|]; last by rewrite size_map.
rewrite (py_get_nth [::]) // rpbind_ok; apply: always_rbind.
apply: always_impl (choice_always (L := L) _ dL) => [_ [j -> jl]|]; last by rewrite size_map.
by rewrite (py_get_nth [::]) // rpbind_ok; exists (nth [::] L j), (nth [::] As i); rewrite !mem_nth.
Qed.

Lemma input_exp f : has_exp (on_ok f) (lstate_input x)
  (\sum_(a <- As) wa a * \sum_(K <- L) we K * f (np_hstack1 K a)).
Proof.
rewrite /lstate_input eA ewA eL ewL (big_nth [::]) big_mkord.
apply: has_exp_rbind (choice_exp [::] (fun i => \sum_(K <- L) we K * f (np_hstack1 K (nth [::] As i))) dA) _.
apply: always_impl (choice_always (L := As) _ dA) => [_ [i -> il]|]; last by rewrite size_map.
rewrite (py_get_nth [::]) // rpbind_ok (big_nth [::]) big_mkord.
apply: has_exp_rbind (choice_exp [::] (fun j => f (np_hstack1 (nth [::] L j) (nth [::] As i))) dL) _.
apply: always_impl (choice_always (L := L) _ dL) => [_ [j -> jl]|]; last by rewrite size_map.
rewrite (py_get_nth [::]) // rpbind_ok; exact: ExpRet.
Qed.
End Inputs.

Section Start.
Variables (R : rcfType) (H : eqType) (hash : seq nat -> H) (cis : R -> R[i]).
Notation C := (ComplexField.complex_numFieldType R).
Variables (m h : nat) (U : seq (seq C)) (eta : R) (s : seq nat) (x : lstate R).
Hypotheses (sq : is_square m U) (hm : (h <= m)%N) (ss : size s = m) (ox : lstate_of cis m U h eta x)
  (inj : no_collision hash (take h s)).

Definition approx_list : seq (seq nat) :=
  if (h < m)%N then [seq l :: nseq (m - h).-1 0%N | l <- iota 0 (sumn (drop h s)).+1] else [:: [::]].
Definition approx_wt (a : seq nat) : R := binomial_weight (sumn (drop h s)) eta (sumn a).

Lemma ls_startE : exists y L, [/\ lstate_start hash s x = Ok y, lstate_of cis m U h eta y,
  ls_approx y = approx_list /\ ls_approx_w y = map approx_wt approx_list,
  ls_exact y = L /\ ls_exact_w y = [seq left_weight eta (take h s) K | K <- L]
  & [/\ uniq L, L =i subs (take h s) & ls_threads y = ls_threads x]].
Proof.
case: (ox) => o1 o2 o3 o4 o5; have [L [eL uL mL [L' rL]]] := exact_partsE inj.
rewrite /lstate_start /py_upto /py_from /py_cut o2 ltNge /= eL /= o3 (exact_weightsE _ mL rL) /=.
have /andP[/eqP sU _] := sq.
rewrite /prepare_approx o1 o2 sU le0z_nat /= ltz_nat o3.
case: ltnP => hlt; last first.
  rewrite /= ; eexists; exists L; split; [reflexivity|by []| |by []|by []].
  rewrite /= /approx_list ltnNge hlt; split=> //=; rewrite /approx_wt drop_oversize ?ss //=.
  by rewrite /binomial_weight bin0 !expr0 !mulr1.
have -> : approx_parts (drop h s) = Ok approx_list.
  rewrite /approx_parts /approx_list hlt; apply: rmapM_ok => l _.
  by rewrite size_drop ss; case: (m - h)%N (subn_gt0 h m) => [|r] //; rewrite hlt.
have eAr : exists A', approx_list = rcons A' (sumn (drop h s) :: nseq (m - h).-1 0%N).
  rewrite /approx_list hlt; exists [seq l :: nseq (m - h).-1 0%N | l <- iota 0 (sumn (drop h s))].
  by rewrite -[in RHS]map_rcons; congr map; rewrite -addn1 iotaD cats1 add0n.
have gl : py_get approx_list (-1) = Ok (sumn (drop h s) :: nseq (m - h).-1 0%N).
  by have [A' ->] := eAr; exact: py_get_last.
rewrite [~~ true]/= [rbind (Ok approx_list) _]/= gl [rbind (Ok (_ :: _)) _]/= [rbind (Ok (_, _)) _]/=.
eexists; exists L; split; [reflexivity|by []| |by []|by []].
split=> //; rewrite [LHS]/= sumn_nseq mul0n addn0 possible_weightsE /approx_list hlt -map_comp.
by apply: eq_map => l; rewrite /comp /approx_wt /= sumn_nseq mul0n addn0.
Qed.

Hypotheses (eta01 : 0 <= eta <= 1).

Lemma approx_distr : is_distr (map approx_wt approx_list).
Proof.
rewrite /approx_list; case: ltnP => hlt; last first.
  rewrite /= /approx_wt drop_oversize ?ss //; split; first by rewrite /= /binomial_weight bin0 !expr0 !mulr1 ler01.
  by rewrite big_seq1 /= /binomial_weight bin0 !expr0 !mulr1.
rewrite -map_comp (_ : map _ _ = [seq binomial_weight (sumn (drop h s)) eta l | l <- iota 0 (sumn (drop h s)).+1]).
  exact: bw_distr.
by apply: eq_map => l; rewrite /comp /approx_wt /= sumn_nseq mul0n addn0.
Qed.
End Start.

Section Matrix.
Variable R : rcfType.
Notation C := (ComplexField.complex_numFieldType R).
Notation mat := (seq (seq C)).
Variable cis : R -> C.
Hypothesis ok : cis_ok cis.
Variables (m h : nat) (U : mat) (eta : R) (x : lstate R).
Hypotheses (m0 : (0 < m)%N) (uU : unitary m U) (hm : (h <= m)%N) (ox : lstate_of cis m U h eta x).
Variables (rand : nat -> rprog R (res (seq R))).
Hypothesis randA : always (fun r => exists d, r = Ok d) (rand (m - h)).
Let k := (m - h)%N.
Let km : (k <= m)%N. Proof. exact: leq_subr. Qed.
Notation shuf := (@np_shuffle R).

Lemma ls_matrixE : lstate_matrix cis rand shuf x =
  draw! P := (draw! d := rand k in Ret (phases_matrix_first cis k m d)) in
  draw! sigma := shuf (iota 0 m) in
  draw! V := Ret (np_columns U sigma) in
  draw! B := Ret (np_matmul V P) in
  Ret (np_matmul B (ls_qft x)).
Proof.
case: (ox) => o1 o2 o3 o4 o5; have [/andP[/eqP sU _] _] := uU.
have sQ : size (ls_qft x) = m.
  by have [Q [eQ /andP[/eqP sQ _] _ _]] := fourierE ok km; move: o5; rewrite eQ => -[<-].
by rewrite /lstate_matrix o1 o2 sQ sU -/k (_ : Posz m - Posz h = Posz k) // subzn.
Qed.

Lemma ls_matrix_always : always (fun r => exists2 A, r = Ok A & unitary m A) (lstate_matrix cis rand shuf x).
Proof.
rewrite ls_matrixE; apply: always_rbind; apply: always_rbind; apply: always_impl randA => _ [d ->].
have [P [eP sP hP]] := phasesE cis km d; rewrite [always _ _]/= eP.
apply: always_rbind; apply: always_impl (np_shuffle_always R m0) => _ [sigma -> p].
have [A eA [uA _]] := ls_step ok m0 uU km erefl ox eP p.
move: eA; case: np_columns => // V; rewrite [rbind (Ok V) _]/= rpbind_ok.
case: np_matmul => // B; rewrite [rbind (Ok B) _]/= rpbind_ok => ->.
by exists A.
Qed.

Variables (S : seq (seq R)) (W : seq R -> R).
Hypotheses (randS : always (fun r => exists2 d, r = Ok d & d \in S) (rand k))
  (randE : forall f, has_exp (on_ok f) (rand k) (\sum_(d <- S) W d * f d)).

Lemma ls_matrix_exp f g : (forall A d sigma, d \in S -> sigma \in permutations (iota 0 m) -> ls_net_of cis m U k d sigma A -> f A = g d sigma) ->
  has_exp (on_ok f) (lstate_matrix cis rand shuf x) (\sum_(d <- S) W d * ((\sum_(sigma <- permutations (iota 0 m)) g d sigma) / m`!%:R)).
Proof.
move=> hfg; rewrite ls_matrixE.
pose chain P sigma := let! V := np_columns U sigma in let! B := np_matmul V P in np_matmul B (ls_qft x).
pose v P : R := (\sum_(sigma <- permutations (iota 0 m)) (if chain P sigma is Ok A then f A else 0)) / m`!%:R.
apply: has_exp_eq (has_exp_rbind (h := v) (has_exp_rbind (randE (fun d => if phases_matrix_first cis k m d is Ok P then v P else 0)) _) _) _.
- apply: always_impl randS => _ [d -> dS].
  by have [P [-> sP hP]] := phasesE cis km d; exact: ExpRet.
- apply: always_rbind; apply: always_impl randS => _ [d -> dS].
  have [P [eP sP hP]] := phasesE cis km d; rewrite [always _ _]/= eP.
  apply: has_exp_rbind (np_shuffle_exp (fun sigma => if chain P sigma is Ok A then f A else 0) m0) _.
  apply: always_impl (np_shuffle_always R m0) => _ [sigma -> p].
  have [A eA _] := ls_step ok m0 uU km erefl ox eP p; rewrite /chain eA.
  move: eA; case: np_columns => // V; rewrite [rbind (Ok V) _]/= rpbind_ok.
  case: np_matmul => // B; rewrite [rbind (Ok B) _]/= rpbind_ok => ->; exact: ExpRet.
apply: eq_big_seq => d dS; congr (_ * _); have [P [eP sP hP]] := phasesE cis km d; rewrite eP /v; congr (_ / _).
apply: eq_big_seq => sigma p; have [A eA nA] := ls_step ok m0 uU km erefl ox eP p; rewrite /chain eA.
exact: hfg nA.
Qed.
End Matrix.
