(* Uniform losses, version A: two objects with equivalent calculators behave alike. *)
From mathcomp Require Import all_ssreflect all_algebra complex.
From mathcomp Require Import ring zify.
From Verif Require Import Base SpecStates Combi SpecPerm PermMath.
From Verif Require Import ModelStates ModelPerm ModelDist ProofDist1.
From Verif Require Import SpecProb ProbMath ModelGcc SpecGcc ProofGcc1 ProofGcc4.
Set Implicit Arguments.
Unset Strict Implicit.
Unset Printing Implicit Defensive.
Import Order.TTheory GRing.Theory Num.Theory.
Local Open Scope ring_scope.
Local Open Scope py_scope.

Section U.
Variable R : rcfType.
Notation CF := (ComplexField.complex_numFieldType R).
Variables (gray : nat -> seq nat) (fuel : nat).
Implicit Types (g h : gcc R) (x y z : ugcc R).

(* the same object with another calculator *)
(* and other lists of outputs for keys without a pmf *)
Definition gwith (a : any_calc CF * seq (seq nat * seq (seq nat))) g : gcc R :=
  Gcc (g_r g) (g_n g) (g_pmfs g) a.1 (g_input g) (g_labeled g) a.2 (g_key g) (g_prob g).
Definition uwith a z : ugcc R :=
  UGcc (gwith a (ug_gcc z)) (ug_eta z) (ug_dist z) (ug_unw z) (ug_outs z) (ug_weights z) (ug_missing z).

Definition usim (pm : seq (seq nat * seq R)) (a b : any_calc CF * seq (seq nat * seq (seq nat))) :=
  same_core a.1 b.1 /\ forall k, dget pm k <> None -> dget a.2 k = dget b.2 k.
Definition urel x y := exists z a b, [/\ x = uwith a z, y = uwith b z & usim (g_pmfs (ug_gcc z)) a b].

Lemma u_new_layer_rel x y : urel x y -> same_res urel (u_new_layer gray fuel x) (u_new_layer gray fuel y).
Proof.
move=> [z [[a o] [[b o'] [-> -> [/= c co]]]]]; rewrite /u_new_layer [ug_gcc _]/=.
rewrite [X in dgetl X]/=; set Ts := dgetl _ _.
apply: same_res_bind (same_res_eq _) _ => ws _ <-.
apply: same_res_bind (same_res_eq _) _ => outs _ <-.
apply: same_res_bind (_ : same_res (fun u v => u.1.1 = v.1.1 /\ u.2 = v.2 /\ same_core u.1.2 v.1.2) _ _) _; last first.
  move=> [[pmf a1] du] [[pmf' b1] du'] /= [-> [-> c1]].
  exists (UGcc (Gcc (g_r (ug_gcc z)) (g_n (ug_gcc z)) (dset (g_pmfs (ug_gcc z)) (g_key (ug_gcc z)) pmf') a1
     (g_input (ug_gcc z)) (g_labeled (ug_gcc z)) [::] (g_key (ug_gcc z)) (g_prob (ug_gcc z)))
     (ug_eta z) du'.1 du'.2 (ug_outs z) (ug_weights z) (ug_missing z)),
     (a1, dset o (g_key (ug_gcc z)) outs), (b1, dset o' (g_key (ug_gcc z)) outs).
  split=> //; split=> //= k; rewrite !dget_dset; case: eqP => // _; exact: co.
apply: same_res_foldl => [//|[[pmf a1] du] [[pmf' b1] du'] t /= [-> [-> c1]]].
apply: same_res_bind (pmf_entry_core gray fuel Ts ws t c1) _ => u v [-> ca cb].
apply: same_res_bind (same_res_eq _) _ => du2 _ <- /=.
by split=> //; split=> //; apply: core_trans ca (core_trans c1 (core_sym cb)).
Qed.

Lemma u_ensure_rel x y : urel x y -> same_res urel (u_ensure_layer gray fuel x) (u_ensure_layer gray fuel y).
Proof.
move=> r; rewrite /u_ensure_layer.
have -> : dget (g_pmfs (ug_gcc x)) (g_key (ug_gcc x)) = dget (g_pmfs (ug_gcc y)) (g_key (ug_gcc y)).
  by case: r => z [a [b [-> -> _]]].
by case: (dget _ _) => [_|]; last exact: u_new_layer_rel.
Qed.

Lemma u_fill_loop_rel i x y : urel x y ->
  same_run (same_res urel) (u_fill_loop gray fuel i x) (u_fill_loop gray fuel i y).
Proof.
elim: i x y => [//|i IH] x y r /= u u01.
have -> : ug_eta x = ug_eta y by case: r => z [a [b [-> -> _]]].
case: ifP => _; first exact: IH.
apply: same_run_rbind (_ : same_run (same_res urel) _ _) _ => [|{r}x {}y [z [a [b [-> -> c]]]]].
  exact: u_ensure_rel.
apply: same_run_rbind (_ : same_run (same_res (fun g h => exists g0, [/\ g = gwith a g0, h = gwith b g0 & g_pmfs g0 = g_pmfs (ug_gcc z)])) _ _) _; last first.
  move=> _ _ [g0 [-> -> ep]]; apply: IH.
  by exists (UGcc g0 (ug_eta z) (ug_dist z) (ug_unw z) (ug_outs z) (ug_weights z) (ug_missing z)), a, b; split=> //=; rewrite ep.
move=> v v01 /=; rewrite /sample_with /= /dget_res.
case D: (dget (g_pmfs _) _) => [pmf|] //=; case: (py_get pmf _) => [p|e] //=.
rewrite (c.2 _ _) ?D //; case: (dget b.2 _) => [outs|] //=; case: (py_get outs _) => [r|e] //=.
by exists (Gcc r (g_n (ug_gcc z)) (g_pmfs (ug_gcc z)) a.1 (g_input (ug_gcc z)) (g_labeled (ug_gcc z)) [::] r p).
Qed.

(* before a sample is begun, the last one does not matter *)
Definition ure x : ugcc R := set_ug x (reset_sample [::] (ug_gcc x)) (ug_dist x, ug_unw x).
Definition wrel x y := urel (ure x) (ure y).

Lemma urel_wrel x y : urel x y -> wrel x y.
Proof. by move=> [z [a [b [-> -> c]]]]; exists (ure z), a, b. Qed.

Lemma u_fill_rel x y : wrel x y ->
  same_run (same_res urel) (u_fill_r_sample gray fuel x) (u_fill_r_sample gray fuel y).
Proof.
case: x y => [[r n pm a i l o k p] e d w ou ws mi] [[r' n' pm' a' i' l' o' k' p'] e' d' w' ou' ws' mi'].
move=> [[[r0 n0 pm0 a0 i0 l0 o0 k0 p0] e0 d0 w0 ou0 ws0 mi0] [a1 [b1 [/= e1 e2 c]]]].
move: c; case: e1 => _ -> -> -> -> -> -> _ _ -> -> -> -> -> ->; case: e2 => _ -> -> -> -> -> -> _ _ -> -> -> -> -> -> /= c.
rewrite /u_fill_r_sample /= (core_matrix c.1); apply: u_fill_loop_rel.
rewrite /set_ug /reset_sample /=; set rr := nseq _ _.
by exists (UGcc (Gcc rr n0 pm0 a1.1 i0 l0 o0 rr 1) e0 d0 w0 ou0 ws0 mi0), a1, b1.
Qed.

Definition start_like x y := [/\ same_core (g_calc (ug_gcc x)) (g_calc (ug_gcc y)), ug_eta x = ug_eta y & ug_missing x = ug_missing y].

Lemma ugcc_start_rel s x y : start_like x y -> same_res wrel (ugcc_start fuel s x) (ugcc_start fuel s y).
Proof.
move=> [c ee em]; rewrite /ugcc_start ee em.
case: (generate_possible_states _ _ _ _) => [outs|e] //=.
case: (py_set _ _ _) => [d|e] //=.
set z := UGcc (gcc_start s (ug_gcc x)) _ _ _ _ _ _.
by exists (ure z), (g_calc (ug_gcc x), g_outputs (ug_gcc x)), (g_calc (ug_gcc y), g_outputs (ug_gcc y)).
Qed.

Definition same_lists (X : Type) (p q : X * ugcc R) : Prop :=
  [/\ p.1 = q.1, ug_dist p.2 = ug_dist q.2 & ug_unw p.2 = ug_unw q.2].

Lemma wrel_lists x y : wrel x y -> ug_dist x = ug_dist y /\ ug_unw x = ug_unw y.
Proof.
move=> [z [a [b [e1 e2 _]]]].
have h (x' y' : ugcc R) : x' = y' -> ug_dist x' = ug_dist y' /\ ug_unw x' = ug_unw y' by move=> ->.
by have [/= -> ->] := h _ _ e1; have [/= -> ->] := h _ _ e2.
Qed.

Lemma ugcc_same s k x y : start_like x y ->
  same_run (same_res (@same_lists _)) (ugcc_simulate gray fuel s k x) (ugcc_simulate gray fuel s k y).
Proof.
move=> l; rewrite /ugcc_simulate.
apply: same_run_rbind (_ : same_run (same_res wrel) _ _) _ => [|x' y' r]; first exact: ugcc_start_rel.
apply: same_run_impl (sample_loop_sim (rel := wrel) _ _ r) => [[p|e] [q|e'] //= [e1 w]|{r}x2 y2 r].
  by have [e2 e3] := wrel_lists w.
apply: same_run_impl (u_fill_rel r) => [[p|e] [q|e'] //= h].
by split; [exact: urel_wrel|case: h => z [a [b [-> -> _]]]].
Qed.

Lemma accuracy_rel (f : ugcc R -> R) acc tol n x y : (forall x y, wrel x y -> f x = f y) -> wrel x y ->
  same_run (same_res wrel) (accuracy_loop gray fuel f acc tol n x) (accuracy_loop gray fuel f acc tol n y).
Proof.
move=> hf; elim: n x y => [//|n IH] x y r /=; rewrite (hf _ _ r); case: ifP => _ //.
apply: same_run_rbind (_ : same_run (same_res wrel) _ _) _ => [|x' y' r']; last exact: IH.
by apply: same_run_impl (u_fill_rel r) => [[p|e] [q|e'] //=]; exact: urel_wrel.
Qed.

Lemma distribution_same acc tol n s x y : start_like x y ->
  same_run (same_res (@same_lists _)) (compute_distribution gray fuel acc tol n s x) (compute_distribution gray fuel acc tol n s y).
Proof.
move=> l; rewrite /compute_distribution.
apply: same_run_rbind (_ : same_run (same_res wrel) _ _) _ => [|x' y' r]; first exact: ugcc_start_rel.
apply: same_run_rbind (accuracy_rel _ _ _ _ r) _ => [{r}x2 y2 /wrel_lists[-> _] //|x2 y2 /wrel_lists[/= e1 e2]].
by split=> //=; rewrite e1.
Qed.

Lemma unweighted_same acc tol n s x y : start_like x y ->
  same_run (same_res (@same_lists _)) (compute_unweighted gray fuel acc tol n s x) (compute_unweighted gray fuel acc tol n s y).
Proof.
move=> l; rewrite /compute_unweighted.
apply: same_run_rbind (_ : same_run (same_res wrel) _ _) _ => [|x' y' r]; first exact: ugcc_start_rel.
case: ifP => _ //.
apply: same_run_rbind (accuracy_rel _ _ _ _ r) _ => [{r}x2 y2 /wrel_lists[_ ->] //|x2 y2 /wrel_lists[/= e1 e2]].
by split=> //=; rewrite e2.
Qed.
End U.
