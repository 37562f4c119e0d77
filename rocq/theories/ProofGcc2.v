(* The filling loop of version A, for occupations and for mode assignments. *)
From mathcomp Require Import all_ssreflect all_algebra complex.
From mathcomp Require Import ring zify.
From Verif Require Import Base SpecStates Combi SpecPerm PermMath SpecBS BsMath BsComb BsNorm.
From Verif Require Import ModelStates LemStates ModelPerm ProofPerm6 LemPerm ModelDist ProofDist1.
From Verif Require Import SpecProb ProbMath ModelGcc ModelGccB SampMath ProofSel ProofGcc1.
Set Implicit Arguments.
Unset Strict Implicit.
Unset Printing Implicit Defensive.
Import Order.TTheory GRing.Theory Num.Theory.
Local Open Scope ring_scope.
Local Open Scope py_scope.

Section Loop.
Variable R : rcfType.
Variables (meas : seq nat -> nat) (layer : gcc R -> res (gcc R)).
Fixpoint gloop (n : nat) (g : gcc R) : rprog R (res (gcc R)) :=
  if n is n'.+1 then
    if (meas (g_r g) < g_n g)%N then
      draw! g := Ret (ensure_layer layer g) in
      draw! g := sample_from_latest_pmf g in
      gloop n' g
    else Ret (Ok g)
  else Ret (Err OutOfFuel).
End Loop.

Lemma fill_loopE (R : rcfType) gray fuel : @fill_loop R gray fuel = gloop sumn (@new_layer R gray fuel).
Proof. by []. Qed.
Lemma ma_fill_loopE (R : rcfType) gray fuel : @ma_fill_loop R gray fuel = gloop size (@ma_new_layer R gray fuel).
Proof. by []. Qed.

Section Gen.
Variable R : rcfType.
Notation CF := (ComplexField.complex_numFieldType R).
Variables (m : nat) (U : seq (seq CF)) (s : seq nat).
Hypotheses (u : unitary_on m U s) (ss : size s = m).
Variables (occ : seq nat -> seq nat) (ext : seq nat -> nat -> seq nat) (meas : seq nat -> nat).
Variable (ok : seq nat -> Prop).
Hypothesis Hok : forall r j, ok r -> (j < m)%N -> ok (ext r j).
Hypothesis Hocc : forall r j, ok r -> (j < m)%N -> occ (ext r j) = incr (occ r) j.
Hypothesis Hsz : forall r, ok r -> size (occ r) = m.
Hypothesis Hmeas : forall r, ok r -> meas r = sumn (occ r).

Definition pm r := [seq qprob U s (incr (occ r) j) | j <- iota 0 m].
Definition ou r := [seq ext r j | j <- iota 0 m].

Record ginv (g : gcc R) : Prop := GInv {
  gi_n : g_n g = sumn s;
  gi_in : g_input g = s;
  gi_lab : g_labeled g = label_states s;
  gi_mat : calc_matrix (g_calc g) = U;
  gi_ok : ok (g_r g);
  gi_key : g_key g = g_r g;
  gi_cache : forall key pmf, dget (g_pmfs g) key = Some pmf ->
     pmf = pm key /\ dget (g_outputs g) key = Some (ou key)
}.

Variable layer : gcc R -> res (gcc R).
Hypothesis Hlayer : forall g, ginv g -> (meas (g_r g) < sumn s)%N ->
  exists a', layer g = Ok (Gcc (g_r g) (g_n g) (dset (g_pmfs g) (g_key g) (pm (g_r g))) a' (g_input g)
     (g_labeled g) (dset (g_outputs g) (g_key g) (ou (g_r g))) (g_key g) (g_prob g))
   /\ calc_matrix a' = U.

Lemma layer_inv g a' : ginv g -> calc_matrix a' = U ->
  ginv (Gcc (g_r g) (g_n g) (dset (g_pmfs g) (g_key g) (pm (g_r g))) a' (g_input g)
     (g_labeled g) (dset (g_outputs g) (g_key g) (ou (g_r g))) (g_key g) (g_prob g)).
Proof.
case=> i1 i2 i3 i4 i5 i6 i7 ea; split=> //= key pmf; rewrite !dget_dset.
by case: eqP => [<- [<-]|_ /i7 //]; rewrite i6.
Qed.

Lemma ensureE g : ginv g -> (meas (g_r g) < sumn s)%N ->
  exists g', [/\ ensure_layer layer g = Ok g', ginv g', g_r g' = g_r g &
    dget (g_pmfs g') (g_r g') = Some (pm (g_r g'))].
Proof using Hlayer.
move=> I lt; rewrite /ensure_layer; case E: (dget _ _) => [pmf|].
  exists g; split=> //; have [e _] := gi_cache I E; rewrite -(gi_key I) E e.
  by rewrite (gi_key I).
have [a' [-> ea]] := Hlayer I lt; eexists; split; [reflexivity|exact: layer_inv|by []|].
by rewrite /= dget_dset (gi_key I) eqxx.
Qed.

Lemma nth_pm r j : (j < m)%N -> (pm r)`_j = qprob U s (incr (occ r) j).
Proof. by move=> jm; rewrite (nth_map 0%N) ?size_iota // nth_iota. Qed.

Lemma size_pm r : size (pm r) = m. Proof. by rewrite size_map size_iota. Qed.

Lemma sum_pm r : ok r -> (meas r < sumn s)%N -> py_sum (pm r) = qprob U s (occ r).
Proof using u ss Hsz Hmeas.
move=> kr lt; rewrite py_sumE big_map -[X in iota _ X]subn0 -/(index_iota _ _) big_mkord.
by rewrite (qprob_step u) // ?Hsz // -Hmeas.
Qed.

Lemma pm_ge0 r : all (fun x => 0 <= x) (pm r).
Proof. by apply/allP => x /mapP[j _ ->]; rewrite /= qprob_ge0. Qed.

Definition moved g i := Gcc (ext (g_r g) i) (g_n g) (g_pmfs g) (g_calc g) (g_input g) (g_labeled g)
  (g_outputs g) (ext (g_r g) i) (qprob U s (incr (occ (g_r g)) i)).

Lemma sample_withE g x : ginv g -> dget (g_pmfs g) (g_r g) = Some (pm (g_r g)) ->
  (cum_search (x * py_sum (pm (g_r g))) 0 0 (pm (g_r g)) < m)%N ->
  sample_with g x = Ok (moved g (cum_search (x * py_sum (pm (g_r g))) 0 0 (pm (g_r g)))).
Proof.
move=> I E lt; rewrite /sample_with (gi_key I) /dget_res E [rbind (Ok _) _]/=.
rewrite (py_get_nth 0) ?size_pm // [rbind (Ok _) _]/=.
have [_ ->] := gi_cache I E; rewrite [rbind (Ok _) _]/=.
by rewrite (py_get_nth [::]) ?size_map ?size_iota //= nth_pm // (nth_map 0%N) ?size_iota // nth_iota.
Qed.

Lemma moved_inv g i : ginv g -> (i < m)%N -> ginv (moved g i).
Proof using Hok. by case=> *; split=> //=; apply: Hok. Qed.

Definition filled (x : res (gcc R)) := exists g', [/\ x = Ok g', ginv g', meas (g_r g') = sumn s
  & qprob U s (occ (g_r g')) != 0].

Lemma meas_ext r j : ok r -> (j < m)%N -> meas (ext r j) = (meas r).+1.
Proof using Hok Hocc Hsz Hmeas.
by move=> kr jm; rewrite !Hmeas ?Hocc ?sumn_incr ?Hsz //; apply: Hok.
Qed.

Lemma gloop_always n g : ginv g -> qprob U s (occ (g_r g)) != 0 -> (meas (g_r g) <= sumn s)%N ->
  (sumn s - meas (g_r g) < n)%N -> always filled (gloop meas layer n g).
Proof using u ss Hok Hocc Hsz Hmeas Hlayer.
elim: n g => [//|n IH] g I q0 le ln /=; rewrite (gi_n I); case: ltnP => lt; last first.
  by exists g; split=> //; apply/eqP; rewrite eqn_leq le.
have [g' [-> I' er E]] := ensureE I lt; rewrite /rpbind /= => x x01.
rewrite -er in q0 le ln lt.
have kr := gi_ok I'.
have t0 : 0 < py_sum (pm (g_r g')) by rewrite sum_pm // lt_def q0 qprob_ge0.
have [il p0] := search_pos (pm_ge0 (g_r g')) t0 x01; rewrite size_pm in il.
rewrite sample_withE //; apply: IH; first exact: moved_inv.
- by move: p0; rewrite nth_pm //= Hocc // => p0; rewrite gt_eqF.
- by rewrite /= meas_ext.
- by rewrite /= meas_ext //; lia.
Qed.

Lemma gloop_exp f n g : ginv g -> qprob U s (occ (g_r g)) != 0 -> (meas (g_r g) <= sumn s)%N ->
  (sumn s - meas (g_r g) < n)%N ->
  has_exp (on_ok (fun g => f (occ (g_r g)))) (gloop meas layer n g)
    (cond_exp m U s f (sumn s - meas (g_r g)) (occ (g_r g))).
Proof using u ss Hok Hocc Hsz Hmeas Hlayer.
elim: n g => [//|n IH] g I q0 le ln /=; rewrite (gi_n I); case: ltnP => lt; last first.
  have -> : (sumn s - meas (g_r g) = 0)%N by lia.
  by rewrite cond_exp0 //; constructor.
have [g' [-> I' er E]] := ensureE I lt; rewrite /rpbind /=.
rewrite -er in q0 le ln lt *.
have kr := gi_ok I'.
have t0 : 0 < py_sum (pm (g_r g')) by rewrite sum_pm // lt_def q0 qprob_ge0.
have := @has_exp_select R _ (on_ok (fun g => f (occ (g_r g)))) (pm (g_r g'))
  (fun u0 => match sample_with g' u0 with Ok a => gloop meas layer n a | Err e => Ret (Err e) end)
  (fun i => cond_exp m U s f (sumn s - (meas (g_r g')).+1) (incr (occ (g_r g')) i)) (pm_ge0 _) t0.
move=> H; apply: has_exp_eq (H _) _ => {H}.
  move=> i x; rewrite size_pm => im p0 x01 e; rewrite sample_withE ?e //.
  have := IH (moved g' i) (moved_inv I' im); rewrite /= meas_ext // Hocc //; apply.
  - by move: p0; rewrite nth_pm //= => p0; rewrite gt_eqF.
  - by [].
  - by lia.
rewrite size_pm -(subnSK lt) -(cond_expS u ss) ?Hsz // -?Hmeas //; last by lia.
by apply: eq_bigr => j _; rewrite nth_pm // sum_pm.
Qed.

End Gen.
