(* The filling loop with rounded probabilities and random numbers of finite
   resolution. *)
From mathcomp Require Import all_ssreflect all_algebra complex.
From mathcomp Require Import ring zify.
From Verif Require Import Base SpecStates Combi SpecPerm PermMath SpecBS BsMath BsComb BsNorm.
From Verif Require Import ModelStates LemStates ModelPerm ProofPerm6 LemPerm ModelDist ProofDist1.
From Verif Require Import SpecProb ProbMath ModelGcc ModelGccB SampMath ProofSel ProofGcc1 ProofGcc2
  ModelFloat SpecFloat SpecFloatGcc ProofFloat ModelFloatGcc ProofFloatSel.
Set Implicit Arguments.
Unset Strict Implicit.
Unset Printing Implicit Defensive.
Import Order.TTheory GRing.Theory Num.Theory.
Local Open Scope ring_scope.
Local Open Scope py_scope.

Lemma choose_seq (T : Type) (t0 : T) m (P : nat -> T -> Prop) :
  (forall i, (i < m)%N -> exists v, P i v) -> exists V : nat -> T, forall i, (i < m)%N -> P i (V i).
Proof.
elim: m => [|m IH] H; first by exists (fun=> t0).
have [V HV] := IH (fun i im => H i (ltnW im)); have [v Hv] := H m (ltnSn m).
exists (fun i => if i == m then v else V i) => i; rewrite ltnS leq_eqVlt.
by case: eqP => [->|_] //= im; apply: HV.
Qed.

Section Loop.
Variable R : rcfType.
Variables (meas : seq nat -> nat) (layer : gcc R -> res (gcc R)) (draw : gcc R -> rprog R (res (gcc R))).
Fixpoint fgloop (n : nat) (g : gcc R) : rprog R (res (gcc R)) :=
  if n is n'.+1 then
    if (meas (g_r g) < g_n g)%N then
      draw! g := Ret (ensure_layer layer g) in
      draw! g := draw g in
      fgloop n' g
    else Ret (Ok g)
  else Ret (Err OutOfFuel).
End Loop.

(* accumulated errors of d layers after l particles *)
Fixpoint path_error (R : rcfType) (m : nat) (delta : nat -> R) (l d : nat) : R :=
  if d is d'.+1 then 2%:R * m%:R * delta l.+1 + m%:R * path_error m delta l.+1 d' else 0.

Lemma path_errorE (R : rcfType) m (delta : nat -> R) l d :
  path_error m delta l d = \sum_(i < d) 2%:R * m%:R ^+ i.+1 * delta (l + i.+1)%N.
Proof.
elim: d l => [|d IH] l /=; first by rewrite big_ord0.
rewrite big_ord_recl IH addn1 expr1; congr (_ + _); rewrite mulr_sumr; apply: eq_bigr => i _.
rewrite /bump /= addSnnS; have -> : m%:R ^+ (1 + i).+1 = m%:R * m%:R ^+ i.+1 :> R by rewrite -exprS.
by move: (delta _) (_ ^+ i.+1) => x y; ring.
Qed.

Section Gen.
Variable R : rcfType.
Notation CF := (ComplexField.complex_numFieldType R).
Variables (m : nat) (U V : seq (seq CF)) (s : seq nat).
Hypotheses (uU : unitary_on m U s) (ss : size s = m).
Variables (occ : seq nat -> seq nat) (ext : seq nat -> nat -> seq nat) (meas : seq nat -> nat).
Variable (ok : seq nat -> Prop).
Hypothesis Hok : forall r j, ok r -> (j < m)%N -> ok (ext r j).
Hypothesis Hocc : forall r j, ok r -> (j < m)%N -> occ (ext r j) = incr (occ r) j.
Hypothesis Hsz : forall r, ok r -> size (occ r) = m.
Hypothesis Hmeas : forall r, ok r -> meas r = sumn (occ r).

Variables (u : R) (B : arith R) (f_sum : seq R -> R) (N : nat).
Hypothesis u0 : 0 <= u.
Hypothesis accB : accurate u B.
Hypothesis acc_sum : forall l, `|f_sum l - \sum_(x <- l) x| <= ((1 + u) ^+ size l - 1) * \sum_(x <- l) `|x|.
Hypothesis N0 : (0 < N)%N.
Hypothesis x4 : (1 + u) ^+ m.+1 - 1 <= 4%:R^-1.
Variable delta : nat -> R.

Definition good key (pmf : seq R) := [/\ size pmf = m, all (fun x => 0 <= x) pmf &
  forall j, (j < m)%N -> `|pmf`_j - qprob U s (incr (occ key) j)| <= delta (sumn (occ key)).+1].

Record finv (g : gcc R) : Prop := FInv {
  fi_n : g_n g = sumn s;
  fi_in : g_input g = s;
  fi_lab : g_labeled g = label_states s;
  fi_mat : calc_matrix (g_calc g) = V;
  fi_ok : ok (g_r g);
  fi_key : g_key g = g_r g;
  fi_cache : forall key pmf, dget (g_pmfs g) key = Some pmf ->
     good key pmf /\ dget (g_outputs g) key = Some (ou m ext key)
}.

Definition with_layer (g : gcc R) pmf a' := Gcc (g_r g) (g_n g) (dset (g_pmfs g) (g_key g) pmf) a' (g_input g)
     (g_labeled g) (dset (g_outputs g) (g_key g) (ou m ext (g_r g))) (g_key g) (g_prob g).

Variable layer : gcc R -> res (gcc R).
Hypothesis Hlayer : forall g, finv g -> (meas (g_r g) < sumn s)%N ->
  exists pmf a', [/\ layer g = Ok (with_layer g pmf a'), calc_matrix a' = V & good (g_r g) pmf].

Lemma flayer_inv g pmf a' : finv g -> calc_matrix a' = V -> good (g_r g) pmf -> finv (with_layer g pmf a').
Proof.
case=> i1 i2 i3 i4 i5 i6 i7 ea gp; split=> //= key pmf'; rewrite !dget_dset.
by case: eqP => [<- [<-]|_ /i7 //]; rewrite i6.
Qed.

Lemma fensureE g : finv g -> (meas (g_r g) < sumn s)%N ->
  exists g' pmf, [/\ ensure_layer layer g = Ok g', finv g', g_r g' = g_r g,
    dget (g_pmfs g') (g_r g') = Some pmf & good (g_r g') pmf].
Proof using Hlayer.
move=> I lt; rewrite /ensure_layer; case E: (dget _ _) => [pmf|].
  by exists g, pmf; split=> //; rewrite -(fi_key I) //; have [] := fi_cache I E.
have [pmf [a' [-> ea gp]]] := Hlayer I lt; do 2!eexists; split; [reflexivity|exact: flayer_inv|by []| |exact: gp].
by rewrite /= dget_dset (fi_key I) eqxx.
Qed.

Definition fmoved (g : gcc R) (pmf : seq R) i := Gcc (ext (g_r g) i) (g_n g) (g_pmfs g) (g_calc g) (g_input g) (g_labeled g)
  (g_outputs g) (ext (g_r g) i) (pmf`_i).

Lemma fmoved_inv g pmf i : finv g -> (i < m)%N -> finv (fmoved g pmf i).
Proof using Hok. by case=> *; split=> //=; apply: Hok. Qed.

Lemma fl_sample_withE g pmf k : finv g -> dget (g_pmfs g) (g_r g) = Some pmf -> size pmf = m ->
  fl_sample_with B f_sum N g k = if (idx B f_sum N pmf k < m)%N then Ok (fmoved g pmf (idx B f_sum N pmf k))
    else Err IndexError.
Proof.
move=> I E sp; rewrite /fl_sample_with (fi_key I) /dget_res E [rbind (Ok _) _]/= -/(idx B f_sum N pmf k).
case: ltnP => h; last first.
  by rewrite /py_get /= sp ltnNge h.
rewrite (py_get_nth 0) ?sp // [rbind (Ok _) _]/=.
have [_ ->] := fi_cache I E; rewrite [rbind (Ok _) _]/=.
by rewrite (py_get_nth [::]) ?size_map ?size_iota //= (nth_map 0%N) ?size_iota // nth_iota.
Qed.

Lemma fmeas_ext r j : ok r -> (j < m)%N -> meas (ext r j) = (meas r).+1.
Proof using Hok Hocc Hsz Hmeas.
by move=> kr jm; rewrite !Hmeas ?Hocc ?sumn_incr ?Hsz //; apply: Hok.
Qed.

Variables (Y : Type) (F : res Y -> R) (cont : gcc R -> rprog R (res Y)) (E : seq nat -> R) (eps : R).
Hypothesis FErr : forall e, F (Err e) = 0.
Hypothesis Hcont : forall g, finv g -> meas (g_r g) = sumn s ->
  exists v, [/\ has_exp F (cont g) v, 0 <= v <= 1 & `|v - E (occ (g_r g))| <= eps].

Notation gm := (2%:R * m%:R * sel_error u N m).

Lemma fgloop_exp n g : finv g -> (meas (g_r g) <= sumn s)%N -> (sumn s - meas (g_r g) < n)%N ->
  exists v, [/\ has_exp F (rpbind (fgloop meas layer (fl_sample_from_latest_pmf B f_sum N) n g) cont) v,
    0 <= v <= 1 &
    let q := qprob U s (occ (g_r g)) in let d := (sumn s - meas (g_r g))%N in
    `|q * v - wpath m U s E d (occ (g_r g))| <= path_error m delta (meas (g_r g)) d + (d%:R * gm + eps) * q].
Proof.
elim: n g => [//|n IH] g I le ln /=; rewrite (fi_n I); case: ltnP => lt; last first.
  have e : meas (g_r g) = sumn s by apply/eqP; rewrite eqn_leq le lt.
  have [v [Hv v01 ve]] := Hcont I e; exists v; split=> //; rewrite e subnn /= mul0r !add0r /wpath /=.
  rewrite [E _ * _]mulrC -mulrBr normrM (ger0_norm (qprob_ge0 _ _ _)) mulrC.
  by apply: ler_wpmul2r => //; apply: qprob_ge0.
have [g' [pmf [-> I' er Ep gp]]] := fensureE I lt; rewrite /rpbind /=.
rewrite -er in le ln lt *; move: (gp) => [sp p0 pd].
have kr := fi_ok I'.
have S i : (i < m)%N -> exists v, [/\ has_exp F (rpbind (fgloop meas layer
      (fl_sample_from_latest_pmf B f_sum N) n (fmoved g' pmf i)) cont) v, 0 <= v <= 1 &
    let q := qprob U s (incr (occ (g_r g')) i) in let d := (sumn s - (meas (g_r g')).+1)%N in
    `|q * v - wpath m U s E d (incr (occ (g_r g')) i)| <=
       path_error m delta (meas (g_r g')).+1 d + (d%:R * gm + eps) * q].
  move=> im; have := IH (fmoved g' pmf i) (fmoved_inv pmf I' im).
  by rewrite /= fmeas_ext // Hocc //; apply; [|lia].
have [W HW] := choose_seq 0 S; clear S IH.
pose W' i := if (i < m)%N then W i else 0.
have W0 i : 0 <= W' i by rewrite /W'; case: ifP => // im; have [_ /andP[]] := HW _ im.
have W1 i : W' i <= 1 by rewrite /W'; case: ifP => [im|_]; rewrite ?ler01 //; have [_ /andP[]] := HW _ im.
have avg := @draw_average R B f_sum N pmf W'; rewrite sp in avg.
have x4' : (1 + u) ^+ (size pmf).+1 - 1 <= 4%:R^-1 by rewrite sp.
exists (\sum_(i < m) phat B f_sum N pmf i * W' i); split.
- rewrite -avg; last by move=> i; rewrite /W' leqNgt => /negbTE ->.
  apply: (@ExpInt _ _ F N _ (fun k => W' (idx B f_sum N pmf k))) => // k kN; rewrite (fl_sample_withE k I' Ep sp) /W'.
  case: ifP => im; first by have [] := HW _ im.
  by rewrite -(FErr IndexError); constructor.
- apply/andP; split; first by apply: sumr_ge0 => i _; apply: mulr_ge0 => //; apply: phat_ge0.
  have := @phat_sum R B f_sum N N0 pmf; rewrite sp => h; apply: le_trans h.
  by apply: ler_sum => i _; rewrite -[X in _ <= X]mulr1; apply: ler_wpmul2l => //; apply: phat_ge0.
set r := occ (g_r g') in HW pd *; set q := qprob U s r.
have sr : size r = m by apply: Hsz.
have lr : meas (g_r g') = sumn r by apply: Hmeas.
rewrite lr in lt HW *; rewrite -(subnSK lt); set d := (sumn s - (sumn r).+1)%N in HW *.
pose qi i := qprob U s (incr r i).
have qE : q = \sum_(i < m) qi i by rewrite /q -(qprob_step uU ss sr lt).
have -> : wpath m U s E d.+1 r = \sum_(i < m) wpath m U s E d (incr r i) by [].
rewrite mulr_sumr -sumrB.
have sb := @sel_bound R u B f_sum N u0 accB acc_sum N0 pmf p0 x4' qi (delta (sumn r).+1).
rewrite sp -qE in sb; have {}sb := sb (fun i => qprob_ge0 _ _ _) pd.
have T (i : 'I_m) : `|q * (phat B f_sum N pmf i * W' i) - wpath m U s E d (incr r i)| <=
   `|q * phat B f_sum N pmf i - qi i| + (path_error m delta (sumn r).+1 d + (d%:R * gm + eps) * qi i).
  have -> : q * (phat B f_sum N pmf i * W' i) - wpath m U s E d (incr r i) =
     (q * phat B f_sum N pmf i - qi i) * W' i + (qi i * W' i - wpath m U s E d (incr r i)) by ring.
  apply: le_trans (ler_norm_add _ _) _; apply: ler_add.
    by rewrite normrM (ger0_norm (W0 i)) -[X in _ <= X]mulr1; apply: ler_wpmul2l.
  by have [_ _] := HW i (ltn_ord i); rewrite /W' ltn_ord.
apply: le_trans (ler_norm_sum _ _ _) _; apply: le_trans (ler_sum _ (fun i _ => T i)) _.
rewrite !big_split /= -mulr_sumr -qE sumr_const card_ord -[_ *+ m]mulr_natl.
apply: le_trans (ler_add sb (lexx _)) _.
have -> : gam u N pmf = sel_error u N m by rewrite /gam /sel_error sp.
rewrite le_eqVlt; apply/orP; left; apply/eqP.
have -> : d.+1%:R = d%:R + 1 :> R by rewrite -addn1 natrD.
move: (sel_error _ _ _) (delta _) (path_error _ _ _ _) (m%:R : R) (d%:R : R) => a b c x y.
ring.
Qed.

End Gen.

(* k samples *)
Section Samples.
Variable R : rcfType.
Notation CF := (ComplexField.complex_numFieldType R).
Variables (m : nat) (U V : seq (seq CF)) (s : seq nat).
Hypotheses (uU : unitary_on m U s) (ss : size s = m).
Variables (occ : seq nat -> seq nat) (ext : seq nat -> nat -> seq nat) (meas : seq nat -> nat).
Variable (ok : seq nat -> Prop).
Hypothesis Hok : forall r j, ok r -> (j < m)%N -> ok (ext r j).
Hypothesis Hocc : forall r j, ok r -> (j < m)%N -> occ (ext r j) = incr (occ r) j.
Hypothesis Hsz : forall r, ok r -> size (occ r) = m.
Hypothesis Hmeas : forall r, ok r -> meas r = sumn (occ r).
Variables (u : R) (B : arith R) (f_sum : seq R -> R) (N : nat).
Hypothesis u0 : 0 <= u.
Hypothesis accB : accurate u B.
Hypothesis acc_sum : forall l, `|f_sum l - \sum_(x <- l) x| <= ((1 + u) ^+ size l - 1) * \sum_(x <- l) `|x|.
Hypothesis N0 : (0 < N)%N.
Hypothesis x4 : (1 + u) ^+ m.+1 - 1 <= 4%:R^-1.
Variable delta : nat -> R.
Notation inv := (finv m U V s occ ext ok delta).
Variable layer : gcc R -> res (gcc R).
Hypothesis Hlayer : forall g, inv g -> (meas (g_r g) < sumn s)%N ->
  exists pmf a', [/\ layer g = Ok (with_layer m ext g pmf a'), calc_matrix a' = V & good m U s occ delta (g_r g) pmf].
Variables (fuel : nat) (r0 : seq nat) (fill : gcc R -> rprog R (res (gcc R))) (out : gcc R -> res (seq nat)).
Hypothesis fu : (sumn s < fuel)%N.
Hypotheses (ok0 : ok r0) (occ0 : occ r0 = nseq m 0%N).
Hypothesis Hfill : forall g, inv (reset_sample r0 g) ->
  fill g = fgloop meas layer (fl_sample_from_latest_pmf B f_sum N) fuel (reset_sample r0 g).
Hypothesis Hout : forall g, inv g -> meas (g_r g) = sumn s -> out g = Ok (occ (g_r g)).

Notation D := (\sum_(i < sumn s) 2%:R * m%:R ^+ i.+1 * delta i.+1 + (sumn s)%:R * (2%:R * m%:R * sel_error u N m)).

Lemma reset_inv g : inv g -> inv (reset_sample r0 g).
Proof. by case=> *; split. Qed.

Lemma samples_exp k f g : (forall L, 0 <= f L <= 1) -> inv (reset_sample r0 g) ->
  exists v, [/\ has_exp (on_ok (fun z => f z.1)) (sample_loop fill out k g) v, 0 <= v <= 1
   & `|v - iid_exp (comps m (sumn s)) (bs_prob U s) k f| <= k%:R * D].
Proof.
elim: k f g => [|k IH] f g f01 I.
  exists (f [::]); split=> //; last by rewrite /= subrr normr0 mul0r.
  exact: (@ExpRet _ _ (on_ok _) (Ok ([::], g))).
pose E t := iid_exp (comps m (sumn s)) (bs_prob U s) k (fun L => f (t :: L)).
pose cont (g : gcc R) := draw! x := Ret (out g) in draw! y := sample_loop fill out k g in
  Ret (Ok (x :: y.1, y.2)) : rprog R (res (seq (seq nat) * gcc R)).
have Hcont g' : inv g' -> meas (g_r g') = sumn s -> exists v,
    [/\ has_exp (on_ok (fun z => f z.1)) (cont g') v, 0 <= v <= 1 & `|v - E (occ (g_r g'))| <= k%:R * D].
  move=> I' e; have [v [Hv v01 ve]] := IH (fun L => f (occ (g_r g') :: L)) g' (fun L => f01 _) (reset_inv I').
  exists v; split=> //; rewrite /cont (Hout I' e) /rpbind [pbind (Ret _) _]/=.
  apply: has_exp_bind Hv _; apply: always_true => [[y|e']] /=; by constructor.
have m0 : meas r0 = 0%N by rewrite Hmeas // occ0 sumn_nseq.
have [||v [Hv v01]] := fgloop_exp uU ss Hok Hocc Hsz Hmeas u0 accB acc_sum N0 x4 Hlayer
  (F := on_ok (fun z => f z.1)) (fun e => erefl) Hcont (n := fuel) I _ _.
- by rewrite /= m0.
- by rewrite /= m0 subn0.
have q1 : qprob U s (nseq m 0%N) = 1 by rewrite -[in LHS]ss qprob0.
rewrite /= m0 subn0 occ0 q1 mul1r mulr1 path_errorE => H.
exists v; split=> //; first by rewrite /= Hfill.
have Ew : wpath m U s E (sumn s) (nseq m 0%N) = iid_exp (comps m (sumn s)) (bs_prob U s) k.+1 f.
  have := @cond_exp_start R m U s ss E _ (leqnn (sumn s)); rewrite /cond_exp q1 divr1 => ->.
  by apply: eq_big_seq => t; rewrite mem_comps => /andP[_ /eqP et]; rewrite fixed_loss_full.
rewrite Ew in H; apply: le_trans H _; rewrite le_eqVlt; apply/orP; left; apply/eqP.
have -> : k.+1%:R = k%:R + 1 :> R by rewrite -addn1 natrD.
by rewrite [LHS]addrA -[LHS]/(D + k%:R * D) [RHS]mulrDl mul1r [LHS]addrC.
Qed.

End Samples.
