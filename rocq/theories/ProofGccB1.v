(* Version B of the generalized Clifford & Clifford sampler. *)
From mathcomp Require Import all_ssreflect all_algebra complex.
From mathcomp Require Import ring zify.
From Verif Require Import Base SpecStates Combi SpecPerm PermMath SpecBS BsMath BsComb BsNorm.
From Verif Require Import ModelStates ProofStates1 LemStates ModelPerm ProofPerm6 LemPerm ModelDist ProofDist1.
From Verif Require Import SpecProb ProbMath ModelGcc ModelGccB SampMath ProofSel ProofGcc1 ProofGcc2 ProofGcc3.
Set Implicit Arguments.
Unset Strict Implicit.
Unset Printing Implicit Defensive.
Import Order.TTheory GRing.Theory Num.Theory.
Local Open Scope ring_scope.
Local Open Scope py_scope.

Lemma sum_count (R : realFieldType) m (w : seq nat) (F : nat -> R) : all (fun i => i < m)%N w ->
  \sum_(i < size w) F (nth 0%N w i) = \sum_(i < m) (count_mem (nat_of_ord i) w)%:R * F i.
Proof.
rewrite -(big_mkord xpredT (fun i => F (nth 0%N w i))) -(big_nth 0%N xpredT F).
elim: w => [|x w IH] /= => [_|/andP[xm al]]; first by rewrite big_nil big1 // => i _; rewrite mul0r.
rewrite big_cons IH // [RHS](eq_bigr (fun i : 'I_m => (x == i)%:R * F i + (count_mem (nat_of_ord i) w)%:R * F i)).
  rewrite big_split /=; congr (_ + _).
  rewrite (bigD1 (Ordinal xm)) //= eqxx mul1r big1 ?addr0 // => i ne.
  have -> : (x == i) = false by apply: contraNF ne => /eqP e; apply/eqP/val_inj.
  by rewrite mul0r.
by move=> i _; rewrite natrD mulrDl.
Qed.

Section B.
Variable R : rcfType.
Notation CF := (ComplexField.complex_numFieldType R).
Variables (fuel m : nat) (U : seq (seq CF)) (s : seq nat).
Hypotheses (u : unitary_on m U s) (ss : size s = m).
Hypothesis fu : (\prod_(x <- s) x.+1 <= fuel)%N.

Definition pmf_b T r : seq R := [seq nsq (bs_permanent U T (incr r j)) / tot m U T r | j <- iota 0 m].

Lemma compute_pmfE (b : gccb R) : calc_matrix (b_calc b) = U -> substate (b_current b) s ->
  size (b_r b) = m -> sumn (b_current b) = (sumn (b_r b)).+1 ->
  compute_pmf fuel b = Ok (GccB (b_r b) (b_n b) (set_input (b_current b) (b_calc b)) (b_input b)
     (b_current b) (b_working b) (pmf_b (b_current b) (b_r b))).
Proof using u ss fu.
move=> eU sT sr e; rewrite /compute_pmf eU.
set T := b_current b in sT e *; set r := b_r b in sr e *.
have /substateP[szT _] := sT.
have := @C19_ryser_sub_permanents_lemma CF m U T r (new_subcalc U T r) fuel u.1.
rewrite szT ss sr => /(_ erefl (leqnn m) e erefl erefl erefl (leq_trans (prod_subs sT) fu)).
move=> [c' [-> _ _ _]]; rewrite [rbind (Ok _) _]/=.
have A : rmapM (fun j =>
    let! perm := rfoldl (fun perm i =>
      let! x := py_get T (Posz i) in
      let! q := py_get (sub_permanents U T r) (Posz i) in
      let! row := py_get U (Posz j) in
      let! z := py_get row (Posz i) in
      Ok (perm + x%:R * q * z)) 0 (iota 0 m) in
    Ok (py_abs perm ^+ 2)) (iota 0 m) = Ok [seq nsq (bs_permanent U T (incr r j)) | j <- iota 0 m].
  apply: rmapM_ok => j; rewrite mem_iota add0n => /= jm.
  have /andP[/eqP szU /all_nthP rowU] := u.1.
  have B k : (k <= m)%N -> rfoldl (fun perm i =>
      let! x := py_get T (Posz i) in
      let! q := py_get (sub_permanents U T r) (Posz i) in
      let! row := py_get U (Posz j) in
      let! z := py_get row (Posz i) in
      Ok (perm + x%:R * q * z)) 0 (iota 0 k) =
      Ok (\sum_(i < k) (nth 0%N T i)%:R * ent U j i * bs_permanent U (decr T i) r).
    elim: k => [|k IH] kl; first by rewrite big_ord0.
    rewrite -[k.+1]addn1 iotaD rfoldl_cat IH ?(ltnW kl) // add0n addn1 big_ord_recr [rbind (Ok _) _]/=.
    rewrite (py_get_nth 0%N) ?szT ?ss // [rbind (Ok _) _]/=.
    rewrite (py_get_nth 0) ?size_map ?size_iota ?szT ?ss // [rbind (Ok _) _]/=.
    rewrite (py_get_nth [::]) ?szU // [rbind (Ok _) _]/=.
    rewrite (py_get_nth 0); last by rewrite (eqP (rowU [::] j _)) ?szU.
    rewrite /= /sub_permanents (nth_map 0%N) ?size_iota ?szT ?ss // nth_iota ?szT ?ss // add0n.
    rewrite /one_less -decrE /ent; congr (Ok (_ + _)).
    case: eqP => [->|_]; first by rewrite !mul0r.
    by rewrite mulrAC.
  rewrite B // [rbind (Ok _) _]/= py_abs_sq; congr (Ok (nsq _)).
  by rewrite bs_permanent_incr ?sr // szT ss.
rewrite A [rbind (Ok _) _]/=; congr (Ok (GccB _ _ _ _ _ _ _)).
rewrite /pmf_b -map_comp; apply: eq_map => j /=; congr (_ / _).
by rewrite py_sumE big_map /tot -[X in iota _ X]subn0 -/(index_iota _ _) big_mkord.
Qed.

Record binv (b : gccb R) : Prop := BInv {
  bi_in : b_input b = s;
  bi_mat : calc_matrix (b_calc b) = U;
  bi_sub : substate (b_current b) s;
  bi_r : size (b_r b) = m;
  bi_sum : sumn (b_current b) = sumn (b_r b);
  bi_all : all (fun i => i < m)%N (b_working b);
  bi_work : forall i, (i < m)%N -> count_mem i (b_working b) = (nth 0 s i - nth 0 (b_current b) i)%N;
  bi_pos : nsq (bs_permanent U (b_current b) (b_r b)) != 0
}.

Lemma size_working b : binv b -> size (b_working b) = (sumn s - sumn (b_current b))%N.
Proof using ss.
move=> I; rewrite -(sumn_subn (bi_sub I)) ss.
have := sum_count (fun=> 1 : R) (bi_all I); rewrite sumr_const card_ord.
move=> H; apply/eqP; rewrite -(eqr_nat R) natr_sum -mulr_natr mul1r in H *; rewrite H.
by apply/eqP; apply: eq_bigr => i _; rewrite mulr1 (bi_work I).
Qed.

Lemma tot_gt0 T r i : unitary_on m U s -> substate (incr T i) s -> size T = m -> (i < m)%N -> size r = m ->
  sumn T = sumn r -> nsq (bs_permanent U T r) != 0 -> 0 < tot m U (incr T i) r.
Proof.
move=> uu sT szT im sr e p0; rewrite /tot (marginal (unitary_on_substate uu sT)) //; last by rewrite sumn_incr ?szT // e.
rewrite size_incr ?szT // (bigD1 (Ordinal im)) //= decr_incr ?szT // nth_incr eqxx.
rewrite ltr_paddr ?sumr_ge0 // => [k _|]; first by rewrite mulr_ge0 ?exprn_ge0 ?ler0n ?nsq_ge0.
by rewrite mulr_gt0 ?exprn_gt0 ?ltr0Sn // lt_def p0 nsq_ge0.
Qed.

Lemma pmf_distr T r : 0 < tot m U T r -> is_distr (pmf_b T r).
Proof.
move=> t0; split; first by apply/allP => x /mapP[j _ ->] /=; rewrite divr_ge0 ?nsq_ge0 // ltW.
rewrite big_map -mulr_suml -[X in iota _ X]subn0 -/(index_iota _ _) big_mkord -/(tot m U T r).
by rewrite divff // gt_eqF.
Qed.

Lemma size_pmf_b T r : size (pmf_b T r) = m. Proof. by rewrite size_map size_iota. Qed.
Lemma nth_pmf_b T r j : (j < m)%N -> (pmf_b T r)`_j = nsq (bs_permanent U T (incr r j)) / tot m U T r.
Proof. by move=> jm; rewrite (nth_map 0%N) ?size_iota // nth_iota. Qed.

Lemma incr_atE r j : (j < size r)%N -> incr_at r (Posz j) = Ok (incr r j).
Proof. by move=> jl; rewrite /incr_at (py_get_nth 0%N) //= (py_set_nth 0%N) // incrE. Qed.

(* the object after one round with choices i (position in the working list) and j *)
Definition pop_rest (w : seq nat) i := take i w ++ drop i.+1 w.
Definition b_moved (b : gccb R) i j :=
  let T := incr (b_current b) (nth 0%N (b_working b) i) in
  GccB (incr (b_r b) j) (b_n b) (set_input T (b_calc b)) (b_input b) T (pop_rest (b_working b) i)
    (pmf_b T (b_r b)).

Lemma b_substate b i : binv b -> (i < size (b_working b))%N ->
  substate (incr (b_current b) (nth 0%N (b_working b) i)) s /\ (nth 0%N (b_working b) i < m)%N.
Proof using ss.
move=> I il; have wm : (nth 0%N (b_working b) i < m)%N by apply: (allP (bi_all I)); rewrite mem_nth.
split=> //; have /substateP[sz l] := bi_sub I; apply/substateP; rewrite size_incr ?sz ?ss //; split=> // k.
rewrite nth_incr; case: eqP => [->|_] //.
by rewrite -subn_gt0 -(bi_work I) // -has_count has_pred1 mem_nth.
Qed.

Lemma count_rest w i x : (i < size w)%N -> count_mem x (pop_rest w i) = (count_mem x w - (nth 0%N w i == x))%N.
Proof.
move=> il; rewrite /pop_rest -{3}(cat_take_drop i w) (drop_nth 0%N il) !count_cat /=.
by rewrite addnCA addKn.
Qed.

Lemma moved_b b i j : binv b -> (i < size (b_working b))%N -> (j < m)%N ->
  0 < (pmf_b (incr (b_current b) (nth 0%N (b_working b) i)) (b_r b))`_j ->
  binv (b_moved b i j).
Proof using ss.
move=> I il jm p0; have [sT wm] := b_substate I il.
have /substateP[sz l] := bi_sub I.
split=> //=.
- exact: bi_in I.
- by rewrite -(bi_mat I); case: (b_calc b).
- by rewrite size_incr (bi_r I).
- by rewrite !sumn_incr ?sz ?ss ?(bi_r I) // (bi_sum I).
- apply/allP => x; rewrite mem_cat => /orP[] /(@mem_subseq _ _ _ _); move/allP: (bi_all I) => al.
    by move=> h; apply: al; apply: h; exact: take_subseq.
  by move=> h; apply: al; apply: h; exact: drop_subseq.
- move=> k km; rewrite count_rest // nth_incr (bi_work I) // [_ == k]eq_sym; case: eqP => [->|_]; last by rewrite subn0.
  by rewrite subn1 subnS.
- by move: p0; rewrite nth_pmf_b //; apply: contraTneq => ->; rewrite mul0r ltxx.
Qed.

Definition b_popped (b : gccb R) i : res (gccb R) :=
  let! xw := py_pop (b_working b) i in
  let! cur := incr_at (b_current b) (Posz xw.1) in
  Ok (GccB (b_r b) (b_n b) (b_calc b) (b_input b) cur xw.2 (b_pmf b)).
Definition b_tail (A : Type) (k : gccb R -> rprog R (res A)) (b : gccb R) : rprog R (res A) :=
  draw! b := Ret (compute_pmf fuel b) in
  draw! b := sample_from_pmf b in k b.

Lemma round_shape (A : Type) (b : gccb R) i (k : gccb R -> rprog R (res A)) : binv b -> (i < size (b_working b))%N ->
  let w := pmf_b (incr (b_current b) (nth 0%N (b_working b) i)) (b_r b) in
  is_distr w /\ exists q : R -> rprog R (res A),
  rpbind (Ret (b_popped b i)) (b_tail k) = Unif q /\
  forall x : R, 0 <= x < 1 -> let j := find (fun c => x < c) (choice_cdf w) in (j < m)%N ->
    q x = k (b_moved b i j).
Proof using u ss fu.
move=> I il; have [sT wm] := b_substate I il; have /substateP[sz l] := bi_sub I.
have dw : is_distr (pmf_b (incr (b_current b) (nth 0%N (b_working b) i)) (b_r b)).
  by apply: pmf_distr; apply: tot_gt0 => //; [rewrite sz|exact: bi_r I|exact: bi_sum I|exact: bi_pos I].
split=> //.
have -> : b_popped b i = Ok (GccB (b_r b) (b_n b) (b_calc b) (b_input b)
    (incr (b_current b) (nth 0%N (b_working b) i)) (pop_rest (b_working b) i) (b_pmf b)).
  rewrite /b_popped /py_pop (py_get_nth 0%N) // /=.
  by have := @incr_atE (b_current b) (nth 0%N (b_working b) i); rewrite sz ss => /(_ wm) ->.
rewrite /b_tail /rpbind /= compute_pmfE //=; first last.
- by rewrite sumn_incr ?sz ?ss // (bi_sum I).
- exact: bi_r I.
- exact: bi_mat I.
rewrite /sample_from_pmf /= size_pmf_b (bi_in I) ss eqxx /= np_choiceE // /rpbind /=.
eexists; split; first by [].
by move=> x x01 lt /=; rewrite incr_atE ?(bi_r I) // /b_moved (bi_in I).
Qed.

Lemma round_exp (A : Type) (b : gccb R) i (k : gccb R -> rprog R (res A)) f val : binv b -> (i < size (b_working b))%N ->
  let T := incr (b_current b) (nth 0%N (b_working b) i) in
  (forall j, (j < m)%N -> binv (b_moved b i j) -> has_exp f (k (b_moved b i j)) (val j)) ->
  has_exp f (rpbind (Ret (b_popped b i)) (b_tail k))
    (\sum_(j < m) nsq (bs_permanent U T (incr (b_r b) j)) / tot m U T (b_r b) * val j).
Proof using u ss fu.
move=> I il T h; have [dw [q [-> qE]]] := round_shape k I il.
apply: has_exp_eq (@has_exp_choice _ _ f _ q val dw _) _.
  move=> j x; rewrite size_pmf_b => jm p0 x01 e; rewrite qE ?e //; apply: h => //.
  exact: moved_b.
by rewrite size_pmf_b; apply: eq_bigr => j _; rewrite nth_pmf_b.
Qed.

Lemma round_always (A : Type) (b : gccb R) i (k : gccb R -> rprog R (res A)) P : binv b -> (i < size (b_working b))%N ->
  (forall j, (j < m)%N -> binv (b_moved b i j) -> always P (k (b_moved b i j))) ->
  always P (rpbind (Ret (b_popped b i)) (b_tail k)).
Proof using u ss fu.
move=> I il h; have [dw [q [-> qE]]] := round_shape k I il => /= x x01.
have [lt p0] := search_pos1 dw x01; rewrite -choice_findE // size_pmf_b in lt p0.
by rewrite qE //; apply: h => //; exact: moved_b.
Qed.

Lemma b_fill_loopE n target (b : gccb R) : b_fill_loop fuel n.+1 target b =
  if (sumn (b_r b) < target)%N then
    rpbind (update_current_input b) (b_tail (b_fill_loop fuel n target))
  else Ret (Ok b).
Proof. by []. Qed.

Lemma b_fill_exp f n target b : binv b -> (target <= sumn s)%N -> (sumn (b_r b) <= target)%N ->
  (target - sumn (b_r b) < n)%N ->
  has_exp (on_ok (fun b => f (b_r b))) (b_fill_loop fuel n target b)
    (bexp m U s f (target - sumn (b_r b)) (b_current b) (b_r b)).
Proof using u ss fu.
elim: n b => [//|n IH] b I ts le ln; rewrite b_fill_loopE; case: ltnP => lt; last first.
  have -> : (target - sumn (b_r b) = 0)%N by lia.
  by constructor.
have sw := size_working I; rewrite (bi_sum I) in sw.
have w0 : (0 < size (b_working b))%N by rewrite sw subn_gt0; apply: leq_trans lt ts.
rewrite /update_current_input; case E: (b_working b) w0 sw => [//|x0 w'] w0 sw; rewrite -E in w0 sw *.
rewrite {1}/rpbind [pbind (Int _ _) _]/= -(subnSK lt).
pose val i := \sum_(j < m) nsq (bs_permanent U (incr (b_current b) i) (incr (b_r b) j))
   / tot m U (incr (b_current b) i) (b_r b) *
   bexp m U s f (target - (sumn (b_r b)).+1) (incr (b_current b) i) (incr (b_r b) j).
apply: has_exp_eq (@ExpInt _ _ _ _ _ (fun i => val (nth 0%N (b_working b) i)) w0 _) _.
  move=> i il.
  have := @round_exp _ b i (b_fill_loop fuel n target) (on_ok (fun b => f (b_r b)))
    (fun j => bexp m U s f (target - (sumn (b_r b)).+1) (incr (b_current b) (nth 0%N (b_working b) i)) (incr (b_r b) j)) I il.
  apply=> j jm I'.
  by have := IH _ I' ts; rewrite /= sumn_incr ?(bi_r I) //; apply; lia.
rewrite (sum_count val (bi_all I)) /= mulr_suml; apply: eq_bigr => i _.
by rewrite (bi_work I) // sw (bi_sum I) mulrAC.
Qed.

Lemma b_fill_always n target b : binv b -> (target <= sumn s)%N -> (sumn (b_r b) <= target)%N ->
  (target - sumn (b_r b) < n)%N ->
  always (fun x => exists b', [/\ x = Ok b', binv b' & sumn (b_r b') = target]) (b_fill_loop fuel n target b).
Proof using u ss fu.
elim: n b => [//|n IH] b I ts le ln; rewrite b_fill_loopE; case: ltnP => lt; last first.
  by exists b; split=> //; apply/eqP; rewrite eqn_leq le.
have sw := size_working I; rewrite (bi_sum I) in sw.
have w0 : (0 < size (b_working b))%N by rewrite sw subn_gt0; apply: leq_trans lt ts.
rewrite /update_current_input; case E: (b_working b) w0 sw => [//|x0 w'] w0 sw; rewrite -E in w0 sw *.
move=> /= i il; apply: (round_always (k := b_fill_loop fuel n target)) => // j jm I'.
by apply: IH => //; rewrite /= sumn_incr ?(bi_r I) //; lia.
Qed.

(* start of a sample *)
Lemma reset_b b : b_input b = s -> calc_matrix (b_calc b) = U -> binv (b_reset b).
Proof using ss.
move=> ei ea.
split=> //=; rewrite ?ei ?size_nseq //.
- apply/substateP; rewrite size_nseq; split=> // i; rewrite nth_nseq; by case: ifP.
- apply/allP => i iw; rewrite ltnNge; apply/negP => mi.
  by move: iw; rewrite -has_pred1 has_count occ_assign_count nth_default ?ss.
- by move=> i im; rewrite occ_assign_count nth_nseq ss im subn0.
- by rewrite bs_permanent_vac ?sumn_nseq // nsq1 oner_eq0.
Qed.
End B.
