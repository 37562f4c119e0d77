(* The mathematics behind the samplers: layer probabilities, sums over paths,
   joint law of the sub-state and the partial output. *)
From mathcomp Require Import all_ssreflect all_fingroup all_algebra complex zify ring.
From Verif Require Import SpecStates Combi SpecPerm PermMath SpecBS BsMath BsComb BsNorm.
Set Implicit Arguments.
Unset Strict Implicit.
Unset Printing Implicit Defensive.
Import Order.TTheory GRing.Theory Num.Theory.
Local Open Scope ring_scope.

Section Samp.
Variable R : rcfType.
Notation C := R[i].
Implicit Types (U : seq (seq C)) (s t r T : seq nat).

(* unnormalised law of the ordered positions of the first sumn r particles *)
Definition qnum U s r : R :=
  \sum_(T <- subs s | sumn T == sumn r) (ways s T)%:R * (nsq (bs_permanent U T r) / (factprod T)%:R).
Definition qprob U s r : R := qnum U s r / (sumn s ^_ (sumn r))%:R.

Lemma qnum_ge0 U s r : 0 <= qnum U s r.
Proof. by rewrite sumr_ge0 // => T _; rewrite mulr_ge0 ?ler0n // divr_ge0 ?ler0n ?nsq_ge0. Qed.

Lemma qprob_ge0 U s r : 0 <= qprob U s r.
Proof. by rewrite divr_ge0 ?ler0n ?qnum_ge0. Qed.

Lemma qprob_fixed U s r : (sumn r <= sumn s)%N ->
  fixed_loss_prob U s r = qprob U s r * (sumn r)`!%:R / (factprod r)%:R.
Proof.
move=> le; rewrite /fixed_loss_prob /qprob /qnum.
have c0 : 'C(sumn s, sumn r)%:R != 0 :> R by rewrite pnatr_eq0 -lt0n bin_gt0.
have f0 : (sumn r)`!%:R != 0 :> R by rewrite pnatr_eq0 -lt0n fact_gt0.
rewrite -bin_ffact natrM invfM [X in _ = X * _ / _]mulrA mulfVK // [RHS]mulrAC.
congr (_ / _); rewrite mulr_suml; apply: eq_bigr => T _.
by rewrite /bs_prob natrM invfM !mulrA.
Qed.

Lemma qnum_step m U s r : unitary_on m U s -> size s = m -> size r = m -> (sumn r < sumn s)%N ->
  \sum_(j < m) qnum U s (incr r j) = (sumn s - sumn r)%:R * qnum U s r.
Proof.
move=> u ss sr lt; rewrite /qnum.
transitivity (\sum_(j < m) \sum_(T <- subs s | sumn T == (sumn r).+1)
    (ways s T)%:R * (nsq (bs_permanent U T (incr r j)) / (factprod T)%:R)).
  by apply: eq_bigr => j _; rewrite sumn_incr ?sr.
rewrite exchange_big /=.
transitivity (\sum_(T <- subs s | sumn T == (sumn r).+1) \sum_(i < size s) (nth 0%N T i)%:R * (ways s T)%:R *
   ((nth 0%N T i)%:R / (factprod T)%:R * nsq (bs_permanent U (decr T i) r))).
  rewrite big_seq_cond [RHS]big_seq_cond; apply: eq_bigr => T /andP[]; rewrite mem_subs => sT /eqP eT.
  rewrite -mulr_sumr -mulr_suml (marginal (unitary_on_substate u sT)) //.
  have /substateP[-> _] := sT; rewrite mulr_suml mulr_sumr; apply: eq_bigr => i _.
  by ring.
rewrite (ways_step s (sumn r) (fun i T => (nth 0%N T i)%:R / (factprod T)%:R * nsq (bs_permanent U (decr T i) r))).
rewrite mulr_sumr big_seq_cond [RHS]big_seq_cond; apply: eq_bigr => T /andP[]; rewrite mem_subs => sT /eqP eT.
have /substateP[szT lT] := sT.
transitivity (\sum_(i < size s) (nth 0%N s i - nth 0%N T i)%:R * ((ways s T)%:R * (nsq (bs_permanent U T r) / (factprod T)%:R))).
  apply: eq_bigr => i _; rewrite decr_incr ?szT // nth_incr eqxx factprod_incr ?szT //.
  have n0 : (nth 0%N T i).+1%:R != 0 :> R by rewrite pnatr_eq0.
  by rewrite natrM invfM mulVKf // -mulrA [_^-1 * _]mulrC.
by rewrite -mulr_suml -natr_sum sumn_subn // eT.
Qed.

Lemma qprob_step m U s r : unitary_on m U s -> size s = m -> size r = m -> (sumn r < sumn s)%N ->
  \sum_(j < m) qprob U s (incr r j) = qprob U s r.
Proof.
move=> u ss sr lt; rewrite /qprob.
transitivity (\sum_(j < m) qnum U s (incr r j) / (sumn s ^_ (sumn r).+1)%:R).
  by apply: eq_bigr => j _; rewrite sumn_incr ?sr.
have d0 : (sumn s - sumn r)%:R != 0 :> R by rewrite pnatr_eq0 subn_eq0 -ltnNge.
by rewrite -mulr_suml (qnum_step u) // ffactnSr natrM invfM mulrAC [_^-1 * _]mulrC mulVKf // mulrC.
Qed.

Lemma qprob0 U s : qprob U s (nseq (size s) 0%N) = 1.
Proof.
rewrite /qprob /qnum sumn_nseq mul0n ffactn0 divr1 -big_filter subs0 big_seq1 ways0 mul1r.
rewrite bs_permanent_vac ?sumn_nseq // nsq1 /factprod big1_seq ?divr1 // => x /andP[_].
by rewrite mem_nseq => /andP[_ /eqP ->].
Qed.

(* ------------------------------------------------------------------ *)
(* sums over all ways of adding d particles one after another *)
Fixpoint path_sum (m d : nat) (g : seq nat -> R) (r : seq nat) : R :=
  if d is d'.+1 then \sum_(j < m) path_sum m d' g (incr r j) else g r.

Lemma path_sum_shift m d k g :
  k.+1%:R * (\sum_(t <- comps m k.+1) path_sum m d g t / (factprod t)%:R) =
  \sum_(r <- comps m k) path_sum m d.+1 g r / (factprod r)%:R.
Proof. exact: comps_step. Qed.

Lemma path_sum_all m d g :
  path_sum m d g (nseq m 0%N) = d`!%:R * (\sum_(t <- comps m d) g t / (factprod t)%:R).
Proof.
have H k : (k <= d)%N -> path_sum m d g (nseq m 0%N) =
    k`!%:R * (\sum_(t <- comps m k) path_sum m (d - k) g t / (factprod t)%:R).
  elim: k => [_|k IH kd].
    rewrite comps_zero big_seq1 subn0 mul1r /factprod big1_seq ?divr1 // => x /andP[_].
    by rewrite mem_nseq => /andP[_ /eqP ->].
  by rewrite IH ?(ltnW kd) // -(subnSK kd) -path_sum_shift factS natrM mulrA [k`!%:R * _]mulrC.
by rewrite (H d) // subnn.
Qed.

(* ------------------------------------------------------------------ *)
(* version A: expectation of f after adding d particles to r *)
Section VersionA.
Variables (m : nat) (U : seq (seq C)) (s : seq nat).
Hypotheses (u : unitary_on m U s) (ss : size s = m).

Definition wpath f d r := path_sum m d (fun t => f t * qprob U s t) r.
Definition cond_exp f d r : R := wpath f d r / qprob U s r.

Lemma wpath0 f d r : size r = m -> (sumn r + d <= sumn s)%N -> qprob U s r = 0 -> wpath f d r = 0.
Proof.
rewrite /wpath; elim: d r => [|d IH] r sr le q0 /=; first by rewrite q0 mulr0.
have lt : (sumn r < sumn s)%N by apply: leq_trans le; rewrite addnS ltnS leq_addr.
have := qprob_step u ss sr lt; rewrite q0 => /eqP; rewrite psumr_eq0 => [/allP h|j _]; last exact: qprob_ge0.
rewrite big1 // => j _; apply: IH; first by rewrite size_incr ?sr.
  by rewrite sumn_incr ?sr // addSnnS.
by have := h j; rewrite mem_index_enum => /(_ isT) /= /eqP.
Qed.

Lemma cond_exp0 f r : qprob U s r != 0 -> cond_exp f 0 r = f r.
Proof. by move=> q0; rewrite /cond_exp /wpath /= mulfK. Qed.

Lemma cond_expS f d r : size r = m -> (sumn r + d < sumn s)%N ->
  \sum_(j < m) qprob U s (incr r j) / qprob U s r * cond_exp f d (incr r j) = cond_exp f d.+1 r.
Proof.
move=> sr lt; rewrite /cond_exp {2}/wpath /= mulr_suml; apply: eq_bigr => j _.
have [e|ne] := eqVneq (qprob U s (incr r j)) 0.
  rewrite e !mul0r -/(wpath f d (incr r j)) wpath0 ?mul0r //; first by rewrite size_incr ?sr.
  by rewrite sumn_incr ?sr // addSn.
by rewrite mulrC -mulrA mulKf.
Qed.

Lemma cond_exp_start f d : (d <= sumn s)%N ->
  cond_exp f d (nseq m 0%N) = \sum_(t <- comps m d) fixed_loss_prob U s t * f t.
Proof.
move=> le; rewrite /cond_exp -{2}ss qprob0 divr1 /wpath path_sum_all mulr_sumr.
apply: eq_big_seq => t; rewrite mem_comps => /andP[_ /eqP e].
rewrite qprob_fixed ?e //; ring.
Qed.

(* every further particle is kept with probability eta *)
Lemma binomial_mix (eta : R) i (P : nat -> R) :
  \sum_(l < i.+2) binomial_weight i.+1 eta l * P l =
  (1 - eta) * (\sum_(l < i.+1) binomial_weight i eta l * P l)
  + eta * (\sum_(l < i.+1) binomial_weight i eta l * P l.+1).
Proof.
rewrite big_ord_recl [X in _ = _ * X + _]big_ord_recl.
rewrite [X in _ = _ + eta * X]big_ord_recr [X in _ + X = _]big_ord_recr /=.
rewrite /bump /= !(mulrDr, mulr_sumr) /binomial_weight !bin0 !binn !subn0 !subnn !expr0.
rewrite [RHS]addrACA -!addrA; congr (_ + _); first by rewrite exprS; ring.
rewrite [RHS]addrA -big_split /=; congr (_ + _); last by rewrite add1n exprS; ring.
apply: eq_bigr => l _; rewrite !add1n binS natrD subSS.
have -> : (i - l = (i - l.+1).+1)%N by have := ltn_ord l; lia.
by rewrite !exprS; ring.
Qed.

Definition mix_exp (eta : R) f i r : R :=
  \sum_(l < i.+1) binomial_weight i eta l * cond_exp f l r.

Lemma mix_exp0 eta f r : qprob U s r != 0 -> mix_exp eta f 0 r = f r.
Proof.
by move=> q0; rewrite /mix_exp big_ord_recl big_ord0 addr0 /binomial_weight bin0 !expr0 !mul1r cond_exp0.
Qed.

Lemma mix_expS eta f i r : size r = m -> (sumn r + i < sumn s)%N ->
  (1 - eta) * mix_exp eta f i r +
  eta * (\sum_(j < m) qprob U s (incr r j) / qprob U s r * mix_exp eta f i (incr r j)) =
  mix_exp eta f i.+1 r.
Proof.
move=> sr lt; rewrite /mix_exp (binomial_mix eta i (fun l => cond_exp f l r)); congr (_ + _ * _).
under eq_bigr do rewrite mulr_sumr.
rewrite exchange_big /=; apply: eq_bigr => l _.
rewrite -cond_expS //; last by have := ltn_ord l; lia.
by rewrite mulr_sumr; apply: eq_bigr => j _; rewrite mulrCA.
Qed.

Lemma mix_exp_start eta f : mix_exp eta f (sumn s) (nseq m 0%N) =
  \sum_(l < (sumn s).+1) \sum_(t <- comps m l) uniform_loss_prob U s eta t * f t.
Proof.
rewrite /mix_exp; apply: eq_bigr => l _; rewrite cond_exp_start; last by rewrite -ltnS.
rewrite mulr_sumr.
apply: eq_big_seq => t; rewrite mem_comps => /andP[_ /eqP e].
by rewrite /uniform_loss_prob e mulrA.
Qed.

(* ---------------------------------------------------------------- *)
(* version B: the sub-state T of the input and the partial output r grow
   together *)
Definition tot T r : R := \sum_(j < m) nsq (bs_permanent U T (incr r j)).

Fixpoint bexp (f : seq nat -> R) (d : nat) (T r : seq nat) : R :=
  if d is d'.+1 then
    \sum_(i < m) (nth 0%N s i - nth 0%N T i)%:R / (sumn s - sumn T)%:R *
      (\sum_(j < m) nsq (bs_permanent U (incr T i) (incr r j)) / tot (incr T i) r *
         bexp f d' (incr T i) (incr r j))
  else f r.

Definition avg k (F : seq nat -> seq nat -> R) : R :=
  (\sum_(r <- comps m k) (\sum_(T <- subs s | sumn T == k)
     (ways s T)%:R * (nsq (bs_permanent U T r) / (factprod T)%:R * F T r)) / (factprod r)%:R)
  / 'C(sumn s, k)%:R.

Lemma avg_step f d k : (k < sumn s)%N -> avg k (bexp f d.+1) = avg k.+1 (bexp f d).
Proof.
move=> kn; rewrite /avg.
have c0 : 'C(sumn s, k)%:R != 0 :> R by rewrite pnatr_eq0 -lt0n bin_gt0 ltnW.
have c1 : 'C(sumn s, k.+1)%:R != 0 :> R by rewrite pnatr_eq0 -lt0n bin_gt0.
have k0 : k.+1%:R != 0 :> R by rewrite pnatr_eq0.
have d0 : (sumn s - k)%:R != 0 :> R by rewrite pnatr_eq0 subn_eq0 -ltnNge.
have eC : k.+1%:R * 'C(sumn s, k.+1)%:R = (sumn s - k)%:R * 'C(sumn s, k)%:R :> R.
  by rewrite -!natrM mul_bin_left.
apply: (mulIf c1); rewrite divfK //; apply: (mulfI k0).
rewrite mulrCA eC [X in _ * X]mulrC mulrA divfK // [LHS]mulrC comps_step mulr_sumr.
apply: eq_big_seq => r; rewrite mem_comps => /andP[/eqP sr /eqP er].
rewrite mulrA; congr (_ / _).
pose N T := \sum_(j < m) nsq (bs_permanent U T (incr r j)) * bexp f d T (incr r j).
pose G i T := (nth 0%N T i)%:R / (factprod T)%:R * nsq (bs_permanent U (decr T i) r) * (N T / tot T r).
transitivity (\sum_(T <- subs s | sumn T == k) \sum_(i < size s)
    (nth 0%N s i - nth 0%N T i)%:R * (ways s T)%:R * G i (incr T i)).
  rewrite mulr_sumr big_seq_cond [RHS]big_seq_cond; apply: eq_bigr => T /andP[]; rewrite mem_subs => sT /eqP eT.
  have /substateP[szT lT] := sT.
  rewrite /= eT ss !mulr_sumr; apply: eq_bigr => i _.
  rewrite /G decr_incr ?szT ?ss // nth_incr eqxx factprod_incr ?szT ?ss //.
  have n0 : (nth 0%N T i).+1%:R != 0 :> R by rewrite pnatr_eq0.
  rewrite natrM invfM mulVKf //.
  have -> : \sum_(j < m) nsq (bs_permanent U (incr T i) (incr r j)) / tot (incr T i) r *
     bexp f d (incr T i) (incr r j) = N (incr T i) / tot (incr T i) r.
    by rewrite /N mulr_suml; apply: eq_bigr => j _; rewrite mulrAC.
  move: (N _ / _) => X; rewrite [nsq _ / _ * _]mulrCA [_ / _ * X]mulrAC.
  rewrite mulrCA [X in _ * X = _]mulrA [_ * (_ / (sumn s - k)%:R)]mulrC divfK //.
  by move: (_^-1) => Y; ring.
rewrite -(ways_step s k G).
transitivity (\sum_(T <- subs s | sumn T == k.+1) (ways s T)%:R * (N T / (factprod T)%:R)).
  rewrite big_seq_cond [RHS]big_seq_cond; apply: eq_bigr => T /andP[]; rewrite mem_subs => sT /eqP eT.
  have /substateP[szT lT] := sT.
  have tE : tot T r = \sum_(i < size T) (nth 0%N T i)%:R ^+ 2 * nsq (bs_permanent U (decr T i) r).
    by apply: marginal => //; [exact: unitary_on_substate u sT|rewrite eT er].
  transitivity ((ways s T)%:R * (factprod T)%:R^-1 * (N T / tot T r) * tot T r).
    rewrite [X in _ = _ * X]tE szT mulr_sumr; apply: eq_bigr => i _; rewrite /G; ring.
  have [t0|t0] := eqVneq (tot T r) 0; last by rewrite -mulrA divfK // mulrAC mulrA.
  have -> : N T = 0; last by rewrite t0 !mul0r !mulr0.
  rewrite /N big1 // => j _; move/eqP: t0; rewrite psumr_eq0 => [/allP h|j' _]; last exact: nsq_ge0.
  by have := h j; rewrite mem_index_enum => /(_ isT) /= /eqP ->; rewrite mul0r.
rewrite exchange_big /=; apply: eq_bigr => T _.
by rewrite /N mulr_suml mulr_sumr; apply: eq_bigr => j _; rewrite mulrAC.
Qed.

Lemma bexp_start f d : (d <= sumn s)%N ->
  bexp f d (nseq m 0%N) (nseq m 0%N) = \sum_(t <- comps m d) fixed_loss_prob U s t * f t.
Proof.
move=> le.
have f0 : factprod (nseq m 0%N) = 1%N.
  by rewrite /factprod big1_seq // => x /andP[_]; rewrite mem_nseq => /andP[_ /eqP ->].
have -> : bexp f d (nseq m 0%N) (nseq m 0%N) = avg 0 (bexp f d).
  rewrite /avg comps_zero big_seq1 -big_filter subs0 big_seq1 ways0 ss f0 bin0 !divr1 mul1r.
  by rewrite bs_permanent_vac ?sumn_nseq // nsq1 mul1r.
have H k : (k <= d)%N -> avg 0 (bexp f d) = avg k (bexp f (d - k)).
  elim: k => [_|k IH kd]; first by rewrite subn0.
  by rewrite IH ?(ltnW kd) // -(subnSK kd) avg_step // (leq_trans kd).
rewrite (H d) // subnn /avg mulr_suml; apply: eq_big_seq => t; rewrite mem_comps => /andP[_ /eqP e].
rewrite /fixed_loss_prob e !mulr_suml; apply: eq_bigr => T _.
rewrite /bs_prob natrM invfM -[bexp f 0 T t]/(f t).
by move: (_^-1) (_^-1) (_^-1) => X Y Z; ring.
Qed.

End VersionA.
End Samp.
