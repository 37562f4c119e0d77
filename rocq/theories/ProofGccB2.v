(* Version B, without and with uniform losses: the whole simulation. *)
From mathcomp Require Import all_ssreflect all_algebra complex.
From mathcomp Require Import ring zify.
From Verif Require Import Base SpecStates Combi SpecPerm PermMath SpecBS BsMath BsComb BsNorm.
From Verif Require Import ModelStates ProofStates1 LemStates ModelPerm ProofPerm6 LemPerm ModelDist ProofDist1.
From Verif Require Import SpecProb ProbMath ModelGcc ModelGccB SampMath ProofSel ProofGcc1 ProofGcc2 ProofGcc3 ProofGccB1.
Set Implicit Arguments.
Unset Strict Implicit.
Unset Printing Implicit Defensive.
Import Order.TTheory GRing.Theory Num.Theory.
Local Open Scope ring_scope.
Local Open Scope py_scope.

(* outputs with at most n particles *)
Definition lcomps m n := flatten [seq comps m l | l <- iota 0 n.+1].

Lemma mem_lcomps m n t : (t \in lcomps m n) = (size t == m) && (sumn t <= n)%N.
Proof.
apply/flatten_mapP/andP => [[l]|[sz le]].
  by rewrite mem_iota add0n /= mem_comps => ln /andP[-> /eqP ->].
exists (sumn t); first by rewrite mem_iota add0n.
by rewrite mem_comps /is_state sz eqxx.
Qed.

Lemma lcomps_uniq m n : uniq (lcomps m n).
Proof.
rewrite /lcomps; elim: {1}n.+1 {1}0%N => [//|k IH] a /=; rewrite cat_uniq comps_uniq IH andbT.
apply/hasPn => t /flatten_mapP[l]; rewrite mem_iota mem_comps => la /andP[_ /eqP e].
by apply/negP; rewrite /= mem_comps /is_state e => /andP[_ /eqP el]; move: la; rewrite el ltnn.
Qed.

Lemma big_lcomps (V : zmodType) m n (F : seq nat -> V) :
  \sum_(t <- lcomps m n) F t = \sum_(l < n.+1) \sum_(t <- comps m l) F t.
Proof.
rewrite /lcomps big_flatten big_map -[X in iota _ X](subn0 n.+1) -/(index_iota _ _) big_mkord.
by [].
Qed.

Lemma iid_exp_perm (R : realFieldType) (T : eqType) (S S' : seq T) (P : T -> R) k g : perm_eq S S' ->
  iid_exp S P k g = iid_exp S' P k g.
Proof.
move=> pe; elim: k g => [//|k IH] g /=; rewrite (perm_big _ pe); apply: eq_bigr => t _.
by rewrite IH.
Qed.

Lemma iid_exp_zero (R : realFieldType) (T : eqType) (S : seq T) (P : T -> R) k : iid_exp S P k (fun=> 0) = 0.
Proof. by elim: k => [|k IHk] //=; rewrite big1 // => y _; rewrite IHk mulr0. Qed.

Lemma iid_exp_miss (R : realFieldType) (T : eqType) (S : seq T) (P : T -> R) k L :
  ~~ ((size L == k) && all (mem S) L) -> iid_exp S P k (fun L' => (L' == L)%:R) = 0.
Proof.
elim: k L => [|k IH] [|t L] //= H; rewrite big1_seq // => x /andP[_ xS].
  by rewrite (iid_exp_ext _ _ _ (g' := fun=> 0)) ?iid_exp_zero ?mulr0 // => L'.
case: (eqVneq x t) => [e|ne]; last first.
  rewrite (iid_exp_ext _ _ _ (g' := fun=> 0)) ?iid_exp_zero ?mulr0 // => L'.
  by rewrite eqseq_cons (negPf ne).
rewrite (iid_exp_ext _ _ _ (g' := fun L' => (L' == L)%:R)).
  by rewrite IH ?mulr0 //; apply: contra H => /andP[h ->]; rewrite eqSS h -e xS.
by move=> L'; rewrite eqseq_cons e eqxx.
Qed.

Lemma iid_prob (R : realFieldType) (T : eqType) (S : seq T) (P : T -> R) k L : uniq S ->
  iid_exp S P k (fun L' => (L' == L)%:R) = if (size L == k) && all (mem S) L then \prod_(t <- L) P t else 0.
Proof.
move=> uS; case: ifP => [/andP[/eqP <- /allP al]|/negbT H]; last exact: iid_exp_miss H.
exact: iid_exp_point.
Qed.

Section BTop.
Variable R : rcfType.
Notation CF := (ComplexField.complex_numFieldType R).
Variables (fuel m : nat) (U : seq (seq CF)) (s : seq nat).
Hypotheses (u : unitary_on m U s) (ss : size s = m).
Hypothesis fu : (\prod_(x <- s) x.+1 <= fuel)%N.

Definition between_b (b : gccb R) := [/\ b_input b = s, calc_matrix (b_calc b) = U & b_n b = sumn s].

Lemma between_inv b n : binv m U s b -> b_n b = n -> n = sumn s -> between_b b.
Proof. by move=> I e1 e2; case: I => *; split=> //; rewrite e1. Qed.

Lemma bn_keep n target (b : gccb R) N : b_n b = N ->
  always (fun x => if x is Ok b' then b_n b' = N else True) (b_fill_loop fuel n target b).
Proof.
elim: n b => [//|n IH] b e; rewrite b_fill_loopE; case: ifP => _ //.
apply: always_rbind; rewrite /update_current_input; case: (b_working b) => [//|x w] i il /=.
case: (py_pop _ _) => [xw|] //=; case: (incr_at _ _) => [c|] //=.
rewrite /b_tail; apply: always_rbind => /=; rewrite /compute_pmf; case: (compute_permanents _ _ _) => [pc|] //=.
case: (rmapM _ _) => [pm|] //=; apply: always_rbind; rewrite /sample_from_pmf; case: ifP => _ //=.
rewrite /np_choice; case: ifP => _ //= y y01; case: (incr_at _ _) => [r|] //=.
exact: IH.
Qed.

Definition b_done target (x : res (gccb R)) := exists b', [/\ x = Ok b', between_b b' & is_state m target (b_r b')].

Lemma b_run_always target b : between_b b -> (target <= sumn s)%N ->
  always (b_done target) (b_fill_loop fuel fuel target (b_reset b)).
Proof using u ss fu.
move=> [e1 e2 e3] ts; have I := reset_b ss e1 e2.
have z : sumn (b_r (b_reset b)) = 0%N by rewrite /= sumn_nseq.
have H := b_fill_always (n := fuel) u ss fu I ts.
have H' := @bn_keep fuel target (b_reset b) _ e3.
apply: always_impl (always_and (H _ _) H'); rewrite ?z //.
  by move=> _ [[b' [-> I' es]] en]; exists b'; split=> //; [exact: between_inv I' en _|rewrite /is_state (bi_r I') es !eqxx].
by rewrite subn0; apply: leq_ltn_trans ts (leq_trans (prod_gt s) fu).
Qed.

Lemma b_run_exp f target b : between_b b -> (target <= sumn s)%N ->
  has_exp (on_ok (fun b => f (b_r b))) (b_fill_loop fuel fuel target (b_reset b))
    (\sum_(t <- comps m target) fixed_loss_prob U s t * f t).
Proof using u ss fu.
move=> [e1 e2 e3] ts; have I := reset_b ss e1 e2.
have z : sumn (b_r (b_reset b)) = 0%N by rewrite /= sumn_nseq.
have H := b_fill_exp (n := fuel) u ss fu f I ts.
apply: has_exp_eq (H _ _) _; rewrite ?z //.
  by rewrite subn0; apply: leq_ltn_trans ts (leq_trans (prod_gt s) fu).
by rewrite subn0 /= e1 ss bexp_start.
Qed.

Lemma gccb_simulate_exp k f b : calc_matrix (b_calc b) = U ->
  has_exp (on_ok (fun x => f x.1)) (gccb_simulate fuel s k b)
    (iid_exp (comps m (sumn s)) (bs_prob U s) k f).
Proof using u ss fu.
move=> e; apply: (@sample_loop_exp R _ _ _ _ between_b).
- move=> b' B; rewrite /b_fill; have [_ _ ->] := B.
  by apply: always_impl (b_run_always B (leqnn _)) => _ [b2 [-> B2 _]]; exists b2, (b_r b2).
- move=> f' b' B; rewrite /b_fill; have [_ _ ->] := B.
  apply: has_exp_eq (b_run_exp f' B (leqnn _)) _.
  by apply: eq_big_seq => t; rewrite mem_comps => /andP[_ /eqP et]; rewrite fixed_loss_full.
- by split.
Qed.

Lemma gccb_simulate_always k b : calc_matrix (b_calc b) = U ->
  always (fun x => exists L b', [/\ x = Ok (L, b'), size L = k,
      calc_matrix (b_calc b') = U & forall t, t \in L -> is_state m (sumn s) t])
    (gccb_simulate fuel s k b).
Proof using u ss fu.
move=> e; have B : between_b (b_start s b) by [].
have H : forall b, between_b b -> always (fun x => exists b' y, [/\ x = Ok b', between_b b', Ok (b_r b') = Ok y &
     is_state m (sumn s) y]) (b_fill fuel b).
  move=> {e B}b B; rewrite /b_fill; have [_ _ ->] := B.
  by apply: always_impl (b_run_always B (leqnn _)) => _ [b2 [-> B2 st]]; exists b2, (b_r b2).
apply: always_impl (sample_loop_always k H B) => _ [L [b' [-> sL [_ eb _] aL]]].
by exists L, b'; split=> // t /aux_in /aL.
Qed.

(* ---- uniform losses ---- *)
Variable eta : R.
Hypothesis eta01 : 0 <= eta <= 1.

Lemma ub_weightsE n : ub_binomial_weights n eta = [seq binomial_weight n eta l | l <- iota 0 n.+1].
Proof. by []. Qed.

Lemma bw_distr n : is_distr [seq binomial_weight n eta l | l <- iota 0 n.+1].
Proof using eta01.
split; first by apply/allP => x /mapP[l _ ->] /=; apply: binomial_weight_ge0.
by rewrite big_map -[X in iota _ X](subn0 n.+1) -/(index_iota _ _) big_mkord binomial_weight_sum.
Qed.

Definition between_ub (x : ugccb R) := [/\ between_b (ub_b x), ub_eta x = eta
  & ub_weights x = [seq binomial_weight (sumn s) eta l | l <- iota 0 (sumn s).+1]].

Lemma ub_fill_always x : between_ub x ->
  always (fun y => exists x' t, [/\ y = Ok x', between_ub x', Ok (b_r (ub_b x')) = Ok t &
     (size t == m) && (sumn t <= sumn s)%N]) (ub_fill fuel x).
Proof using u ss fu eta01.
move=> [B e1 e2]; rewrite /ub_fill e2 /particles_left /= => y y01.
have [lt _] := search_pos1 (bw_distr (sumn s)) y01; rewrite size_map size_iota ltnS in lt.
rewrite /rpbind /=; apply: always_bind; apply: always_impl (b_run_always B lt).
move=> _ [b' [-> B' st]] /=; eexists; exists (b_r b'); split; [by []|by []|by []|].
by case/andP: st => -> /eqP ->.
Qed.

Lemma ub_fill_exp f x : between_ub x ->
  has_exp (on_ok (fun x' => on_ok f (Ok (b_r (ub_b x'))))) (ub_fill fuel x)
    (\sum_(t <- lcomps m (sumn s)) uniform_loss_prob U s eta t * f t).
Proof using u ss fu eta01.
move=> [B e1]; have := bw_distr (sumn s); set ws := map _ _ => dw e2.
have sw : size ws = (sumn s).+1 by rewrite /ws size_map size_iota.
have nw l : (l < (sumn s).+1)%N -> nth 0 ws l = binomial_weight (sumn s) eta l.
  by move=> ln; rewrite /ws (nth_map 0%N) ?size_iota // nth_iota // add0n.
clearbody ws.
rewrite /ub_fill e2 /particles_left {1}/rpbind [pbind (Unif _) _]/=.
apply: has_exp_eq (@has_exp_select1 _ _ _ _ _
  (fun l => \sum_(t <- comps m l) fixed_loss_prob U s t * f t) dw _) _.
  move=> l y; rewrite sw ltnS => ln _ y01 ->.
  apply: has_exp_rbind (b_run_exp f B ln) _.
  by apply: always_impl (b_run_always B ln) => _ [b' [-> B' st]]; constructor.
rewrite sw big_lcomps; apply: eq_bigr => l _.
rewrite nw // mulr_sumr.
apply: eq_big_seq => t; rewrite mem_comps => /andP[_ /eqP e].
by rewrite /uniform_loss_prob e mulrA.
Qed.

Lemma ub_start x : calc_matrix (b_calc (ub_b x)) = U -> ub_eta x = eta ->
  between_ub (UGccB (b_start s (ub_b x)) (ub_eta x) (ub_binomial_weights (sumn s) (ub_eta x)) (ub_left x)).
Proof. by move=> e1 e2; split=> //=; rewrite e2. Qed.

Lemma ugccb_simulate_exp k f x : calc_matrix (b_calc (ub_b x)) = U -> ub_eta x = eta ->
  has_exp (on_ok (fun y => f y.1)) (ugccb_simulate fuel s k x)
    (iid_exp (lcomps m (sumn s)) (uniform_loss_prob U s eta) k f).
Proof using u ss fu eta01.
move=> e1 e2; apply: (@sample_loop_exp R _ _ _ _ between_ub).
- by move=> x' B; apply: always_impl (ub_fill_always B) => _ [x2 [t [-> B2 e _]]]; exists x2, t.
- by move=> f' x' B; apply: ub_fill_exp.
- exact: ub_start.
Qed.

Lemma ugccb_simulate_always k x : calc_matrix (b_calc (ub_b x)) = U -> ub_eta x = eta ->
  always (fun y => exists L x', [/\ y = Ok (L, x'), size L = k,
      calc_matrix (b_calc (ub_b x')) = U /\ ub_eta x' = eta
      & forall t, t \in L -> (size t == m) && (sumn t <= sumn s)%N])
    (ugccb_simulate fuel s k x).
Proof using u ss fu eta01.
move=> e1 e2; have B := ub_start e1 e2.
apply: always_impl (sample_loop_always k ub_fill_always B) => _ [L [x' [-> sL [[_ eb _] ee _] aL]]].
by exists L, x'; split=> // t /aux_in /aL.
Qed.

Lemma ub_left_always k x : calc_matrix (b_calc (ub_b x)) = U -> ub_eta x = eta -> (0 < k)%N ->
  always (fun y => exists L x', y = Ok (L, x') /\ ub_left x' = sumn (last [::] L)) (ugccb_simulate fuel s k x).
Proof using u ss fu eta01.
move=> e1 e2 k0; have B := ub_start e1 e2.
have H x1 : between_ub x1 -> always (fun y => exists x' t, [/\ y = Ok x', between_ub x', Ok (b_r (ub_b x')) = Ok t &
     ub_left x' = sumn t]) (ub_fill fuel x1).
  move=> [B1 e3 e4]; rewrite /ub_fill e4 /particles_left /= => y y01.
  have [lt _] := search_pos1 (bw_distr (sumn s)) y01; rewrite size_map size_iota ltnS in lt.
  rewrite /rpbind /=; apply: always_bind; apply: always_impl (b_run_always B1 lt).
  move=> _ [b' [-> B' st]] /=; eexists; exists (b_r b'); split; [by []|by []|by []|].
  by case/andP: st => _ /eqP ->.
apply: always_impl (sample_loop_last [::] H k0 B) => _ [L [x' [-> _ h]]].
by exists L, x'.
Qed.
End BTop.
