(* Probabilities under relabelling, phases, reversal. *)
From mathcomp Require Import all_ssreflect all_algebra complex.
From mathcomp Require Import ring zify.
From Verif Require Import SpecStates Combi SpecPerm PermMath SpecBS BsMath BsComb BsNorm SpecSym BsSym.
Set Implicit Arguments.
Unset Strict Implicit.
Unset Printing Implicit Defensive.
Import GRing.Theory Num.Theory.
Local Open Scope ring_scope.

Section Relabel.
Variables (m : nat) (sigma : seq nat).
Hypothesis ps : perm_eq sigma (iota 0 m).
Implicit Types s t T : seq nat.

Lemma sumn_relabel s : size s = m -> sumn (relabel sigma s) = sumn s.
Proof. by move=> zs; apply: perm_sumn; apply: relabel_perm; rewrite zs. Qed.

Lemma factprod_relabel s : size s = m -> factprod (relabel sigma s) = factprod s.
Proof. by move=> zs; apply: perm_big; apply: relabel_perm; rewrite zs. Qed.

Lemma sigma_size : size sigma = m.
Proof. by rewrite (perm_size ps) size_iota. Qed.

Lemma ways_relabel s T : size s = m -> ways (relabel sigma s) (relabel sigma T) = ways s T.
Proof.
move=> zs; rewrite /ways size_relabel zs.
transitivity (\prod_(i <- sigma) 'C(nth 0%N s i, nth 0%N T i))%N.
  rewrite [RHS](big_nth 0%N) big_mkord; apply: eq_bigr => i _.
  by rewrite !(nth_map 0%N).
rewrite (perm_big _ ps) /= -{1}[m]subn0 -/(index_iota 0 m) big_mkord //.
Qed.

Definition unrelabel t := [seq nth 0%N t (index j sigma) | j <- iota 0 m].

Lemma size_unrelabel t : size (unrelabel t) = m.
Proof. by rewrite size_map size_iota. Qed.

Lemma sigma_mem j : (j \in sigma) = (j < m)%N.
Proof. by rewrite (perm_mem ps) mem_iota. Qed.

Lemma sigma_uniq : uniq sigma.
Proof. by rewrite (perm_uniq ps) iota_uniq. Qed.

Lemma relabel_unrelabel t : size t = m -> relabel sigma (unrelabel t) = t.
Proof.
move=> zt; apply: (@eq_from_nth _ 0%N); first by rewrite size_relabel sigma_size.
rewrite size_relabel => i il; rewrite (nth_map 0%N) //.
have ml : (nth 0%N sigma i < m)%N by rewrite -sigma_mem mem_nth.
by rewrite (nth_map 0%N) ?size_iota // nth_iota // add0n index_uniq ?sigma_uniq.
Qed.

Lemma unrelabel_relabel s : size s = m -> unrelabel (relabel sigma s) = s.
Proof.
move=> zs; apply: (@eq_from_nth _ 0%N); first by rewrite size_unrelabel zs.
rewrite size_unrelabel => i il; rewrite (nth_map 0%N) ?size_iota // nth_iota // add0n.
have im : i \in sigma by rewrite sigma_mem.
by rewrite (nth_map 0%N) ?index_mem // nth_index.
Qed.

Lemma substate_relabel s T : size s = m -> size T = m ->
  substate (relabel sigma T) (relabel sigma s) = substate T s.
Proof.
move=> zs zT; apply/substateP/substateP => -[_ H]; split; rewrite ?size_relabel ?zs //.
  move=> i; case: (ltnP i m) => il; last by rewrite !nth_default ?zs ?zT.
  have im : i \in sigma by rewrite sigma_mem.
  by have := H (index i sigma); rewrite !(nth_map 0%N) ?index_mem // nth_index.
move=> i; case: (ltnP i (size sigma)) => il; last by rewrite !nth_default ?size_relabel.
by rewrite !(nth_map 0%N).
Qed.

Lemma subs_relabel s : size s = m ->
  perm_eq (subs (relabel sigma s)) (map (relabel sigma) (subs s)).
Proof.
move=> zs; apply: uniq_perm; first exact: subs_uniq.
  rewrite map_inj_in_uniq ?subs_uniq // => T T'; rewrite !mem_subs => /substateP[zT _] /substateP[zT' _] e.
  by rewrite -(unrelabel_relabel (s := T)) ?e ?unrelabel_relabel // ?zT ?zT'.
move=> T; rewrite mem_subs; apply/idP/mapP => [|[T' + ->]].
  move=> sT; have /substateP[zT _] := sT; rewrite size_relabel sigma_size in zT.
  exists (unrelabel T); last by rewrite relabel_unrelabel.
  by rewrite mem_subs -substate_relabel ?size_unrelabel ?relabel_unrelabel.
by rewrite mem_subs => sT; rewrite substate_relabel //; case/substateP: sT => ->.
Qed.

End Relabel.

Section Sym.
Variable R : rcfType.
Notation C := R[i].
Implicit Types (U : seq (seq C)) (s t T : seq nat).

Lemma bs_prob_relabel m U sigma tau s t : perm_eq sigma (iota 0 m) -> perm_eq tau (iota 0 m) ->
  size s = m -> size t = m -> sumn s = sumn t ->
  bs_prob (relabel_mx tau sigma U) (relabel sigma s) (relabel tau t) = bs_prob U s t.
Proof.
move=> ps pt zs zt e; rewrite /bs_prob !(factprod_relabel (m := m)) //.
by rewrite bs_permanent_relabel ?zs ?zt.
Qed.

Lemma fixed_loss_relabel m U sigma tau s t : perm_eq sigma (iota 0 m) -> perm_eq tau (iota 0 m) ->
  size s = m -> size t = m ->
  fixed_loss_prob (relabel_mx tau sigma U) (relabel sigma s) (relabel tau t) = fixed_loss_prob U s t.
Proof.
move=> ps pt zs zt; rewrite /fixed_loss_prob !(sumn_relabel (m := m)) //; congr (_ / _).
rewrite (perm_big _ (subs_relabel ps zs)) big_map /= big_seq_cond [RHS]big_seq_cond.
rewrite (@eq_bigl _ _ _ _ _ _ (fun T => (T \in subs s) && (sumn T == sumn t))); last first.
  move=> T; case: (boolP (T \in _)) => //=; rewrite mem_subs => /substateP[zT _].
  by rewrite (sumn_relabel ps) // zT.
apply: eq_bigr => T /andP[]; rewrite mem_subs => /substateP[zT _] /eqP eT.
by rewrite (ways_relabel ps) // (bs_prob_relabel _ ps pt) // zT.
Qed.

Lemma uniform_loss_relabel m U sigma tau s eta t : perm_eq sigma (iota 0 m) -> perm_eq tau (iota 0 m) ->
  size s = m -> size t = m ->
  uniform_loss_prob (relabel_mx tau sigma U) (relabel sigma s) eta (relabel tau t) = uniform_loss_prob U s eta t.
Proof.
by move=> ps pt zs zt; rewrite /uniform_loss_prob (fixed_loss_relabel _ ps pt) // !(sumn_relabel (m := m)).
Qed.

Lemma nsq_prod (I : Type) (r : seq I) (F : I -> C) : nsq (\prod_(i <- r) F i) = \prod_(i <- r) nsq (F i).
Proof. by elim/big_rec2: _ => [|i y1 y2 _ <-]; rewrite ?nsq1 ?nsqM. Qed.

Lemma nsqX (z : C) n : nsq (z ^+ n) = nsq z ^+ n.
Proof. by elim: n => [|n IH]; rewrite ?expr0 ?nsq1 // !exprS nsqM IH. Qed.

Lemma nsq_conj (z : C) : nsq (conjc z) = nsq z.
Proof. by case: z => a b; rewrite /nsq /= sqrrN. Qed.

Definition phases m (x : nat -> C) := forall i, (i < m)%N -> nsq (x i) = 1.

Lemma nsq_phases m x s : phases m x -> nsq (\prod_(i < m) x i ^+ nth 0%N s i) = 1.
Proof. by move=> H; rewrite nsq_prod big1 // => i _; rewrite nsqX H ?expr1n. Qed.

Lemma bs_prob_phased m x y U s t : phases m x -> phases m y ->
  size s = m -> size t = m -> sumn s = sumn t -> bs_prob (phased m x y U) s t = bs_prob U s t.
Proof.
move=> px py zs zt e; rewrite /bs_prob bs_permanent_phased // !nsqM !nsq_phases //.
by rewrite mul1r mulr1.
Qed.

Lemma fixed_loss_phased m x y U s t : phases m x -> phases m y ->
  size s = m -> size t = m -> fixed_loss_prob (phased m x y U) s t = fixed_loss_prob U s t.
Proof.
move=> px py zs zt; rewrite /fixed_loss_prob; congr (_ / _).
rewrite big_seq_cond [RHS]big_seq_cond; apply: eq_bigr => T /andP[].
by rewrite mem_subs => /substateP[zT _] /eqP eT; rewrite bs_prob_phased // zT.
Qed.

Lemma uniform_loss_phased m x y U s eta t : phases m x -> phases m y ->
  size s = m -> size t = m -> uniform_loss_prob (phased m x y U) s eta t = uniform_loss_prob U s eta t.
Proof. by move=> px py zs zt; rewrite /uniform_loss_prob fixed_loss_phased. Qed.

Lemma PerL_conj (u : nat -> nat -> C) rows cols :
  PerL (fun a c => conjc (u a c)) rows cols = conjc (PerL u rows cols).
Proof.
elim: rows cols => [|a rows IH] cols; first exact: esym (rmorph1 (conjc_rmorphism R)).
rewrite /= (rmorph_sum (conjc_rmorphism R)); apply: eq_bigr => c _.
by rewrite IH (rmorphM (conjc_rmorphism R)).
Qed.

Lemma bs_permanent_reversed m U s t : size s = m -> size t = m -> sumn s = sumn t ->
  bs_permanent (reversed m U) t s = conjc (bs_permanent U s t).
Proof.
move=> zs zt e; rewrite -(bs_permanent_transposed _ zs zt e) !bsL // -PerL_conj.
apply: PerL_eq => a c /particle_modes_lt al /particle_modes_lt cl.
by rewrite zs in al; rewrite zt in cl; rewrite !ent_mk.
Qed.

Lemma bs_prob_reversed m U s t : size s = m -> size t = m -> sumn s = sumn t ->
  bs_prob (reversed m U) t s = bs_prob U s t.
Proof. by move=> zs zt e; rewrite /bs_prob bs_permanent_reversed // nsq_conj mulnC. Qed.

End Sym.
