(* Permanents under relabelling, diagonal factors, transposition. *)
From mathcomp Require Import all_ssreflect all_algebra complex.
From mathcomp Require Import ring zify.
From Verif Require Import SpecStates Combi SpecPerm PermMath SpecBS BsMath BsComb BsNorm SpecSym.
Set Implicit Arguments.
Unset Strict Implicit.
Unset Printing Implicit Defensive.
Import GRing.Theory Num.Theory.
Local Open Scope ring_scope.

Section PerLists.
Variable F : comRingType.
Implicit Types (u v : nat -> nat -> F) (rows cols : seq nat).

Lemma PerL_eq u v rows cols : (forall a c, a \in rows -> c \in cols -> u a c = v a c) ->
  PerL u rows cols = PerL v rows cols.
Proof.
elim: rows cols => [//|a rows IH] cols H /=; apply: eq_big_seq => c cc.
rewrite (H a c) ?mem_head //; congr (_ * _); apply: IH => a' c' ra /mem_rem cr.
by apply: H; rewrite // inE ra orbT.
Qed.

Lemma PerL_map u (f g : nat -> nat) rows cols : size rows = size cols ->
  PerL u (map f rows) (map g cols) = PerL (fun a c => u (f a) (g c)) rows cols.
Proof.
move=> sz; rewrite -!(@permanent_PerL _ _ (size cols)) ?size_map //; congr permanent.
by apply/matrixP=> a b; rewrite !mxE !(nth_map 0%N) ?sz.
Qed.

Lemma PerL_tr u rows cols : size rows = size cols ->
  PerL u rows cols = PerL (fun a c => u c a) cols rows.
Proof.
move=> sz; rewrite -!(@permanent_PerL _ _ (size cols)) // -permanent_tr; congr permanent.
by apply/matrixP=> a b; rewrite !mxE.
Qed.

Lemma PerL_rows u rows rows' cols : size rows = size cols -> perm_eq rows rows' ->
  PerL u rows cols = PerL u rows' cols.
Proof.
move=> sz pe; rewrite PerL_tr // (PerL_perm _ _ pe) [RHS]PerL_tr //.
by rewrite -(perm_size pe).
Qed.

Lemma PerL_row_scale u (x : nat -> F) rows cols :
  PerL (fun a c => x a * u a c) rows cols = \prod_(a <- rows) x a * PerL u rows cols.
Proof.
elim: rows cols => [|a rows IH] cols /=; first by rewrite big_nil mul1r.
rewrite big_cons mulr_sumr; apply: eq_bigr => c _; by rewrite IH -!mulrA; congr (_ * _); rewrite mulrCA.
Qed.

Lemma PerL_col_scale u (y : nat -> F) rows cols : size rows = size cols ->
  PerL (fun a c => u a c * y c) rows cols = PerL u rows cols * \prod_(c <- cols) y c.
Proof.
move=> sz; rewrite PerL_tr // [PerL u _ _]PerL_tr // mulrC -PerL_row_scale.
by apply: PerL_eq => a c _ _; rewrite mulrC.
Qed.

Lemma bsL (U : seq (seq F)) s t : sumn s = sumn t ->
  bs_permanent U s t = PerL (ent U) (particle_modes t) (particle_modes s).
Proof. by move=> e; rewrite bs_permanent_PerO // PerO_PerL. Qed.

Lemma bigprod_particle_modes s (G : nat -> F) :
  \prod_(c <- particle_modes s) G c = \prod_(i < size s) G i ^+ nth 0%N s i.
Proof.
rewrite /particle_modes big_flatten big_map /= -{1}[size s]subn0 -/(index_iota 0 (size s)) big_mkord.
by apply: eq_bigr => i _; rewrite big_nseq -Monoid.iteropE /=.
Qed.

Lemma particle_modes_lt s i : i \in particle_modes s -> (i < size s)%N.
Proof.
by rewrite -has_pred1 has_count count_particle_modes => /nth_pos_lt.
Qed.

(* relabelling *)
Lemma size_relabel sigma s : size (relabel sigma s) = size sigma.
Proof. by rewrite size_map. Qed.

Lemma relabel_perm sigma s : perm_eq sigma (iota 0 (size s)) -> perm_eq (relabel sigma s) s.
Proof.
move=> pe; apply: perm_trans (perm_map _ pe) _.
by rewrite -/(mkseq (nth 0%N s) (size s)) mkseq_nth.
Qed.

Lemma relabel_modes sigma s : perm_eq sigma (iota 0 (size s)) ->
  perm_eq (map (nth 0%N sigma) (particle_modes (relabel sigma s))) (particle_modes s).
Proof.
move=> pe; have us : uniq sigma by rewrite (perm_uniq pe) iota_uniq.
have ss : size sigma = size s by rewrite (perm_size pe) size_iota.
apply/allP=> j _ /=; rewrite count_particle_modes.
case: (ltnP j (size s)) => jl.
  have jm : j \in sigma by rewrite (perm_mem pe) mem_iota.
  rewrite count_map (@eq_in_count _ _ (pred1 (index j sigma))) => [|k /particle_modes_lt].
    by rewrite count_particle_modes (nth_map 0%N) ?index_mem // nth_index.
  rewrite size_relabel => kl /=; apply/eqP/eqP => [<-|->]; last exact: nth_index.
  by rewrite index_uniq.
rewrite nth_default // count_map; rewrite eqn0Ngt -has_count; apply/hasPn=> k /particle_modes_lt.
rewrite size_relabel => kl /=; apply: contraTneq jl => <-; rewrite -ltnNge.
have : nth 0%N sigma k \in iota 0 (size s) by rewrite -(perm_mem pe) mem_nth.
by rewrite mem_iota.
Qed.

Lemma bs_permanent_relabel (U : seq (seq F)) sigma tau s t :
  perm_eq sigma (iota 0 (size s)) -> perm_eq tau (iota 0 (size t)) -> sumn s = sumn t ->
  bs_permanent (relabel_mx tau sigma U) (relabel sigma s) (relabel tau t) = bs_permanent U s t.
Proof.
move=> ps pt e.
have [es et] := (perm_sumn (relabel_perm ps), perm_sumn (relabel_perm pt)).
rewrite bsL ?es ?et // bsL // -(PerL_perm _ _ (relabel_modes ps)) -(PerL_rows _ _ (relabel_modes pt)).
  rewrite PerL_map ?size_particle_modes ?es ?et //; apply: PerL_eq => a c /particle_modes_lt al /particle_modes_lt cl.
  rewrite !size_relabel in al cl.
  by rewrite [LHS]/ent /relabel_mx (nth_map 0%N) // (nth_map 0%N).
by rewrite !size_map !size_particle_modes es et.
Qed.

Lemma ent_mk m (f : nat -> nat -> F) i j : (i < m)%N -> (j < m)%N ->
  ent (mkseq (fun i => mkseq (f i) m) m) i j = f i j.
Proof. by move=> il jl; rewrite /ent nth_mkseq // nth_mkseq. Qed.

Lemma bs_permanent_phased m x y (U : seq (seq F)) s t :
  size s = m -> size t = m -> sumn s = sumn t ->
  bs_permanent (phased m x y U) s t =
  \prod_(i < m) x i ^+ nth 0%N t i * bs_permanent U s t * \prod_(j < m) y j ^+ nth 0%N s j.
Proof.
move=> zs zt e; rewrite !bsL //.
have sz : size (particle_modes t) = size (particle_modes s) by rewrite !size_particle_modes.
transitivity (PerL (fun a c => x a * (ent U a c * y c)) (particle_modes t) (particle_modes s)).
  apply: PerL_eq => a c /particle_modes_lt al /particle_modes_lt cl.
  by rewrite zt in al; rewrite zs in cl; rewrite ent_mk ?mulrA.
by rewrite PerL_row_scale PerL_col_scale // !bigprod_particle_modes zs zt mulrA.
Qed.

Lemma bs_permanent_transposed m (U : seq (seq F)) s t :
  size s = m -> size t = m -> sumn s = sumn t ->
  bs_permanent (transposed m U) t s = bs_permanent U s t.
Proof.
move=> zs zt e; rewrite !bsL // [RHS]PerL_tr ?size_particle_modes //.
by apply: PerL_eq => a c /particle_modes_lt al /particle_modes_lt cl; rewrite ent_mk // -?[m]zs // zs -zt.
Qed.

End PerLists.
