(* Mathematics of boson-sampling probabilities. *)
From mathcomp Require Import all_ssreflect all_fingroup all_algebra complex.
From mathcomp Require Import ring zify.
From Verif Require Import SpecStates Combi SpecPerm PermMath SpecBS.
Set Implicit Arguments.
Unset Strict Implicit.
Unset Printing Implicit Defensive.
Import GRing.Theory Num.Theory.
Local Open Scope ring_scope.

Lemma PerO_perm (R : comRingType) (u : nat -> nat -> R) rows rows' s :
  perm_eq rows rows' -> size rows = sumn s -> PerO u rows s = PerO u rows' s.
Proof.
move=> pe sz; rewrite -(RS_PerO u (fun _ => 0) sz) -(RS_PerO u (fun _ => 0)); last by rewrite -(perm_size pe).
by rewrite /RS; apply: eq_bigr => r _; rewrite (perm_big _ pe).
Qed.

Lemma perm_particle_modes_incr r j : (j < size r)%N ->
  perm_eq (particle_modes (incr r j)) (j :: particle_modes r).
Proof.
move=> jl; apply/allP=> k _ /=; rewrite !count_particle_modes nth_incr.
by case: (eqVneq k j) => [->|ne]; rewrite ?eqxx // eq_sym (negPf ne).
Qed.

Lemma bs_permanent_incr (R : comRingType) (U : seq (seq R)) T r j : (j < size r)%N ->
  sumn T = (sumn r).+1 ->
  bs_permanent U T (incr r j) =
  \sum_(i < size T) (nth 0%N T i)%:R * ent U j i * bs_permanent U (decr T i) r.
Proof.
move=> jl e; rewrite bs_permanent_PerO ?sumn_incr //.
rewrite (PerO_perm _ (perm_particle_modes_incr jl)) ?size_particle_modes ?sumn_incr //.
rewrite PerO_cons; apply: eq_bigr => i _.
case: (posnP (nth 0%N T i)) => [->|p]; first by rewrite !mul0r.
by rewrite bs_permanent_PerO // sumn_decr // e.
Qed.

Lemma bs_permanent_vac (R : comRingType) (U : seq (seq R)) T r : sumn T = 0%N -> sumn r = 0%N ->
  bs_permanent U T r = 1.
Proof.
move=> e1 e2; rewrite bs_permanent_PerO ?e1 ?e2 //.
by have /size0nil -> : size (particle_modes r) = 0%N by rewrite size_particle_modes.
Qed.

Section Cplx.
Variable R : rcfType.
Notation C := R[i].
Implicit Types (U : seq (seq C)) (s t r T : seq nat).

Lemma nsqE (z : C) : (nsq z)%:C%C = conjc z * z.
Proof. by case: z => a b; rewrite /nsq /=; simpc; congr (_ +i* _)%C; rewrite ?expr2 //; ring. Qed.

Lemma nsq_ge0 (z : C) : 0 <= nsq z.
Proof. by rewrite addr_ge0 ?sqr_ge0. Qed.

Lemma nsq0 : nsq (0 : C) = 0.
Proof. by rewrite /nsq /= expr0n addr0. Qed.

Lemma nsq1 : nsq (1 : C) = 1.
Proof. by rewrite /nsq /= expr0n expr1n addr0. Qed.

Lemma nsq_eq0 (z : C) : (nsq z == 0) = (z == 0).
Proof.
apply/idP/eqP => [|->]; last by rewrite nsq0.
case: z => a b; rewrite /nsq /= paddr_eq0 ?sqr_ge0 // !sqrf_eq0 => /andP[/eqP -> /eqP ->].
by [].
Qed.

(* orthonormal columns: the norm of a combination of columns *)
Lemma nsq_comb (m n : nat) U (a : nat -> C) :
  (forall i i' : nat, (i < n)%N -> (i' < n)%N -> a i != 0 -> a i' != 0 -> ortho_cols m U i i') ->
  \sum_(j < m) nsq (\sum_(i < n) a i * ent U j i) = \sum_(i < n) nsq (a i).
Proof.
move=> H; apply: (@complexI R).
have cs : forall (I : finType) (F : I -> R), (\sum_(i : I) F i)%:C%C = \sum_(i : I) (F i)%:C%C.
  by move=> I F; rewrite (rmorph_sum (ComplexField.real_complex_rmorphism R)).
rewrite !cs.
under eq_bigr => j _ do rewrite nsqE (rmorph_sum (conjc_rmorphism R)) /= big_distrlr /=.
rewrite exchange_big /=; apply: eq_bigr => i _.
rewrite exchange_big /= (bigD1 i) //= [X in _ + X]big1 ?addr0 => [|i' ne].
  case: (eqVneq (a i) 0) => [->|ne].
    by rewrite nsq0 big1 // => j _; rewrite !mul0r mulr0.
  have := H i i (ltn_ord i) (ltn_ord i) ne ne; rewrite /ortho_cols eqxx => E.
  rewrite nsqE -[RHS]mulr1 -[1]/(true%:R) -E mulr_sumr; apply: eq_bigr => j _.
  by rewrite (rmorphM (conjc_rmorphism R)) /=; ring.
case: (eqVneq (a i) 0) => [->|ni].
  by rewrite big1 // => j _; rewrite !mul0r conjc0 mul0r.
case: (eqVneq (a i') 0) => [->|ni'].
  by rewrite big1 // => j _; rewrite !mul0r mulr0.
have := H i i' (ltn_ord i) (ltn_ord i') ni ni'; rewrite /ortho_cols.
have -> : (nat_of_ord i == nat_of_ord i') = false by apply/negbTE; rewrite eq_sym.
move=> E; transitivity (conjc (a i) * a i' * \sum_(j < m) conjc (ent U j i) * ent U j i');
  last by rewrite E mulr0.
rewrite mulr_sumr; apply: eq_bigr => j _.
by rewrite (rmorphM (conjc_rmorphism R)) /=; ring.
Qed.

Lemma nsqM (x y : C) : nsq (x * y) = nsq x * nsq y.
Proof. by case: x y => a b [c d]; rewrite /nsq /=; simpc => /=; ring. Qed.
Lemma nsq_nat n : nsq (n%:R : C) = n%:R ^+ 2.
Proof.
have -> : (n%:R : C) = (n%:R)%:C%C by rewrite (rmorph_nat (ComplexField.real_complex_rmorphism R)).
by rewrite /nsq /= [0 ^+ 2]expr0n addr0.
Qed.

Lemma marginal m U T r : unitary_on m U T -> size r = m -> sumn T = (sumn r).+1 ->
  \sum_(j < m) nsq (bs_permanent U T (incr r j)) =
  \sum_(i < size T) (nth 0%N T i)%:R ^+ 2 * nsq (bs_permanent U (decr T i) r).
Proof.
move=> [sq H] sr e.
transitivity (\sum_(j < m) nsq (\sum_(i < size T)
    ((nth 0%N T i)%:R * bs_permanent U (decr T i) r) * ent U j i)).
  apply: eq_bigr => j _; rewrite bs_permanent_incr ?sr //; congr nsq; apply: eq_bigr => i _.
  by rewrite mulrAC.
rewrite (@nsq_comb m (size T) U (fun i => (nth 0%N T i)%:R * bs_permanent U (decr T i) r)).
  by apply: eq_bigr => i _; rewrite nsqM nsq_nat.
have N i : (nth 0%N T i)%:R * bs_permanent U (decr T i) r != 0 -> (0 < nth 0%N T i)%N.
  by rewrite lt0n; apply: contraNneq => ->; rewrite mul0r.
by move=> i i' _ _ /N p /N p'; apply: H.
Qed.

End Cplx.
