(* One particle left. *)
From mathcomp Require Import all_ssreflect all_algebra complex.
From mathcomp Require Import ring zify.
From Verif Require Import Base SpecStates Combi SpecPerm PermMath SpecBS BsMath BsComb BsNorm.
From Verif Require Import SpecNet SpecFixed ProofFixed1 ProofFixed2.
Set Implicit Arguments.
Unset Strict Implicit.
Unset Printing Implicit Defensive.
Import Order.TTheory GRing.Theory Num.Theory.
Local Open Scope ring_scope.

(* one particle in mode j *)
Definition single (m j : nat) : seq nat := incr (nseq m 0%N) j.
Lemma size_single m j : (j < m)%N -> size (single m j) = m.
Proof. by move=> jm; rewrite size_incr size_nseq. Qed.
Lemma sumn_single m j : (j < m)%N -> sumn (single m j) = 1%N.
Proof. by move=> jm; rewrite sumn_incr ?size_nseq // sumn_nseq. Qed.
Lemma nth_single m j k : nth 0%N (single m j) k = (k == j).
Proof. by rewrite nth_incr !nth_nseq !if_same; case: eqP. Qed.
Lemma single_inj m : injective (single m).
Proof. by move=> j k e; have := nth_single m j j; rewrite e nth_single eqxx; case: eqP. Qed.

Lemma singleP m t : size t = m -> sumn t = 1%N -> exists2 j, (j < m)%N & t = single m j.
Proof.
move=> st s1; have [j jm p] : exists2 j, (j < m)%N & (0 < nth 0%N t j)%N.
  have : has (fun x => 0 < x)%N t.
    apply/negPn/negP => /hasPn h; move: s1; rewrite sumnE big1_seq // => x /andP[_ /h]; by rewrite -eqn0Ngt => /eqP.
  by move=> /(has_nthP 0%N)[j]; rewrite st => jm p; exists j.
exists j => //; apply: (@eq_from_nth _ 0%N); first by rewrite size_single.
move=> k; rewrite st nth_single => km.
have := s1; rewrite sumnE (big_nth 0%N) big_mkord st.
rewrite (bigD1 (Ordinal jm)) //=; case: (eqVneq k j) => [->|ne]; first by lia.
rewrite (bigD1 (Ordinal km)) //=; lia.
Qed.

Lemma factprod_single m j : (j < m)%N -> factprod (single m j) = 1%N.
Proof.
move=> jm; rewrite /factprod (big_nth 0%N) big_mkord big1 // => i _; by rewrite nth_single; case: (_ == _).
Qed.

Section One.
Variable R : rcfType.
Notation C := R[i].

Lemma bs_prob_single (U : seq (seq C)) m i j : (i < m)%N -> (j < m)%N -> bs_prob U (single m j) (single m i) = nsq (ent U i j).
Proof.
move=> im jm; rewrite /bs_prob !factprod_single // divr1; congr nsq.
rewrite {2}/single bs_permanent_incr ?size_nseq ?sumn_nseq ?sumn_single // size_single //.
rewrite (bigD1 (Ordinal jm)) //= nth_single eqxx mul1r bs_permanent_vac ?mulr1 ?sumn_nseq //; last first.
  by rewrite sumn_decr ?nth_single ?eqxx // sumn_single.
rewrite big1 ?addr0 // => k ne; rewrite nth_single (_ : _ == _ = false) ?mul0r //.
by apply/negbTE; apply: contra ne => /eqP e; apply/eqP/val_inj.
Qed.

Lemma fixed_loss_one (U : seq (seq C)) m s i : size s = m -> (i < m)%N ->
  fixed_loss_prob U s (single m i) = (\sum_(j < m) (nth 0%N s j)%:R * nsq (ent U i j)) / (sumn s)%:R.
Proof.
move=> ss im; rewrite /fixed_loss_prob sumn_single // bin1; congr (_ / _).
rewrite -big_filter (perm_big [seq single m j | j <- iota 0 m & (0 < nth 0%N s j)%N]).
  rewrite big_map big_filter big_mkcond -{1}(subn0 m) -/(index_iota 0 m) big_mkord; apply: eq_bigr => j _.
  case: ifP => [p|]; last by rewrite lt0n => /negbFE/eqP ->; rewrite mul0r.
  rewrite bs_prob_single //; congr (_%:R * _).
  have := @ways_incr s (nseq m 0%N) j; rewrite size_nseq ss nth_nseq if_same mul1n subn0 => -> //.
  by rewrite /ways big1 ?muln1 // => k _; rewrite nth_nseq if_same bin0.
apply: uniq_perm; first by rewrite filter_uniq // subs_uniq.
  by rewrite map_inj_uniq ?filter_uniq ?iota_uniq //; exact: single_inj.
move=> T; rewrite mem_filter mem_subs; apply/andP/mapP => [[/eqP s1 /substateP[sz le]]|[j + ->]].
  have [j jm e] := singleP (etrans sz ss) s1; exists j => //; rewrite mem_filter mem_iota /= jm andbT.
  by have := le j; rewrite e nth_single eqxx.
rewrite mem_filter mem_iota /= => /andP[p jm]; rewrite sumn_single //; split=> //.
apply/substateP; rewrite size_single // ss; split=> // k; rewrite nth_single; by case: eqP => [->|].
Qed.

Lemma multinomial_one (q : seq R) m i : (i < m)%N -> multinomial_prob 1 q (single m i) = q`_i.
Proof.
move=> im; rewrite /multinomial_prob sumn_single // subnn expr0 mulr1 mul1n -/(factprod (single m i)) factprod_single // divr1 mul1r.
rewrite size_single // (bigD1 (Ordinal im)) //= nth_single eqxx expr1 big1 ?mulr1 // => k ne.
rewrite nth_single (_ : _ == _ = false) ?expr0 //.
by apply/negbTE; apply: contra ne => /eqP e; apply/eqP/val_inj.
Qed.

Lemma smeared_mean (cis : R -> C) m M n S W i : (i < m)%N -> uncorrelated cis m S W ->
  \sum_(d <- S) W d * (smeared cis m M n d)`_i = (\sum_(j < m | (j < n)%N) nsq (ent M i j)) / n%:R.
Proof.
move=> im unc; under eq_bigr => d _ do rewrite (nth_map 0%N) ?size_iota // nth_iota // add0n mulrA.
rewrite -mulr_suml; congr (_ / _); apply: (@complexI R).
rewrite !(rmorph_sum (ComplexField.real_complex_rmorphism R)) /=.
transitivity (\sum_(d <- S) \sum_(j < m | (j < n)%N) \sum_(j' < m | (j' < n)%N)
   conjc (ent M i j') * ent M i j * ((W d)%:C%C * (cis d`_j * conjc (cis d`_j')))).
  apply: eq_bigr => d _; rewrite rmorphM /= nsqE (rmorph_sum (@conjc_rmorphism R)) mulr_suml mulr_sumr exchange_big /=.
  apply: eq_bigr => j' _; rewrite mulr_sumr mulr_sumr; apply: eq_bigr => j _.
  rewrite (rmorphM (@conjc_rmorphism R)) /= ; ring.
rewrite exchange_big /=; apply: eq_bigr => j jn; rewrite exchange_big /= (bigD1 j) //=.
rewrite -mulr_sumr unc // eqxx mulr1 -nsqE big1 ?addr0 // => j' /andP[_ ne].
rewrite -mulr_sumr unc // (_ : _ == _ = false) ?mulr0 //.
by apply/negbTE; apply: contra ne => /eqP e; apply/eqP/val_inj.
Qed.
End One.
