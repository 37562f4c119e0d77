(* Composition of networks: the Cauchy-Binet formula for permanents. *)
From mathcomp Require Import all_ssreflect all_algebra complex.
From mathcomp Require Import ring zify.
From Verif Require Import SpecStates Combi SpecPerm PermMath SpecBS BsMath BsComb BsNorm SpecSym BsSym.
Set Implicit Arguments.
Unset Strict Implicit.
Unset Printing Implicit Defensive.
Import GRing.Theory Num.Theory.
Local Open Scope ring_scope.

Lemma pos_mode t : (0 < sumn t)%N -> exists2 j, (j < size t)%N & (0 < nth 0%N t j)%N.
Proof.
elim: t => [//|[|x] t IH] /=; last by exists 0%N.
by rewrite add0n => /IH[j jl jp]; exists j.+1.
Qed.

Lemma comps0 m : comps m 0 = [:: nseq m 0%N].
Proof.
apply: uniq_single; first exact: comps_uniq.
move=> t; rewrite mem_comps /is_state; apply/andP/eqP => [[/eqP zt /sumn0P ->]|->].
  by rewrite zt.
by rewrite size_nseq sumn_nseq mul0n.
Qed.

Section CauchyBinet.
Variable F : numFieldType.
Implicit Types (U V : seq (seq F)) (s t r : seq nat).

Lemma cauchy_binet m U V s t : size s = m -> size t = m -> sumn s = sumn t ->
  bs_permanent (product m U V) s t =
  \sum_(r <- comps m (sumn s)) bs_permanent U r t * bs_permanent V s r / (factprod r)%:R.
Proof.
move=> zs zt e; have [k es] := ex_intro (fun k => sumn s = k) _ erefl.
rewrite es; elim: k s t es zs zt e => [|k IH] s t es zs zt e.
  rewrite comps0 big_seq1 !bs_permanent_vac ?sumn_nseq ?mul0n // -?e // /factprod big1_seq.
    by rewrite !mul1r invr1.
  by move=> x /andP[_ /nseqP[-> _]].
have [j jl jp] : exists2 j, (j < size t)%N & (0 < nth 0%N t j)%N by apply: pos_mode; rewrite -e es.
move: (incr_decr jp) (size_decr jl) (sumn_decr jp); move: (decr t j) => t' et zt' et'.
rewrite zt in zt' jl; rewrite -e es /= in et'.
have jl' : (j < size t')%N by rewrite zt'.
rewrite -et bs_permanent_incr ?es ?et' // zs.
transitivity (\sum_(r <- comps m k.+1) \sum_(l < m)
   (nth 0%N r l)%:R * ent U j l * bs_permanent U (decr r l) t' * bs_permanent V s r / (factprod r)%:R); last first.
  apply: eq_big_seq => r; rewrite mem_comps => /andP[/eqP zr /eqP er].
  by rewrite bs_permanent_incr ?er ?et' // zr mulr_suml mulr_suml.
rewrite (@comps_incr _ m k (fun l r => (nth 0%N r l)%:R * ent U j l * bs_permanent U (decr r l) t' * bs_permanent V s r / (factprod r)%:R)); last first.
  by move=> l r ->; rewrite !mul0r.
transitivity (\sum_(i < m) \sum_(r <- comps m k) \sum_(l < m)
  (nth 0%N s i)%:R * ent U j l * ent V l i * (bs_permanent U r t' * bs_permanent V (decr s i) r / (factprod r)%:R)).
  apply: eq_bigr => i _; case: (posnP (nth 0%N s i)) => [->|ip].
    rewrite !mul0r big1_seq // => r _; rewrite big1 // => l _; by rewrite !mul0r.
  have e1 : sumn (decr s i) = k by rewrite sumn_decr // es.
  have e2 : size (decr s i) = m by rewrite size_decr zs.
  rewrite IH ?e1 ?e2 //.
  rewrite ent_mk // mulr_sumr; apply: eq_bigr => r _.
  rewrite mulr_sumr mulr_suml; apply: eq_bigr => l _.
  by rewrite !mulrA.
rewrite exchange_big /=; apply: eq_big_seq => r; rewrite mem_comps => /andP[/eqP zr /eqP er].
rewrite exchange_big /=; apply: eq_bigr => l _.
have ll : (l < size r)%N by rewrite zr.
rewrite bs_permanent_incr ?es ?er // zs factprod_incr // nth_incr eqxx decr_incr // mulr_sumr mulr_suml.
apply: eq_bigr => i _; rewrite natrM.
have n0 : ((nth 0%N r l).+1)%:R != 0 :> F by rewrite pnatr_eq0.
have f0 : (factprod r)%:R != 0 :> F by rewrite pnatr_eq0 -lt0n factprod_gt0.
move: n0 f0; move: (((nth 0%N r l).+1)%:R : F) ((factprod r)%:R : F) => a b n0 f0.
by field; rewrite f0 n0.
Qed.

End CauchyBinet.
