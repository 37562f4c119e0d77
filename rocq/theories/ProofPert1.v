(* How much the output state changes when the network changes. *)
From mathcomp Require Import all_ssreflect all_algebra complex.
From mathcomp Require Import ring zify.
From Verif Require Import SpecStates Combi SpecPerm PermMath SpecBS BsMath BsComb BsNorm BsSym ProofMat.
Set Implicit Arguments.
Unset Strict Implicit.
Unset Printing Implicit Defensive.
Import Order.TTheory GRing.Theory Num.Theory.
Local Open Scope ring_scope.

Fixpoint words (m n : nat) : seq (seq nat) :=
  if n is n'.+1 then flatten [seq [seq a :: x | x <- words m n'] | a <- iota 0 m] else [:: [::]].

Lemma big_words (V : zmodType) m n (F : seq nat -> V) :
  \sum_(x <- words m n.+1) F x = \sum_(a < m) \sum_(x <- words m n) F ((a : nat) :: x).
Proof.
rewrite /= big_flatten big_map -{1}[m]subn0 -/(index_iota 0 m) big_mkord.
by apply: eq_bigr => a _; rewrite big_map.
Qed.

Section Norms.
Variables (R : rcfType) (X : Type) (r : seq X).
Notation C := (ComplexField.complex_numFieldType R).
Implicit Types (f g : X -> C) (x y : X -> R).

Definition len f : R := Num.sqrt (\sum_(a <- r) nsq (f a)).

Lemma big_t (F : X -> R) : \sum_(a <- r) F a = \sum_(i < size r) F (tnth (in_tuple r) i).
Proof. exact: big_tnth. Qed.

Lemma len_ge0 f : 0 <= len f. Proof. exact: sqrtr_ge0. Qed.
Lemma nsq_sum_ge0 f : 0 <= \sum_(a <- r) nsq (f a).
Proof. by apply: sumr_ge0 => a _; exact: nsq_ge0. Qed.

Lemma len_sqr f : len f ^+ 2 = \sum_(a <- r) nsq (f a).
Proof. by rewrite sqr_sqrtr ?nsq_sum_ge0. Qed.

Lemma cs_seq x y : \sum_(a <- r) x a * y a <= Num.sqrt (\sum_(a <- r) x a ^+ 2) * Num.sqrt (\sum_(a <- r) y a ^+ 2).
Proof.
have p z : 0 <= \sum_(a <- r) z a ^+ 2 :> R by apply: sumr_ge0 => a _; exact: sqr_ge0.
rewrite -sqrtrM ?p //; apply: le_trans (ler_norm _) _; rewrite -sqrtr_sqr ler_wsqrtr //.
by rewrite !big_t; exact: cauchy_schwarz.
Qed.

Lemma len_tri f g : len (fun a => f a + g a) <= len f + len g.
Proof.
have e h : len h = Num.sqrt (\sum_(a : 'I_(size r) * bool) (if a.2 then complex.Re (h (tnth (in_tuple r) a.1)) else complex.Im (h (tnth (in_tuple r) a.1))) ^+ 2).
  rewrite /len big_t; congr Num.sqrt; rewrite -(pair_bigA _ (fun i b => (if b then complex.Re (h (tnth (in_tuple r) i)) else complex.Im (h (tnth (in_tuple r) i))) ^+ 2)) /=.
  by apply: eq_bigr => i _; rewrite big_bool.
rewrite !e; apply: le_trans (minkowski _ _); rewrite le_eqVlt; apply/orP; left; apply/eqP; congr Num.sqrt.
by apply: eq_bigr => -[i []] _ /=; rewrite raddfD.
Qed.

End Norms.

Section Amplitudes.
Variable R : rcfType.
Notation C := (ComplexField.complex_numFieldType R).

Lemma abs_tri (u v : C) : Num.sqrt (nsq (u + v)) <= Num.sqrt (nsq u) + Num.sqrt (nsq v).
Proof. by have := @len_tri R unit [:: tt] (fun=> u) (fun=> v); rewrite /len !big_seq1. Qed.

Lemma abs_nsq_sub (a b : C) : `|nsq a - nsq b| <= Num.sqrt (nsq (a - b)) * (Num.sqrt (nsq a) + Num.sqrt (nsq b)).
Proof.
have ab := abs_tri (a - b) b; have ba := abs_tri (b - a) a; rewrite !subrK in ab ba.
rewrite nsq_sym in ba.
set x := Num.sqrt (nsq a) in ab ba *; set y := Num.sqrt (nsq b) in ab ba *.
have [x0 y0] : 0 <= x /\ 0 <= y by split; exact: sqrtr_ge0.
have -> : nsq a - nsq b = (x - y) * (x + y) by rewrite -subr_sqr !sqr_sqrtr ?nsq_ge0.
rewrite normrM [`|x + y|]ger0_norm ?addr_ge0 // ler_wpmul2r ?addr_ge0 //.
by rewrite ler_norml ler_subl_addr ab ler_oppl opprB ler_subl_addr ba.
Qed.

Lemma sum_abs_nsq (X : Type) (r : seq X) (f g : X -> C) :
  \sum_(a <- r) `|nsq (f a) - nsq (g a)| <= len r (fun a => f a - g a) * (len r f + len r g).
Proof.
apply: le_trans (ler_sum _ (fun a _ => abs_nsq_sub (f a) (g a))) _.
under eq_bigr => a _ do rewrite mulrDr.
rewrite big_split mulrDr; apply: ler_add; apply: le_trans (cs_seq _ _ _) _; rewrite le_eqVlt; apply/orP; left; apply/eqP;
by congr (Num.sqrt _ * Num.sqrt _); apply: eq_bigr => a _; rewrite sqr_sqrtr ?nsq_ge0.
Qed.
End Amplitudes.

Section Tensor.
Variable R : rcfType.
Notation C := (ComplexField.complex_numFieldType R).
Variable m : nat.
Implicit Types (u v : nat -> nat -> C) (f : seq nat -> C).

(* u on every factor *)
Fixpoint ap u (n : nat) f (x : seq nat) : C :=
  match n, x with
  | n'.+1, a :: x' => \sum_(b < m) u a b * ap u n' (fun y => f ((b : nat) :: y)) x'
  | _, _ => f [::]
  end.

Lemma len2_words n f : len (words m n.+1) f ^+ 2 = \sum_(a < m) len (words m n) (fun x => f ((a : nat) :: x)) ^+ 2.
Proof. by rewrite len_sqr big_words; apply: eq_bigr => a _; rewrite len_sqr. Qed.

Lemma ap_ext u n f g x : f =1 g -> ap u n f x = ap u n g x.
Proof.
elim: n f g x => [|n IH] f g [|a x] h /=; rewrite ?h //.
by apply: eq_bigr => b _; congr (_ * _); apply: IH => y.
Qed.

Lemma ap_zero u n x : ap u n (fun=> 0) x = 0.
Proof. by elim: n x => [|n IH] [|a x] //=; rewrite big1 // => b _; rewrite IH mulr0. Qed.

Section Isometry.
Variable u : nat -> nat -> C.
Hypothesis iso : forall w : nat -> C, \sum_(a < m) nsq (\sum_(b < m) u a b * w b) = \sum_(b < m) nsq (w b).

Lemma iso_words n (g : nat -> seq nat -> C) :
  \sum_(a < m) len (words m n) (fun x => \sum_(b < m) u a b * g b x) ^+ 2 = \sum_(b < m) len (words m n) (g b) ^+ 2.
Proof.
under eq_bigr => a _ do rewrite len_sqr.
rewrite exchange_big /=.
under eq_bigr => x _ do rewrite (iso (fun b => g b x)).
by rewrite exchange_big; apply: eq_bigr => b _; rewrite len_sqr.
Qed.

Lemma ap_len n f : len (words m n) (ap u n f) = len (words m n) f.
Proof.
apply/eqP; rewrite -(@eqr_expn2 _ 2) ?len_ge0 //; apply/eqP.
elim: n f => [|n IH] f; first by rewrite !len_sqr !big_seq1.
rewrite !len2_words (iso_words n (fun b => ap u n (fun y => f (b :: y)))).
by apply: eq_bigr => b _; rewrite IH.
Qed.
End Isometry.

Variables (u v : nat -> nat -> C) (e : R).
Hypotheses (isou : forall w : nat -> C, \sum_(a < m) nsq (\sum_(b < m) u a b * w b) = \sum_(b < m) nsq (w b))
  (isov : forall w : nat -> C, \sum_(a < m) nsq (\sum_(b < m) v a b * w b) = \sum_(b < m) nsq (w b))
  (e0 : 0 <= e)
  (bd : forall w : nat -> C, \sum_(a < m) nsq (\sum_(b < m) (u a b - v a b) * w b) <= e ^+ 2 * \sum_(b < m) nsq (w b)).

Lemma ap_diff n f : len (words m n) (fun x => ap u n f x - ap v n f x) <= n%:R * e * len (words m n) f.
Proof.
elim: n f => [|n IH] f.
  rewrite !mul0r /len big_seq1 subrr (_ : nsq 0 = 0) ?sqrtr0 //.
  by rewrite /nsq /= expr0n addr0.
pose F x : C := if x is a :: x' then \sum_(b < m) (u a b - v a b) * ap u n (fun y => f ((b : nat) :: y)) x' else 0.
pose G x : C := if x is a :: x' then \sum_(b < m) v a b * (ap u n (fun y => f ((b : nat) :: y)) x' - ap v n (fun y => f ((b : nat) :: y)) x') else 0.
have -> : len (words m n.+1) (fun x => ap u n.+1 f x - ap v n.+1 f x) = len (words m n.+1) (fun x => F x + G x).
  congr Num.sqrt; rewrite !big_words; apply: eq_bigr => a _; apply: eq_bigr => x _; congr nsq.
  rewrite /F /G /= -sumrB -big_split; apply: eq_bigr => b _ /=.
  by move: (ap u _ _ _) (ap v _ _ _) (u a b) (v a b) => p q r t; ring.
apply: le_trans (len_tri _ _ _) _.
have h1 : len (words m n.+1) F <= e * len (words m n.+1) f.
  rewrite -(@ler_pexpn2r _ 2) ?nnegrE ?mulr_ge0 ?len_ge0 // exprMn !len2_words.
  under eq_bigr => a _ do rewrite len_sqr.
  rewrite exchange_big /=.
  apply: le_trans (ler_sum _ (fun x _ => bd (fun b => ap u n (fun y => f (b :: y)) x))) _.
  rewrite -mulr_sumr ler_wpmul2l ?exprn_ge0 // exchange_big /= le_eqVlt; apply/orP; left; apply/eqP.
  by apply: eq_bigr => b _; rewrite -(ap_len isou) len_sqr.
have h2 : len (words m n.+1) G <= n%:R * e * len (words m n.+1) f.
  have ne0 : 0 <= n%:R * e by rewrite mulr_ge0 ?ler0n.
  rewrite -(@ler_pexpn2r _ 2) ?nnegrE ?mulr_ge0 ?len_ge0 ?ler0n // exprMn !len2_words.
  rewrite (iso_words isov n (fun b x => ap u n (fun y => f (b :: y)) x - ap v n (fun y => f (b :: y)) x)) mulr_sumr.
  apply: ler_sum => b _; rewrite -exprMn ler_pexpn2r ?nnegrE ?mulr_ge0 ?len_ge0 ?ler0n //; exact: IH.
apply: le_trans (ler_add h1 h2) _.
by rewrite -mulrDl -{1}[e]mul1r -mulrDl mulrS.
Qed.
End Tensor.

Section Occupation.
Variable R : rcfType.
Notation C := (ComplexField.complex_numFieldType R).
Variable m : nat.

Fixpoint occ (s y : seq nat) : C :=
  if y is b :: y' then (if (0 < nth 0%N s b)%N then occ (decr s b) y' else 0) else 1.

Lemma ap_occ (u : nat -> nat -> C) s x : size s = m -> sumn s = size x ->
  (factprod s)%:R * ap m u (size x) (occ s) x = PerO u x s.
Proof.
elim: x s => [|a x IH] s zs e.
  rewrite [ap _ _ _ _ _]/= mulr1 [PerO _ _ _]/=; suff -> : factprod s = 1%N by [].
  by rewrite /factprod; move/eqP/sumn0P: e => ->; rewrite big1_seq // => y /andP[_ /nseqP[-> _]].
rewrite PerO_cons zs [ap _ _ _ _ _]/= mulr_sumr; apply: eq_bigr => b _.
case: (posnP (nth 0%N s b)) => [z|p].
  by rewrite z ap_zero !mulr0 !mul0r.
have bl : (b < size s)%N by rewrite zs.
rewrite (factprod_decr p) natrM -IH ?size_decr ?sumn_decr ?e ?zs //.
by rewrite -!mulrA; congr (_ * _); rewrite mulrCA.
Qed.

Lemma occ_len n s : size s = m -> sumn s = n -> (factprod s)%:R * len (words m n) (occ s) ^+ 2 = n`!%:R :> R.
Proof.
have n1 : nsq (1 : C) = 1 by rewrite /nsq /= expr1n expr0n addr0.
have n0 : nsq (0 : C) = 0 by rewrite /nsq /= expr0n addr0.
elim: n s => [|n IH] s zs e.
  rewrite len_sqr big_seq1 [occ _ _]/= n1 mulr1; suff -> : factprod s = 1%N by [].
  by rewrite /factprod; move/eqP/sumn0P: e => ->; rewrite big1_seq // => y /andP[_ /nseqP[-> _]].
rewrite len2_words mulr_sumr factS natrM -{1}e sumn_nth zs natr_sum mulr_suml; apply: eq_bigr => b _.
case: (posnP (nth 0%N s b)) => [z|p].
  by rewrite z mul0r len_sqr big1 ?mulr0 // => x _; rewrite /= z n0.
have bl : (b < size s)%N by rewrite zs.
rewrite (factprod_decr p) natrM -mulrA; congr (_ * _); rewrite -(IH (decr s b)) ?size_decr ?sumn_decr ?e ?zs //.
by congr (_ * _); rewrite !len_sqr; apply: eq_bigr => x _; rewrite /= p.
Qed.
End Occupation.

(* grouping words by the number of times each letter occurs *)
Lemma modes_incr t a : (a < size t)%N -> perm_eq (a :: particle_modes t) (particle_modes (incr t a)).
Proof.
move=> al; apply/allP => k _ /=; rewrite !count_particle_modes nth_incr [a == k]eq_sym.
by have [->|_] := eqVneq k a.
Qed.

Lemma size_words m n x : x \in words m n -> size x = n.
Proof.
elim: n x => [|n IH] x; first by rewrite inE => /eqP ->.
by move/flatten_mapP=> [a _ /mapP[y /IH sy ->]]; rewrite /= sy.
Qed.

Lemma words_comps (R : rcfType) m n (h : seq nat -> R) :
  (forall x x', size x = n -> perm_eq x x' -> h x = h x') ->
  \sum_(x <- words m n) h x = n`!%:R * \sum_(t <- comps m n) h (particle_modes t) / (factprod t)%:R.
Proof.
elim: n h => [|n IH] h inv.
  rewrite big_seq1 mul1r comps_zero big_seq1 /factprod big1_seq => [|y /andP[_ /nseqP[-> _]] //].
  rewrite divr1; congr h; apply/esym/eqP; rewrite -size_eq0 size_particle_modes sumn_nseq mul0n //.
rewrite big_words factS natrM [X in X * _]mulrC -mulrA (comps_step m n (fun t => h (particle_modes t))) mulr_sumr.
transitivity (\sum_(a < m) \sum_(r <- comps m n) n`!%:R * (h ((a : nat) :: particle_modes r) / (factprod r)%:R)).
  apply: eq_bigr => a _; rewrite IH => [|x x' sx pe]; first by rewrite mulr_sumr.
  by apply: inv; rewrite /= ?sx // perm_cons.
rewrite exchange_big /=; apply: eq_big_seq => r; rewrite mem_comps => /andP[/eqP sr /eqP er].
rewrite mulr_suml mulr_sumr; apply: eq_bigr => a _; congr (_ * (_ / _)).
by apply: inv; rewrite /= ?size_particle_modes ?er // modes_incr // sr.
Qed.
