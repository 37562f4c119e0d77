(* The distribution of a network with losses depends continuously on its matrix. *)
From mathcomp Require Import all_ssreflect all_algebra complex.
From mathcomp Require Import ring zify.
From Verif Require Import Base SpecStates Combi SpecPerm PermMath SpecBS BsMath BsComb BsNorm ProofPerm3
  SpecNet ProofNet4 ProofGcc3 ProofGccB2 ProofFloatDist ModelPerm ModelFloat SpecFloat ProofFloat ProofFloat4 ProofFloatDist2 ProofFloatGcc3 SpecFloatNet.
Set Implicit Arguments.
Unset Strict Implicit.
Unset Printing Implicit Defensive.
Import Order.TTheory GRing.Theory Num.Theory.
Local Open Scope ring_scope.

Section Pert.
Variable R : rcfType.
Notation C := (ComplexField.complex_numFieldType R).
Notation mat := (seq (seq C)).
Variables (m : nat) (M0 M : mat) (eps : R).
Hypothesis e0 : 0 <= eps.
Hypothesis U1 : entries_bounded m M0 (1%:C)%C.
Hypothesis UV : forall j i, (j < m)%N -> (i < m)%N -> `|ent M j i - ent M0 j i| <= (eps%:C)%C.
Notation nearC := (near (eps%:C)%C).
Let eC0 : 0 <= (eps%:C)%C :> C. Proof. by rewrite ler0c. Qed.

Lemma near_sum_gen k (I : Type) (r : seq I) (f a g : I -> C) : (forall i, nearC k (f i) (a i) (g i)) ->
  nearC k (\sum_(i <- r) f i) (\sum_(i <- r) a i) (\sum_(i <- r) g i).
Proof.
move=> h; elim: r => [|i r IH]; first by rewrite !big_nil; apply: near_exact; rewrite ?normr0.
by rewrite !big_cons; apply: near_plus.
Qed.

Lemma normRC (x : R) : `|(x%:C)%C : C| = (`|x|%:C)%C.
Proof. by rewrite normc_def /= expr0n addr0 sqrtr_sqr. Qed.

Lemma norm_conjc (x : C) : `|conjc x : C| = `|x|.
Proof. by case: x => a b; rewrite !normc_def /= sqrrN. Qed.

Lemma near_conj k v a w : nearC k v a w -> nearC k (conjc v) a (conjc w).
Proof. by case=> h1 h2; split; rewrite -?rmorphB norm_conjc. Qed.

Variables (d d0 : nat) (D D0 : mat).
Hypotheses (dD : dilation m d M D) (dD0 : dilation m d0 M0 D0).

Lemma near_lgram i i' : (i < m)%N -> (i' < m)%N -> nearC 2 (lgram m d0 D0 i i') (m.+1)%:R (lgram m d D i i').
Proof.
move=> il il'; rewrite (lgram_dil dD) // (lgram_dil dD0) // -[m.+1]add1n natrD.
apply: near_plus; first by apply: near_exact => //; rewrite normr_nat lern1 leq_b1.
apply: near_opp; have -> : m%:R = \sum_(j < m) 1 :> C by rewrite sumr_const card_ord.
apply: near_sum_gen => j; rewrite -[X in near _ _ _ X _]mulr1.
apply: (near_times (k1 := 1) (k2 := 1)) => //; first exact: (near_entry U1 UV (ltn_ord j) il).
by apply: near_conj; exact: (near_entry U1 UV (ltn_ord j) il').
Qed.

Variable t : seq nat.
Hypothesis st : size t = m.

Definition form_scale (k : nat) : C := (((sumn t + k)`! ^ 2 * m.+1 ^ k)%:R) / k`!%:R.

Lemma near_form k T T' : size T = m -> size T' = m -> sumn T = (sumn t + k)%N -> sumn T' = (sumn t + k)%N ->
  nearC (2 * (sumn t + k)) (form d0 D0 k T T' t) (form_scale k) (form d D k T T' t).
Proof.
elim: k T T' => [|k IH] T T' sT sT' e e'.
  rewrite /form !comps_zero !big_seq1 /factprod !big_nseq !iter_muln_1 !exp1n /form_scale.
  have h S : size S = m -> sumn S = (sumn t + 0)%N ->
      nearC (sumn t) (bs_permanent D0 S (t ++ nseq d0 0%N)) (sumn t)`!%:R (bs_permanent D S (t ++ nseq d 0%N)).
    rewrite addn0 => sS eS.
    have -> : bs_permanent D S (t ++ nseq d 0%N) = bs_permanent M S t.
      apply: bs_permanent_entries; rewrite ?particle_modes_zeros // st sS => a i al il.
      by case: dD => -> .
    have -> : bs_permanent D0 S (t ++ nseq d0 0%N) = bs_permanent M0 S t.
      apply: bs_permanent_entries; rewrite ?particle_modes_zeros // st sS => a i al il.
      by case: dD0 => -> .
    by apply: (near_permanent e0 U1 UV); rewrite ?sS ?st.
  rewrite expn0 muln1 addn0 !divr1 mul2n -addnn natrX expr2.
  by apply: near_times => //; [apply: h|apply: near_conj; apply: h].
have k0 : (k.+1)%:R != 0 :> C by rewrite pnatr_eq0.
have E dd (DD : mat) : form dd DD k.+1 T T' t = k.+1%:R^-1 * \sum_(i < m) \sum_(i' < m)
    (nth 0%N T i)%:R * (nth 0%N T' i')%:R * lgram m dd DD i i' * form dd DD k (decr T i) (decr T' i') t.
  by rewrite -(@form_step R m dd DD k T T' t st sT sT' e e') mulKf.
rewrite !E.
have -> : form_scale k.+1 = k.+1%:R^-1 * \sum_(i < m) \sum_(i' < m)
    (nth 0%N T i)%:R * (nth 0%N T' i')%:R * m.+1%:R * form_scale k.
  have sE S : size S = m -> \sum_(i < m) (nth 0%N S i)%:R = (sumn S)%:R :> C.
    by move=> sS; rewrite -natr_sum sumn_nth sS.
  transitivity (k.+1%:R^-1 * ((sumn T)%:R * (sumn T')%:R * m.+1%:R * form_scale k)).
    rewrite e e' /form_scale addnS factS expnMn factS !natrM invfM !natrX [m.+1%:R ^+ k.+1]exprS.
    by move: (m.+1%:R ^+ k : C) (k.+1%:R^-1 : C) ((sumn t + k).+1%:R : C) (m.+1%:R : C) ((sumn t + k)`!%:R : C) (k`!%:R^-1 : C) => z a b c x y; ring.
  congr (_ * _); rewrite -(sE T) // mulr_suml mulr_suml mulr_suml; apply: eq_bigr => i _.
  by rewrite -(sE T') // mulr_sumr !mulr_suml.
have -> : (2 * (sumn t + k.+1) = 0 + (2 + 2 * (sumn t + k)))%N by lia.
apply: near_times => //; first by apply: near_exact => //; rewrite ger0_norm // invr_ge0 ler0n.
apply: near_sum_gen => i; apply: near_sum_gen => i'.
case: (posnP (nth 0%N T i)) => [->|p]; first by rewrite !mul0r; apply: near_exact; rewrite ?normr0.
case: (posnP (nth 0%N T' i')) => [->|p']; first by rewrite !mulr0 !mul0r; apply: near_exact; rewrite ?normr0.
apply: near_times => //; last by apply: IH; rewrite ?size_decr ?sT ?sT' ?sumn_decr ?e ?e' ?addnS.
rewrite -[2%N]add0n; apply: near_times => //; last exact: near_lgram.
by apply: near_exact => //; rewrite -natrM normr_nat.
Qed.

Lemma traced_close s : size s = m -> (sumn t <= sumn s)%N ->
  `|traced_prob d D s t - traced_prob d0 D0 s t| <=
    ((1 + eps) ^+ (2 * sumn s) - 1) * ((sumn s)`!%:R ^+ 2 * m.+1%:R ^+ (sumn s - sumn t)
       / (sumn s - sumn t)`!%:R / (factprod s)%:R / (factprod t)%:R).
Proof.
move=> ss le; have e : sumn s = (sumn t + (sumn s - sumn t))%N by rewrite subnKC.
have [_] := near_form ss ss e e; rewrite -e => h.
set E := (1 + eps) ^+ _ - 1; set G := (_ / (factprod t)%:R).
have EC : (E%:C)%C = (1 + (eps%:C)%C) ^+ (2 * sumn s) - 1 :> C.
  by rewrite /E rmorphB rmorphX rmorphD !rmorph1.
have GC : (G%:C)%C = form_scale (sumn s - sumn t) / (factprod s * factprod t)%:R :> C.
  rewrite /G /form_scale -e !rmorphM !fmorphV !rmorphX !rmorph_nat natrM !natrX natrM invfM.
  by rewrite !mulrA.
rewrite -lecR -normRC rmorphB [X in _ <= X]rmorphM [X in _ <= X * _]EC [X in _ <= _ * X]GC.
rewrite [X in `|X - _|]traced_form // [X in `|_ - X|]traced_form //.
rewrite -mulrBl normrM normfV normr_nat mulrA ler_wpmul2r // invr_ge0 ler0n.
by [].
Qed.

End Pert.

Section Total.
Variable R : rcfType.
Notation C := (ComplexField.complex_numFieldType R).
Notation mat := (seq (seq C)).

Lemma comps_inv_fact m l : \sum_(t <- comps m l) (factprod t)%:R^-1 = m%:R ^+ l / l`!%:R :> R.
Proof.
elim: l => [|l IH]; first by rewrite comps_zero big_seq1 /factprod big_nseq iter_muln_1 exp1n expr0 divr1 invr1.
have l0 : l.+1%:R != 0 :> R by rewrite pnatr_eq0.
apply: (mulfI l0); have := comps_stepF m l (fun=> 1 : R).
under eq_bigr do rewrite mul1r; rewrite sumr_const card_ord => ->.
rewrite -mulr_sumr IH factS natrM exprS.
have f0 : l`!%:R != 0 :> R by rewrite pnatr_eq0 -lt0n fact_gt0.
by move: (m%:R ^+ l : R) (m%:R : R) (l.+1%:R : R) (l`!%:R : R) l0 f0 => a b c x c0 x0; field; rewrite c0 x0.
Qed.

Lemma subunitary_entries m (M : mat) : subunitary m M -> entries_bounded m M (1%:C)%C.
Proof.
move=> [_ h] j i jm im; have := h (fun k => (k == i)%:R).
have -> : \sum_(k < m) nsq ((k == i :> nat)%:R : C) = 1.
  rewrite (bigD1 (Ordinal im)) //= eqxx nsq1 big1 ?addr0 // => k ne.
  by have -> : (k == i :> nat) = false; [apply/negbTE: ne|rewrite nsq0].
have E (k : 'I_m) : \sum_(l < m) ent M k l * (l == i :> nat)%:R = ent M k i.
  rewrite (bigD1 (Ordinal im)) //= eqxx mulr1 big1 ?addr0 // => l ne.
  by have -> : (l == i :> nat) = false; [apply/negbTE: ne|rewrite mulr0].
under eq_bigr do rewrite E.
rewrite (bigD1 (Ordinal jm)) //= => le.
have le1 : nsq (ent M j i) <= 1.
  by apply: le_trans le; rewrite ler_addl sumr_ge0 // => k _; rewrite nsq_ge0.
by rewrite (normE (ent M j i)) lecR -[X in _ <= X](@sqrtr1 R) ler_sqrt // ltr01.
Qed.

Lemma traced_distance m (M0 M : mat) (eps : R) d d0 (D D0 : mat) s : 0 <= eps -> entries_bounded m M0 (1%:C)%C ->
  close m eps M M0 -> dilation m d M D -> dilation m d0 M0 D0 -> size s = m ->
  \sum_(t <- lcomps m (sumn s)) `|traced_prob d D s t - traced_prob d0 D0 s t| <= 2%:R * network_error eps m s.
Proof.
move=> e0 U1 UV dD dD0 ss; rewrite /network_error mulrC divfK ?pnatr_eq0 //.
set n := sumn s; set E := (1 + eps) ^+ _ - 1.
pose g t := n`!%:R ^+ 2 * m.+1%:R ^+ (n - sumn t) / (n - sumn t)`!%:R / (factprod s)%:R / (factprod t)%:R : R.
apply: (@le_trans _ _ (\sum_(t <- lcomps m n) E * g t)).
  rewrite big_seq [X in _ <= X]big_seq; apply: ler_sum => t; rewrite mem_lcomps => /andP[/eqP st le].
  exact: (traced_close e0 U1 UV dD dD0 st ss le).
rewrite -mulr_sumr big_lcomps; apply: ler_wpmul2l; first by rewrite E0.
have -> : \sum_(l < n.+1) \sum_(t <- comps m l) g t =
   \sum_(l < n.+1) n`!%:R / (factprod s)%:R * ((m.+1%:R ^+ (n - l) * m%:R ^+ l) *+ 'C(n, l)).
  apply: eq_bigr => l _.
  transitivity (\sum_(t <- comps m l) n`!%:R ^+ 2 * m.+1%:R ^+ (n - l) / (n - l)`!%:R / (factprod s)%:R / (factprod t)%:R : R).
    by apply: eq_big_seq => t; rewrite mem_comps => /andP[_ /eqP et]; rewrite /g et.
  rewrite -mulr_sumr comps_inv_fact -[_ *+ 'C(n, l)]mulr_natl.
  have ln : (l <= n)%N by rewrite -ltnS.
  have -> : n`!%:R ^+ 2 = n`!%:R * ('C(n, l)%:R * (l`!%:R * (n - l)`!%:R)) :> R.
    by rewrite -!natrM bin_fact // natrM expr2.
  have f1 : l`!%:R != 0 :> R by rewrite pnatr_eq0 -lt0n fact_gt0.
  have f2 : (n - l)`!%:R != 0 :> R by rewrite pnatr_eq0 -lt0n fact_gt0.
  have f3 : (factprod s)%:R != 0 :> R by rewrite factprod_neq0.
  move: (l`!%:R) ((n - l)`!%:R) ((factprod s)%:R) (n`!%:R) (m.+1%:R ^+ (n - l)) (m%:R ^+ l) ('C(n, l)%:R) f1 f2 f3 => a b c x y z w a0 b0 c0.
  by field; rewrite a0 b0 c0.
rewrite -mulr_sumr -exprDn addrC -natrD addnC.
by [].
Qed.

End Total.
