(* The distribution of the observed modes does not depend on how the
   unobserved modes complete the matrix. *)
From mathcomp Require Import all_ssreflect all_algebra complex ring.
From Verif Require Import Base SpecStates Combi SpecPerm PermMath SpecBS SpecNet BsMath BsComb BsNorm ProofPerm3.
Set Implicit Arguments.
Unset Strict Implicit.
Unset Printing Implicit Defensive.
Import Order.TTheory GRing.Theory Num.Theory.
Local Open Scope ring_scope.

Section Generic.
Variable F : numFieldType.

Lemma comps_stepF (m k : nat) (g : seq nat -> F) :
  k.+1%:R * (\sum_(t <- comps m k.+1) g t / (factprod t)%:R) =
  \sum_(r <- comps m k) (\sum_(j < m) g (incr r j)) / (factprod r)%:R.
Proof.
rewrite mulr_sumr.
transitivity (\sum_(t <- comps m k.+1) \sum_(j < m) (nth 0%N t j)%:R * (g t / (factprod t)%:R)).
  apply: eq_big_seq => t; rewrite mem_comps => /andP[/eqP st /eqP e].
  by rewrite -e sumn_nth st natr_sum mulr_suml.
rewrite (comps_incr m k (G := fun j t => (nth 0%N t j)%:R * (g t / (factprod t)%:R))); last first.
  by move=> j t ->; rewrite mul0r.
apply: eq_big_seq => r; rewrite mem_comps => /andP[/eqP st _].
rewrite mulr_suml; apply: eq_bigr => j _; rewrite nth_incr eqxx factprod_incr ?st //.
by rewrite natrM invfM mulrCA; congr (_ * _); rewrite mulrA divff ?mul1r // pnatr_eq0.
Qed.
End Generic.

Lemma factprod_cat s t : factprod (s ++ t) = (factprod s * factprod t)%N.
Proof. by rewrite /factprod big_cat. Qed.

Lemma incr_cat t r j : incr (t ++ r) (size t + j) = t ++ incr r j.
Proof.
rewrite !incrE; elim: t => [|x t IH] //=.
by rewrite -IH.
Qed.

Lemma particle_modes_zeros t d : particle_modes (t ++ nseq d 0%N) = particle_modes t.
Proof.
rewrite /particle_modes size_cat size_nseq iotaD add0n map_cat flatten_cat.
rewrite [X in _ ++ X](_ : _ = [::]) ?cats0.
  congr flatten; apply/eq_in_map => i; rewrite mem_iota add0n => /= il.
  by rewrite nth_cat il.
have : all (fun i => nth 0%N (t ++ nseq d 0%N) i == 0%N) (iota (size t) d).
  apply/allP=> i; rewrite mem_iota => /andP[h _].
  by rewrite nth_cat ltnNge h /= nth_nseq if_same.
by elim: (iota _ _) => [//|i l IH] /= /andP[/eqP -> /IH].
Qed.

(* only the entries used matter *)
Lemma PerO_entries (F : comRingType) (u v : nat -> nat -> F) rows s :
  (forall a i, a \in rows -> (i < size s)%N -> u a i = v a i) -> PerO u rows s = PerO v rows s.
Proof.
elim: rows s => [//|a rows IH] s h; rewrite !PerO_cons; apply: eq_bigr => i _.
rewrite h ?inE ?eqxx //; congr (_ * _); apply: IH => b j br jl.
apply: h; rewrite ?inE ?br ?orbT //; apply: leq_trans jl _.
by rewrite size_decr // ltn_ord.
Qed.

Lemma bs_permanent_entries (F : comRingType) (U V : seq (seq F)) s t t' : sumn s = sumn t ->
  particle_modes t' = particle_modes t ->
  (forall a i, (a < size t)%N -> (i < size s)%N -> ent U a i = ent V a i) ->
  bs_permanent U s t' = bs_permanent V s t.
Proof.
move=> e pe h; rewrite !bs_permanent_PerO //; last by rewrite -(size_particle_modes t') pe size_particle_modes.
rewrite pe; apply: PerO_entries => a i /particle_modes_lt al il; exact: h.
Qed.

Section Dil.
Variable R : rcfType.
Notation C := (ComplexField.complex_numFieldType R).
Notation mat := (seq (seq C)).
Variable m : nat.

Definition form (d : nat) (D : mat) (k : nat) (T T' t : seq nat) : C :=
  \sum_(r <- comps d k) bs_permanent D T (t ++ r) * conjc (bs_permanent D T' (t ++ r)) / (factprod r)%:R.

Definition lgram (d : nat) (D : mat) (i i' : nat) : C :=
  \sum_(j < d) ent D (m + j) i * conjc (ent D (m + j) i').

Lemma form_step d D k T T' t : size t = m -> size T = m -> size T' = m ->
  sumn T = (sumn t + k.+1)%N -> sumn T' = (sumn t + k.+1)%N ->
  k.+1%:R * form d D k.+1 T T' t =
  \sum_(i < m) \sum_(i' < m) (nth 0%N T i)%:R * (nth 0%N T' i')%:R * lgram d D i i' *
     form d D k (decr T i) (decr T' i') t.
Proof.
move=> st sT sT' e e'; rewrite /form (comps_stepF d k (fun r => bs_permanent D T (t ++ r) * conjc (bs_permanent D T' (t ++ r)))).
transitivity (\sum_(r <- comps d k) \sum_(i < m) \sum_(i' < m)
    (nth 0%N T i)%:R * (nth 0%N T' i')%:R * lgram d D i i' *
    (bs_permanent D (decr T i) (t ++ r) * conjc (bs_permanent D (decr T' i') (t ++ r)) / (factprod r)%:R)); last first.
  rewrite exchange_big; apply: eq_bigr => i _; rewrite exchange_big; apply: eq_bigr => i' _.
  by rewrite [RHS]mulr_sumr; apply: eq_bigr => r _.
apply: eq_big_seq => r; rewrite mem_comps => /andP[/eqP sr /eqP er].
rewrite mulr_suml.
transitivity (\sum_(j < d) \sum_(i < m) \sum_(i' < m)
    (nth 0%N T i)%:R * (nth 0%N T' i')%:R * (ent D (m + j) i * conjc (ent D (m + j) i')) *
    (bs_permanent D (decr T i) (t ++ r) * conjc (bs_permanent D (decr T' i') (t ++ r)) / (factprod r)%:R)).
  apply: eq_bigr => j _; rewrite -incr_cat st.
  have jl : (m + j < size (t ++ r))%N by rewrite size_cat st sr ltn_add2l.
  have et : sumn (t ++ r) = (sumn t + k)%N by rewrite sumn_cat er.
  rewrite !bs_permanent_incr ?et ?e ?e' ?addnS // sT sT' rmorph_sum mulr_suml mulr_suml; apply: eq_bigr => i _.
  rewrite mulr_sumr mulr_suml; apply: eq_bigr => i' _.
  rewrite !rmorphM /= [conjc (_ %:R)](rmorph_nat (@conjc_rmorphism R)).
  move: (bs_permanent D (decr T i) _) (bs_permanent D (decr T' i') _) (ent D (m + j) i) (ent D (m + j) i') => a b x y.
  by move: ((factprod r)%:R^-1 : C) => z; ring.
rewrite exchange_big; apply: eq_bigr => i _; rewrite exchange_big; apply: eq_bigr => i' _.
by rewrite /lgram mulr_sumr mulr_suml.
Qed.

Lemma lgram_dil d M D i i' : dilation m d M D -> (i < m)%N -> (i' < m)%N ->
  lgram d D i i' = (i == i')%:R - \sum_(j < m) ent M j i * conjc (ent M j i').
Proof.
move=> [h o] il il'; have := o i' i il' il; rewrite /ortho_cols big_split_ord /= eq_sym => <-.
rewrite addrC.
have -> : \sum_(j < m) conjc (ent D j i') * ent D j i = \sum_(j < m) ent M j i * conjc (ent M j i').
  by apply: eq_bigr => j _; rewrite !h // mulrC.
by rewrite addrA addNr add0r; apply: eq_bigr => j _; rewrite mulrC.
Qed.

Lemma form_dil d d' M D D' k T T' t : dilation m d M D -> dilation m d' M D' ->
  size t = m -> size T = m -> size T' = m ->
  sumn T = (sumn t + k)%N -> sumn T' = (sumn t + k)%N ->
  form d D k T T' t = form d' D' k T T' t.
Proof.
move=> dD dD' st; elim: k T T' => [|k IH] T T' sT sT' e e'.
  rewrite /form !comps_zero !big_seq1 /factprod !big_nseq !iter_muln_1 !exp1n.
  have h S : size S = m -> sumn S = (sumn t + 0)%N ->
      bs_permanent D S (t ++ nseq d 0%N) = bs_permanent D' S (t ++ nseq d' 0%N).
    rewrite addn0 => sS eS; transitivity (bs_permanent M S t).
      apply: bs_permanent_entries; rewrite ?particle_modes_zeros // st sS => a i al il.
      by case: dD => -> .
    apply/esym/bs_permanent_entries; rewrite ?particle_modes_zeros // st sS => a i al il.
    by case: dD' => -> .
  by rewrite !h.
have k0 : (k.+1)%:R != 0 :> C by rewrite pnatr_eq0.
apply: (mulfI k0); rewrite !form_step //; apply: eq_bigr => i _; apply: eq_bigr => i' _.
case: (posnP (nth 0%N T i)) => [->|p]; first by rewrite !mul0r.
case: (posnP (nth 0%N T' i')) => [->|p']; first by rewrite mulr0 !mul0r.
by rewrite (lgram_dil dD) // (lgram_dil dD') // IH ?size_decr ?sT ?sT' ?sumn_decr ?e ?e' ?addnS //.
Qed.

Lemma traced_form d D s t : (sumn t <= sumn s)%N ->
  (traced_prob d D s t)%:C%C = form d D (sumn s - sumn t) s s t / (factprod s * factprod t)%:R.
Proof.
move=> le; rewrite /traced_prob /form rmorph_sum mulr_suml; apply: eq_bigr => r _.
have nC n : (n%:R : R)%:C%C = n%:R :> C by rewrite (rmorph_nat (ComplexField.real_complex_rmorphism R)).
rewrite /= /bs_prob factprod_cat mulnA natrM invfM mulrA rmorphM fmorphV /= rmorphM fmorphV /= !nC nsqE.
by rewrite [conjc _ * _]mulrC [LHS]mulrAC.
Qed.

Lemma traced_dil d d' (M D D' : mat) s t : dilation m d M D -> dilation m d' M D' ->
  size s = m -> size t = m -> (sumn t <= sumn s)%N ->
  traced_prob d D s t = traced_prob d' D' s t.
Proof.
move=> dD dD' ss st le; apply: (@complexI R); rewrite !traced_form //.
by congr (_ / _); apply: (form_dil dD dD') => //; rewrite subnKC.
Qed.

(* uniform losses *)
Lemma subs_decr T i : (i < size T)%N -> (0 < nth 0%N T i)%N ->
  perm_eq (subs (decr T i)) [seq K <- subs T | (nth 0%N K i < nth 0%N T i)%N].
Proof.
move=> il p; apply: uniq_perm; rewrite ?filter_uniq ?subs_uniq // => K.
rewrite mem_filter !mem_subs; apply/substateP/andP.
  rewrite size_decr // => -[sK h]; have hi := h i; rewrite nth_decr eqxx in hi.
  split; first by rewrite (leq_ltn_trans hi) // prednK.
  apply/substateP; split=> // j; apply: leq_trans (h j) _; rewrite nth_decr.
  by case: eqP => [->|_] //; exact: leq_pred.
case=> lt /substateP[sK h]; rewrite size_decr //; split=> // j; rewrite nth_decr.
by case: eqP => [->|_] //; rewrite -ltnS prednK.
Qed.

Lemma ways_decr T i K : size K = size T -> (i < size T)%N -> (0 < nth 0%N T i)%N ->
  (nth 0%N T i * ways (decr T i) K = (nth 0%N T i - nth 0%N K i) * ways T K)%N.
Proof.
move=> sK il p; rewrite /ways size_decr // [in LHS](bigD1 (Ordinal il)) //= [in RHS](bigD1 (Ordinal il)) //= nth_decr eqxx !mulnA.
have -> : (\prod_(j < size T | j != Ordinal il) 'C(nth 0%N (decr T i) j, nth 0%N K j) =
           \prod_(j < size T | j != Ordinal il) 'C(nth 0%N T j, nth 0%N K j))%N.
  apply: eq_bigr => j ji; rewrite nth_decr; case: eqP => // e.
  by case/eqP: ji; apply: val_inj.
congr (_ * _)%N; case: (nth 0%N T i) p => // x _ /=.
by rewrite mul_bin_down.
Qed.

Definition hterm (M : mat) (t K : seq nat) : C := (bs_prob M K t)%:C%C.

Lemma form_uniform d (M D : mat) (eta : R) k T t : dilation m d M D ->
  (forall i i', (i < m)%N -> (i' < m)%N ->
     \sum_(j < m) ent M j i * conjc (ent M j i') = (i == i')%:R * eta%:C%C) ->
  size t = m -> size T = m -> sumn T = (sumn t + k)%N ->
  form d D k T T t / (factprod T * factprod t)%:R =
  ((1 - eta) ^+ k)%:C%C * \sum_(K <- subs T | sumn K == sumn t) (ways T K)%:R * hterm M t K.
Proof.
move=> dD ho st; elim: k T => [|k IH] T sT e.
  rewrite expr0 mul1r /form comps_zero big_seq1 [factprod (nseq _ _)]/factprod big_nseq iter_muln_1 exp1n invr1 mulr1.
  rewrite -big_filter addn0 in e *; rewrite -e subs_full big_seq1 ways_self mul1r /hterm /bs_prob.
  have -> : bs_permanent D T (t ++ nseq d 0%N) = bs_permanent M T t.
    by apply: bs_permanent_entries; rewrite ?particle_modes_zeros // st sT => a i al il; case: dD => ->.
  by rewrite rmorphM fmorphV /= nsqE [conjc _ * _]mulrC (rmorph_nat (ComplexField.real_complex_rmorphism R)).
have k0 : (k.+1)%:R != 0 :> C by rewrite pnatr_eq0.
apply: (mulfI k0); rewrite mulrA form_step // mulr_suml.
transitivity (\sum_(i < m) (nth 0%N T i)%:R * (1 - eta)%:C%C *
   (((1 - eta) ^+ k)%:C%C * \sum_(K <- subs (decr T i) | sumn K == sumn t) (ways (decr T i) K)%:R * hterm M t K)).
  apply: eq_bigr => i _; rewrite (bigD1 i) //= big1 ?addr0; last first.
    move=> i' ne; rewrite (lgram_dil dD) // ho // [val i == val i'](_ : _ = false); last first.
      by apply/eqP => h; case/eqP: ne; apply: val_inj.
    by rewrite mul0r subr0 mulr0 mul0r.
  case: (posnP (nth 0%N T i)) => [->|p]; first by rewrite !mul0r.
  have il : (i < size T)%N by rewrite sT.
  rewrite -IH ?size_decr ?sumn_decr ?e ?addnS // (lgram_dil dD) // ho // eqxx mul1r (factprod_decr p) -mulnA natrM invfM.
  have p0 : (nth 0%N T i)%:R != 0 :> C by rewrite pnatr_eq0 -lt0n.
  rewrite rmorphB rmorph1 /=.
  move: (form _ _ _ _ _ _) ((_ * factprod t)%:R^-1 : C) p0 => f g; move: ((nth 0%N T i)%:R : C) => x x0.
  rewrite -!mulrA; congr (_ * _); rewrite !mulrA; congr (_ * _).
  rewrite -!mulrA mulrCA; congr (_ * _); rewrite mulrC -mulrA mulVf ?mulr1 //.
transitivity (\sum_(i < m) ((1 - eta) ^+ k.+1)%:C%C *
   \sum_(K <- subs T | sumn K == sumn t) (nth 0%N T i - nth 0%N K i)%:R * ((ways T K)%:R * hterm M t K)).
  apply: eq_bigr => i _; case: (posnP (nth 0%N T i)) => [->|p].
    by rewrite !mul0r big1 ?mulr0 // => K _; rewrite sub0n mul0r.
  have il : (i < size T)%N by rewrite sT.
  rewrite exprS [((1 - eta) * _)%:C%C]rmorphM /=.
  have aux (a b c x : C) : a * b * (c * x) = b * c * (a * x) by ring.
  rewrite aux; congr (_ * _).
  rewrite (perm_big _ (subs_decr il p)) /= big_filter_cond mulr_sumr.
  rewrite big_mkcond [RHS]big_mkcond [LHS]big_seq [RHS]big_seq; apply: eq_bigr => K.
  rewrite mem_subs => /substateP[sK _]; case: ltnP => le /=; last first.
    by case: eqP => // _; rewrite (eqP (_ : nth 0%N T i - nth 0%N K i == 0)%N) ?subn_eq0 ?mul0r.
  by case: eqP => // _; rewrite !mulrA -!natrM ways_decr.
rewrite -[LHS]mulr_sumr [RHS]mulrCA; congr (_ * _).
rewrite exchange_big /= [RHS]mulr_sumr.
rewrite [LHS]big_seq_cond [RHS]big_seq_cond; apply: eq_bigr => K /andP[]; rewrite mem_subs => sK /eqP eK.
by rewrite -mulr_suml -natr_sum -sT sumn_subn // e eK addKn.
Qed.

Lemma PerO_scale (F : comRingType) (c : F) (u v : nat -> nat -> F) rows s :
  (forall a i, a \in rows -> (i < size s)%N -> u a i = c * v a i) ->
  PerO u rows s = c ^+ size rows * PerO v rows s.
Proof.
elim: rows s => [|a rows IH] s h; first by rewrite mul1r.
rewrite !PerO_cons mulr_sumr; apply: eq_bigr => i _.
rewrite h ?inE ?eqxx // (IH (decr s i)).
  rewrite [size (_ :: _)]/= exprS; move: (c ^+ _) (PerO _ _ _) (v a i) (_ %:R) => p q y z.
  by ring.
move=> b j br jl; apply: h; rewrite ?inE ?br ?orbT //; apply: leq_trans jl _.
by rewrite size_decr // ltn_ord.
Qed.

Lemma scale_pair (x : R) (u v : C) : x%:C%C * u * conjc (x%:C%C * v) = conjc v * u * (x ^+ 2)%:C%C.
Proof.
have -> : conjc (x%:C%C * v) = x%:C%C * conjc v.
  by rewrite -[LHS]/(conjc_rmorphism R _) rmorphM; congr (_ * _); exact: conjc_real.
have -> : (x ^+ 2)%:C%C = x%:C%C * x%:C%C :> C by rewrite expr2 -rmorphM.
by move: (conjc v) (x%:C%C : C) => a z; rewrite mulrACA mulrC [u * a]mulrC.
Qed.

Lemma bs_prob_scale (M V : mat) (x : R) s t : sumn s = sumn t -> size s = m -> size t = m ->
  (forall i j, (i < m)%N -> (j < m)%N -> ent M i j = x%:C%C * ent V i j) ->
  bs_prob M s t = (x ^+ 2) ^+ sumn t * bs_prob V s t.
Proof.
move=> e ss st h; rewrite /bs_prob !bs_permanent_PerO // (@PerO_scale _ x%:C%C _ (ent V)).
  rewrite nsqM size_particle_modes mulrA; congr (_ * _ / _).
  apply: (@complexI R); rewrite -(rmorphX (ComplexField.real_complex_rmorphism R)) nsqE conjc_real -rmorphM -expr2.
  by rewrite -!exprM mulnC.
by move=> a i /particle_modes_lt al il; apply: h; [rewrite -st|rewrite -ss].
Qed.

(* the losses of a uniformly lossy network are those of the binomial model *)
Lemma traced_uniform d (V M D : mat) (x : R) s t :
  (forall i j, (i < m)%N -> (j < m)%N -> ent M i j = x%:C%C * ent V i j) ->
  (forall i i', (i < m)%N -> (i' < m)%N -> ortho_cols m V i i') ->
  dilation m d M D -> size s = m -> size t = m -> (sumn t <= sumn s)%N ->
  traced_prob d D s t = uniform_loss_prob V s (x ^+ 2) t.
Proof.
move=> h oV dD ss st le; apply: (@complexI R); rewrite traced_form // (form_uniform (eta := x ^+ 2) dD) ?subnKC //; last first.
  move=> i i' il il'; rewrite eq_sym -(oV _ _ il' il) mulr_suml; apply: eq_bigr => j _.
  by rewrite !h // scale_pair.
rewrite /uniform_loss_prob /binomial_weight /fixed_loss_prob.
have -> : \sum_(K <- subs s | sumn K == sumn t) (ways s K)%:R * hterm M t K =
   ((x ^+ 2) ^+ sumn t * \sum_(K <- subs s | sumn K == sumn t) (ways s K)%:R * bs_prob V K t)%:C%C.
  rewrite rmorphM rmorph_sum /= mulr_sumr big_seq_cond [RHS]big_seq_cond; apply: eq_bigr => K /andP[].
  rewrite mem_subs => /substateP[sK _] /eqP eK.
  rewrite /hterm (bs_prob_scale eK _ st h) ?sK // rmorphM /= [((_ %:R) * _)%:C%C]rmorphM /=.
  by rewrite mulrCA (rmorph_nat (ComplexField.real_complex_rmorphism R)).
rewrite -rmorphM; congr (_%:C)%C.
have c0 : 'C(sumn s, sumn t)%:R != 0 :> R by rewrite pnatr_eq0 -lt0n bin_gt0.
move: ('C(_, _)%:R : R) c0 => c c0; move: ((1 - _) ^+ _) ((x ^+ 2) ^+ _) (\sum_(_ <- _ | _) _) => a b z.
by rewrite mulrCA !mulrA [c * b]mulrC -!mulrA; congr (_ * _); rewrite mulrCA [c * _]mulrCA divff ?mulr1.
Qed.


End Dil.
