(* Losing particles in front of a network is losing them inside it. *)
From mathcomp Require Import all_ssreflect all_algebra complex.
From mathcomp Require Import ring zify.
From Verif Require Import Base SpecStates Combi SpecPerm PermMath SpecBS BsMath BsComb BsNorm SpecNet ProofPerm3 ProofGccB2 ProofNet4 ProofNet5.
Set Implicit Arguments.
Unset Strict Implicit.
Unset Printing Implicit Defensive.
Import Order.TTheory GRing.Theory Num.Theory.
Local Open Scope ring_scope.

(* what is missing in K with respect to T *)
Definition missing (T K : seq nat) : seq nat := [seq (nth 0 T i - nth 0 K i)%N | i <- iota 0 (size T)].

Lemma size_missing T K : size (missing T K) = size T.
Proof. by rewrite size_map size_iota. Qed.
Lemma nth_missing T K i : nth 0%N (missing T K) i = (nth 0 T i - nth 0 K i)%N.
Proof.
case: (ltnP i (size T)) => il; first by rewrite (nth_map 0%N) ?size_iota // nth_iota.
by rewrite nth_default ?size_missing // (nth_default _ il).
Qed.
Lemma sumn_missing T K : substate K T -> sumn (missing T K) = (sumn T - sumn K)%N.
Proof. by move=> sub; rewrite sumn_nth size_missing -sumn_subn //; apply: eq_bigr => i _; rewrite nth_missing. Qed.
Lemma missing_self T : missing T T = nseq (size T) 0%N.
Proof.
apply: (@eq_from_nth _ 0%N); rewrite size_missing ?size_nseq // => i il.
by rewrite nth_missing subnn nth_nseq il.
Qed.
Lemma missing_sub T K : substate (missing T K) T.
Proof. by apply/substateP; rewrite size_missing; split=> // i; rewrite nth_missing leq_subr. Qed.
Lemma missingK T K : substate K T -> missing T (missing T K) = K.
Proof.
case/substateP=> sK le; apply: (@eq_from_nth _ 0%N); rewrite size_missing // => i _.
by rewrite !nth_missing subKn.
Qed.
Lemma missing_incr T K j : (j < size T)%N -> (nth 0%N K j < nth 0%N T j)%N ->
  missing T K = incr (missing (decr T j) K) j.
Proof.
move=> jl lt; apply: (@eq_from_nth _ 0%N); rewrite ?size_incr ?size_missing ?size_decr // => i il.
rewrite nth_incr !nth_missing nth_decr; case: (eqVneq i j) => [->|/negPf ne]; last by rewrite nth_decr ne.
by rewrite eqxx; case: (nth 0%N T j) lt => // n lt /=; rewrite subSn.
Qed.

Lemma ways_missing s K : substate K s -> (ways s K * (factprod K * factprod (missing s K)) = factprod s)%N.
Proof.
case/substateP=> sK le.
have fE t : factprod t = (\prod_(i < size t) (nth 0%N t i)`!)%N by rewrite /factprod (big_nth 0%N) big_mkord.
rewrite !fE size_missing sK /ways -big_split -big_split; apply: eq_bigr => i _ /=.
by rewrite nth_missing bin_fact.
Qed.

(* sum over what is lost = sum over what is left *)
Lemma big_missing (V : zmodType) (s : seq nat) k (F : seq nat -> V) : (k <= sumn s)%N ->
  (forall r, is_state (size s) k r -> ~~ substate r s -> F r = 0) ->
  \sum_(r <- comps (size s) k) F r = \sum_(K <- subs s | sumn K == (sumn s - k)%N) F (missing s K).
Proof.
move=> ks F0; rewrite -[RHS]big_filter -(big_map (missing s) xpredT).
rewrite (bigID (fun r => substate r s)) /= [X in _ + X]big_seq_cond [X in _ + X]big1 ?addr0 => [|r /andP[]]; last first.
  by rewrite mem_comps => sr nr; apply: F0.
rewrite -big_filter; apply: perm_big; apply: uniq_perm; rewrite ?filter_uniq ?comps_uniq //.
  rewrite map_inj_in_uniq ?filter_uniq ?subs_uniq // => K K'.
  rewrite !mem_filter !mem_subs => /andP[_ h] /andP[_ h'] e.
  by rewrite -(missingK h) e missingK.
move=> r; rewrite mem_filter mem_comps; apply/andP/mapP => [[sub /andP[_ /eqP e]]|[K]].
  exists (missing s r); last by rewrite missingK.
  by rewrite mem_filter mem_subs missing_sub sumn_missing // e eqxx.
rewrite mem_filter mem_subs => /andP[/eqP e sub] ->; rewrite missing_sub; split=> //.
by rewrite /is_state size_missing eqxx sumn_missing // e subKn ?eqxx.
Qed.

Section Thin.
Variable R : rcfType.
Notation C := R[i].
Notation mat := (seq (seq C)).
Variables (m d : nat) (N D : mat) (x c : R).
Hypotheses (dD : dilation m d N D) (xc : x ^+ 2 + c ^+ 2 = 1).

(* x N on top, x times the rest of D, c times the identity *)
Definition thin_dil : mat :=
  [seq [seq if (i < m + d)%N then x%:C%C * ent D i j else (i - (m + d) == j)%N%:R * c%:C%C | j <- iota 0 m]
  | i <- iota 0 (m + d + m)].

Lemma thin_ent i j : (i < m + d + m)%N -> (j < m)%N ->
  ent thin_dil i j = if (i < m + d)%N then x%:C%C * ent D i j else (i - (m + d) == j)%N%:R * c%:C%C.
Proof.
move=> il jl; rewrite /ent /thin_dil (nth_map 0%N) ?size_iota // (nth_map 0%N) ?size_iota //.
by rewrite !nth_iota.
Qed.

Lemma thin_dilation (M : mat) : (forall i j, (i < m)%N -> (j < m)%N -> ent M i j = x%:C%C * ent N i j) ->
  dilation m (d + m) M thin_dil.
Proof.
move=> h; split=> [i j il jl|i i' il il'].
  rewrite thin_ent //; last by lia.
  by rewrite (leq_trans il (leq_addr d m)) h //; case: dD => ->.
have := dD.2 i i' il il'; rewrite /ortho_cols addnA => o.
rewrite big_split_ord /=.
have -> : \sum_(j < m + d) conjc (ent thin_dil j i) * ent thin_dil j i' = (x ^+ 2)%:C%C * (i == i')%:R.
  rewrite -o mulr_sumr; apply: eq_bigr => j _.
  have jl : (j < m + d + m)%N by apply: leq_trans (ltn_ord j) (leq_addr _ _).
  have e k : (k < m)%N -> ent thin_dil j k = x%:C%C * ent D j k by move=> kl; rewrite thin_ent // ltn_ord.
  by rewrite !e // [LHS]mulrC [RHS]mulrC scale_pair.
have -> : \sum_(j < m) conjc (ent thin_dil (m + d + j)%N i) * ent thin_dil (m + d + j)%N i' = (c ^+ 2)%:C%C * (i == i')%:R.
  rewrite (bigD1 (Ordinal il)) //= big1 ?addr0 => [|j ne].
    rewrite !thin_ent ?ltn_add2l // ltnNge leq_addr /= addKn eqxx mul1r mulrC.
    have := scale_pair c (i == i')%:R (1 : C); rewrite mulr1 conjc1 mul1r mulrC => e.
    by rewrite [_%:R * _]mulrC mulrC e mulrC.
  rewrite !thin_ent ?ltn_add2l // ltnNge leq_addr /= addKn.
  rewrite (_ : (val j == i) = false); last by apply/negbTE; apply: contraNneq ne => e; apply/eqP; apply: val_inj.
  by rewrite mul0r conjc0 mul0r.
by rewrite -mulrDl -rmorphD xc rmorph1 mul1r.
Qed.

(* the particles that leave through the last m modes *)
Lemma thin_lost t r1 T K : size t = m -> size r1 = d -> size T = m -> substate K T ->
  (sumn K = sumn t + sumn r1)%N ->
  bs_permanent thin_dil T (t ++ r1 ++ missing T K) =
  c%:C%C ^+ (sumn T - sumn K) * ((factprod T)%:R / (factprod K)%:R) * bs_permanent thin_dil K (t ++ r1 ++ nseq m 0%N).
Proof.
move=> st sr; move e : (sumn T - sumn K)%N => n.
elim: n T e => [|n IH] T e sT sub eK.
  have eT : K = T by apply: substate_sumn_eq => //; have := substate_sumn sub; lia.
  rewrite eT missing_self sT mul1r divff ?mul1r // pnatr_eq0 -lt0n; exact: factprod_gt0.
have [sK le] := substateP _ _ sub.
have [j jl lt] : exists2 j, (j < size T)%N & (nth 0%N K j < nth 0%N T j)%N.
  case h : (has (fun j => nth 0%N K j < nth 0%N T j)%N (iota 0 (size T))).
    by move/hasP: h => [j]; rewrite mem_iota => jl lt; exists j.
  have : K = T; last by move=> eT; move: e; rewrite eT subnn.
  apply: (@eq_from_nth _ 0%N) => // i il; rewrite sK in il.
  have /hasPn/(_ i) := negbT h; rewrite mem_iota il => /(_ isT); rewrite -leqNgt => ge.
  by apply/eqP; rewrite eqn_leq le ge.
have p : (0 < nth 0%N T j)%N by apply: leq_ltn_trans lt.
have jT := jl; rewrite sT in jl.
have -> : t ++ r1 ++ missing T K = incr (t ++ r1 ++ missing (decr T j) K) (m + d + j).
  rewrite (catA t r1 (missing (decr T j) K)).
  have -> : (m + d = size (t ++ r1))%N by rewrite size_cat st sr.
  by rewrite incr_cat -catA -missing_incr ?sT.
have sub' : substate K (decr T j).
  apply/substateP; rewrite (size_decr jT); split=> // i; rewrite nth_decr.
  by case: eqP => // ->; rewrite -ltnS prednK.
have sT' : size (decr T j) = m by rewrite size_decr.
have eT' : sumn (decr T j) = (sumn T).-1 by rewrite sumn_decr.
have e' : (sumn (decr T j) - sumn K = n)%N by rewrite eT'; lia.
rewrite bs_permanent_incr; first last.
- rewrite !sumn_cat sumn_missing // eT'; lia.
- by rewrite !size_cat st sr size_missing sT'; lia.
rewrite (bigD1 (Ordinal jT)) //=.
rewrite big1 ?addr0 => [|i ne]; last first.
  rewrite thin_ent ?ltn_add2l //; last by rewrite -sT.
  rewrite ltnNge leq_addr /= addKn (_ : (j == i)%N = false) ?mul0r ?mulr0 ?mul0r //.
  by apply/negbTE; apply: contraNneq ne => e1; apply/eqP; apply: val_inj.
rewrite thin_ent ?ltn_add2l // ltnNge leq_addr /= addKn eqxx mul1r IH //.
rewrite (factprod_decr p) natrM exprS -(mulrA _ (factprod (decr T j))%:R).
move: ((nth _ _ _)%:R : C) (bs_permanent _ _ _ : C) (c%:C%C : C) ((factprod _)%:R / (factprod _)%:R : C) => a b z w.
by rewrite -!mulrA; ring.
Qed.

Lemma thin_lost0 t r1 r2 T : size t = m -> size r1 = d -> size T = m -> size r2 = m ->
  (sumn T = sumn t + sumn r1 + sumn r2)%N -> ~~ substate r2 T ->
  bs_permanent thin_dil T (t ++ r1 ++ r2) = 0.
Proof.
move=> st sr sT sr2 e nsub.
have [j jl lt] : exists2 j, (j < m)%N & (nth 0%N T j < nth 0%N r2 j)%N.
  case h : (has (fun j => nth 0%N T j < nth 0%N r2 j)%N (iota 0 m)).
    by move/hasP: h => [j]; rewrite mem_iota => jl lt; exists j.
  case/negP: nsub; apply/substateP; rewrite sr2 sT; split=> // i.
  case: (ltnP i m) => il; last by rewrite nth_default ?sr2.
  by have /hasPn/(_ i) := negbT h; rewrite mem_iota il => /(_ isT); rewrite -leqNgt.
clear nsub; move en : (nth 0%N T j) lt => n lt.
elim: n T r2 en lt sT sr2 e => [|n IH] T r2 en lt sT sr2 e.
all: have p : (0 < nth 0%N r2 j)%N by apply: leq_ltn_trans lt.
all: have -> : t ++ r1 ++ r2 = incr (t ++ r1 ++ decr r2 j) (m + d + j)
  by rewrite (catA t r1 (decr r2 j)) (_ : m + d = size (t ++ r1))%N ?size_cat ?st ?sr // -st -sr -size_cat incr_cat -catA incr_decr.
all: have sd : size (decr r2 j) = m by rewrite size_decr ?sr2.
all: have jT : (j < size T)%N by rewrite sT.
all: have ed : sumn (decr r2 j) = (sumn r2).-1 by rewrite sumn_decr.
all: have q : (0 < sumn r2)%N by rewrite sumn_nth (bigD1 (Ordinal (nth_pos_lt p))) //= addn_gt0 p.
all: rewrite bs_permanent_incr ?size_cat ?sumn_cat ?st ?sr ?sd ?ed; [|by lia|by lia].
all: rewrite big1 // => i _; case: (eqVneq (val i) j) => [->|ne].
- by rewrite en !mul0r.
- have im : (i < m)%N by rewrite -sT.
  by rewrite thin_ent ?ltn_add2l // ltnNge leq_addr /= addKn eq_sym (negPf ne) mul0r mulr0 mul0r.
- rewrite (IH (decr T j) (decr r2 j)) ?mulr0 //.
  + by rewrite nth_decr eqxx en.
  + by rewrite nth_decr eqxx; case: (nth 0%N r2 j) lt.
  + by rewrite size_decr.
  + by rewrite ed sumn_decr ?en // e; lia.
- have im : (i < m)%N by rewrite -sT.
  by rewrite thin_ent ?ltn_add2l // ltnNge leq_addr /= addKn eq_sym (negPf ne) mul0r mulr0 mul0r.
Qed.

Lemma thin_kept t r1 K : size t = m -> size r1 = d -> size K = m -> (sumn K = sumn t + sumn r1)%N ->
  bs_permanent thin_dil K (t ++ r1 ++ nseq m 0%N) = x%:C%C ^+ sumn K * bs_permanent D K (t ++ r1).
Proof.
move=> st sr sK e.
have e' : sumn K = sumn (t ++ r1) by rewrite sumn_cat.
rewrite !bs_permanent_PerO ?sumn_cat ?sumn_nseq ?mul0n ?addn0 //.
rewrite catA particle_modes_zeros (@PerO_scale _ x%:C%C _ (ent D)) ?size_particle_modes -?e' //.
move=> a i ar il; have al : (a < m + d)%N.
  by have := particle_modes_lt ar; rewrite size_cat st sr.
by rewrite thin_ent ?al // ?(leq_trans al) ?leq_addr // -sK.
Qed.

Lemma thin_prob s t r1 K : size s = m -> size t = m -> size r1 = d -> substate K s ->
  (sumn K = sumn t + sumn r1)%N ->
  bs_prob thin_dil s (t ++ r1 ++ missing s K) =
  (ways s K)%:R * (x ^+ 2) ^+ sumn K * (c ^+ 2) ^+ (sumn s - sumn K) * bs_prob D K (t ++ r1).
Proof.
move=> ss st sr sub e; have [sK _] := substateP _ _ sub.
rewrite /bs_prob thin_lost // thin_kept ?sK // !nsqM !factprod_cat.
have nC (y : R) k : nsq (y%:C%C ^+ k) = (y ^+ 2) ^+ k.
  elim: k => [|k IH]; first exact: nsq1.
  by rewrite exprS nsqM IH [RHS]exprS; congr (_ * _); rewrite /nsq /= [0 ^+ 2]expr0n addr0.
have nV (a b : nat) : (0 < b)%N -> nsq (a%:R / b%:R : C) = a%:R ^+ 2 / b%:R ^+ 2.
  move=> b0; have b1 : (b%:R : R) ^+ 2 != 0 by rewrite expf_neq0 // pnatr_eq0 -lt0n.
  apply: (mulIf b1); rewrite divfK // -(nsq_nat R b) -nsqM divfK ?nsq_nat // pnatr_eq0 -lt0n //.
rewrite !nC -nsqM nV ?factprod_gt0 // -(ways_missing sub) !natrM.
have p1 : (factprod t)%:R != 0 :> R by rewrite pnatr_eq0 -lt0n factprod_gt0.
have p2 : (factprod r1)%:R != 0 :> R by rewrite pnatr_eq0 -lt0n factprod_gt0.
have p3 : (factprod K)%:R != 0 :> R by rewrite pnatr_eq0 -lt0n factprod_gt0.
have p4 : (factprod (missing s K))%:R != 0 :> R by rewrite pnatr_eq0 -lt0n factprod_gt0.
have p5 : (ways s K)%:R != 0 :> R by rewrite pnatr_eq0 -lt0n ways_gt0.
move: p1 p2 p3 p4 p5.
move: (_%:R : R) (_%:R : R) (_%:R : R) (_%:R : R) (_%:R : R) ((x ^+ 2) ^+ _) ((c ^+ 2) ^+ _) (nsq _) => f1 f2 f3 f4 f5 X Y Z.
by move=> q1 q2 q3 q4 q5; field; rewrite q1 q2 q3 q4 q5.
Qed.

Lemma thin_traced s t : size s = m -> size t = m -> (sumn t <= sumn s)%N ->
  traced_prob (d + m) thin_dil s t =
  \sum_(K <- subs s | (sumn t <= sumn K)%N)
     (ways s K)%:R * (x ^+ 2) ^+ sumn K * (c ^+ 2) ^+ (sumn s - sumn K) * traced_prob d D K t.
Proof.
move=> ss st le; rewrite /traced_prob big_comps_split.
set n := (sumn s - sumn t)%N.
transitivity (\sum_(r1 <- lcomps d n) \sum_(K <- subs s | sumn K == (sumn t + sumn r1)%N)
   (ways s K)%:R * (x ^+ 2) ^+ sumn K * (c ^+ 2) ^+ (sumn s - sumn K) * bs_prob D K (t ++ r1)).
  apply: eq_big_seq => r1; rewrite mem_lcomps => /andP[/eqP sr lr].
  rewrite -{1}ss big_missing; first last.
  - move=> r2 /andP[/eqP sr2 /eqP e2] ns; rewrite ss in sr2.
    rewrite /bs_prob thin_lost0 ?nsq0 ?mul0r // e2 /n; rewrite /n in lr; lia.
  - rewrite /n; lia.
  have -> : (sumn s - (n - sumn r1) = sumn t + sumn r1)%N by rewrite /n in lr *; lia.
  rewrite -big_filter -[RHS]big_filter; apply: eq_big_seq => K; rewrite mem_filter mem_subs => /andP[/eqP e sub].
  by rewrite thin_prob.
rewrite (exchange_big_dep (fun K => (sumn t <= sumn K)%N)) /=; last by move=> r1 K _ /eqP ->; exact: leq_addr.
rewrite big_seq_cond [RHS]big_seq_cond; apply: eq_bigr => K /andP[]; rewrite mem_subs => sub tK.
rewrite [RHS]mulr_sumr -big_filter; apply: perm_big; apply: uniq_perm; rewrite ?filter_uniq ?lcomps_uniq ?comps_uniq //.
move=> r; rewrite mem_filter mem_lcomps mem_comps /is_state.
have := substate_sumn sub; case: (size r == d) => //=; rewrite ?andbF // /n => h; lia.
Qed.
End Thin.

Lemma traced_thin (R : rcfType) m d d' (N D M D' : seq (seq R[i])) (x c : R) s t :
  dilation m d N D -> dilation m d' M D' -> x ^+ 2 + c ^+ 2 = 1 ->
  (forall i j, (i < m)%N -> (j < m)%N -> ent M i j = x%:C%C * ent N i j) ->
  size s = m -> size t = m -> (sumn t <= sumn s)%N ->
  traced_prob d' D' s t =
  \sum_(K <- subs s | (sumn t <= sumn K)%N)
     (ways s K)%:R * (x ^+ 2) ^+ sumn K * (c ^+ 2) ^+ (sumn s - sumn K) * traced_prob d D K t.
Proof.
move=> dN dM xc h ss st le; rewrite -(thin_traced d D x c ss st le).
by apply: (traced_dil dM (thin_dilation dN xc h)).
Qed.
