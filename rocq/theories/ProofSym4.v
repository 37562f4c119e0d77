(* Mean occupation numbers; zero-transmission law of the Fourier transform;
   networks side by side. *)
From mathcomp Require Import all_ssreflect all_algebra complex.
From mathcomp Require Import ring zify.
From Verif Require Import Base SpecStates Combi SpecPerm PermMath SpecBS BsMath BsComb BsNorm SpecSym BsSym.
From Verif Require Import ModelNet SpecNet ProofFixed4 ProofNet7 ProofSym1 ProofSym2 ProofSym3.
Set Implicit Arguments.
Unset Strict Implicit.
Unset Printing Implicit Defensive.
Import GRing.Theory Num.Theory.
Local Open Scope ring_scope.

Section Mean.
Variable R : rcfType.
Notation C := R[i].
Implicit Types (U : seq (seq C)) (s t T : seq nat).

Lemma ways_single m t i : size t = m -> (i < m)%N -> ways t (single m i) = nth 0%N t i.
Proof.
move=> zt im; have := @ways_incr t (nseq m 0%N) i; rewrite size_nseq zt nth_nseq if_same mul1n subn0 => -> //.
by rewrite /ways big1 ?muln1 // => k _; rewrite nth_nseq if_same bin0.
Qed.

Lemma mean_fixed m U s l i : unitary_on m U s -> size s = m -> (i < m)%N -> (l <= sumn s)%N ->
  \sum_(t <- comps m l) (nth 0%N t i)%:R * fixed_loss_prob U s t =
  l%:R / (sumn s)%:R * \sum_(j < m) (nth 0%N s j)%:R * nsq (ent U i j).
Proof.
move=> u zs im ls; case: (posnP l) => [->|l0].
  rewrite !mul0r comps0 big_seq1 nth_nseq im mul0r //.
have /(_ _)/= := @fixed_loss_after R m U s (single m i) l u zs (size_single im).
rewrite sumn_single // l0 ls => /(_ isT); rewrite fixed_loss_one // /fixed_after sumn_single // bin1 => E.
rewrite mulrAC -mulrA E; have n0 : l%:R != 0 :> R by rewrite pnatr_eq0 -lt0n.
rewrite mulrC divfK //; apply: eq_big_seq => t; rewrite mem_comps => /andP[/eqP zt _].
by rewrite ways_single.
Qed.

Lemma binomial_mean n (eta : R) : \sum_(l < n.+1) l%:R * binomial_weight n eta l = n%:R * eta.
Proof.
case: n => [|n]; first by rewrite big_ord_recl big_ord0 !mul0r addr0.
rewrite big_ord_recl mul0r add0r -[RHS]mulr1 -[X in _ = _ * X](binomial_weight_sum n eta) mulr_sumr; apply: eq_bigr => l _.
rewrite [nat_of_ord (lift _ _)]/= /binomial_weight /bump /= ?add1n subSS exprS.
have E : (l.+1)%:R * 'C(n.+1, l.+1)%:R = (n.+1)%:R * 'C(n, l)%:R :> R by rewrite -!natrM mul_bin_diag.
move: E; move: ('C(n, l)%:R : R) ('C(n.+1, l.+1)%:R : R) ((l.+1)%:R : R) ((n.+1)%:R : R) (eta ^+ l) ((1 - eta) ^+ _) => a b c d p q E.
transitivity (c * b * (eta * p * q)); first by ring.
by rewrite E; ring.
Qed.

Lemma mean_uniform m U s eta i : unitary_on m U s -> size s = m -> (i < m)%N ->
  \sum_(l < (sumn s).+1) \sum_(t <- comps m l) (nth 0%N t i)%:R * uniform_loss_prob U s eta t =
  eta * \sum_(j < m) (nth 0%N s j)%:R * nsq (ent U i j).
Proof.
move=> u zs im; set X := \sum_(j < m) _.
transitivity (\sum_(l < (sumn s).+1) l%:R * binomial_weight (sumn s) eta l * (X / (sumn s)%:R)).
  apply: eq_bigr => l _; have ls : (l <= sumn s)%N by rewrite -ltnS.
  transitivity (binomial_weight (sumn s) eta l * \sum_(t <- comps m l) (nth 0%N t i)%:R * fixed_loss_prob U s t).
    rewrite mulr_sumr; apply: eq_big_seq => t; rewrite mem_comps => /andP[_ /eqP et].
    by rewrite /uniform_loss_prob et mulrCA.
  rewrite (mean_fixed u zs im ls) -/X; move: (binomial_weight _ _ _) ((sumn s)%:R^-1) => a b.
  by ring.
rewrite -mulr_suml binomial_mean; case: (posnP (sumn s)) => [e0|n0].
  rewrite e0 !mul0r /X big1 ?mulr0 // => j _.
  have /eqP/sumn0P -> := e0; by rewrite nth_nseq if_same mul0r.
have d0 : (sumn s)%:R != 0 :> R by rewrite pnatr_eq0 -lt0n.
by move: d0; move: ((sumn s)%:R : R) X => d X d0; field.
Qed.

End Mean.

Section Fourier.
Variable R : rcfType.
Notation C := R[i].
Variables (cis : R -> C) (n : nat).
Hypothesis ok : cis_ok cis.
Hypothesis n0 : (0 < n)%N.
Notation w := (cis (1 / n%:R)).

Definition rotation (q : nat) : seq nat := [seq ((j + q) %% n)%N | j <- iota 0 n].

Lemma rotation_perm q : perm_eq (rotation q) (iota 0 n).
Proof.
have u : uniq (rotation q).
  rewrite map_inj_in_uniq ?iota_uniq // => j j'; rewrite !mem_iota !add0n => /andP[_ jl] /andP[_ jl'] /eqP.
  by rewrite eqn_modDr !modn_small // => /eqP.
apply: uniq_perm; rewrite ?iota_uniq //.
have [||_ //] := @uniq_min_size _ (rotation q) (iota 0 n) u; last by rewrite size_map.
by move=> j /mapP[j' _ ->]; rewrite mem_iota /= ltn_mod.
Qed.

Lemma fourier_zero q s t : size s = n -> size t = n -> sumn s = sumn t ->
  (forall j, (j < n)%N -> nth 0%N s ((j + q) %% n)%N = nth 0%N s j) ->
  ~~ (n %| q * \sum_(i < n) i * nth 0%N t i)%N ->
  bs_permanent (compute_qft_matrix cis n) s t = 0.
Proof.
move=> zs zt e rot ndv; set U := compute_qft_matrix cis n.
have es : relabel (rotation q) s = s.
  apply: (@eq_from_nth _ 0%N); first by rewrite size_relabel size_map size_iota.
  rewrite size_relabel size_map size_iota => j jl.
  by rewrite /relabel (nth_map 0%N) ?size_map ?size_iota // (nth_map 0%N) ?size_iota // nth_iota // add0n rot.
have et : relabel (iota 0 n) t = t by rewrite /relabel -/(mkseq (nth 0%N t) n) -zt mkseq_nth.
have := @bs_permanent_relabel _ U (rotation q) (iota 0 n) s t.
rewrite zs zt rotation_perm perm_refl es et => /(_ isT isT e) E.
have D : bs_permanent (relabel_mx (iota 0 n) (rotation q) U) s t = bs_permanent (phased n (fun i => w ^+ (i * q)) (fun=> 1) U) s t.
  rewrite !bsL //; apply: PerL_eq => a c /particle_modes_lt al /particle_modes_lt cl.
  rewrite zt in al; rewrite zs in cl; rewrite ent_mk // mulr1.
  rewrite [LHS]/ent /relabel_mx (nth_map 0%N) ?size_iota // (nth_map 0%N) ?size_map ?size_iota // nth_iota // add0n.
  rewrite (nth_map 0%N) ?size_iota // nth_iota // add0n /U !qft_ent // ?ltn_mod // mulrA; congr (_ / _).
  rewrite -!(wX ok) // -exprD -mulnDr -[in RHS](expr_mod _ (wn ok n0)).
  by rewrite -[in LHS](expr_mod _ (wn ok n0)) modnMmr addnC.
move: D; rewrite E bs_permanent_phased // [X in _ = _ * X]big1 ?mulr1 => [|i _]; last by rewrite expr1n.
have -> : \prod_(i < n) (w ^+ (i * q)) ^+ nth 0%N t i = w ^+ (q * \sum_(i < n) i * nth 0%N t i).
  rewrite big_distrr /= -(big_mkord xpredT (fun i => (w ^+ (i * q)) ^+ nth 0%N t i)) -(big_mkord xpredT (fun i => (q * (i * nth 0%N t i))%N)).
  move: w => z; elim: n => [|k IH]; first by rewrite !big_nil.
  by rewrite !big_nat_recr //= IH exprD -exprM; congr (_ * _ ^+ _); rewrite mulnA [(k * q)%N]mulnC.
move=> H; case: (eqVneq (bs_permanent U s t) 0) => // p0; case/negP: ndv.
by apply/(wX1 ok n0)/(mulIf p0); rewrite [RHS]mul1r; exact: esym H.
Qed.

End Fourier.

Section Blocks.
Variable F : comRingType.
Implicit Types (A B : seq (seq F)) (s t : seq nat).

Lemma particle_modes_cat s t : particle_modes (s ++ t) = particle_modes s ++ map (addn (size s)) (particle_modes t).
Proof.
rewrite /particle_modes size_cat iotaD map_cat flatten_cat add0n; congr (_ ++ _).
  congr flatten; apply/eq_in_map => i; rewrite mem_iota /= => il; by rewrite nth_cat il.
rewrite -[X in iota X _]addn0 iotaDl -map_comp map_flatten -map_comp; congr flatten.
apply/eq_in_map => i _ /=; rewrite map_nseq nth_cat; case: ltnP => [|_]; last by rewrite addKn.
by rewrite -{2}[size s]addn0 ltn_add2l.
Qed.

Lemma decr_catl s t i : (i < size s)%N -> decr (s ++ t) i = decr s i ++ t.
Proof.
elim: s i => [//|x s IH] [|i] /= il; rewrite ?decr0 // !decr_cons.
by rewrite IH.
Qed.

Lemma decr_catr s t i : (i < size t)%N -> decr (s ++ t) (size s + i) = s ++ decr t i.
Proof. by move=> il; elim: s => [//|x s IH] /=; rewrite addSn decr_cons IH. Qed.

Lemma PerO_too_many (u : nat -> nat -> F) rows s : (sumn s < size rows)%N -> PerO u rows s = 0.
Proof.
elim: rows s => [//|a rows IH] s lt; rewrite PerO_cons big1 // => i _.
case: (posnP (nth 0%N s i)) => [->|ip]; first by rewrite !mul0r.
rewrite IH ?mulr0 // sumn_decr //; move: lt => /=.
have : (0 < sumn s)%N by rewrite sumn_nth (bigD1 i) //= addn_gt0 ip.
by lia.
Qed.

Lemma PerO_blocks m1 m2 A B rows1 rows2 s1 s2 : size s1 = m1 -> size s2 = m2 ->
  (forall a, a \in rows1 -> (a < m1)%N) -> (forall a, a \in rows2 -> (a < m2)%N) ->
  PerO (ent (side_by_side m1 m2 A B)) (rows1 ++ map (addn m1) rows2) (s1 ++ s2) =
  PerO (ent A) rows1 s1 * PerO (ent B) rows2 s2.
Proof.
move=> z1 z2 H1 H2; elim: rows1 s1 z1 H1 => [|a rows1 IH] s1 z1 H1.
  rewrite /= mul1r; elim: rows2 s2 z2 H2 => [//|b rows2 IH2] s2 z2 H2.
  rewrite /= size_cat z1 z2 big_split_ord /= big1 ?add0r => [|i _].
    apply: eq_bigr => i _; rewrite -z1 decr_catr ?z2 // z1.
    rewrite IH2 ?size_decr ?z2 // => [|x xr]; last by apply: H2; rewrite inE xr orbT.
    have bl : (b < m2)%N by apply: H2; rewrite mem_head.
    rewrite nth_cat z1 ltnNge leq_addr /= addKn ent_mk ?ltn_add2l //.
    by rewrite ltnNge leq_addr /= leq_addr !addKn.
  have bl : (b < m2)%N by apply: H2; rewrite mem_head.
  rewrite ent_mk ?ltn_add2l //; last by rewrite ltn_addr.
  by rewrite ltnNge leq_addr /= leqNgt ltn_ord /= mulr0 mul0r.
have al : (a < m1)%N by apply: H1; rewrite mem_head.
rewrite [PerO _ (_ ++ _) _]/= size_cat z1 z2 big_split_ord /= [X in _ + X]big1 ?addr0 => [|i _].
  rewrite z1 mulr_suml; apply: eq_bigr => i _; rewrite decr_catl ?z1 //.
  rewrite IH ?size_decr ?z1 // => [|x xr]; last by apply: H1; rewrite inE xr orbT.
  rewrite nth_cat z1 ltn_ord ent_mk ?al ?ltn_ord ?ltn_addr //=.
  by rewrite mulrA.
rewrite ent_mk ?ltn_add2l //; last by rewrite ltn_addr.
by rewrite al ltnNge leq_addr /= leqNgt al /= mulr0 mul0r.
Qed.

Lemma bs_permanent_blocks m1 m2 A B s1 s2 t1 t2 : size s1 = m1 -> size s2 = m2 -> size t1 = m1 -> size t2 = m2 ->
  (sumn s1 + sumn s2 = sumn t1 + sumn t2)%N ->
  bs_permanent (side_by_side m1 m2 A B) (s1 ++ s2) (t1 ++ t2) =
  if sumn s1 == sumn t1 then bs_permanent A s1 t1 * bs_permanent B s2 t2 else 0.
Proof.
move=> z1 z2 y1 y2 e; rewrite bs_permanent_PerO ?sumn_cat // particle_modes_cat y1 PerO_blocks //; last first.
- by move=> a /particle_modes_lt; rewrite y2.
- by move=> a /particle_modes_lt; rewrite y1.
case: eqP => [e1|ne]; first by rewrite !bs_permanent_PerO //; lia.
case: (ltngtP (sumn s1) (sumn t1)) => h; last by [].
  by rewrite PerO_too_many ?mul0r // size_particle_modes.
by rewrite [X in _ * X]PerO_too_many ?mulr0 // size_particle_modes; lia.
Qed.

End Blocks.
