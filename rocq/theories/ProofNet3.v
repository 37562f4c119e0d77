(* prepare_expanded, the lossy network and the transmissivities. *)
From mathcomp Require Import all_ssreflect all_algebra complex ring.
From Verif Require Import Base SpecPerm SpecBS SpecNet ModelPerm ModelNet BsMath ProofNet1 ProofNet2.
Set Implicit Arguments.
Unset Strict Implicit.
Unset Printing Implicit Defensive.
Import Order.TTheory GRing.Theory Num.Theory.
Local Open Scope ring_scope.
Local Open Scope py_scope.

Section Net.
Variable R : rcfType.
Notation C := (ComplexField.complex_numFieldType R).
Notation mat := (seq (seq C)).

Definition lossv (s : seq R) (i : nat) : R :=
  Num.sqrt (if 1 - s`_i ^+ 2 < 0 then 0 else 1 - s`_i ^+ 2).

Lemma svd_mx m (M V U : mat) s : is_svd m M V s U ->
  mxof m m M = mxof m m V *m rdiag (fun i : 'I_m => s`_i) *m mxof m m U.
Proof.
case=> _ _ _ _ e; apply/matrixP=> i j; rewrite !mxE e //; apply: eq_bigr => k _.
by rewrite mul_mx_diag !mxE.
Qed.

Lemma prepare_ok svd m (M V U : mat) s : (0 < m)%N -> svd M = Ok (V, s, U) -> is_svd m M V s U ->
  exists E, [/\ prepare_expanded svd M = Ok E, is_square (m + m) E
    & mxof (m + m) (m + m) E = expand (mxof m m V) (mxof m m U) (fun i : 'I_m => s`_i) (fun i : 'I_m => lossv s i)].
Proof.
move=> m0 e [uV uU ss so eM]; have [sqV _] := uV; have [sqU _] := uU.
rewrite /prepare_expanded e [rbind _ _]/= /=.
have sV : size V = m by case/andP: sqV => /eqP.
have rZ := zeros_rect sqV; have mZ := mxof_zeros m m V; have rI := eye_rect C m; have mI := mxof_eye C m.
rewrite sV; have [X [-> rX mX]] := block_ok sqV rZ rZ rI m0.
rewrite [rbind (Ok _) _]/=; have [Y [-> rY mY]] := block_ok sqU rZ rZ rI m0.
rewrite [rbind (Ok _) _]/=.
have rS : is_rect m m (np_diag [seq x%:C%C : C | x <- s]).
  by have := diag_rect [seq x%:C%C : C | x <- s]; rewrite size_map ss.
have rL : is_rect m m (loss_expansion [seq x ^+ 2 | x <- s]).
  by rewrite /loss_expansion; have := diag_rect [seq (Num.sqrt x)%:C%C : C | x <- [seq if x < 0 then 0 else x | x <- [seq 1 - x | x <- [seq x ^+ 2 | x <- s]]]]; rewrite !size_map ss.
have mS : mxof m m (np_diag [seq x%:C%C : C | x <- s]) = rdiag (fun i : 'I_m => s`_i).
  rewrite mxof_diag ?size_map //; congr diag_mx; apply/rowP=> i; rewrite !mxE (nth_map 0) ?ss //.
have mL : mxof m m (loss_expansion [seq x ^+ 2 | x <- s]) = rdiag (fun i : 'I_m => lossv s i).
  rewrite /loss_expansion mxof_diag ?size_map //; congr diag_mx; apply/rowP=> i; rewrite !mxE.
  by rewrite !(nth_map 0) ?size_map ?ss.
have [K [-> rK mK]] := block_ok rS rL rL rS m0.
have mm0 : (0 < m + m)%N by rewrite addn_gt0 m0.
rewrite [rbind (Ok _) _]/=; have [P [-> rP mP]] := matmul_ok rX rK mm0.
rewrite [rbind (Ok _) _]/=; have [Q [-> rQ mQ]] := matmul_ok rP rY mm0.
exists Q; split=> //; rewrite mQ mP mX mK mY mZ mI mS mL.
by [].
Qed.

(* subunitary: the singular values are at most 1 *)
Lemma subunitary_svd m (M V U : mat) s : subunitary m M -> is_svd m M V s U ->
  forall i : nat, (i < m)%N -> s`_i <= 1.
Proof.
move=> [sqM sub] sv i im; have eM := svd_mx sv; case: sv => /unitaryP[_ uV] /unitaryP[_ uU] ss [_ /allP s0] _.
have si0 : 0 <= s`_i by apply: s0; rewrite mem_nth ?ss.
pose v j := conjc (ent U i j).
have {sub} := sub v.
pose cv : 'cV[C]_m := \col_j v j.
have ecv : mxof m m U *m cv = delta_mx (Ordinal im) 0.
  apply/matrixP=> k z; rewrite ord1 !mxE andbT.
  have := congr1 (fun X : 'M_m => X k (Ordinal im)) (adj_mul1C uU); rewrite !mxE -val_eqE => <-.
  by apply: eq_bigr => j _; rewrite adjE !mxE.
have -> : \sum_(j < m) nsq (v j) = 1.
  apply: (@complexI R); rewrite rmorph_sum.
  transitivity ((mxof m m U *m adj (mxof m m U)) (Ordinal im) (Ordinal im)).
    by rewrite mxE; apply: eq_bigr => j _; rewrite /= nsqE adjE !mxE /v conjcK.
  by rewrite (adj_mul1C uU) mxE eqxx.
have -> : \sum_(k < m) nsq (\sum_(j < m) ent M k j * v j) = s`_i ^+ 2; last by rewrite expr_le1.
have h (k : 'I_m) : \sum_(j < m) ent M k j * v j = ent V k i * (s`_i)%:C%C.
  have -> : \sum_(j < m) ent M k j * v j = (mxof m m M *m cv) k 0.
    by rewrite mxE; apply: eq_bigr => j _; rewrite !mxE.
  rewrite eM -mulmxA ecv mxE (bigD1 (Ordinal im)) //= big1 ?addr0 => [|j /negPf ne].
    by rewrite mul_mx_diag !mxE eqxx mulr1.
  by rewrite [delta_mx _ _ _ _]mxE ne mulr0.
apply: (@complexI R); rewrite rmorph_sum.
under eq_bigr do rewrite h nsqM rmorphM /= nsqE.
rewrite -mulr_suml.
have -> : \sum_(k < m) conjc (ent V k i) * ent V k i = 1.
  transitivity ((adj (mxof m m V) *m mxof m m V) (Ordinal im) (Ordinal im)).
    by rewrite mxE; apply: eq_bigr => j _; rewrite adjE !mxE.
  by rewrite uV mxE eqxx.
by rewrite mul1r /nsq /= expr0n addr0.
Qed.

Lemma lossv_sq s i : 0 <= s`_i -> s`_i <= 1 -> s`_i ^+ 2 + lossv s i ^+ 2 = 1.
Proof.
move=> s0 s1; have h : 0 <= 1 - s`_i ^+ 2 by rewrite subr_ge0 expr_le1.
by rewrite /lossv ltNge h /= sqr_sqrtr // addrC subrK.
Qed.

Lemma gram_cols n (E : mat) : is_square n E -> forall i i' : 'I_n,
  ortho_cols n E i i' <-> (adj (mxof n n E) *m mxof n n E) i i' = (i == i')%:R.
Proof.
move=> sq i i'; rewrite /ortho_cols mxE -val_eqE.
by under [X in _ <-> X = _]eq_bigr do rewrite adjE !mxE.
Qed.

Section Prep.
Variables (svd : mat -> res (mat * seq R * mat)) (m : nat) (M : mat).
Hypothesis (sv : svd_ok svd) (m0 : (0 < m)%N).

Lemma expanded_corner : is_square m M ->
  exists E, [/\ prepare_expanded svd M = Ok E, is_square (m + m) E
    & forall i j : nat, (i < m)%N -> (j < m)%N -> ent E i j = ent M i j].
Proof.
move=> sq; have [V [s [U [e isv]]]] := sv m0 sq.
have [E [eE sqE mE]] := prepare_ok m0 e isv; exists E; split=> // i j il jl.
have := congr1 (fun X : 'M_(m + m) => X (lshift m (Ordinal il)) (lshift m (Ordinal jl))) mE.
by rewrite expandE block_mxEul -(svd_mx isv) !mxE.
Qed.

Lemma expanded_cols : subunitary m M ->
  exists E, [/\ prepare_expanded svd M = Ok E, is_square (m + m) E,
    forall i i' : nat, (i < m)%N -> (i' < m)%N -> ortho_cols (m + m) E i i'
    & forall i i' : nat, (i < m)%N -> (i' < m)%N -> ortho_cols (m + m) E (m + i) (m + i')].
Proof.
move=> su; have [V [s [U [e isv]]]] := sv m0 su.1.
have [E [eE sqE mE]] := prepare_ok m0 e isv; exists E; split=> // i i' il il'.
  apply/(gram_cols sqE (lshift m (Ordinal il)) (lshift m (Ordinal il'))).
  rewrite mE expand_gram ?block_mxEul; first by rewrite !mxE (inj_eq (@lshift_inj _ _)).
  - by case: isv => /unitaryP[].
  - by case: isv => _ /unitaryP[].
  move=> k; apply: lossv_sq; last exact: (subunitary_svd su isv).
  by case: isv => _ _ ss [_ /allP s0] _; apply: s0; rewrite mem_nth ?ss.
apply/(gram_cols sqE (rshift m (Ordinal il)) (rshift m (Ordinal il'))).
rewrite mE expand_gram ?block_mxEdr; first by rewrite !mxE (inj_eq (@rshift_inj _ _)).
- by case: isv => /unitaryP[].
- by case: isv => _ /unitaryP[].
move=> k; apply: lossv_sq; last exact: (subunitary_svd su isv).
by case: isv => _ _ ss [_ /allP s0] _; apply: s0; rewrite mem_nth ?ss.
Qed.

Lemma expanded_unitary : subunitary m M ->
  exists E, prepare_expanded svd M = Ok E /\ (unitary (m + m) E <-> partial_isometry m M).
Proof.
move=> su; have [V [s [U [e isv]]]] := sv m0 su.1.
have [E [eE sqE mE]] := prepare_ok m0 e isv; exists E; split=> //.
have [uV uU] : adj (mxof m m V) *m mxof m m V = 1%:M /\ adj (mxof m m U) *m mxof m m U = 1%:M.
  by case: isv => /unitaryP[_ ?] /unitaryP[_ ?].
have s0 (k : 'I_m) : 0 <= s`_k by case: isv => _ _ ss [_ /allP s0] _; apply: s0; rewrite mem_nth ?ss.
have sl (k : 'I_m) : s`_k ^+ 2 + lossv s k ^+ 2 = 1 by apply: lossv_sq => //; exact: (subunitary_svd su isv).
have step1 : unitary (m + m) E <-> forall i : 'I_m, s`_i * lossv s i = 0.
  split=> [/unitaryP[_ h]|h]; first by apply/(expand_unitary uV uU sl); rewrite -mE.
  by apply/unitaryP; split=> //; rewrite mE; apply/(expand_unitary uV uU sl).
have step2 : partial_isometry m M <-> forall i : 'I_m, s`_i = 0 \/ s`_i = 1.
  have hM : partial_isometry m M <-> mxof m m M *m adj (mxof m m M) *m mxof m m M = mxof m m M.
    split=> [h|h].
      apply/matrixP=> i j; rewrite [RHS]mxE -h // mxE exchange_big; apply: eq_bigr => l _.
      by rewrite mxE mulr_suml; apply: eq_bigr => k _; rewrite adjE !mxE.
    move=> i j il jl; have := congr1 (fun X : 'M_m => X (Ordinal il) (Ordinal jl)) h.
    rewrite [X in _ = X]mxE => <-; rewrite mxE exchange_big; apply: eq_bigr => l _.
    by rewrite mxE mulr_suml; apply: eq_bigr => k _; rewrite adjE !mxE.
  split=> [/hM h|h]; first by apply: (svd_partial uV uU s0).1; rewrite -(svd_mx isv).
  by apply/hM; rewrite (svd_mx isv); apply: (svd_partial uV uU s0).2.
split=> [/step1 h|/step2 h].
  apply/step2=> i; have /eqP := h i; rewrite mulf_eq0 => /orP[/eqP ->|/eqP l0]; first by left.
  right; have := sl i; rewrite l0 expr0n addr0 => /eqP; rewrite sqrp_eq1 // => /eqP.
  by [].
apply/step1=> i; case: (h i) => si; rewrite ?si ?mul0r // mul1r.
have := sl i; rewrite si expr1n => /eqP; rewrite -[X in _ == X]addr0 (inj_eq (addrI _)) sqrf_eq0 => /eqP.
by [].
Qed.

(* the lossy network *)
Lemma lossy_networkE v : is_square m M -> size v = m ->
  exists E, lossy_network_init svd M = Ok E /\ lossy_network_simulate E v = np_dot M v.
Proof.
move=> sq sz; have [E [eE sqE cE]] := expanded_corner sq; exists E; split=> //.
have sE : size E = (m + m)%N by case/andP: sqE => /eqP.
rewrite /lossy_network_simulate sE addnn doubleK sz eqxx /=.
have rc : is_rect m 1 [seq [:: x] | x <- v].
  by rewrite /is_rect size_map sz eqxx; apply/allP=> row /mapP[x _ ->].
have rz : is_rect m 1 [seq [:: 0 : C] | _ <- v].
  by rewrite /is_rect size_map sz eqxx; apply/allP=> row /mapP[x _ ->].
have [X [-> rX mX]] := vstack_ok rc rz m0 m0; rewrite [rbind (Ok _) _]/=.
have mm0 : (0 < m + m)%N by rewrite addn_gt0 m0.
have [Y [-> rY mY]] := matmul_ok sqE rX mm0; rewrite [rbind (Ok _) _]/=.
have [w [-> sw ew]] := dot_ok sq sz; congr Ok.
rewrite trim_toE -sz.
have sY : size Y = (m + m)%N by case/andP: rY => /eqP.
have st : size (take m Y) = m by rewrite size_takel // sY leq_addr.
have fl : flatten (take m Y) = [seq nth 0 r 0 | r <- take m Y].
  have : all (fun r => size r == 1%N) (take m Y).
    by case/andP: rY => _ /allP h; apply/allP=> r /mem_take /h.
  elim: (take m Y) => [//|r l IH] /= /andP[/eqP sr /IH ->].
  by case: r sr => [|x [|]].
rewrite sz fl; apply: (@eq_from_nth _ 0); first by rewrite size_map st sw.
move=> i; rewrite size_map st => il; rewrite (nth_map [::]) ?st // nth_take // ew //.
have := congr1 (fun X : 'M_(m + m, 1) => X (lshift m (Ordinal il)) 0) mY.
rewrite mxE /ent /= => ->; rewrite mX mxE big_split_ord /= [X in _ + X]big1 ?addr0 => [|j _].
  by apply: eq_bigr => j _; rewrite col_mxEu !mxofE /= cE // /ent (nth_map 0) ?sz.
rewrite col_mxEd !mxofE /ent /= (nth_map 0) ?sz //= mulr0.
by [].
Qed.

(* the transmissivities *)
Lemma transmissivitiesE : is_square m M ->
  exists l, [/\ modes_transmissivities svd M = Ok l, size l = m, all (fun x => 0 <= x) l,
    sorted (fun x y => x <= y) l & \sum_(x <- l) x = \sum_(i < m) \sum_(j < m) nsq (ent M i j)].
Proof.
move=> sq; have [V [s [U [e isv]]]] := sv m0 sq.
rewrite /modes_transmissivities e [rbind _ _]/= /=; eexists; split; first by reflexivity.
- by rewrite size_map size_rev; case: isv.
- by apply/allP=> x /mapP[y _ ->]; rewrite sqr_ge0.
- case: isv => _ _ _ [so s0] _; rewrite sorted_map.
  have s0' : all (fun x => 0 <= x) (rev s) by rewrite all_rev.
  have : sorted (fun x y => x <= y) (rev s) by rewrite rev_sorted.
  move: (rev s) s0' => [//|x l]; elim: l x => [//|y l IH] x /= /and3P[x0 y0 l0] /andP[xy so'].
  by apply/andP; split; [rewrite ler_expn2r|apply: IH; rewrite //= y0].
rewrite big_map (perm_big s) ?perm_rev //.
have ss : size s = m by case: isv.
have eM := svd_mx isv; case: isv => /unitaryP[_ uV] /unitaryP[_ uU] _ _ _.
apply: (@complexI R); rewrite !rmorph_sum.
transitivity (\tr (adj (mxof m m M) *m mxof m m M)); last first.
  transitivity (\sum_(i < m) \sum_(j < m) (nsq (ent M i j))%:C%C); last by apply: eq_bigr => i _; rewrite rmorph_sum.
  rewrite /mxtrace exchange_big; apply: eq_bigr => j _; rewrite mxE; apply: eq_bigr => i _.
  by rewrite nsqE adjE !mxE.
rewrite eM !adjM adj_rdiag !mulmxA -(mulmxA (_ *m _) (adj _)) uV mulmx1 -mulmxA mxtrace_mulC !mulmxA.
rewrite -(mulmxA (rdiag _) (mxof m m U)) (adj_mul1C uU) mulmx1 rdiagM.
rewrite (big_nth 0) big_mkord ss /mxtrace; apply: eq_bigr => i _; rewrite !mxE eqxx mulr1n expr2.
by [].
Qed.

End Prep.
End Net.
