(* Every square matrix has a singular value decomposition. *)
From mathcomp Require Import all_ssreflect all_fingroup all_algebra complex ring.
From Verif Require Import Base SpecPerm SpecBS SpecNet ModelPerm ModelNet BsMath ProofNet1 ProofNet2.
Set Implicit Arguments.
Unset Strict Implicit.
Unset Printing Implicit Defensive.
Import Order.TTheory GRing.Theory Num.Theory.
Local Open Scope ring_scope.

Section Svd.
Variable R : rcfType.
Notation C := (ComplexField.complex_numFieldType R).

Definition ip n (x y : 'rV[C]_n) : C := (x *m adj y) 0 0.

Lemma ipE n (x y : 'rV[C]_n) : x *m adj y = (ip x y)%:M.
Proof. exact: mx11_scalar. Qed.
Lemma ipZl n (x y : 'rV[C]_n) c : ip (c *: x) y = c * ip x y.
Proof. by rewrite /ip -scalemxAl mxE. Qed.
Lemma ip_conj n (x y : 'rV[C]_n) : ip x y = conjc (ip y x).
Proof. by rewrite /ip -[in LHS](adjK x) -adjM adjE. Qed.
Lemma adjZ r c (A : 'M[C]_(r, c)) (z : C) : adj (z *: A) = conjc z *: adj A.
Proof. by apply/matrixP=> i j; rewrite !mxE rmorphM. Qed.
Lemma adjB r c (A B : 'M[C]_(r, c)) : adj (A - B) = adj A - adj B.
Proof. by apply/matrixP=> i j; rewrite !mxE rmorphB. Qed.
Lemma ipZr n (x y : 'rV[C]_n) c : ip x (c *: y) = conjc c * ip x y.
Proof. by rewrite ip_conj ipZl rmorphM /= -ip_conj. Qed.
Lemma ipBl n (x x' y : 'rV[C]_n) : ip (x - x') y = ip x y - ip x' y.
Proof. by rewrite /ip mulmxBl !mxE. Qed.
Lemma ipBr n (x y y' : 'rV[C]_n) : ip x (y - y') = ip x y - ip x y'.
Proof. by rewrite /ip adjB mulmxBr !mxE. Qed.

Definition sqn n (x : 'rV[C]_n) : R := \sum_j nsq (x 0 j).
Lemma ip_self n (x : 'rV[C]_n) : ip x x = (sqn x)%:C%C.
Proof. by rewrite /ip mxE rmorph_sum; apply: eq_bigr => j _; rewrite /= nsqE adjE mulrC. Qed.
Lemma sqn_ge0 n (x : 'rV[C]_n) : 0 <= sqn x.
Proof. by apply: sumr_ge0 => j _; exact: nsq_ge0. Qed.
Lemma nsq_eq0 (z : C) : (nsq z == 0) = (z == 0).
Proof.
apply/eqP/eqP => [h|->]; last by apply: (@complexI R); rewrite nsqE mulr0.
have := nsqE z; rewrite h => /esym/eqP; rewrite mulf_eq0 => /orP[|/eqP //].
by rewrite fmorph_eq0 => /eqP.
Qed.
Lemma sqn_eq0 n (x : 'rV[C]_n) : (sqn x == 0) = (x == 0).
Proof.
rewrite /sqn psumr_eq0; last by move=> j _; exact: nsq_ge0.
apply/allP/eqP => [h|-> j _]; last by rewrite mxE nsq_eq0 eqxx.
by apply/rowP=> j; have := h j (mem_index_enum _); rewrite /= nsq_eq0 mxE => /eqP.
Qed.

Lemma unit_row n (x : 'rV[C]_n) : x != 0 -> exists c : C, ip (c *: x) (c *: x) = 1 /\ c != 0.
Proof.
move=> x0; have p : 0 < sqn x by rewrite lt_def sqn_ge0 sqn_eq0 x0.
have q : 0 < Num.sqrt (sqn x) by rewrite sqrtr_gt0.
exists ((Num.sqrt (sqn x))^-1)%:C%C; split; last first.
  by rewrite fmorph_eq0 invr_eq0 gt_eqF.
rewrite ipZl ipZr ip_self conjc_real -!rmorphM /=; congr (_%:C)%C.
by rewrite mulrA -invfM -expr2 sqr_sqrtr ?ltW // mulVf // gt_eqF.
Qed.

(* reflections *)
Lemma reflect_unitary n (w : 'rV[C]_n) (q : R) : ip w w = q%:C%C -> q != 0 ->
  let H := 1%:M - (2%:R / q%:C%C) *: (adj w *m w) in adj H = H /\ H *m H = 1%:M.
Proof.
move=> eq q0 H; have qC : q%:C%C != 0 :> C by rewrite fmorph_eq0.
split.
  rewrite /H adjB adj1 adjZ adjM adjK; congr (_ - _ *: _).
  by rewrite -[LHS]/(cjm _ _) fmorph_div rmorph_nat; congr (_ / _); exact: conjc_real.
have e : (adj w *m w) *m (adj w *m w) = q%:C%C *: (adj w *m w).
  by rewrite mulmxA -(mulmxA (adj w) w (adj w)) ipE eq mul_mx_scalar -scalemxAl.
rewrite /H mulmxBl mul1mx mulmxBr mulmx1 -scalemxAl -scalemxAr e !scalerA.
have -> : 2%:R / q%:C%C * (2%:R / q%:C%C) * q%:C%C = 2%:R / q%:C%C + 2%:R / q%:C%C :> C.
  by rewrite -mulrA mulfVK // [LHS]mulrC [LHS]mulr_natl mulr2n.
set z := (_ / _) *: _; rewrite scalerDl -/z.
have -> : z - (z + z) = - z by rewrite opprD addrA subrr add0r.
by rewrite opprK subrK.
Qed.

(* every unit row is the first row of a unitary matrix *)
Lemma complete_row n (x : 'rV[C]_n.+1) : ip x x = 1 ->
  exists A : 'M[C]_n.+1, A *m adj A = 1%:M /\ row 0 A = x.
Proof.
move=> x1; pose a := x 0 0; pose rho : R := Num.sqrt (nsq a).
have r2 : rho ^+ 2 = nsq a by rewrite sqr_sqrtr ?nsq_ge0.
have [c [c1 ac]] : exists c : C, conjc c * c = 1 /\ a * conjc c = rho%:C%C.
  have [a0|a0] := eqVneq a 0.
    exists 1; rewrite conjc1 !mulr1 a0 /rho a0; split=> //.
    by rewrite (eqP (_ : nsq 0 == 0)) ?nsq_eq0 // sqrtr0.
  have r0 : rho != 0 by rewrite sqrtr_eq0 -ltNge lt_def nsq_ge0 nsq_eq0 a0.
  have rC : rho%:C%C != 0 :> C by rewrite fmorph_eq0.
  exists (a / rho%:C%C).
  have -> : conjc (a / rho%:C%C) = conjc a / rho%:C%C.
    by rewrite -[LHS]/(cjm _ _) fmorph_div; congr (_ / _); exact: conjc_real.
  have e : conjc a * a = rho%:C%C ^+ 2 by rewrite -nsqE -r2 rmorphX.
  split; first by rewrite mulrACA e -invfM -expr2 divff ?expf_neq0.
  by rewrite mulrA [a * _]mulrC e expr2 mulfK.
pose e0 : 'rV[C]_n.+1 := delta_mx 0 0; pose y := c *: e0.
have e01 : ip e0 e0 = 1.
  rewrite /ip mxE (bigD1 0) //= big1 ?addr0; first by rewrite adjE mxE eqxx conjc1 mul1r.
  by move=> j /negPf j0; rewrite mxE j0 mul0r.
have xe : ip x e0 = a.
  rewrite /ip mxE (bigD1 0) //= big1 ?addr0; first by rewrite adjE mxE eqxx conjc1 mulr1.
  by move=> j /negPf j0; rewrite adjE mxE j0 conjc0 mulr0.
have xy : ip x y = rho%:C%C by rewrite ipZr xe mulrC.
have yx : ip y x = rho%:C%C by rewrite ip_conj xy conjc_real.
have yy : ip y y = 1 by rewrite ipZl ipZr e01 mulr1 mulrC.
have re (A : 'M[C]_n.+1) : row 0 A = e0 *m A by rewrite rowE.
pose w := x - y; have ww : ip w w = (2%:R * (1 - rho))%:C%C.
  rewrite ipBl !ipBr x1 xy yx yy rmorphM rmorphB rmorph1 rmorph_nat /= opprB.
  by rewrite -{1}addrA -/(1 - rho%:C%C) addrA; ring.
have [w0|w0] := eqVneq (2%:R * (1 - rho)) 0.
  have e : x = y.
    apply/eqP; rewrite -subr_eq0 -/w -sqn_eq0; apply/eqP/(@complexI R).
    by rewrite -ip_self ww w0.
  exists (c%:M); split; last by rewrite re mul_mx_scalar -/y.
  by rewrite /adj tr_scalar_mx map_scalar_mx -scalar_mxM mulrC /= c1.
have [aH HH] := reflect_unitary ww w0; set H := _ - _ in aH HH.
exists (c *: H); split.
  by rewrite adjZ aH -scalemxAl -scalemxAr scalerA HH mulrC c1 scale1r.
rewrite re -scalemxAr scalemxAl -/y /H mulmxBr mulmx1 -scalemxAr mulmxA ipE mul_scalar_mx scalerA.
have -> : 2%:R / (2%:R * (1 - rho))%:C%C * ip y w = -1 :> C.
  rewrite ipBr yx yy rmorphM rmorphB rmorph1 rmorph_nat /=.
  have z2 : 2%:R != 0 :> C by rewrite pnatr_eq0.
  have z1 : 1 - rho%:C%C != 0 :> C.
    apply: contra_neq w0 => h; apply: (@complexI R).
    by rewrite rmorphM rmorphB rmorph1 /= h mulr0.
  by rewrite -(opprB 1 rho%:C%C) mulrN invfM mulrA divff // mul1r mulVf.
by rewrite scaleN1r opprK addrC subrK.
Qed.
Lemma unitary_row n (A : 'M[C]_n.+1) (x : 'rV[C]_n.+1) : A *m adj A = 1%:M -> row 0 A = x ->
  x *m adj A = delta_mx 0 0.
Proof. by move=> u <-; rewrite -row_mul u row1. Qed.

(* a pair of singular vectors *)
Lemma singular_pair n (M : 'M[C]_n.+1) : exists x y : 'rV[C]_n.+1, exists s : R,
  [/\ ip x x = 1, ip y y = 1, 0 <= s, x *m M = s%:C%C *: y & y *m adj M = s%:C%C *: x].
Proof.
have : ~~ (size (char_poly (M *m adj M)) == 1%N) by rewrite size_char_poly.
move=> /closed_rootP[a]; rewrite -eigenvalue_root_char => /eigenvalueP[v ev v0].
have [c [xx c0]] := unit_row v0; pose x := c *: v.
have ex : x *m (M *m adj M) = a *: x by rewrite -scalemxAl ev !scalerA mulrC.
have ea : a = (sqn (x *m M))%:C%C.
  by rewrite -ip_self /ip adjM mulmxA -(mulmxA x) ex -scalemxAl mxE -/(ip x x) xx mulr1.
have [l0|l0] := eqVneq (sqn (x *m M)) 0.
  have xM : x *m M = 0 by apply/eqP; rewrite -sqn_eq0 l0.
  have x0 : x != 0 by rewrite scaler_eq0 negb_or c0 v0.
  have /eqP dM : \det M == 0 by apply/det0P; exists x.
  have /det0P[w w0 wM] : \det (adj M) == 0 by rewrite /adj det_map_mx det_tr dM rmorph0.
  have [d [yy d0]] := unit_row w0; exists x, (d *: w), 0; split=> //.
    by rewrite xM rmorph0 scale0r.
  by rewrite -scalemxAl wM scaler0 rmorph0 scale0r.
pose s := Num.sqrt (sqn (x *m M)).
have s0 : 0 < s by rewrite sqrtr_gt0 lt_def l0 sqn_ge0.
have sC : s%:C%C != 0 :> C by rewrite fmorph_eq0 gt_eqF.
have s2 : s%:C%C * s%:C%C = a by rewrite -rmorphM -expr2 sqr_sqrtr ?sqn_ge0.
exists x, ((s%:C%C)^-1 *: (x *m M)), s; split=> //.
- rewrite ipZl ipZr ip_self -ea.
  have -> : conjc (s%:C%C)^-1 = (s%:C%C)^-1 by rewrite -[LHS]/(cjm _ _) fmorphV; congr (_^-1); exact: conjc_real.
  by rewrite -s2 mulKf // mulVf.
- exact: ltW.
- by rewrite scalerA divff ?scale1r.
by rewrite -scalemxAl -mulmxA ex scalerA -s2 mulKf.
Qed.

Lemma svd_mx_exists n (M : 'M[C]_n) : exists (V U : 'M[C]_n) (s : 'I_n -> R),
  [/\ adj V *m V = 1%:M, adj U *m U = 1%:M, forall i, 0 <= s i & M = V *m rdiag s *m U].
Proof.
elim: n M => [|n IH] M.
  exists 1%:M, 1%:M, (fun=> 0); split; rewrite ?adj1 ?mul1mx //.
  by apply/matrixP=> [[]].
have [x [y [a [xx yy a0 xM yM]]]] := singular_pair M.
have [A [uA rA]] := complete_row xx; have [B [uB rB]] := complete_row yy.
have uA' := mulmx1C uA; have uB' := mulmx1C uB.
pose N : 'M_(1 + n) := A *m M *m adj B.
have r0 j : N 0 j = a%:C%C * (j == 0)%:R.
  have : row 0 N = a%:C%C *: delta_mx 0 0.
    by rewrite /N -mulmxA row_mul rA mulmxA xM -scalemxAl (unitary_row uB rB).
  by move=> /rowP /(_ j); rewrite !mxE.
have c0 j : N j 0 = a%:C%C * (j == 0)%:R.
  have : row 0 (adj N) = a%:C%C *: delta_mx 0 0.
    rewrite /N !adjM adjK row_mul rB mulmxA yM -scalemxAl (unitary_row uA rA) //.
  move=> /rowP /(_ j); rewrite mxE adjE !mxE /= => h.
  rewrite -[LHS]conjcK h -[LHS]/(cjm _ _) rmorphM rmorph_nat; congr (_ * _); exact: conjc_real.
have eM : M = adj A *m N *m B.
  by rewrite /N !mulmxA uA' mul1mx -mulmxA uB' mulmx1.
clearbody N.
have eN : N = block_mx (a%:C%C)%:M 0 0 (drsubmx N).
  rewrite -[LHS]submxK; congr block_mx.
  - by apply/matrixP=> i j; rewrite !ord1 !mxE lshift0 r0 eqxx mulr1 mulr1n.
  - by apply/matrixP=> i j; rewrite !ord1 !mxE lshift0 r0 mulr0.
  - by apply/matrixP=> i j; rewrite !ord1 !mxE lshift0 c0 mulr0.
have [V' [U' [s' [uV uU s0 e]]]] := IH (drsubmx N).
pose V1 : 'M[C]_(1 + n) := block_mx 1%:M 0 0 V'; pose U1 : 'M[C]_(1 + n) := block_mx 1%:M 0 0 U'.
pose s := fun i : 'I_(1 + n) => if split i is inr k then s' k else a.
have eS : rdiag s = block_mx (a%:C%C)%:M 0 0 (rdiag s') :> 'M_(1 + n).
  rewrite -[LHS]submxK; congr block_mx; apply/matrixP=> i j; rewrite !mxE /s.
  - by rewrite (unsplitK (inl _ _)) !ord1 eqxx.
  - by rewrite eq_lrshift.
  - by rewrite eq_rlshift.
  by rewrite (unsplitK (inr _ _)) (inj_eq (@rshift_inj _ _)).
have gram1 (W : 'M[C]_n) : adj W *m W = 1%:M -> adj (block_mx 1%:M 0 0 W) *m block_mx 1%:M 0 0 W = 1%:M :> 'M_(1 + n).
  move=> uW; rewrite adj_block adj1 !adj0 mulmx_block !mulmx0 !mul0mx !addr0 !add0r mulmx1 uW.
  by rewrite -scalar_mx_block.
exists (adj A *m V1), (U1 *m B), s; split.
- by rewrite adjM adjK mulmxA -(mulmxA (adj V1)) uA mulmx1 gram1.
- by rewrite adjM -mulmxA (mulmxA (adj U1)) gram1 // mul1mx.
- by move=> i; rewrite /s; case: split.
rewrite eM eN eS e /V1 /U1 -!mulmxA; congr (_ *m _); rewrite !mulmxA; congr (_ *m _).
have key : block_mx (a%:C%C)%:M 0 0 (V' *m rdiag s' *m U') =
   block_mx 1%:M 0 0 V' *m (block_mx (a%:C%C)%:M 0 0 (rdiag s') : 'M_(1 + n)) *m block_mx 1%:M 0 0 U' :> 'M_(1 + n).
  by rewrite !mulmx_block !(mulmx0, mul0mx, addr0, add0r, mulmx1, mul1mx).
exact: key.
Qed.

(* ... with the singular values in descending order *)
Lemma svd_sorted_exists n (M : 'M[C]_n) : exists (V U : 'M[C]_n) (s : n.-tuple R),
  [/\ adj V *m V = 1%:M, adj U *m U = 1%:M, sorted (fun x y => y <= x) s, all (fun x => 0 <= x) s
    & M = V *m rdiag (tnth s) *m U].
Proof.
have [V [U [s [uV uU s0 e]]]] := svd_mx_exists M.
pose t := [tuple s i | i < n]; pose t' := sort_tuple (fun x y : R => y <= x) t.
have : perm_eq t' t by rewrite /= perm_sort.
case/tuple_permP=> p ep.
have etp i : tnth t' i = s (p i).
  have -> : t' = [tuple tnth t (p i) | i < n] by exact: val_inj.
  by rewrite !tnth_mktuple.
exists (V *m perm_mx p^-1), (perm_mx p *m U), t'.
have up (q : 'S_n) : adj (perm_mx q) = perm_mx q^-1 :> 'M[C]_n.
  by rewrite /adj tr_perm_mx map_perm_mx.
split.
- by rewrite adjM up invgK -mulmxA (mulmxA (adj V)) uV mul1mx -perm_mxM mulgV perm_mx1.
- by rewrite adjM up -mulmxA (mulmxA (perm_mx _) (perm_mx _)) -perm_mxM mulVg perm_mx1 mul1mx.
- by apply: sort_sorted => x y; exact: le_total.
- by rewrite (eq_all_r (s2 := t)) => [|x]; [apply/allP=> x /mapP[i _ ->]|rewrite mem_sort].
rewrite e -!mulmxA; congr (_ *m _); rewrite !mulmxA; congr (_ *m _).
rewrite -[X in _ *m perm_mx X](invgK p) -col_permE -row_permE.
by apply/matrixP=> i j; rewrite !mxE (inj_eq (@perm_inj _ _)) etp permKV.
Qed.


End Svd.
