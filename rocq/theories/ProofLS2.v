(* The lossy-state sampler: the shuffle and the drawn networks. *)
From mathcomp Require Import all_ssreflect all_algebra complex.
From mathcomp Require Import ring zify.
From Verif Require Import Base SpecStates Combi SpecPerm PermMath SpecBS BsMath BsComb BsNorm.
From Verif Require Import ModelStates ModelPerm ModelDist SpecProb ProbMath ModelGcc ModelGccB ProofSel SpecGcc ModelNet SpecNet.
From Verif Require Import ProofNet1 ProofNet2 ProofNet7 ProofBobs1 ProofBobs3 ProofBobs4 ModelBobs ModelLState SpecBobs SpecLState.
Set Implicit Arguments.
Unset Strict Implicit.
Unset Printing Implicit Defensive.
Import Order.TTheory GRing.Theory Num.Theory.
Local Open Scope ring_scope.
Local Open Scope py_scope.

(* the permutations of s by their last entry *)
Lemma permutations_last (T : eqType) (V : zmodType) x0 (s : seq T) n (S : nat -> seq T) (F : seq T -> V) :
  uniq s -> size s = n.+1 -> (forall j, (j < n.+1)%N -> perm_eq (rcons (S j) (nth x0 s j)) s) ->
  \sum_(q <- permutations s) F q = \sum_(j < n.+1) \sum_(q <- permutations (S j)) F (rcons q (nth x0 s j)).
Proof.
move=> us sz hS.
pose G := flatten [seq [seq rcons q (nth x0 s j) | q <- permutations (S j)] | j <- iota 0 n.+1].
have uS j : (j < n.+1)%N -> uniq (S j).
  by move=> /hS/perm_uniq; rewrite us rcons_uniq => /andP[].
have szS j : (j < n.+1)%N -> size (S j) = n.
  by move=> /hS/perm_size; rewrite size_rcons sz => -[].
have sub : {subset permutations s <= G}.
  move=> q; rewrite mem_permutations => pq; have : size q = n.+1 by rewrite (perm_size pq).
  case/lastP: q pq => [//|q x] pq _.
  have xs : x \in s by rewrite -(perm_mem pq) mem_rcons mem_head.
  apply/flattenP; exists [seq rcons q' x | q' <- permutations (S (index x s))].
    apply/mapP; exists (index x s); first by rewrite mem_iota /= -sz index_mem.
    by rewrite nth_index.
  apply: map_f; rewrite mem_permutations; have /hS : (index x s < n.+1)%N by rewrite -sz index_mem.
  by rewrite nth_index // -(permPr pq) perm_sym !perm_rcons perm_sym perm_rcons perm_cons perm_sym.
have szG : size G = size (permutations s).
  rewrite size_permutations // sz size_flatten /shape -map_comp.
  rewrite (_ : map _ _ = [seq n`! | _ <- iota 0 n.+1]); last first.
    by apply/eq_in_map => j; rewrite mem_iota /= => jl; rewrite size_map size_permutations ?uS // szS.
  by rewrite factS -[in RHS](size_iota 0 n.+1); elim: iota => //= a l ->; rewrite mulSn.
have [_ eqG] := uniq_min_size (permutations_uniq s) sub (eq_leq szG).
have uG := leq_size_uniq (permutations_uniq s) sub (eq_leq szG).
rewrite (perm_big G); last by apply: uniq_perm; rewrite ?permutations_uniq.
rewrite big_flatten big_map -[X in iota _ X](subn0 n.+1) -/(index_iota _ _) big_mkord.
by apply: eq_bigr => j _; rewrite big_map.
Qed.

Section Shuffle.
Variable R : rcfType.
Implicit Type l : seq nat.

Definition swapped l i j : seq nat := set_nth 0%N (set_nth 0%N l i (nth 0%N l j)) j (nth 0%N l i).

Lemma swap_step l i j : (i < size l)%N -> (j <= i)%N ->
  (let! x := py_get l (Posz i) in let! y := py_get l (Posz j) in
   let! l := py_set l (Posz i) y in py_set l (Posz j) x) = Ok (swapped l i j).
Proof.
move=> il ji; have jl := leq_ltn_trans ji il.
rewrite (py_get_nth 0%N) // [rbind _ _]/= (py_get_nth 0%N) // [rbind _ _]/= (py_set_nth 0%N) // [rbind _ _]/=.
by rewrite (py_set_nth 0%N) // size_set_nth; apply: leq_trans jl (leq_maxr _ _).
Qed.

Lemma size_swapped l i j : (i < size l)%N -> (j <= i)%N -> size (swapped l i j) = size l.
Proof.
move=> il ji; have jl := leq_ltn_trans ji il.
by rewrite !size_set_nth (maxn_idPr il); apply/maxn_idPr.
Qed.

Lemma swapped_last l i j : (i < size l)%N -> (j <= i)%N -> drop i (swapped l i j) = nth 0%N l j :: drop i.+1 l.
Proof.
move=> il ji; have jl := leq_ltn_trans ji il.
rewrite (drop_nth 0%N) ?size_swapped //; congr (_ :: _).
  by rewrite /swapped nth_set_nth /= nth_set_nth /= eqxx; case: eqP => [->|].
apply: (@eq_from_nth _ 0%N); rewrite !size_drop size_swapped // => k kl.
rewrite !nth_drop /swapped nth_set_nth /= nth_set_nth /=; case: eqP => [|_]; first by lia.
by case: eqP => //; lia.
Qed.

Lemma swapped_perm l i j : (i < size l)%N -> (j <= i)%N ->
  perm_eq (rcons (take i (swapped l i j)) (nth 0%N l j)) (take i.+1 l).
Proof.
move=> il ji; have jl := leq_ltn_trans ji il.
rewrite (take_nth 0%N il).
have stw : size (take i (swapped l i j)) = i by rewrite size_takel // size_swapped // ltnW.
have stl : size (take i l) = i by rewrite size_takel // ltnW.
have ntw k : (k < i)%N -> nth 0%N (take i (swapped l i j)) k = if k == j then nth 0%N l i else nth 0%N l k.
  by move=> ki; rewrite nth_take // /swapped nth_set_nth /= nth_set_nth /= (ltn_eqF ki).
move: ji; rewrite leq_eqVlt => /orP[/eqP ji|ji].
  rewrite ji (_ : take i (swapped l i i) = take i l) //; rewrite {1 2}ji in stw ntw.
  apply: (@eq_from_nth _ 0%N); rewrite stw // => k ki.
  by rewrite ntw // ji (ltn_eqF ki) nth_take.
have -> : take i (swapped l i j) = set_nth 0%N (take i l) j (nth 0%N l i).
  apply: (@eq_from_nth _ 0%N); rewrite stw ?size_set_nth ?stl; first by apply/esym/maxn_idPr.
  by move=> k ki; rewrite ntw // nth_set_nth /= nth_take.
rewrite -[in X in perm_eq _ X](cat_take_drop j (take i l)) (drop_nth 0%N) ?stl // nth_take //.
rewrite set_nthE stl ji -!cats1 -!catA /= perm_cat2l.
move: (drop _ _) (nth _ _ _) (nth _ _ _) => D x y.
by apply/permP => f; rewrite /= !count_cat /=; lia.
Qed.

Lemma shuffle_always i l : (i < size l)%N ->
  always (fun r => exists2 l', r = Ok l' & perm_eq l' l) (@shuffle_loop R i l).
Proof.
elim: i l => [|i IH] l il; first by exists l.
rewrite [shuffle_loop _ _]/= => j ji; rewrite swap_step // rpbind_ok.
have h := size_swapped il ji.
apply: always_impl (IH (swapped l i.+1 j) _) => [_ [l' -> p]|]; last by rewrite h ltnW.
exists l' => //; apply: perm_trans p _; rewrite -(cat_take_drop i.+1 (swapped _ _ _)) swapped_last //.
rewrite -cat_rcons -[X in perm_eq _ X](cat_take_drop i.+2 l); apply: perm_cat => //.
exact: swapped_perm.
Qed.

Lemma shuffle_exp i l f : (i < size l)%N -> uniq l ->
  has_exp (on_ok f) (@shuffle_loop R i l)
    ((\sum_(q <- permutations (take i.+1 l)) f (q ++ drop i.+1 l)) / (i.+1)`!%:R).
Proof.
elim: i l => [|i IH] l il ul.
  case: l il ul => [//|x l] _ _.
  rewrite /= take0 drop0 (_ : permutations [:: x] = [:: [:: x]]) // big_seq1 divr1.
  exact: ExpRet.
rewrite [shuffle_loop _ _]/=.
pose v j : R := (\sum_(q <- permutations (take i.+1 (swapped l i.+1 j))) f (q ++ nth 0%N l j :: drop i.+2 l)) / (i.+1)`!%:R.
apply: has_exp_eq (ExpInt (v := v) _ _) _ => // [j ji|].
  rewrite swap_step // rpbind_ok /v -(swapped_last il) //; apply: IH; first by rewrite size_swapped // ltnW.
  have : perm_eq (swapped l i.+1 j) l.
    rewrite -[X in perm_eq X _](cat_take_drop i.+1) swapped_last // -cat_rcons -[X in perm_eq _ X](cat_take_drop i.+2 l).
    by apply: perm_cat => //; exact: swapped_perm.
  by move/perm_uniq ->.
rewrite (permutations_last (n := i.+1) (x0 := 0%N) (S := fun j => take i.+1 (swapped l i.+1 j))); first last.
- by move=> j ji; rewrite nth_take //; exact: swapped_perm.
- by rewrite size_takel.
- by rewrite take_uniq.
rewrite [in RHS]factS natrM invfM [RHS]mulrA [RHS]mulrAC; congr (_ * _); rewrite [RHS]mulr_suml.
apply: eq_bigr => j _; congr (_ / _); apply: eq_bigr => q _; congr f.
by rewrite cat_rcons nth_take // -ltnS.
Qed.

Lemma np_shuffle_always n : (0 < n)%N ->
  always (fun r => exists2 l, r = Ok l & l \in permutations (iota 0 n)) (@np_shuffle R (iota 0 n)).
Proof.
move=> n0; rewrite /np_shuffle size_iota; apply: always_impl (@shuffle_always n.-1 (iota 0 n) _) => [_ [l -> p]|].
  by exists l; rewrite // mem_permutations.
by rewrite size_iota prednK.
Qed.

(* every order is equally likely *)
Lemma np_shuffle_exp n f : (0 < n)%N ->
  has_exp (on_ok f) (@np_shuffle R (iota 0 n)) ((\sum_(q <- permutations (iota 0 n)) f q) / n`!%:R).
Proof.
move=> n0; have := @shuffle_exp n.-1 (iota 0 n) f; rewrite size_iota prednK // => /(_ (leqnn _) (iota_uniq _ _)).
rewrite /np_shuffle size_iota drop_oversize ?take_oversize ?size_iota //.
under eq_bigr => q _ do rewrite cats0.
by [].
Qed.
End Shuffle.

Section Networks.
Variable R : rcfType.
Notation C := (ComplexField.complex_numFieldType R).
Notation mat := (seq (seq C)).
Variable cis : R -> C.
Hypothesis ok : cis_ok cis.
Variables (m : nat) (U : mat).
Hypotheses (m0 : (0 < m)%N) (uU : unitary m U).

Lemma perm_nth_lt sigma j : sigma \in permutations (iota 0 m) -> (j < m)%N -> (nth 0%N sigma j < m)%N.
Proof.
rewrite mem_permutations => p jl.
have : nth 0%N sigma j \in sigma by rewrite mem_nth // (perm_size p) size_iota.
by rewrite (perm_mem p) mem_iota.
Qed.

Lemma columnsE sigma : sigma \in permutations (iota 0 m) -> np_columns U sigma = Ok (permuted m U sigma).
Proof.
move=> p; have ps : size sigma = m by move: p; rewrite mem_permutations => /perm_size ->; rewrite size_iota.
have [sq _] := uU; have /andP[/eqP sU /allP aU] := sq; rewrite /np_columns.
have -> : permuted m U sigma = [seq [seq row`_j | j <- sigma] | row <- U].
  apply: (@eq_from_nth _ [::]); first by rewrite !size_map size_iota.
  rewrite size_map size_iota => i il; rewrite (nth_map 0%N) ?size_iota // (nth_map [::]) ?sU // nth_iota // add0n.
  apply: (@eq_from_nth _ 0); first by rewrite !size_map size_iota.
  rewrite size_map size_iota => j jl; rewrite (nth_map 0%N) ?size_iota // (nth_map 0%N) ?ps // nth_iota // add0n.
apply: rmapM_ok => row /aU /eqP srow; apply: rmapM_ok => j jl; apply: py_get_nth.
by move: p; rewrite srow mem_permutations => /perm_mem/(_ j); rewrite jl mem_iota.
Qed.

Lemma permuted_unitary sigma : sigma \in permutations (iota 0 m) -> unitary m (permuted m U sigma).
Proof.
move=> p; split; first by rewrite -rect_square; exact: rect_tab.
have [_ o] := uU => i i' il il'; rewrite /ortho_cols.
transitivity (\sum_(j < m) conjc (ent U j (nth 0%N sigma i)) * ent U j (nth 0%N sigma i')).
  by apply: eq_bigr => j _; rewrite !ent_tab.
rewrite (o _ _ (perm_nth_lt p il) (perm_nth_lt p il')) nth_uniq //.
- by move: p; rewrite mem_permutations => /perm_size ->; rewrite size_iota.
- by move: p; rewrite mem_permutations => /perm_size ->; rewrite size_iota.
by move: p; rewrite mem_permutations => /perm_uniq ->; rewrite iota_uniq.
Qed.

Variables (k : nat) (km : (k <= m)%N).

Lemma approx_unitary (N A : mat) d : unitary m N -> is_square m A ->
  (forall i j : nat, (i < m)%N -> (j < m)%N -> ent A i j = ent (approx_net cis m N k d) i j) -> unitary m A.
Proof.
move=> uN sA hA; have [Q [eQ sQ uQ hQ]] := fourierE ok km; have [P [eP uP]] := phases_unitary ok km d.
have [P' [eP' sP hP]] := phasesE cis km d; move: eP'; rewrite eP => -[e]; rewrite -{}e in sP hP *.
have [sN _] := uN.
have [X [eX rX mX]] := matmul_ok sN sP m0; have [Y [eY rY mY]] := matmul_ok rX sQ m0.
have [Z [eZ sZ hZ]] := approx_calcE ok m0 km d sN.
have eYZ : Y = Z by move: eZ; rewrite /approx_calc eQ eP /= eX /= eY => -[].
have -> : A = Y.
  apply: (@mxof_inj _ m m) => //; apply/matrixP => i j; rewrite !mxofE eYZ hZ // hA //.
apply/unitaryP; split=> //; rewrite mY mX !adjM.
have /unitaryP[_ h1] := uN; have /unitaryP[_ h2] := uP; have /unitaryP[_ h3] := uQ.
by rewrite -!mulmxA (mulmxA _ (mxof m m N)) h1 mul1mx (mulmxA _ (mxof m m P)) h2 mul1mx h3.
Qed.

(* the network of the sampler *)
Variables (rand : nat -> rprog R (res (seq R))) (shuf : seq nat -> rprog R (res (seq nat))).
Variables (x : lstate R) (h : nat) (eta : R).
Hypotheses (hk : (k = m - h)%N) (hm : (h <= m)%N) (ox : lstate_of cis m U h eta x).
Hypothesis shufA : always (fun r => exists2 l, r = Ok l & l \in permutations (iota 0 m)) (shuf (iota 0 m)).

Definition ls_net_of (d : seq R) (sigma : seq nat) (A : mat) : Prop := unitary m A /\
  forall i j : nat, (i < m)%N -> (j < m)%N -> ent A i j = ent (approx_net cis m (permuted m U sigma) k d) i j.

Lemma ls_step d sigma P : phases_matrix_first cis k m d = Ok P -> sigma \in permutations (iota 0 m) ->
  exists2 A, (let! V := np_columns U sigma in let! B := np_matmul V P in np_matmul B (ls_qft x)) = Ok A
    & ls_net_of d sigma A.
Proof.
move=> eP p; have uN := permuted_unitary p; have [sN _] := uN.
have [A [eA sA hA]] := approx_calcE ok m0 km d sN; exists A; last by split=> //; exact: approx_unitary uN sA hA.
rewrite columnsE // [rbind (Ok _) _]/=; case: ox => _ _ _ _; rewrite -hk => eQ.
by move: eA; rewrite /approx_calc eQ eP.
Qed.
End Networks.
