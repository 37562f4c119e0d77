(* Final forms of the lemmas behind the property theorems: C40, C42, C43 and half of C41 (non-uniform losses strategy). *)
From mathcomp Require Import all_ssreflect all_algebra complex ring zify.
From Verif Require Import Base SpecStates Combi SpecPerm SpecBS BsMath BsComb BsNorm ModelStates ModelPerm ModelDist SpecProb ProbMath ModelGcc ModelGccB SpecGcc ModelNet SpecNet ModelBobs SpecBobs ProofGccB2 LemGcc ProofNet1 ProofNet2 ProofNet3 ProofNet4 ProofNet5 ProofNet6 ProofNet7 ProofBobs1 ProofBobs2 ProofBobs3 ProofBobs4 ProofBobs5 ProofBobs6.
Set Implicit Arguments.
Unset Strict Implicit.
Unset Printing Implicit Defensive.
Import Order.TTheory GRing.Theory Num.Theory.
Local Open Scope ring_scope.
Local Open Scope py_scope.

Lemma C40_extracted_losses_lemma :
  forall (R : rcfType) (svd : seq (seq (ComplexField.complex_numFieldType R)) -> res (seq (seq (ComplexField.complex_numFieldType R)) * seq R * seq (seq (ComplexField.complex_numFieldType R)))) (m : nat) (M : seq (seq (ComplexField.complex_numFieldType R))),
  svd_ok svd -> (0 < m)%N -> is_square m M -> (exists i j, [/\ (i < m)%N, (j < m)%N & ent M i j != 0]) ->
  exists l N, [/\ extract_losses svd M = Ok (l, N), is_square m N, l < 1,
     forall i j, (i < m)%N -> (j < m)%N -> ent M i j = (Num.sqrt (1 - l))%:C%C * ent N i j
   & [/\ forall v, image_norm m N v <= vec_norm m v,
        exists v, vec_norm m v = 1 /\ image_norm m N v = 1,
        forall v, image_norm m M v <= (1 - l) * vec_norm m v,
        exists v, vec_norm m v = 1 /\ image_norm m M v = 1 - l
      & subunitary m M <-> 0 <= l]].
Proof.
move=> R svd m M sv m0 sq nz; have [l [N [e sN l1 [h bd att]]]] := extractE sv m0 sq nz.
have p : 0 < 1 - l by rewrite subr_gt0.
have sc v : image_norm m M v = (1 - l) * image_norm m N v.
  rewrite /image_norm mulr_sumr; apply: eq_bigr => i _.
  have -> : \sum_(j < m) ent M i j * v j = (Num.sqrt (1 - l))%:C%C * \sum_(j < m) ent N i j * v j.
    by rewrite mulr_sumr; apply: eq_bigr => j _; rewrite h // mulrA.
  by rewrite nsqM nsq_real sqr_sqrtr // ltW.
exists l, N; split=> //; split=> //.
- by move=> v; rewrite -(ler_pmul2l p) -sc.
- case: att => v [v1 v2]; exists v; split=> //; apply: (mulfI (lt0r_neq0 p)).
  by rewrite -sc mulr1.
- split=> [[_ su]|l0].
    case: att => v [v1 v2]; have := su v.
    by rewrite -/(image_norm _ _ _) -/(vec_norm _ _) v2 v1 ler_subl_addr ler_addl.
  split=> // v; apply: le_trans (bd v) _; rewrite ler_pimull ?ler_subl_addr ?ler_addl //.
  by apply: sumr_ge0 => j _; exact: nsq_ge0.
Qed.

Lemma C42_new_object_lemma :
  forall (R : rcfType) (svd : seq (seq (ComplexField.complex_numFieldType R)) -> res (seq (seq (ComplexField.complex_numFieldType R)) * seq R * seq (seq (ComplexField.complex_numFieldType R)))) (m : nat) (M : seq (seq (ComplexField.complex_numFieldType R))) (cpu : nat) (a : any_calc (ComplexField.complex_numFieldType R)) (modes threads : int),
  svd_ok svd -> (0 < m)%N -> is_square m M -> (exists i j, [/\ (i < m)%N, (j < m)%N & ent M i j != 0]) -> calc_matrix a = M ->
  exists x, [/\ new_bobs svd cpu a modes threads = Ok x, bobs_of svd m M x, bo_particles x = 0%N,
    bo_modes x = (if (modes < 0)%R then 0%N else minn `|modes| m)
  & bo_threads x = (if (1 <= threads)%R && (threads <= Posz cpu)%R then `|threads|%N else cpu)].
Proof.
move=> R svd m M cpu a modes threads sv m0 sq nz ea; have [l [N [e sN l1 _]]] := extractE sv m0 sq nz.
have sM : size M = m by case/andP: sq => /eqP.
have pm : proper_modes m modes = (if (modes < 0)%R then 0%N else minn `|modes| m) 
  by rewrite /proper_modes; case: (ltrP (Posz m) modes) => h1; case: (ltrP modes 0) => h2; try (case: (ltrP (Posz m) 0) => h3); lia.
rewrite /new_bobs ea e sM; eexists; split; first reflexivity.
- by split=> //=; rewrite pm; case: ifP => // _; exact: geq_minr.
- by [].
- exact: pm.
- by rewrite /= /proper_threads; case: ifP; case: ifP; lia.
Qed.

Lemma C42_accumulated_particles_lemma :
  forall (R : rcfType) (svd : seq (seq (ComplexField.complex_numFieldType R)) -> res (seq (seq (ComplexField.complex_numFieldType R)) * seq R * seq (seq (ComplexField.complex_numFieldType R)))) (cis : R -> (ComplexField.complex_numFieldType R)) (m : nat) (M : seq (seq (ComplexField.complex_numFieldType R))) (fuel : nat) (s : seq nat) (x : bobs R) (c : int),
  svd_ok svd -> cis_ok cis -> (0 < m)%N -> subunitary m M -> (exists i j, [/\ (i < m)%N, (j < m)%N & ent M i j != 0]) ->
  size s = m -> bobs_of svd m M x -> (0 < bo_threads x)%N ->
  let k := bo_modes x in let p := (bo_particles x + sumn (take k s))%N in
  (forall s', s' \in approx_inputs k p s -> (\prod_(y <- s') y.+1 <= fuel)%N) ->
  (1 <= c)%R ->
  always (fun r => exists L x', [/\ r = Ok (L, x'),
      size L = (bo_threads x * (`|c| %/ bo_threads x).+1)%N /\ (`|c| < size L)%N,
      forall t, t \in L -> (size t == m) && (sumn t <= approx_total k p s)%N
    & [/\ bobs_of svd m M x', bo_modes x' = k, bo_threads x' = bo_threads x & bo_particles x' = p]])
    (bobs_simulate svd cis (@np_rand R) fuel s c x).
Proof.
move=> R svd cis m M fuel s x c sv ok m0 sub nz ss bx T0 k p fu c1.
apply: always_impl (bobs_simulate_always sv ok m0 sub nz ss bx T0 fu c1 (np_rand_always R _)) => _ [L [x' [-> sL aL h]]].
exists L, x'; split=> //; split=> //; rewrite sL mulnC mulSn {1}(divn_eq `|c| (bo_threads x)) addnC ltn_add2r.
by rewrite ltn_mod.
Qed.

Lemma C42_same_on_every_call_refuted_lemma :
  forall (R : rcfType) (svd : seq (seq (ComplexField.complex_numFieldType R)) -> res (seq (seq (ComplexField.complex_numFieldType R)) * seq R * seq (seq (ComplexField.complex_numFieldType R)))) (cis : R -> (ComplexField.complex_numFieldType R)) (fuel : nat) (d : seq R),
  svd_ok svd -> cis_ok cis -> (3 <= fuel)%N ->
  exists a x1 x2, [/\ new_bobs svd 1 a 1 1 = Ok x1,
    always (fun r => exists L, r = Ok (L, x2)) (bobs_simulate svd cis (@np_rand R) fuel [:: 1]%N 1 x1)
  & has_exp (on_ok (fun y => (y.1 == [:: [:: 2]; [:: 2]]%N)%:R))
      (bobs_simulate svd cis (fun=> Ret (Ok d)) fuel [:: 1]%N 1 x2) 1].
Proof.
move=> R svd cis fuel d sv ok f3.
pose M : seq (seq (ComplexField.complex_numFieldType R)) := [:: [:: 1]].
have ent00 : ent M 0 0 = 1 by [].
have sq : is_square 1 M by [].
have nz : exists i j, [/\ (i < 1)%N, (j < 1)%N & ent M i j != 0] by exists 0%N, 0%N; split; rewrite // ent00 oner_eq0.
have sub : subunitary 1 M by split=> // v; rewrite !big_ord1 [ent M _ _](_ : _ = 1) // mul1r.
pose a : any_calc (ComplexField.complex_numFieldType R) := generate_calculator (CalcFactory M [::] [::] RYSER).
have [x1 [e1 bx1 p1 k1 t1]] := @C42_new_object_lemma R svd 1 M 1 a 1 1 sv isT sq nz erefl.
have k1' : bo_modes x1 = 1%N by rewrite k1.
have t1' : bo_threads x1 = 1%N by rewrite t1.
have [||x2 [ex2 [k2 t2] [l2 m2 c2] [s2 p2] _]] := @startE R [:: 1]%N x1; rewrite ?k1' //.
have p2' : bo_particles x2 = 1%N by rewrite p2 p1 k1'.
have bx2 : bobs_of svd 1 M x2 by case: bx1 => h1 h2 h3; rewrite /bobs_of l2 m2 c2 k2.
have fu (x : bobs R) : bo_modes x = 1%N -> (bo_particles x <= 1)%N -> forall s', s' \in approx_inputs (bo_modes x) (bo_particles x + sumn (take (bo_modes x) [:: 1]%N)) [:: 1]%N -> (\prod_(y <- s') y.+1 <= fuel)%N.
  move=> -> le s'; rewrite inE => /eqP ->; rewrite big_seq1 /=; lia.
exists a, x1, x2; split=> //.
  have T1 : (0 < bo_threads x1)%N by rewrite t1'.
  have P1 : (bo_particles x1 <= 1)%N by rewrite p1.
  have := @bobs_simulate_always R svd cis sv ok 1 M isT sub nz fuel [:: 1]%N x1 erefl bx1 T1 (fu x1 k1' P1) (@np_rand R) 1 isT (np_rand_always R _).
  rewrite /bobs_simulate [(1 < 1)%R](_ : _ = false) // ex2 rpbind_ok => {}H.
  set th := thread_loop _ _; rewrite -/th in H; move: H; elim: th => [[L|e]|f IH|n f IH] /=.
  - by move=> [L' [x' [[-> <-] _ _ _]]]; exists L'.
  - by move=> [L' [x' []]].
  - by move=> H u u01; apply: IH; exact: H.
  - by move=> H i il; apply: IH; exact: H.
pose D := approx_net cis 1 M 1 d.
have nD : nsq (ent D 0 0) = 1.
  rewrite /D approx_ent // big_ord1 [ent M _ _](_ : _ = 1) // mul1r nsqM phase_nsq // mul1r /fourier_of /= mul0n.
  by rewrite mul0r (cis0 ok) sqrtr1 divr1 nsq1.
have dD d' : d' \in [:: d] -> dilation 1 0 (approx_net cis 1 M (bo_modes x2) d') D.
  rewrite inE k2 k1' => /eqP ->; split=> // -[|//] [|//] _ _; rewrite /ortho_cols big_ord1.
  by rewrite -nsqE nD.
have [/andP[l0 l1] sN hN _] := bobs_facts (m := 1) sv isT sub nz bx2.
have lz : bo_losses x2 = 0.
  case: bx2 => _ ext _; have [l [N [e' _ _ [_ _ [v [v1 v2]]]]]] := extractE (m := 1) sv isT sq nz.
  move: e' v1 v2; rewrite ext => -[-> _]; rewrite /vec_norm /image_norm !big_ord1 [ent M _ _](_ : _ = 1) // mul1r => ->.
  by move/eqP; rewrite -subr_eq0 opprB addrCA subrr addr0 => /eqP.
have hM' i j : (i < 1)%N -> (j < 1)%N -> ent M i j = (Num.sqrt (1 - kept_losses (bo_losses x2)))%:C%C * ent (bo_matrix x2) i j.
  by move=> il jl; rewrite hN // lz /kept_losses if_same.
have T2 : (0 < bo_threads x2)%N by rewrite t2 t1'.
have K2 : bo_modes x2 = 1%N by rewrite k2 k1'.
have P2 : (bo_particles x2 <= 1)%N by rewrite p2'.
have A2 : always (fun r => exists2 d', r = Ok d' & d' \in [:: d]) (Ret (Ok d) : rprog R (res (seq R))) by exists d; rewrite ?inE.
have E2 f : has_exp (on_ok f) (Ret (Ok d) : rprog R (res (seq R))) (\sum_(d <- [:: d]) 1 * f d).
  by apply: has_exp_eq (@ExpRet _ _ _ _) _; rewrite big_seq1 mul1r.
have := @bobs_simulate_iid R svd cis sv ok 1 M isT sub nz fuel [:: 1]%N x2 erefl bx2 T2 (fu x2 K2 P2) (fun=> Ret (Ok d)) [:: d] (fun=> 1) A2 E2 (fun=> 0%N) (fun=> D) M hM' dD 1 isT [:: [:: 2]; [:: 2]]%N.
rewrite t2 t1' k2 k1' p2' => H; apply: has_exp_eq H _.
rewrite !big_cons !big_nil !addr0 !mulr1 !mul1r.
suff -> : bobs_prob 0 D 1 (1 + sumn (take 1 [:: 1%N])) [:: 1]%N [:: 2]%N = 1 by rewrite mulr1.
rewrite /bobs_prob big_seq1 divr1 /traced_prob.
rewrite [X in comps _ X](_ : _ = 0%N) // big_seq1 cats0.
have u : unitary_on 1 D [:: 2]%N.
  split=> // -[|i] [|i'] //=; rewrite ?nth_nil // => _ _.
  by rewrite /ortho_cols big_ord1 -nsqE nD.
by have := bs_prob_norm u; rewrite big_seq1.
Qed.

Lemma C43_law_lemma :
  forall (R : rcfType) (svd : seq (seq (ComplexField.complex_numFieldType R)) -> res (seq (seq (ComplexField.complex_numFieldType R)) * seq R * seq (seq (ComplexField.complex_numFieldType R)))) (cis : R -> (ComplexField.complex_numFieldType R)) (m : nat) (M : seq (seq (ComplexField.complex_numFieldType R))) (fuel : nat) (s : seq nat) (x : bobs R) (c : int)
    (rand : nat -> rprog R (res (seq R))) (S : seq (seq R)) (W : seq R -> R)
    (e : seq R -> nat) (D : seq R -> seq (seq (ComplexField.complex_numFieldType R))) (M' : seq (seq (ComplexField.complex_numFieldType R))),
  svd_ok svd -> cis_ok cis -> (0 < m)%N -> subunitary m M -> (exists i j, [/\ (i < m)%N, (j < m)%N & ent M i j != 0]) ->
  size s = m -> bobs_of svd m M x -> (0 < bo_threads x)%N ->
  let k := bo_modes x in let p := (bo_particles x + sumn (take k s))%N in
  (forall s', s' \in approx_inputs k p s -> (\prod_(y <- s') y.+1 <= fuel)%N) ->
  (1 <= c)%R ->
  always (fun r => exists2 d, r = Ok d & d \in S) (rand k) ->
  (forall f, has_exp (on_ok f) (rand k) (\sum_(d <- S) W d * f d)) ->
  (forall i j, (i < m)%N -> (j < m)%N ->
     ent M' i j = (Num.sqrt (1 - kept_losses (bo_losses x)))%:C%C * ent (bo_matrix x) i j) ->
  (forall d, d \in S -> dilation m (e d) (approx_net cis m M' k d) (D d)) ->
  iid_samples (bobs_simulate svd cis rand fuel s c x) (bo_threads x * (`|c| %/ bo_threads x).+1)
    [pred t | (size t == m) && (sumn t <= approx_total k p s)%N]
    (fun t => \sum_(d <- S) W d * bobs_prob (e d) (D d) k p s t).
Proof.
move=> R svd cis m M fuel s x c rand S W e D M' sv ok m0 sub nz ss bx T0 k p fu c1 rA rE hM' dD.
exact: (bobs_simulate_iid sv ok m0 sub nz ss bx T0 fu rA rE hM' dD c1).
Qed.

Lemma C43_effective_matrix_lemma :
  forall (R : rcfType) (svd : seq (seq (ComplexField.complex_numFieldType R)) -> res (seq (seq (ComplexField.complex_numFieldType R)) * seq R * seq (seq (ComplexField.complex_numFieldType R)))) (m : nat) (M : seq (seq (ComplexField.complex_numFieldType R))) (x : bobs R),
  svd_ok svd -> (0 < m)%N -> subunitary m M -> (exists i j, [/\ (i < m)%N, (j < m)%N & ent M i j != 0]) -> bobs_of svd m M x ->
  bo_losses x = 0 \/ (10%:R ^+ 8)^-1 < bo_losses x ->
  forall i j, (i < m)%N -> (j < m)%N ->
     ent M i j = (Num.sqrt (1 - kept_losses (bo_losses x)))%:C%C * ent (bo_matrix x) i j.
Proof.
move=> R svd m M x sv m0 sub nz bx h i j il jl.
have [/andP[l0 l1] _ hN _] := bobs_facts sv m0 sub nz bx.
rewrite hN // /kept_losses /close_to_0 ger0_norm //; case: h => [->|h]; first by rewrite if_same.
by rewrite leNgt h.
Qed.

Lemma C43_exact_without_approximated_modes_lemma :
  forall (R : rcfType) (svd : seq (seq (ComplexField.complex_numFieldType R)) -> res (seq (seq (ComplexField.complex_numFieldType R)) * seq R * seq (seq (ComplexField.complex_numFieldType R)))) (cis : R -> (ComplexField.complex_numFieldType R)) (m : nat) (M : seq (seq (ComplexField.complex_numFieldType R))) (fuel : nat) (s : seq nat) (x : bobs R) (c : int)
    (d : nat) (D : seq (seq (ComplexField.complex_numFieldType R))),
  svd_ok svd -> cis_ok cis -> (0 < m)%N -> subunitary m M -> (exists i j, [/\ (i < m)%N, (j < m)%N & ent M i j != 0]) ->
  size s = m -> bobs_of svd m M x -> (0 < bo_threads x)%N -> bo_modes x = 0%N ->
  (\prod_(y <- s) y.+1 <= fuel)%N -> (1 <= c)%R ->
  bo_losses x = 0 \/ (10%:R ^+ 8)^-1 < bo_losses x ->
  dilation m d M D ->
  iid_samples (bobs_simulate svd cis (@np_rand R) fuel s c x) (bo_threads x * (`|c| %/ bo_threads x).+1)
    [pred t | (size t == m) && (sumn t <= sumn s)%N] (traced_prob d D s).
Proof.
move=> R svd cis m M fuel s x c d D sv ok m0 sub nz ss bx T0 k0 fu c1 lok dD L.
have hM' := C43_effective_matrix_lemma sv m0 sub nz bx lok.
have fu' s' : s' \in approx_inputs (bo_modes x) (bo_particles x + sumn (take (bo_modes x) s)) s -> (\prod_(y <- s') y.+1 <= fuel)%N.
  by rewrite k0 inE => /eqP ->.
have nD d' : d' \in [:: [::] : seq R] -> dilation m d (approx_net cis m M (bo_modes x) d') D.
  move=> _; case: dD => h1 h2; split=> // i j il jl; rewrite h1 // k0 approx_ent // (bigD1 (Ordinal jl)) //= big1 => [|a ne].
    by rewrite /phase_of /fourier_of /= eqxx !mulr1 addr0.
  by rewrite /fourier_of /= -[_ == j]/(a == Ordinal jl) (negPf ne) mulr0.
have H := bobs_simulate_iid sv ok m0 sub nz ss bx T0 fu' (rand := @np_rand R) (S := [:: [::]]) (W := fun=> 1) _ _ (e := fun=> d) (D := fun=> D) hM' nD c1 L.
rewrite k0 in H; apply: has_exp_eq (H _ _) _.
- by exists [::]; rewrite ?inE.
- by move=> f; apply: has_exp_eq (@ExpRet _ _ _ _) _; rewrite big_seq1 mul1r.
rewrite /approx_total eqxx; case: ifP => // _; apply: eq_bigr => t _.
by rewrite big_seq1 mul1r /bobs_prob big_seq1 divr1.
Qed.

Lemma C43_exact_first_call_lemma :
  forall (R : rcfType) (svd : seq (seq (ComplexField.complex_numFieldType R)) -> res (seq (seq (ComplexField.complex_numFieldType R)) * seq R * seq (seq (ComplexField.complex_numFieldType R)))) (cis : R -> (ComplexField.complex_numFieldType R)) (m : nat) (M : seq (seq (ComplexField.complex_numFieldType R))) (fuel : nat) (s : seq nat) (x : bobs R) (c : int)
    (d : nat) (D : seq (seq (ComplexField.complex_numFieldType R))),
  svd_ok svd -> cis_ok cis -> (0 < m)%N -> subunitary m M -> (exists i j, [/\ (i < m)%N, (j < m)%N & ent M i j != 0]) ->
  size s = m -> bobs_of svd m M x -> (0 < bo_threads x)%N -> bo_particles x = 0%N ->
  (bo_modes x <= 1)%N \/ sumn (take (bo_modes x) s) = 0%N ->
  (\prod_(y <- s) y.+1 <= fuel)%N -> (1 <= c)%R ->
  bo_losses x = 0 \/ (10%:R ^+ 8)^-1 < bo_losses x ->
  dilation m d M D ->
  iid_samples (bobs_simulate svd cis (@np_rand R) fuel s c x) (bo_threads x * (`|c| %/ bo_threads x).+1)
    [pred t | (size t == m) && (sumn t <= sumn s)%N] (traced_prob d D s).
Proof.
move=> R svd cis m M fuel s x c d D sv ok m0 sub nz ss bx T0 p0 one fu c1 lok dD L.
have hM' := C43_effective_matrix_lemma sv m0 sub nz bx lok.
have kM : (bo_modes x <= size s)%N by case: bx; rewrite ss.
have same s' : s' \in approx_inputs (bo_modes x) (bo_particles x + sumn (take (bo_modes x) s)) s -> s' = s.
  rewrite p0 add0n /approx_inputs; case: eqP => [_|/eqP k0]; first by rewrite inE => /eqP.
  case/mapP=> j; rewrite mem_iota /= add0n => jl ->.
  case: one => [k1|z].
    have k1' : bo_modes x = 1%N by apply/eqP; rewrite eqn_leq k1 lt0n.
    have j0 : j = 0%N by move: jl; rewrite k1'; case: (j).
    rewrite j0 k1'; case: (s) ss m0 => [<-//|n s0] _ _.
    by rewrite /= take0 drop0 addn0.
  have zs i : (i < bo_modes x)%N -> nth 0%N s i = 0%N.
    move=> il; move: z; rewrite -(nth_take 0%N il); elim: (take _ _) i {il} => [|n s0 IH] [|i] //=; first by case: (n).
    by move/eqP; rewrite addn_eq0 => /andP[_ /eqP]; exact: IH.
  apply: (@eq_from_nth _ 0%N); rewrite size_set_nth size_cat size_nseq size_drop.
    by rewrite subnKC //; apply/maxn_idPr; apply: leq_trans kM.
  move=> i _; rewrite nth_set_nth /= z; case: eqP => [->|_]; first by rewrite zs.
  rewrite nth_cat size_nseq nth_nseq nth_drop; case: (ltnP i (bo_modes x)) => [il|le]; first by rewrite zs.
  by rewrite subnKC.
have fu' s' : s' \in approx_inputs (bo_modes x) (bo_particles x + sumn (take (bo_modes x) s)) s -> (\prod_(y <- s') y.+1 <= fuel)%N.
  by move/same=> ->.
have tot : approx_total (bo_modes x) (bo_particles x + sumn (take (bo_modes x) s)) s = sumn s.
  by rewrite /approx_total p0 add0n -sumn_cat cat_take_drop if_same.
have inv s' dd : s' \in approx_inputs (bo_modes x) (bo_particles x + sumn (take (bo_modes x) s)) s ->
  exists2 y : nat -> ComplexField.complex_numFieldType R, forall j, nsq (y j) = 1 &
  forall i j, (i < m)%N -> (0 < nth 0%N s' j)%N -> ent (approx_net cis m (bo_matrix x) (bo_modes x) dd) i j = ent (bo_matrix x) i j * y j.
  move=> /same ->; exists (phase_of cis (bo_modes x) dd) => [j|i j il pj]; first exact: phase_nsq.
  have jl : (j < m)%N by rewrite -ss ltnNge; apply: contraTN pj => le; rewrite nth_default.
  have fo a : fourier_of cis (bo_modes x) a j = (a == j)%:R.
    rewrite /fourier_of; case: ifP => // /andP[al jk]; case: one => [k1|z].
      have k1' : bo_modes x = 1%N by apply/eqP; rewrite eqn_leq k1 (leq_ltn_trans _ jk).
      move: al jk; rewrite k1'; case: (a) (j) => [|//] [|//] _ _.
      by rewrite mul0n mul0r (cis0 ok) sqrtr1 divr1.
    move: pj; rewrite -(nth_take 0%N jk) => pj; suff: (0 < sumn (take (bo_modes x) s))%N by rewrite z.
    elim: (take _ _) (j) pj => [|n s0 IH] [|i'] //= pj; first by rewrite addn_gt0 pj.
    by rewrite addn_gt0 (IH i') // orbT.
  rewrite approx_ent // (bigD1 (Ordinal jl)) //= big1 => [|a ne].
    by rewrite fo eqxx mulr1 addr0.
  by rewrite fo -[_ == j]/(a == Ordinal jl) (negPf ne) mulr0.
have H := bobs_simulate_inv sv ok m0 sub nz ss bx T0 fu' hM' dD inv c1 L.
rewrite tot in H; apply: has_exp_eq H _; case: ifP => // _; apply: eq_bigr => t _.
rewrite /bobs_prob big_seq (eq_bigr (fun=> traced_prob d D s t)) => [|s' /same -> //].
rewrite -big_seq big_const_seq count_predT iter_addr_0.
have n0 : (0 < size (approx_inputs (bo_modes x) (bo_particles x + sumn (take (bo_modes x) s)) s))%N.
  by rewrite /approx_inputs; case: eqP => // /eqP; rewrite -lt0n size_map size_iota.
by rewrite -[X in X / _]mulr_natr mulfK // pnatr_eq0 -lt0n.
Qed.

Lemma C43_uniform_losses_lemma :
  forall (R : rcfType) (svd : seq (seq (ComplexField.complex_numFieldType R)) -> res (seq (seq (ComplexField.complex_numFieldType R)) * seq R * seq (seq (ComplexField.complex_numFieldType R)))) (cis : R -> (ComplexField.complex_numFieldType R)) (m : nat) (M V : seq (seq (ComplexField.complex_numFieldType R))) (eta : R) (fuel : nat) (s : seq nat) (x : bobs R) (c : int),
  svd_ok svd -> cis_ok cis -> (0 < m)%N -> unitary m V -> 0 < eta -> eta = 1 \/ (10%:R ^+ 8)^-1 < 1 - eta ->
  is_square m M -> (forall i j : nat, (i < m)%N -> (j < m)%N -> ent M i j = (Num.sqrt eta)%:C%C * ent V i j) ->
  size s = m -> bobs_of svd m M x -> (0 < bo_threads x)%N -> bo_modes x = 0%N ->
  (\prod_(y <- s) y.+1 <= fuel)%N -> (1 <= c)%R ->
  iid_samples (bobs_simulate svd cis (@np_rand R) fuel s c x) (bo_threads x * (`|c| %/ bo_threads x).+1)
    [pred t | (size t == m) && (sumn t <= sumn s)%N] (uniform_loss_prob V s eta).
Proof.
move=> R svd cis m M V eta fuel s x c sv ok m0 uV e0 lok sq h ss bx T0 k0 fu c1 L.
have x2 : (Num.sqrt eta) ^+ 2 = eta by rewrite sqr_sqrtr // ltW.
have e1 : eta <= 1.
  case: lok => [->//|lt]; rewrite -subr_ge0; apply: ltW; apply: le_lt_trans lt.
  by rewrite invr_ge0 exprn_ge0 // ler0n.
have su : subunitary m M.
  by apply: (gram_subunitary (eta := (Num.sqrt eta) ^+ 2) sq); rewrite ?x2 //; rewrite -x2; exact: scaled_gram h uV.
have nrm v : image_norm m M v = eta * vec_norm m v.
  rewrite -(unitary_norm v uV) /image_norm mulr_sumr; apply: eq_bigr => i _.
  have -> : \sum_(j < m) ent M i j * v j = (Num.sqrt eta)%:C%C * \sum_(j < m) ent V i j * v j.
    by rewrite mulr_sumr; apply: eq_bigr => j _; rewrite h // mulrA.
  by rewrite nsqM nsq_real x2.
have nz : exists i j, [/\ (i < m)%N, (j < m)%N & ent M i j != 0].
  case z : [exists i : 'I_m, exists j : 'I_m, ent M i j != 0].
    by case/existsP: z => i /existsP[j nz]; exists i, j.
  have [v1 _] := unitary_row uV m0; have := nrm (fun j => conjc (ent V 0 j)); rewrite v1 mulr1 => E.
  suff : eta = 0 by move=> E0; rewrite E0 ltxx in e0.
  rewrite -E /image_norm big1 // => i _; rewrite big1 ?nsq0 // => j _.
  by move/existsPn: z => /(_ i)/existsPn/(_ j); rewrite negbK => /eqP ->; rewrite mul0r.
have le : bo_losses x = 1 - eta.
  case: (bx) => _ ext _; have [l [N [e' _ _ [_ _ [v [v1 v2]]]]]] := extractE sv m0 sq nz.
  move: e'; rewrite ext => -[-> _]; move: v2; rewrite nrm v1 mulr1 => ->.
  by rewrite opprB addrCA subrr addr0.
have lok' : bo_losses x = 0 \/ (10%:R ^+ 8)^-1 < bo_losses x.
  by rewrite le; case: lok => [->|lt]; [left; rewrite subrr|right].
have [E [eE sqE dE]] := expanded_dilation sv m0 su.
apply: has_exp_eq (C43_exact_without_approximated_modes_lemma sv ok m0 su nz ss bx T0 k0 fu c1 lok' dE L) _.
case: ifP => // /andP[_ /allP al]; apply: eq_big_seq => t /al /= /andP[/eqP st le'].
by rewrite (traced_uniform h _ dE) ?x2 //; case: uV.
Qed.
