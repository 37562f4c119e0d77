(* Version A with uniform losses: samples and the distribution collected on the way. *)
From mathcomp Require Import all_ssreflect all_algebra complex.
From mathcomp Require Import ring zify.
From Verif Require Import Base SpecStates Combi SpecPerm PermMath SpecBS BsMath BsComb BsNorm.
From Verif Require Import ModelStates ProofStates1 ProofStates4 LemStates ModelPerm ProofPerm6 LemPerm ModelDist ProofDist1.
From Verif Require Import SpecProb ProbMath ModelGcc ModelGccB SampMath ProofSel ProofGcc1 ProofGcc2 ProofGcc3 ProofGccB2.
Set Implicit Arguments.
Unset Strict Implicit.
Unset Printing Implicit Defensive.
Import Order.TTheory GRing.Theory Num.Theory.
Local Open Scope ring_scope.
Local Open Scope py_scope.

Lemma rfoldl_inv (A T : Type) (inv : A -> Prop) f (l : seq T) a :
  (forall a t, List.In t l -> inv a -> exists a', f a t = Ok a' /\ inv a') ->
  inv a -> exists a', rfoldl f a l = Ok a' /\ inv a'.
Proof.
elim: l a => [|t l IH] a H I; first by exists a.
have [a' [E I']] := H a t (or_introl erefl) I; rewrite rfoldl_cons E [rbind (Ok _) _]/=.
by apply: IH => // a2 t' h; apply: H; right.
Qed.

Section U.
Variable R : rcfType.
Notation CF := (ComplexField.complex_numFieldType R).
Variables (gray : nat -> seq nat) (fuel m : nat) (U : seq (seq CF)) (s : seq nat).
Hypotheses (u : unitary_on m U s) (ss : size s = m) (gr : gray_ok gray (sumn s)).
Hypothesis fu : (\prod_(x <- s) x.+1 <= fuel)%N.
Variables (L : seq (seq nat)) (eta : R) (mis : bool).
Hypothesis genL : generate_possible_states fuel (Posz (sumn s)) (Posz (size s)) true = Ok L.
Hypothesis memL : forall t, (t \in L) = (size t == m) && (sumn t <= sumn s)%N.
Hypothesis headL : nth [::] L 0 = nseq m 0%N.

Definition init : R := if mis then -1 else 0.
Definition bws := [seq binomial_weight (sumn s) eta l | l <- iota 0 (sumn s).+1].

(* every entry is untouched or exact *)
Definition dinv (du : seq R * seq R) : Prop :=
  [/\ size du.1 = size L, size du.2 = size L &
      forall i, (i < size L)%N ->
        (du.1`_i = init \/ du.1`_i = uniform_loss_prob U s eta (nth [::] L i)) /\
        (du.2`_i = init \/ du.2`_i = fixed_loss_prob U s (nth [::] L i))].

Lemma bwsE : [seq eta ^+ l * 'C(sumn s, l)%:R * (1 - eta) ^+ (sumn s - l) | l <- iota 0 (sumn s).+1] = bws.
Proof. by apply: eq_map => l; rewrite /binomial_weight [eta ^+ l * _]mulrC. Qed.

Lemma nth_bws l : (l <= sumn s)%N -> bws`_l = binomial_weight (sumn s) eta l.
Proof. by move=> ln; rewrite (nth_map 0%N) ?size_iota // nth_iota. Qed.

Lemma size_setn (T : Type) (d x : T) (l : seq T) i : (i < size l)%N -> size (set_nth d l i x) = size l.
Proof. by move=> il; rewrite size_set_nth; apply/maxn_idPr. Qed.

Lemma record_inv (x : ugcc R) t du : ug_outs x = L -> ug_weights x = bws ->
  (sumn t <= sumn s)%N -> dinv du ->
  exists du', record_output x t (qprob U s t) du = Ok du' /\ dinv du'.
Proof.
move=> eL ew le; rewrite /record_output eL; apply: rfoldl_inv => {}du i /In_mem.
rewrite mem_iota add0n /= => il [d1 d2 d3].
rewrite (py_get_nth [::]) // [rbind (Ok _) _]/=; case: eqP => [et|_]; last by exists du.
rewrite (py_set_nth 0) ?d2 // [rbind (Ok _) _]/= ew.
rewrite (py_get_nth 0) ?size_map ?size_iota // [rbind (Ok _) _]/= (py_set_nth 0) ?d1 //= nth_bws //.
rewrite foldl_div -qprob_fixed //.
eexists; split; first by []; split=> /=; rewrite ?size_setn ?d1 ?d2 //.
move=> j jl; rewrite !nth_set_nth /=; have [o1 o2] := d3 j jl; case: eqP => // ->.
by rewrite -et /uniform_loss_prob mulrC; split; right.
Qed.

Notation ok_a := (fun r : seq nat => size r = m).
Notation inv_a := (ginv m U s id incr ok_a).

Record uinv (x : ugcc R) : Prop := UInv {
  ui_outs : ug_outs x = L;
  ui_w : ug_weights x = bws;
  ui_eta : ug_eta x = eta;
  ui_mis : ug_missing x = mis;
  ui_d : dinv (ug_dist x, ug_unw x);
  ui_g : inv_a (ug_gcc x)
}.

Lemma u_entriesE (x : ugcc R) (a : any_calc CF) acc k outs du : uinv x ->
  calc_matrix a = U -> s != [::] -> (k <= sumn s)%N ->
  (forall t, t \in outs -> size t = m /\ sumn t = k) -> dinv du ->
  exists a' du', [/\ rfoldl (fun st t =>
    let: (pmf, a, du) := st in
    let! pa := pmf_entry gray fuel a (lay s k) [seq (ways s T)%:R / 'C(sumn s, k)%:R | T <- lay s k] t in
    let! du := record_output x t pa.1 du in
    Ok (rcons pmf pa.1, pa.2, du)) (acc, a, du) outs = Ok (acc ++ map (qprob U s) outs, a', du'),
    calc_matrix a' = U & dinv du'].
Proof using u ss gr fu.
move=> I + s0 kn; elim: outs acc a du => [|t outs IH] acc a du ea H d; first by exists a, du; rewrite cats0.
have [st et] := H t (mem_head _ _).
have [|a' [E ea']] := pmf_entryE (u.1) ss gr fu ea s0 st; first by rewrite et.
rewrite et in E; rewrite rfoldl_cons E ![rbind (Ok _) _]/=.
have [|du' [-> d']] := record_inv (t := t) (ui_outs I) (ui_w I) _ d; first by rewrite et.
rewrite ![rbind (Ok _) _]/=.
have [t' t'i|a2 [du2 [E2 ea2 d2]]] := IH (rcons acc (qprob U s t)) a' du' ea' _ d'.
  by apply: H; rewrite inE t'i orbT.
by exists a2, du2; rewrite E2 cat_rcons.
Qed.

Definition has_pm (g : gcc R) := dget (g_pmfs g) (g_r g) = Some (pm m U s id (g_r g)).

Lemma u_ensureE x : uinv x -> (sumn (g_r (ug_gcc x)) < sumn s)%N ->
  exists x', [/\ u_ensure_layer gray fuel x = Ok x', uinv x', g_r (ug_gcc x') = g_r (ug_gcc x)
    & has_pm (ug_gcc x')].
Proof using u ss gr fu.
move=> I lt; have [i1 i2 i3 i4 i5 ig] := I; rewrite /u_ensure_layer; case E: (dget _ _) => [pmf|].
  exists x; split=> //; have [e _] := gi_cache ig E; rewrite /has_pm -(gi_key ig) E e.
  by rewrite (gi_key ig).
have [g1 g2 g3 g4 g5 g6 g7] := ig.
rewrite /u_new_layer g2 g3 labelE -/(lay s _) layer_weightsE //.
rewrite [rbind (Ok _) _]/= possible_output_statesE [rbind (Ok _) _]/=.
pose r := g_r (ug_gcc x).
have [|a' [du' [-> ea d']]] := u_entriesE (outs := [seq incr r j | j <- iota 0 (size r)]) [::]
   I g4 (nonempty lt) lt _ i5.
  by move=> t /mapP[j]; rewrite mem_iota => /= jl ->; rewrite size_incr ?sumn_incr.
rewrite [rbind (Ok _) _]/= -map_comp; eexists; split; first by [].
- split=> //=.
  have := layer_inv (m := m) (U := U) (s := s) (occ := id) (ext := incr) ig ea.
  by rewrite /pm /ou -/r g5 g2 g3.
- by [].
- by rewrite /has_pm /= dget_dset g6 eqxx /pm -/r g5.
Qed.

Lemma u_moved x g' : uinv x -> inv_a g' -> uinv (set_ug x g' (ug_dist x, ug_unw x)).
Proof. by case. Qed.

Definition u_good (x : ugcc R) := uinv x /\ qprob U s (g_r (ug_gcc x)) != 0.

Lemma u_sample_always x : u_good x -> (sumn (g_r (ug_gcc x)) < sumn s)%N -> has_pm (ug_gcc x) ->
  always (fun y => exists g', [/\ y = Ok g', u_good (set_ug x g' (ug_dist x, ug_unw x))
      & sumn (g_r g') = (sumn (g_r (ug_gcc x))).+1])
    (sample_from_latest_pmf (ug_gcc x)).
Proof using u ss.
move=> [I q0] lt E /= y y01; have ig := ui_g I; set g := ug_gcc x in q0 lt E ig *.
have sr : size (g_r g) = m := gi_ok ig.
have t0 : 0 < py_sum (pm m U s id (g_r g)).
  by rewrite (sum_pm u ss (ok := ok_a) (meas := sumn)) // lt_def q0 qprob_ge0.
have [il p0] := search_pos (pm_ge0 m U s id (g_r g)) t0 y01; rewrite size_pm in il.
rewrite (sample_withE ig E) //; eexists; split; first by [].
- split.
    by apply: u_moved => //; apply: moved_inv ig il => r j <- jl; rewrite size_incr.
  by move: p0; rewrite nth_pm //= => p0; rewrite gt_eqF.
- by rewrite /= sumn_incr ?sr.
Qed.

Lemma u_fill_always i x : u_good x -> (sumn (g_r (ug_gcc x)) + i <= sumn s)%N ->
  always (fun y => exists x', [/\ y = Ok x', u_good x'
     & (sumn (g_r (ug_gcc x')) <= sumn s)%N]) (u_fill_loop gray fuel i x).
Proof using u ss gr fu.
elim: i x => [|i IH] x G le; first by exists x; split=> //; rewrite addn0 in le.
move=> /= y y01; case: ifP => _; first by apply: IH => //; lia.
have lt : (sumn (g_r (ug_gcc x)) < sumn s)%N by lia.
have [x' [-> I' er hp]] := u_ensureE G.1 lt; rewrite {1}/rpbind [pbind (Ret _) _]/=.
have G' : u_good x' by split=> //; rewrite er; exact: G.2.
rewrite -er in lt le.
apply: always_rbind; apply: always_impl (u_sample_always G' lt hp) => _ [g' [-> G2 e2]].
by apply: IH => //=; lia.
Qed.

Lemma u_fill_exp f i x : 0 <= eta <= 1 -> u_good x -> (sumn (g_r (ug_gcc x)) + i <= sumn s)%N ->
  has_exp (on_ok (fun x => f (g_r (ug_gcc x)))) (u_fill_loop gray fuel i x)
    (mix_exp m U s eta f i (g_r (ug_gcc x))).
Proof using u ss gr fu.
move=> e01; elim: i x => [|i IH] x G le; first by rewrite mix_exp0 ?G.2 //; constructor.
have sr : size (g_r (ug_gcc x)) = m := gi_ok (ui_g G.1).
have ee := ui_eta G.1.
have lt : (sumn (g_r (ug_gcc x)) < sumn s)%N by lia.
rewrite -(mix_expS u) //; last by lia.
pose v j := if j == 0%N then \sum_(j < m) qprob U s (incr (g_r (ug_gcc x)) j) / qprob U s (g_r (ug_gcc x))
     * mix_exp m U s eta f i (incr (g_r (ug_gcc x)) j) else mix_exp m U s eta f i (g_r (ug_gcc x)).
apply: (@has_exp_eq _ _ _ _ (\sum_(j < size [:: eta; 1 - eta]) [:: eta; 1 - eta]`_j * v j)); last first.
  by rewrite /= big_ord_recl big_ord1 /= addrC.
case/andP: e01 => e0 e1; apply: ExpUnif.
  split; first by rewrite /= e0 subr_ge0 e1.
  by rewrite !big_cons big_nil addr0 addrC subrK.
move=> [|[|j]] y //= _ /inside_in; rewrite /in_step !(big_ord0, big_ord_recl) /= ?addr0 => /andP[y0 y1].
  rewrite ee leNgt y1 /=.
  have [x' [-> I' er hp]] := u_ensureE G.1 lt; rewrite {1}/rpbind [pbind (Ret _) _]/=.
  have G' : u_good x' by split=> //; rewrite er; exact: G.2.
  rewrite /v /= -er in sr lt le *.
  have ig := ui_g I'; set g := ug_gcc x' in sr lt le ig *.
  have q0 : qprob U s (g_r g) != 0 := G'.2.
  have t0 : 0 < py_sum (pm m U s id (g_r g)).
    by rewrite (sum_pm u ss (ok := ok_a) (meas := sumn)) // lt_def q0 qprob_ge0.
  apply: has_exp_eq (@has_exp_select R _ (on_ok (fun x => f (g_r (ug_gcc x)))) (pm m U s id (g_r g)) _
     (fun j => mix_exp m U s eta f i (incr (g_r g) j)) (pm_ge0 _ _ _ _ _) t0 _) _.
    move=> j x0; rewrite size_pm => jm p0 x01 e; rewrite (sample_withE ig hp) ?e //.
    apply: (IH (set_ug x' (moved U s id incr g j) (ug_dist x', ug_unw x'))) => //=.
      split.
        by apply: u_moved => //; apply: moved_inv ig jm => r j' <- jl; rewrite size_incr.
      by move: p0; rewrite nth_pm //= => p0; rewrite gt_eqF.
    by rewrite sumn_incr ?sr //; lia.
  rewrite size_pm; apply: eq_bigr => j _; rewrite nth_pm //.
  by rewrite (sum_pm u ss (ok := ok_a) (meas := sumn)).
by rewrite ee y0; apply: IH => //; lia.
Qed.

(* ---- between samples ---- *)
Definition u_reset (x : ugcc R) := set_ug x (reset_sample (nseq (size (calc_matrix (g_calc (ug_gcc x)))) 0%N) (ug_gcc x))
   (ug_dist x, ug_unw x).
Definition between_u (x : ugcc R) := uinv (u_reset x).

Lemma sizeU : size U = m.
Proof using u. by case: u => /andP[/eqP]. Qed.

Lemma between_good x : between_u x -> u_good (u_reset x) /\ sumn (g_r (ug_gcc (u_reset x))) = 0%N /\
  g_r (ug_gcc (u_reset x)) = nseq m 0%N.
Proof using u ss.
move=> I; have e := gi_mat (ui_g I); rewrite /= in e.
have er : g_r (ug_gcc (u_reset x)) = nseq m 0%N by rewrite /= e sizeU.
by split; [split=> //; rewrite er -ss qprob0 oner_eq0|split=> //; rewrite er sumn_nseq].
Qed.

Lemma good_between x : uinv x -> between_u x.
Proof using u.
case=> i1 i2 i3 i4 i5 [g1 g2 g3 g4 g5 g6 g7]; split=> //=; split=> //=.
by rewrite size_nseq g4 sizeU.
Qed.

Lemma u_nE x : between_u x -> g_n (ug_gcc x) = sumn s.
Proof. by move=> I; have := gi_n (ui_g I). Qed.

Lemma u_fillE x : u_fill_r_sample gray fuel x = u_fill_loop gray fuel (g_n (ug_gcc x)) (u_reset x).
Proof. by []. Qed.

Lemma u_r_always x : between_u x ->
  always (fun y => exists x' t, [/\ y = Ok x', between_u x', Ok (g_r (ug_gcc x')) = Ok t &
     (size t == m) && (sumn t <= sumn s)%N]) (u_fill_r_sample gray fuel x).
Proof using u ss gr fu.
move=> B; have [G [z er]] := between_good B; rewrite u_fillE (u_nE B).
have le : (sumn (g_r (ug_gcc (u_reset x))) + sumn s <= sumn s)%N by rewrite z.
apply: always_impl (u_fill_always G le) => _ [x' [-> [I' q0] le']].
exists x', (g_r (ug_gcc x')); split=> //; first exact: good_between.
by rewrite le' andbT; apply/eqP; exact: gi_ok (ui_g I').
Qed.

Lemma u_r_exp f x : 0 <= eta <= 1 -> between_u x ->
  has_exp (on_ok (fun x' => on_ok f (Ok (g_r (ug_gcc x'))))) (u_fill_r_sample gray fuel x)
    (\sum_(t <- lcomps m (sumn s)) uniform_loss_prob U s eta t * f t).
Proof using u ss gr fu.
move=> e01 B; have [G [z er]] := between_good B; rewrite u_fillE (u_nE B).
have le : (sumn (g_r (ug_gcc (u_reset x))) + sumn s <= sumn s)%N by rewrite z.
by apply: has_exp_eq (u_fill_exp f e01 G le) _; rewrite er mix_exp_start // big_lcomps.
Qed.

Lemma L0 : (0 < size L)%N.
Proof using memL ss.
have : nseq m 0%N \in L by rewrite memL size_nseq eqxx sumn_nseq.
by case: (L).
Qed.

Lemma ugcc_startE x : calc_matrix (g_calc (ug_gcc x)) = U -> ug_eta x = eta -> ug_missing x = mis ->
  exists x', ugcc_start fuel s x = Ok x' /\ between_u x'.
Proof using u ss genL memL headL.
move=> e1 e2 e3; rewrite /ugcc_start genL e2 e3 bwsE {1}/rbind.
rewrite (py_get_nth 0) ?size_map ?size_iota // {1}/rbind (py_set_nth 0) ?size_map ?L0 //.
rewrite {1}/rbind; eexists; split; first by [].
split=> //=; last by split=> //=; rewrite size_nseq e1 sizeU.
split=> /=; rewrite ?size_setn ?size_map ?L0 // => i il.
rewrite nth_set_nth /= !(nth_map [::]) //; split; last by left.
case: eqP => [->|_]; [right|by left].
have v0 : sumn (nseq m 0%N) = 0%N by rewrite sumn_nseq.
rewrite headL /uniform_loss_prob v0.
by rewrite (@fixed_loss_vac R m U s) ?mulr1 ?size_nseq.
Qed.

Lemma ugcc_simulate_exp k f x : 0 <= eta <= 1 ->
  calc_matrix (g_calc (ug_gcc x)) = U -> ug_eta x = eta -> ug_missing x = mis ->
  has_exp (on_ok (fun y => f y.1)) (ugcc_simulate gray fuel s k x)
    (iid_exp (lcomps m (sumn s)) (uniform_loss_prob U s eta) k f).
Proof using u ss gr fu genL memL headL.
move=> e01 e1 e2 e3; have [x' [E B]] := ugcc_startE e1 e2 e3.
rewrite /ugcc_simulate E {1}/rpbind [pbind (Ret _) _]/=.
apply: (@sample_loop_exp R _ _ _ _ between_u) => //.
- by move=> y By; apply: always_impl (u_r_always By) => _ [x2 [t [-> B2 e _]]]; exists x2, t.
- by move=> f' y By; apply: u_r_exp.
Qed.

Lemma ugcc_simulate_always k x :
  calc_matrix (g_calc (ug_gcc x)) = U -> ug_eta x = eta -> ug_missing x = mis ->
  always (fun y => exists S x', [/\ y = Ok (S, x'), size S = k,
      dinv (ug_dist x', ug_unw x') &
      forall t, t \in S -> (size t == m) && (sumn t <= sumn s)%N])
    (ugcc_simulate gray fuel s k x).
Proof using u ss gr fu genL memL headL.
move=> e1 e2 e3; have [x' [E B]] := ugcc_startE e1 e2 e3.
rewrite /ugcc_simulate E {1}/rpbind [pbind (Ret _) _]/=.
apply: always_impl (sample_loop_always k u_r_always B) => _ [S [x2 [-> sL B2 aL]]].
exists S, x2; split=> //; first exact: (ui_d B2).
by move=> t /aux_in /aL.
Qed.

(* ---- distribution up to accuracy ---- *)
Lemma accuracy_always dist accuracy tol n x : between_u x ->
  (forall x x', ug_dist x = ug_dist x' -> ug_unw x = ug_unw x' -> dist x = dist x' :> R) ->
  always (fun y => y = Err OutOfFuel \/ exists x', [/\ y = Ok x', between_u x'
     & Num.max (accuracy - dist x') 0 <= tol]) (accuracy_loop gray fuel dist accuracy tol n x).
Proof using u ss gr fu.
move=> B H; elim: n x B => [|n IH] x B /=; first by left.
case: ifP => h /=; first by right; exists x.
apply: always_rbind; apply: always_impl (u_r_always B) => _ [x' [t [-> B' _ _]]].
exact: IH.
Qed.

Lemma dist_always accuracy tol n x :
  calc_matrix (g_calc (ug_gcc x)) = U -> ug_eta x = eta -> ug_missing x = mis ->
  always (fun y => y = Err OutOfFuel \/ exists D x', [/\ y = Ok (D, x'), size D = size L,
      forall i, (i < size L)%N -> D`_i = init \/ D`_i = uniform_loss_prob U s eta (nth [::] L i)
      & accuracy - \sum_(p <- D) p <= tol])
    (compute_distribution gray fuel accuracy tol n s x).
Proof using u ss gr fu genL memL headL.
move=> e1 e2 e3; have [x' [E B]] := ugcc_startE e1 e2 e3.
rewrite /compute_distribution E {1}/rpbind [pbind (Ret _) _]/=.
apply: always_rbind; apply: always_impl (accuracy_always (dist := fun x => py_sum (ug_dist x)) accuracy tol n B _).
  move=> _ [->|[x2 [-> B2 h]]]; first by left.
  right; exists (ug_dist x2), x2; have [d1 _ d3] := ui_d B2; split=> //.
    by move=> i /d3 [].
  by move: h; rewrite py_sumE le_maxl => /andP[].
by move=> ? ? ->.
Qed.

Lemma unw_empty accuracy tol n x : sumn s = 0%N ->
  calc_matrix (g_calc (ug_gcc x)) = U -> ug_eta x = eta -> ug_missing x = mis ->
  compute_unweighted gray fuel accuracy tol n s x = Ret (Err ZeroDivisionError).
Proof using u ss genL memL headL.
move=> n0 e1 e2 e3; have [x' [E B]] := ugcc_startE e1 e2 e3.
by rewrite /compute_unweighted E {1}/rpbind [pbind (Ret _) _]/= n0.
Qed.

Lemma unw_always accuracy tol n x : (0 < sumn s)%N ->
  calc_matrix (g_calc (ug_gcc x)) = U -> ug_eta x = eta -> ug_missing x = mis ->
  always (fun y => y = Err OutOfFuel \/ exists D x', [/\ y = Ok (D, x'), size D = size L,
      forall i, (i < size L)%N -> D`_i = init \/ D`_i = fixed_loss_prob U s (nth [::] L i)
      & accuracy - (\sum_(p <- D) p) / (sumn s)%:R <= tol])
    (compute_unweighted gray fuel accuracy tol n s x).
Proof using u ss gr fu genL memL headL.
move=> n0 e1 e2 e3; have [x' [E B]] := ugcc_startE e1 e2 e3.
rewrite /compute_unweighted E {1}/rpbind [pbind (Ret _) _]/= eqn0Ngt n0 /=.
apply: always_rbind; apply: always_impl (accuracy_always (dist := fun x => py_sum (ug_unw x) / (sumn s)%:R) accuracy tol n B _).
  move=> _ [->|[x2 [-> B2 h]]]; first by left.
  right; exists (ug_unw x2), x2; have [_ d1 d3] := ui_d B2; split=> //.
    by move=> i /d3 [].
  by move: h; rewrite py_sumE le_maxl => /andP[].
by move=> ? ? _ ->.
Qed.
End U.
