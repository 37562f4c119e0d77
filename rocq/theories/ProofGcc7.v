(* Collecting the distribution up to an accuracy: the loop ends. *)
From mathcomp Require Import all_ssreflect all_algebra complex.
From mathcomp Require Import ring zify.
From Verif Require Import Base SpecStates Combi SpecPerm PermMath SpecBS BsMath BsComb BsNorm.
From Verif Require Import ModelStates ProofStates1 ProofStates4 LemStates ModelPerm ProofPerm6 LemPerm ModelDist ProofDist1.
From Verif Require Import SpecProb ProbMath ProbTame ModelGcc ModelGccB SampMath ProofSel ProofGcc1 ProofGcc2 ProofGcc3 ProofGccB2 ProofGcc6.
Set Implicit Arguments.
Unset Strict Implicit.
Unset Printing Implicit Defensive.
Import Order.TTheory GRing.Theory Num.Theory.
Local Open Scope ring_scope.
Local Open Scope py_scope.

Section A.
Variable R : rcfType.
Notation CF := (ComplexField.complex_numFieldType R).
Variables (gray : nat -> seq nat) (fuel m : nat) (U : seq (seq CF)) (s : seq nat).
Hypotheses (u : unitary_on m U s) (ss : size s = m) (gr : gray_ok gray (sumn s)).
Hypothesis fu : (\prod_(x <- s) x.+1 <= fuel)%N.
Variables (L : seq (seq nat)) (eta : R) (mis : bool).
Hypothesis genL : generate_possible_states fuel (Posz (sumn s)) (Posz (size s)) true = Ok L.
Hypothesis memL : forall t, (t \in L) = (size t == m) && (sumn t <= sumn s)%N.
Hypothesis headL : nth [::] L 0 = nseq m 0%N.

Notation ok_a := (fun r : seq nat => size r = m).
Notation inv_a := (ginv m U s id incr ok_a).
Notation uinv := (uinv m U s L eta mis).
Notation dinv := (dinv U s L eta mis).
Notation u_good := (u_good m U s L eta mis).
Notation between_u := (between_u m U s L eta mis).

(* the entries of an outcome hold the exact values *)
Definition seen2 (du : seq R * seq R) (t : seq nat) : bool :=
  all (fun i => (nth [::] L i == t) ==>
     (du.1`_i == uniform_loss_prob U s eta t) && ((0 < sumn t)%N ==> (du.2`_i == fixed_loss_prob U s t)))
   (iota 0 (size L)).
Definition grows (du du' : seq R * seq R) := forall t, seen2 du t -> seen2 du' t.
Definition udu (x : ugcc R) := (ug_dist x, ug_unw x).
Definition seen (x : ugcc R) t := seen2 (udu x) t.

Lemma seen2P du t : reflect (forall i, (i < size L)%N -> nth [::] L i = t ->
  du.1`_i = uniform_loss_prob U s eta t /\ ((0 < sumn t)%N -> du.2`_i = fixed_loss_prob U s t)) (seen2 du t).
Proof.
apply: (iffP allP) => [H i il e|H i].
  have := H i; rewrite mem_iota il => /(_ isT); rewrite e eqxx /= => /andP[/eqP -> h].
  by split=> // t0; rewrite t0 in h; apply/eqP.
rewrite mem_iota /= => il; apply/implyP => /eqP /(H i il) [-> h].
by rewrite eqxx; apply/implyP => /h ->.
Qed.

Lemma grows_trans a b c : grows a b -> grows b c -> grows a c.
Proof. by move=> h1 h2 t /h1 /h2. Qed.

(* the entries of an outcome are not changed *)
Definition same_at (du du' : seq R * seq R) (t : seq nat) := forall i, (i < size L)%N -> nth [::] L i = t ->
  (du'.1`_i, du'.2`_i) = (du.1`_i, du.2`_i).
Lemma same_at_trans a b c t : same_at a b t -> same_at b c t -> same_at a c t.
Proof. by move=> h1 h2 i il e; rewrite (h2 i il e) (h1 i il e). Qed.

Lemma record_loop (x : ugcc R) t l du : ug_outs x = L -> ug_weights x = bws s eta ->
  (sumn t <= sumn s)%N -> dinv du -> all (fun i => i < size L)%N l ->
  exists du', [/\ rfoldl (fun du i =>
    let! o := py_get (ug_outs x) (Posz i) in
    if t == o then
      let v := foldl (fun v k => v / k`!%:R) (qprob U s t * (sumn t)`!%:R) t in
      let! un := py_set du.2 (Posz i) v in
      let! b := py_get (ug_weights x) (Posz (sumn t)) in
      let! di := py_set du.1 (Posz i) (v * b) in
      Ok (di, un)
    else Ok du) du l = Ok du', dinv du' &
    forall i, (i < size L)%N ->
      (du'.1`_i, du'.2`_i) = if (i \in l) && (nth [::] L i == t)
        then (uniform_loss_prob U s eta t, fixed_loss_prob U s t) else (du.1`_i, du.2`_i)].
Proof.
move=> -> -> le; rewrite foldl_div -qprob_fixed //; set F := (F in rfoldl F).
have FE d k : dinv d -> (k < size L)%N -> F d k = Ok (if t == nth [::] L k
    then (set_nth 0 d.1 k (uniform_loss_prob U s eta t), set_nth 0 d.2 k (fixed_loss_prob U s t)) else d).
  move=> [d1 d2 _] kl; rewrite /F (py_get_nth [::]) // [rbind (Ok _) _]/=; case: ifP => // et.
  rewrite (py_set_nth 0) ?d2 // [rbind (Ok _) _]/= (py_get_nth 0) ?size_map ?size_iota // [rbind (Ok _) _]/=.
  by rewrite (py_set_nth 0) ?d1 //= nth_bws // mulrC.
move: F FE => F FE; elim: l du => [|k l IH] du d; first by exists du.
rewrite [all _ _]/= => /andP[kl al]; rewrite rfoldl_cons FE // [rbind (Ok _) _]/=.
case: ifP => et; last first.
  have [du' [-> d' H]] := IH du d al; exists du'; split=> // i il; rewrite H // inE.
  by case: (eqVneq i k) => //= ->; rewrite [_ == t]eq_sym et andbF.
have [d1 d2 d3] := d.
have [|du' [E d' H]] := IH (set_nth 0 du.1 k (uniform_loss_prob U s eta t),
   set_nth 0 du.2 k (fixed_loss_prob U s t)) _ al.
  split=> /=; rewrite ?size_setn ?d1 ?d2 // => j jl; rewrite !nth_set_nth /=; have [o1 o2] := d3 j jl.
  by case: eqP => // ->; rewrite -(eqP et); split; right.
exists du'; split=> // i il; rewrite H // inE /= !nth_set_nth /=.
by case: (eqVneq i k) => //= ->; rewrite [_ == t]eq_sym et andbT /=; case: ifP.
Qed.

Lemma record_seen (x : ugcc R) t du : ug_outs x = L -> ug_weights x = bws s eta ->
  (sumn t <= sumn s)%N -> dinv du ->
  exists du', [/\ record_output x t (qprob U s t) du = Ok du', dinv du', seen2 du' t, grows du du'
    & forall t', t' != t -> same_at du du' t'].
Proof.
move=> eL ew le d; rewrite /record_output {2}eL.
have [|du' [-> d' H]] := @record_loop x t (iota 0 (size L)) du eL ew le d.
  by apply/allP => i; rewrite mem_iota.
exists du'; split=> //.
- apply/seen2P => i il e; have := H i il; rewrite mem_iota il e eqxx /= => -[-> ->] //.
- move=> t' /seen2P h; apply/seen2P => i il e; have := H i il; rewrite mem_iota il /=.
  by case: eqP => [et|_] [-> ->]; [rewrite -e et|exact: h].
- by move=> t' /negPf nt i il e; rewrite H // e nt andbF.
Qed.

Lemma entries_seen (x : ugcc R) (a : any_calc CF) acc k (outs : seq (seq nat)) du : uinv x ->
  calc_matrix a = U -> s != [::] -> (k <= sumn s)%N ->
  (forall t, t \in outs -> size t = m /\ sumn t = k) -> dinv du ->
  exists a' du', [/\ rfoldl (fun st t =>
    let: (pmf, a, du) := st in
    let! pa := pmf_entry gray fuel a (lay s k) [seq (ways s T)%:R / 'C(sumn s, k)%:R | T <- lay s k] t in
    let! du := record_output x t pa.1 du in
    Ok (rcons pmf pa.1, pa.2, du)) (acc, a, du) outs = Ok (acc ++ map (qprob U s) outs, a', du'),
    calc_matrix a' = U, dinv du', grows du du' & {in outs, forall t, seen2 du' t} /\
    forall t, t \notin outs -> same_at du du' t].
Proof using u ss gr fu.
move=> I + s0 kn; elim: outs acc a du => [|t outs IH] acc a du ea H d; first by exists a, du; rewrite cats0; split=> //.
have [st et] := H t (mem_head _ _).
have [|a' [E ea']] := pmf_entryE (u.1) ss gr fu ea s0 st; first by rewrite et.
rewrite et in E; rewrite rfoldl_cons E ![rbind (Ok _) _]/=.
have [|du' [-> d' st' g' w']] := record_seen (t := t) (ui_outs I) (ui_w I) _ d; first by rewrite et.
rewrite ![rbind (Ok _) _]/=.
have [t' t'i|a2 [du2 [E2 ea2 d2 g2 [s2 w2]]]] := IH (rcons acc (qprob U s t)) a' du' ea' _ d'.
  by apply: H; rewrite inE t'i orbT.
exists a2, du2; rewrite E2 cat_rcons; split=> //; first exact: grows_trans g2.
split=> t'; rewrite inE; first by case/predU1P => [->|]; [exact: g2|exact: s2].
by rewrite negb_or => /andP[n1 n2]; apply: same_at_trans (w' _ n1) (w2 _ n2).
Qed.

(* every outcome that extends a key of the cache is exact, and so is the vacuum *)
Definition cached (x : ugcc R) := seen x (nseq m 0%N) /\
  forall key pmf, dget (g_pmfs (ug_gcc x)) key = Some pmf -> forall j, (j < m)%N -> seen x (incr key j).

Lemma ensure_seen x : uinv x -> cached x -> (sumn (g_r (ug_gcc x)) < sumn s)%N ->
  exists x', [/\ u_ensure_layer gray fuel x = Ok x' /\ uinv x', cached x', g_r (ug_gcc x') = g_r (ug_gcc x),
    has_pm m U s (ug_gcc x') & grows (udu x) (udu x') /\
    forall t, (forall j, (j < m)%N -> incr (g_r (ug_gcc x)) j != t) -> same_at (udu x) (udu x') t].
Proof using u ss gr fu.
move=> I [c0 c1] lt; have [i1 i2 i3 i4 i5 ig] := I; rewrite /u_ensure_layer; case E: (dget _ _) => [pmf|].
  exists x; split=> //; last (by split=> //); have [e _] := gi_cache ig E; rewrite /has_pm -(gi_key ig) E e.
  by rewrite (gi_key ig).
have [g1 g2 g3 g4 g5 g6 g7] := ig.
rewrite /u_new_layer g2 g3 labelE -/(lay s _) layer_weightsE //.
rewrite [rbind (Ok _) _]/= possible_output_statesE [rbind (Ok _) _]/=.
pose r := g_r (ug_gcc x).
have [|a' [du' [-> ea d' gw [sn wn]]]] := entries_seen (outs := [seq incr r j | j <- iota 0 (size r)]) [::]
   I g4 (nonempty lt) lt _ i5.
  by move=> t /mapP[j]; rewrite mem_iota => /= jl ->; rewrite size_incr ?sumn_incr.
have gw' : grows (udu x) (udu (set_ug x (ug_gcc x) du')) by case: (du') gw.
rewrite [rbind (Ok _) _]/= -map_comp; eexists; split; first split; first by [].
- split=> //=.
  have := layer_inv (m := m) (U := U) (s := s) (occ := id) (ext := incr) ig ea.
  by rewrite /pm /ou -/r g5 g2 g3.
- split; first by apply: gw'.
  move=> key pmf /=; rewrite dget_dset g6; case: eqP => [<- _|_ e] j jm; last by apply: gw'; exact: c1 e _ jm.
  rewrite /seen /udu /= -surjective_pairing; apply: sn; apply: map_f; rewrite mem_iota /=.
  by rewrite g5.
- by [].
- by rewrite /has_pm /= dget_dset g6 eqxx /pm -/r g5.
- split=> // t nt; rewrite /udu /= -surjective_pairing; apply: wn; apply/negP => /mapP[j].
  by rewrite mem_iota g5 /= => jm e; move: (nt j jm); rewrite e eqxx.
Qed.

Definition kept (x : ugcc R) := [/\ u_good x, cached x & seen x (g_r (ug_gcc x))].

(* outcomes that no visited state can be extended to *)
Definition unreachable (t : seq nat) := forall r j, size r = m -> (j < m)%N -> incr r j = t -> qprob U s r = 0.
Definition frozen (x x' : ugcc R) := forall t, unreachable t -> same_at (udu x) (udu x') t.

Lemma fill_seen i x : kept x -> (sumn (g_r (ug_gcc x)) + i <= sumn s)%N ->
  always (fun y => exists x', [/\ y = Ok x', kept x', grows (udu x) (udu x') & frozen x x'])
    (u_fill_loop gray fuel i x).
Proof using u ss gr fu.
elim: i x => [|i IH] x G le; first by exists x; split.
move=> /= y y01; case: ifP => _; first by apply: IH => //; lia.
have lt : (sumn (g_r (ug_gcc x)) < sumn s)%N by lia.
have [[I q0] C S] := G.
have [x' [[-> I'] C' er hp [gw fz]]] := ensure_seen I C lt; rewrite {1}/rpbind [pbind (Ret _) _]/=.
have G' : u_good x' by split=> //; rewrite er.
rewrite -er in lt le.
rewrite /rpbind /= => z z01.
have ig := ui_g I'; have sr : size (g_r (ug_gcc x')) = m := gi_ok ig.
have t0 : 0 < py_sum (pm m U s id (g_r (ug_gcc x'))).
  by rewrite (sum_pm u ss (ok := ok_a) (meas := sumn)) // lt_def G'.2 qprob_ge0.
have [il p0] := search_pos (pm_ge0 m U s id (g_r (ug_gcc x'))) t0 z01; rewrite size_pm in il.
rewrite (sample_withE ig hp) //.
set j := cum_search _ _ _ _ in il p0 *.
have K : kept (set_ug x' (moved U s id incr (ug_gcc x') j) (ug_dist x', ug_unw x')).
  split; first split.
  - by apply: u_moved => //; apply: moved_inv ig il => r j' <- jl; rewrite size_incr.
  - by move: p0; rewrite nth_pm //= => p0; rewrite gt_eqF.
  - by case: C' => c1 c2; split.
  - by case: C' => _ /(_ _ _ hp j il).
apply: always_impl (IH _ K _) => [_ [x2 [-> K2 g2 f2]]|]; last by rewrite /= sumn_incr ?sr //; lia.
exists x2; split=> //; first exact: grows_trans g2.
move=> t ut; apply: same_at_trans (f2 _ ut); apply: fz => k km; apply/eqP => e; move/eqP: q0; apply.
by apply: ut e; rewrite -?er.
Qed.

Lemma fill_bound i x : (sumn (g_r (ug_gcc x)) + i <= sumn s)%N -> kept x ->
  always (fun y => exists x', y = Ok x' /\ (sumn (g_r (ug_gcc x')) <= sumn (g_r (ug_gcc x)) + i)%N)
    (u_fill_loop gray fuel i x).
Proof using u ss gr fu.
move=> le [G _ _]; elim: i x le G => [|i IH] x le G; first by exists x; rewrite addn0.
move=> /= y y01; case: ifP => _.
  by apply: always_impl (IH x _ G) => [_ [x' [-> h]]|]; [exists x'; split=> //; lia|lia].
have lt : (sumn (g_r (ug_gcc x)) < sumn s)%N by lia.
have [x' [-> I' er hp]] := u_ensureE u ss gr fu G.1 lt; rewrite {1}/rpbind [pbind (Ret _) _]/=.
have G' : u_good x' by split=> //; rewrite er; exact: G.2.
rewrite -er in lt le.
apply: always_rbind; apply: always_impl (u_sample_always u ss G' lt hp) => _ [g' [-> G2 e2]].
apply: always_impl (IH _ _ G2) => [_ [x2 [-> h]]|]; last by rewrite /= e2; lia.
by exists x2; split=> //; move: h; rewrite /= e2 er; lia.
Qed.

Hypothesis e01 : 0 <= eta <= 1.

Lemma tame_fill i x : u_good x -> (sumn (g_r (ug_gcc x)) + i <= sumn s)%N -> tame (u_fill_loop gray fuel i x).
Proof using u ss gr fu e01.
elim: i x => [|i IH] x G le; first exact: TameRet.
have ee := ui_eta G.1; have lt : (sumn (g_r (ug_gcc x)) < sumn s)%N by lia.
case/andP: e01 => e0 e1; rewrite [u_fill_loop _ _ _ _]/=.
apply: (@TameUnif _ _ _ [:: eta; 1 - eta]).
- split; first by rewrite /= e0 subr_ge0 e1.
  by rewrite !big_cons big_nil addr0 addrC subrK.
- move=> [|[|j]] y y' //= _ /inside_in + /inside_in; rewrite /in_step !(big_ord0, big_ord_recl) /= ?addr0 ee.
    by move=> /andP[_ y1] /andP[_ y2]; rewrite !leNgt y1 y2.
  by move=> /andP[-> _] /andP[-> _].
move=> j y _ _; case: ifP => _; first by apply: IH => //; lia.
have [x' [-> I' er hp]] := u_ensureE u ss gr fu G.1 lt; rewrite {1}/rpbind [pbind (Ret _) _]/=.
have G' : u_good x' by split=> //; rewrite er; exact: G.2.
rewrite -er in lt le; have ig := ui_g I'; have sr : size (g_r (ug_gcc x')) = m := gi_ok ig.
set g := ug_gcc x' in lt le ig sr hp *.
have t0 : 0 < py_sum (pm m U s id (g_r g)).
  by rewrite (sum_pm u ss (ok := ok_a) (meas := sumn)) // lt_def G'.2 qprob_ge0.
have ge := pm_ge0 m U s id (g_r g).
rewrite /rpbind /=; apply: (@TameUnif _ _ _ [seq p / py_sum (pm m U s id (g_r g)) | p <- pm m U s id (g_r g)]).
- exact: scale_distr.
- move=> k z z'; rewrite size_map size_pm => km i1 i2.
  have dw := scale_distr ge t0.
  have z1 := inside_step01 dw i1; have z2 := inside_step01 dw i2.
  have := inside_in i1; rewrite searchE ?size_pm // => /eqP h1.
  have := inside_in i2; rewrite searchE ?size_pm // => /eqP h2.
  by rewrite !(sample_withE ig hp) ?h1 ?h2.
move=> k z; rewrite size_map size_pm => km i1; have dw := scale_distr ge t0.
have := inside_in i1; rewrite searchE ?size_pm ?(inside_step01 dw i1) // => /eqP h1.
have [_] := search_pos ge t0 (inside_step01 dw i1); rewrite h1 nth_pm //= => p0.
rewrite (sample_withE ig hp) ?h1 //.
apply: (IH (set_ug x' (moved U s id incr g k) (ug_dist x', ug_unw x'))) => /=.
  split; last by rewrite /= gt_eqF.
  by apply: u_moved => //; apply: moved_inv ig km => r j' <- jl; rewrite size_incr.
by rewrite sumn_incr ?sr //; lia.
Qed.

(* the loop may be cut after i photons *)
Lemma fill_cut i j (x : ugcc R) : same_run eq (rpbind (u_fill_loop gray fuel i x) (u_fill_loop gray fuel j))
  (u_fill_loop gray fuel (i + j) x).
Proof using.
have refl D (q : rprog R D) : same_run eq q q by elim: q => [a|k IH|n k IH] //=.
elim: i x => [|i IH] x; first exact: refl.
rewrite addSn [u_fill_loop _ _ i.+1 _]/= [u_fill_loop _ _ (i + j).+1 _]/= => y y01; case: ifP => _; first exact: IH.
case: (u_ensure_layer _ _ _) => [x'|e] //=; move=> z z01; case: (sample_with _ _) => [g|e] //=; exact: IH.
Qed.

Lemma seen_within j x t : kept x -> (sumn (g_r (ug_gcc x)) + (sumn t + j) <= sumn s)%N ->
  exists2 v, has_exp (on_ok (fun x' => (seen x' t)%:R)) (u_fill_loop gray fuel (sumn t + j) x) v
    & mix_exp m U s eta (fun r => (r == t)%:R) (sumn t) (g_r (ug_gcc x)) <= v.
Proof using u ss gr fu e01.
move=> K le; have [G _ _] := K.
have le1 : (sumn (g_r (ug_gcc x)) + sumn t <= sumn s)%N by lia.
have [v hv] := tame_exp (on_ok (fun x' => (seen x' t)%:R)) (tame_fill G le).
exists v => //.
have [w hw lw] : exists2 w, has_exp (on_ok (fun x' => (seen x' t)%:R))
    (rpbind (u_fill_loop gray fuel (sumn t) x) (u_fill_loop gray fuel j)) w
    & mix_exp m U s eta (fun r => (r == t)%:R) (sumn t) (g_r (ug_gcc x)) <= w.
  apply: (tame_rge (tame_fill G le1) (u_fill_exp u ss gr fu (fun r => (r == t)%:R) e01 G le1)).
  have aw := always_and (u_fill_always u ss gr fu G le1) (fill_seen K le1).
  apply: always_impl (always_and aw (fill_bound le1 K)) => _ [[[x' [-> G' le']] [x2 [[<-] K' _ _]]] [x3 [[<-] le3]]].
  have le4 : (sumn (g_r (ug_gcc x')) + j <= sumn s)%N by lia.
  have [v' hv'] := tame_exp (on_ok (fun x' => (seen x' t)%:R)) (tame_fill G' le4).
  exists v' => //; case: eqP => [e|_]; last first.
    apply: has_exp_le (has_exp_const 0 hv') hv' _; apply: always_true => -[a|//] /=; exact: ler0n.
  apply: has_exp_le (has_exp_const 1 hv') hv' _; apply: always_impl (fill_seen K' le4) => _ [x5 [-> _ gw _]] /=.
  by rewrite [seen x5 t]gw // -e; case: K'.
by rewrite (has_exp_fun hv (same_run_exp (fill_cut (sumn t) j x) (fun a b e => f_equal _ e) hw)).
Qed.

(* ---- rounds ---- *)
Definition round (x : ugcc R) := between_u x /\ cached x.

Lemma round_kept x : round x -> kept (u_reset x).
Proof using u ss.
move=> [B [c0 c1]]; have [G [z er]] := between_good u ss B.
by split=> //; rewrite er.
Qed.

Lemma round_always x : round x -> always (fun y => exists x', [/\ y = Ok x', round x', seen x' (g_r (ug_gcc x')),
  forall t, seen x t -> seen x' t & frozen x x']) (u_fill_r_sample gray fuel x).
Proof using u ss gr fu.
move=> Rx; have [B C] := Rx; have [G [z er]] := between_good u ss B; rewrite u_fillE (u_nE B).
have le : (sumn (g_r (ug_gcc (u_reset x))) + sumn s <= sumn s)%N by rewrite z.
apply: always_impl (fill_seen (round_kept Rx) le) => _ [x' [-> [G' C' S'] gw fz]].
by exists x'; split=> //; split=> //; exact: (good_between u G'.1).
Qed.

Lemma round_tame x : round x -> tame (u_fill_r_sample gray fuel x).
Proof using u ss gr fu e01.
move=> [B _]; have [G [z er]] := between_good u ss B; rewrite u_fillE (u_nE B).
by apply: tame_fill => //; rewrite z.
Qed.

Lemma round_seen x t : round x -> size t = m -> (sumn t <= sumn s)%N ->
  exists2 v, has_exp (on_ok (fun x' => (seen x' t)%:R)) (u_fill_r_sample gray fuel x) v
    & eta ^+ sumn t * fixed_loss_prob U s t <= v.
Proof using u ss gr fu e01.
move=> Rx st le; have [B C] := Rx; have [G [z er]] := between_good u ss B; rewrite u_fillE (u_nE B).
rewrite -(subnKC le).
have [|v hv lv] := @seen_within (sumn s - sumn t) _ t (round_kept Rx); first by rewrite z subnKC.
exists v => //; apply: le_trans lv; rewrite er /mix_exp big_ord_recr /= [binomial_weight _ _ (sumn t)]/binomial_weight.
have pe : perm_eq (comps m (sumn t)) (t :: rem t (comps m (sumn t))) by apply: perm_to_rem; rewrite mem_comps /is_state st !eqxx.
rewrite binn subnn expr0 mulr1 mul1r cond_exp_start // (perm_big _ pe).
rewrite big_cons eqxx mulr1; case/andP: e01 => e0 e1.
have -> : \sum_(j <- rem t (comps m (sumn t))) fixed_loss_prob U s j * (j == t)%:R = 0.
  by rewrite big_seq big1 // => j; rewrite mem_rem_uniq ?comps_uniq // inE => /andP[/negPf ->]; rewrite mulr0.
rewrite /= ?addr0 ler_addr; apply: sumr_ge0 => l _; rewrite mulr_ge0 //; first by apply: binomial_weight_ge0.
rewrite cond_exp_start //; last by have := ltn_ord l; lia.
by apply: sumr_ge0 => y _; rewrite mulr_ge0 ?fixed_loss_prob_ge0 ?ler0n.
Qed.

Hypothesis uniqL : uniq L.

Lemma start_round x : calc_matrix (g_calc (ug_gcc x)) = U -> ug_eta x = eta -> ug_missing x = mis ->
  exists x', ugcc_start fuel s x = Ok x' /\ round x'.
Proof using u ss genL memL headL uniqL.
move=> e1 e2 e3; have [x' [E B]] := ugcc_startE u ss genL memL headL e1 e2 e3.
exists x'; split=> //; split=> //.
move: E; rewrite /ugcc_start genL e2 e3 bwsE {1}/rbind.
rewrite (py_get_nth 0) ?size_map ?size_iota // {1}/rbind (py_set_nth 0) ?size_map ?(L0 ss memL) //.
rewrite {1}/rbind => -[<-]; split=> //; apply/seen2P => i il ei /=; split; last by rewrite sumn_nseq.
have -> : i = 0%N by apply/eqP; rewrite -(nth_uniq [::] il (L0 ss memL) uniqL) ei headL.
have v0 : sumn (nseq m 0%N) = 0%N by rewrite sumn_nseq.
rewrite nth_set_nth /= /uniform_loss_prob v0.
by rewrite (@fixed_loss_vac R m U s) ?mulr1 ?size_nseq.
Qed.

Lemma loopE (dist : ugcc R -> R) accuracy tol n x : accuracy_loop gray fuel dist accuracy tol n x =
  until_seen (u_fill_r_sample gray fuel) (fun x => Num.max (accuracy - dist x) 0 <= tol) n x.
Proof. by []. Qed.

Lemma bound (dist : ugcc R -> R) accuracy tol wanted n x : {subset wanted <= lcomps m (sumn s)} -> uniq wanted ->
  (forall x, round x -> {in wanted, forall t, seen x t} -> Num.max (accuracy - dist x) 0 <= tol) ->
  round x ->
  exists2 v, has_exp (on_ok (fun=> 1)) (accuracy_loop gray fuel dist accuracy tol n.+1 x) v
    & 1 - \sum_(t <- wanted | ~~ seen x t) (1 - uniform_loss_prob U s eta t) ^+ n <= v.
Proof using u ss gr fu e01.
move=> sw uw H Rx; rewrite loopE.
apply: (@seen_bound _ _ _ (lcomps m (sumn s)) _ _ _ round (fun x => g_r (ug_gcc x)) seen) => //.
- by move=> t _; apply: uniform_loss_ge0.
- by rewrite big_lcomps (uniform_loss_norm eta u).
- exact: lcomps_uniq.
- exact: round_tame.
- by move=> y Ry; apply: always_impl (round_always Ry) => _ [x' [-> *]]; exists x'.
- by move=> y h [B _]; apply: has_exp_ext (u_r_exp u ss gr fu h e01 B) => -[].
Qed.

Lemma bound2 (dist : ugcc R -> R) accuracy tol wanted n x : {subset wanted <= lcomps m (sumn s)} ->
  (forall x, round x -> {in wanted, forall t, seen x t} -> Num.max (accuracy - dist x) 0 <= tol) ->
  round x ->
  exists2 v, has_exp (on_ok (fun=> 1)) (accuracy_loop gray fuel dist accuracy tol n.+1 x) v
    & 1 - \sum_(t <- wanted | ~~ seen x t) (1 - eta ^+ sumn t * fixed_loss_prob U s t) ^+ n <= v.
Proof using u ss gr fu e01.
move=> sw H Rx; rewrite loopE.
apply: (@seen_bound2 _ _ _ (fun t => eta ^+ sumn t * fixed_loss_prob U s t) _ _ round seen) => //.
- exact: round_tame.
- by move=> y Ry; apply: always_impl (round_always Ry) => _ [x' [-> *]]; exists x'.
- by move=> y t Ry /sw; rewrite mem_lcomps => /andP[/eqP st le]; apply: round_seen.
Qed.
End A.
