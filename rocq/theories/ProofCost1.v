(* Random numbers drawn by the samplers. *)
From mathcomp Require Import all_ssreflect all_algebra complex zify.
From Verif Require Import Base SpecStates Combi SpecPerm PermMath ModelStates ProofStates1 LemStates ModelPerm ProofPerm6 ModelDist ProofDist1 SpecProb SpecCost ProbMath SpecGcc ModelGcc ModelGccB ProofSel ProofGcc1 ProofGcc2 ProofGcc3 ProofGcc4 ProofGcc5 ProofGccB3.
Set Implicit Arguments.
Unset Strict Implicit.
Unset Printing Implicit Defensive.
Import GRing.Theory Num.Theory.
Local Open Scope ring_scope.
Local Open Scope py_scope.

Section Counted.
Variable R : rcfType.

Lemma counted_impl (A : Type) (P Q : A -> nat -> nat -> Prop) u i (p : rprog R (res A)) :
  (forall a u i, P a u i -> Q a u i) -> counted P u i p -> counted Q u i p.
Proof.
move=> PQ; elim: p u i => [[a|e]|k IH|n k IH] u i //=.
- exact: PQ.
- by move=> h x hx; apply: IH; exact: h.
- by move=> h j hj; apply: IH; exact: h.
Qed.

Lemma counted_bind (A B : Type) (P : A -> nat -> nat -> Prop) (Q : B -> nat -> nat -> Prop) u i (p : rprog R (res A)) f :
  counted P u i p -> (forall a u i, P a u i -> counted Q u i (f a)) -> counted Q u i (rpbind p f).
Proof.
move=> + H; elim: p u i => [[a|e]|k IH|n k IH] u i //=.
- exact: H.
- by move=> h x hx; apply: IH; exact: h.
- by move=> h j hj; apply: IH; exact: h.
Qed.

Lemma counted_ret (A B : Type) (Q : B -> nat -> nat -> Prop) u i (x : res A) f :
  (forall a, x = Ok a -> counted Q u i (f a)) -> counted Q u i (rpbind (Ret x : rprog R (res A)) f).
Proof. by case: x => [a|e] //= H; exact: H. Qed.

(* one sample costs cu and ci, possibly depending on the sample *)
Lemma sample_loop_counted (G X : Type) (fill : G -> rprog R (res G)) (out : G -> res X) (inv : G -> Prop) (cu ci : X -> nat) :
  (forall g u i, inv g -> counted (fun g' u' i' => inv g' /\ forall x, out g' = Ok x -> u' = (u + cu x)%N /\ i' = (i + ci x)%N) u i (fill g)) ->
  forall k g u i, inv g ->
  counted (fun x u' i' => size x.1 = k /\ u' = (u + sumn (map cu x.1))%N /\ i' = (i + sumn (map ci x.1))%N) u i (sample_loop fill out k g).
Proof.
move=> H; elim=> [|k IH] g u i I /=; first by rewrite !addn0.
apply: counted_bind (H g u i I) _ => g' u1 i1 [I' c]; apply: counted_ret => x ox.
have [-> ->] := c x ox; apply: counted_bind (IH g' _ _ I') _ => y u2 i2 [<- [-> ->]] /=.
by rewrite !addnA.
Qed.

End Counted.

Section VersionA.
Variable R : rcfType.
Notation CF := (ComplexField.complex_numFieldType R).
Variables (meas : seq nat -> nat) (layer : gcc R -> res (gcc R)) (s : seq nat).
Variable val : any_calc CF -> seq nat -> seq (nat * seq (seq nat)) -> seq nat ->
  res (seq R * seq (seq nat) * any_calc CF).
Variable ok : seq nat -> Prop.
Hypothesis layerE : forall g, layer g =
  let! v := val (g_calc g) (g_input g) (g_labeled g) (g_r g) in Ok (with_layer g v).
Hypothesis valE : forall a lab r v, ok r -> val a s lab r = Ok v ->
  forall r', r' \in v.1.2 -> ok r' /\ meas r' = (meas r).+1.

Lemma gloop_counted n g u i : sinv meas s ok g -> (meas (g_r g) <= sumn s)%N ->
  counted (fun g' u' i' => [/\ sinv meas s ok g', meas (g_r g') = sumn s, (u' + meas (g_r g) = u + sumn s)%N & i' = i]) u i
    (gloop meas layer n g).
Proof.
elim: n g u i => [//|n IH] g u i I le /=; rewrite (si_n I); case: ltnP => lt; last first.
  have e : meas (g_r g) = sumn s by apply/eqP; rewrite eqn_leq le.
  by split=> //; rewrite e.
apply: counted_ret => g' E; have := ensure_shape layerE valE I; rewrite E => -[I' er hl].
rewrite -er in lt *; move=> x hx /=.
have := sample_shape x I' hl; case: (sample_with g' x) => [g2|e] //= [I2 e2].
apply: counted_impl (IH g2 _ i I2 _); last by rewrite e2.
by move=> g3 u3 i3 [I3 e3 c ->]; split=> //; move: c; rewrite e2; lia.
Qed.
End VersionA.

Section Top.
Variable R : rcfType.
Notation CF := (ComplexField.complex_numFieldType R).
Variables (gray : nat -> seq nat) (fuel : nat) (s : seq nat).

Lemma sumn_const (X : Type) (c : nat) (l : seq X) : sumn [seq c | _ <- l] = (size l * c)%N.
Proof. by elim: l => //= x l ->; rewrite mulSn. Qed.

Lemma gcc_counted k (g : gcc R) :
  counted (fun x u i => u = (k * sumn s)%N /\ i = 0%N) 0 0 (gcc_simulate gray fuel s k g).
Proof.
pose inv g := sinv (R := R) sumn s (fun r => size r = size s) (reset_sample (nseq (size (g_input g)) 0%N) g).
have H : forall g u i, inv g ->
    counted (fun g' u' i' => inv g' /\ forall x, Ok (g_r g') = Ok x -> u' = (u + sumn s)%N /\ i' = (i + 0)%N) u i (fill_r_sample gray fuel g).
  move=> {}g u i I; rewrite /fill_r_sample fill_loopE.
  apply: counted_impl (gloop_counted (s := s) (new_layerE gray fuel) _ _ _ _ I _).
  - move=> g' u' i' [[i1 i2 i3 i4 i5] e c ->]; split; first by split=> //=; rewrite size_nseq i2.
    by move=> x _; rewrite addn0; split=> //; move: c; rewrite /= sumn_nseq; lia.
  - move=> a lab r v sr; rewrite /val_a possible_output_statesE.
    case: (layer_weights _ _ _) => [ws|] //=; case: (rfoldl _ _ _) => [pa|] //= [<-] r' /= /mapP[j].
    by rewrite mem_iota /= => jl ->; rewrite size_incr ?sumn_incr.
  - by rewrite /= sumn_nseq.
have I0 : inv (gcc_start s g) by split=> //=; rewrite size_nseq.
apply: counted_impl (sample_loop_counted (cu := fun=> sumn s) (ci := fun=> 0%N) H k 0 0 I0).
by move=> x u i [<- [-> ->]]; rewrite !sumn_const muln0.
Qed.

Lemma ma_counted k (g : gcc R) :
  counted (fun x u i => u = (k * sumn s)%N /\ i = 0%N) 0 0 (ma_simulate gray fuel s k g).
Proof.
pose ok := (fun r : seq nat => all (fun i => i < size s)%N r).
pose inv g := sinv (R := R) size s ok (reset_sample [::] g).
have H : forall g u i, inv g ->
    counted (fun g' u' i' => inv g' /\ forall x, 
      mode_assignment_to_mode_occupation (map Posz (g_r g')) (Posz (size (g_input g'))) = Ok x -> u' = (u + sumn s)%N /\ i' = (i + 0)%N) u i (ma_fill_r_sample gray fuel g).
  move=> {}g u i I; rewrite /ma_fill_r_sample ma_fill_loopE.
  apply: counted_impl (gloop_counted (s := s) (ma_new_layerE gray fuel) _ _ _ _ I _) => //.
  - move=> g' u' i' [[i1 i2 i3 i4 i5] e c ->]; split; first by split.
    by move=> x _; rewrite addn0; split=> //; move: c; rewrite /=; lia.
  - move=> a lab r v kr; rewrite /val_m.
    case: (layer_weights _ _ _) => [ws|] //=; case: (rfoldl _ _ _) => [pa|] //= [<-] r' /= /mapP[j].
    by rewrite mem_iota /= => jl ->; rewrite size_rcons /ok all_rcons jl.
have I0 : inv (gcc_start s g) by split.
apply: counted_impl (sample_loop_counted (cu := fun=> sumn s) (ci := fun=> 0%N) H k 0 0 I0).
by move=> x u i [<- [-> ->]]; rewrite !sumn_const muln0.
Qed.

(* ---- version B ---- *)
Lemma b_loop_counted n target (b : gccb R) u i :
  counted (fun b' u' i' => [/\ b_n b' = b_n b, u' = (u + (sumn (b_r b') - sumn (b_r b)))%N, i' = (i + (sumn (b_r b') - sumn (b_r b)))%N,
     (sumn (b_r b) <= sumn (b_r b'))%N & ((sumn (b_r b) <= target)%N -> sumn (b_r b') = target)]) u i (b_fill_loop fuel n target b).
Proof.
elim: n b u i => [//|n IH] b u i /=; case: ltnP => lt; last first.
  by split; rewrite ?subnn ?addn0 // => le; apply/eqP; rewrite eqn_leq le lt.
apply: (@counted_bind _ _ _ (fun b' u' i' => [/\ b_n b' = b_n b, b_r b' = b_r b, u' = u & i' = i.+1])).
  rewrite /update_current_input; case: (b_working b) => [//|w0 ws] /= j jl.
  by case: (py_pop _ _) => [xw|e] //=; case: (incr_at _ _).
move=> b1 _ _ [n1 r1 -> ->]; apply: counted_ret => b2 E.
have [n2 r2] : b_n b2 = b_n b1 /\ b_r b2 = b_r b1.
  by move: E; rewrite /compute_pmf; case: (compute_permanents _ _ _) => [pc|e] //=; case: (rmapM _ _) => [pmf|e] //= [<-].
apply: (@counted_bind _ _ _ (fun b' u' i' => [/\ b_n b' = b_n b2, sumn (b_r b') = (sumn (b_r b2)).+1, u' = u.+1 & i' = i.+1])).
  rewrite /sample_from_pmf; case: ifP => // _; rewrite /np_choice; case: ifP => //= _ x hx.
  by case E2: (incr_at _ _) => [r|e] //=; split=> //; case: (incr_at_ok E2).
move=> b3 _ _ [n3 r3 -> ->]; apply: counted_impl (IH b3 _ _) => b4 u4 i4 [n4 e1 e2 le4 t4].
rewrite r3 r2 r1 in e1 e2 le4 t4; split; [by rewrite n4 n3 n2|by lia|by lia|by lia|].
by move=> _; exact: t4.
Qed.

Lemma gccb_counted k (b : gccb R) :
  counted (fun x u i => u = (k * sumn s)%N /\ i = (k * sumn s)%N) 0 0 (gccb_simulate fuel s k b).
Proof.
have H : forall b u i, b_n b = sumn s ->
    counted (fun b' u' i' => b_n b' = sumn s /\ forall x, Ok (b_r b') = Ok x -> u' = (u + sumn s)%N /\ i' = (i + sumn s)%N) u i (b_fill (R := R) fuel b).
  move=> {}b u i en; apply: counted_impl (b_loop_counted _ _ _ _ _) => b' u' i' [e1 -> -> _ t].
  split; first by rewrite e1.
  by rewrite t /= sumn_nseq en //; move=> x _; rewrite mul0n subn0.
apply: counted_impl (sample_loop_counted (cu := fun=> sumn s) (ci := fun=> sumn s) H k 0 0 (erefl : b_n (b_start s b) = sumn s)).
by move=> x u i [<- [-> ->]]; rewrite !sumn_const.
Qed.

Lemma ugccb_counted k (v : ugccb R) :
  counted (fun x u i => u = (k + sumn (map sumn x.1))%N /\ i = sumn (map sumn x.1)) 0 0 (ugccb_simulate fuel s k v).
Proof.
have H : forall v u i, True ->
    counted (fun v' u' i' => True /\ forall x, Ok (b_r (ub_b v')) = Ok x -> u' = (u + (sumn x).+1)%N /\ i' = (i + sumn x)%N) u i (ub_fill (R := R) fuel v).
  move=> {}v u i _; rewrite /ub_fill /= => x hx.
  apply: counted_bind (b_loop_counted _ _ _ _ _) _ => b' u' i' [_ -> -> _ t] /=; split=> // y [<-].
  by rewrite /= sumn_nseq mul0n subn0 addSnnS.
apply: counted_impl (sample_loop_counted (cu := fun x => (sumn x).+1) (ci := sumn) H k 0 0 I).
move=> x u i [<- [-> ->]]; split=> //; rewrite add0n.
by elim: (x.1) => //= t l ->; lia.
Qed.

(* ---- version A with losses ---- *)
Record uinv (x : ugcc R) : Prop := UInv {
  ui_n : g_n (ug_gcc x) = sumn s;
  ui_key : g_key (ug_gcc x) = g_r (ug_gcc x);
  ui_cache : forall key pmf outs, dget (g_pmfs (ug_gcc x)) key = Some pmf -> dget (g_outputs (ug_gcc x)) key = Some outs ->
     forall r', r' \in outs -> sumn r' = (sumn key).+1
}.

Lemma u_ensure x : uinv x -> if_ok (fun x' => [/\ uinv x', g_r (ug_gcc x') = g_r (ug_gcc x) & has_layer (ug_gcc x')]) (u_ensure_layer gray fuel x).
Proof.
move=> [i1 i2 i3]; rewrite /u_ensure_layer; case D: (dget _ _) => [pmf|] /=; first by rewrite /has_layer D.
rewrite /u_new_layer possible_output_statesE; case: (layer_weights _ _ _) => [ws|] //=.
case: (rfoldl _ _ _) => [[[pmf a] du]|e] //=; split=> //; last by rewrite /has_layer /= dget_dset eqxx.
split=> //= key pm outs; rewrite !dget_dset; case: eqP => [<- _ [<-] r' /mapP[j]|_]; last exact: i3.
by rewrite mem_iota i2 /= => jl ->; rewrite sumn_incr.
Qed.

Lemma u_loop_counted n x u i : uinv x ->
  counted (fun x' u' i' => [/\ uinv x', (sumn (g_r (ug_gcc x)) <= sumn (g_r (ug_gcc x')))%N,
     u' = (u + n + (sumn (g_r (ug_gcc x')) - sumn (g_r (ug_gcc x))))%N & i' = i]) u i (u_fill_loop gray fuel n x).
Proof.
elim: n x u i => [|n IH] x u i I /=; first by rewrite subnn !addn0.
move=> y hy; case: ifP => _.
  by apply: counted_impl (IH x u.+1 i I) => x' u' i' [I' le -> ->]; split=> //; lia.
apply: counted_ret => x1 E; have := u_ensure I; rewrite E => -[I1 r1 hl] z hz /=.
have : if_ok (fun g' => [/\ g_n g' = sumn s, g_key g' = g_r g', g_pmfs g' = g_pmfs (ug_gcc x1), g_outputs g' = g_outputs (ug_gcc x1) & sumn (g_r g') = (sumn (g_r (ug_gcc x1))).+1]) (sample_with (ug_gcc x1) z).
  move: hl; case: I1 => j1 j2 j3; rewrite /has_layer /sample_with /dget_res.
  case D: (dget (g_pmfs _) _) => [pmf|] //= _; case: (py_get pmf _) => [p|] //=.
  case D2: (dget _ _) => [outs|] //=; case E2: (py_get outs _) => [r|] //=.
  have rin : r \in outs.
    move: E2; rewrite /py_get; case: (py_index _ _) => [k|] //= .
    case E3: (drop k outs) => [|x0 l] //= [<-].
    by rewrite -(cat_take_drop k outs) E3 mem_cat inE eqxx orbT.
  by split=> //; rewrite (j3 _ _ _ D D2 _ rin) j2.
case: (sample_with _ _) => [g2|e] //= [a1 a2 a3 a4 a5].
have I2 : uinv (set_ug x1 g2 (ug_dist x1, ug_unw x1)).
  by split=> //= key pmf outs; rewrite a3 a4; case: I1 => _ _; exact.
apply: counted_impl (IH _ _ i I2) => x' u' i' [I' le -> ->] /=.
by move: le; rewrite /= a5 r1 => le; split=> //; lia.
Qed.

Lemma ugcc_counted k (x : ugcc R) :
  counted (fun y u i => u = (k * sumn s + sumn (map sumn y.1))%N /\ i = 0%N) 0 0 (ugcc_simulate gray fuel s k x).
Proof.
have H : forall x u i, uinv (set_ug x (reset_sample (nseq (size (calc_matrix (g_calc (ug_gcc x)))) 0%N) (ug_gcc x)) (ug_dist x, ug_unw x)) ->
    counted (fun x' u' i' => uinv (set_ug x' (reset_sample (nseq (size (calc_matrix (g_calc (ug_gcc x')))) 0%N) (ug_gcc x')) (ug_dist x', ug_unw x')) 
      /\ forall y, Ok (g_r (ug_gcc x')) = Ok y -> u' = (u + (sumn s + sumn y))%N /\ i' = (i + 0)%N) u i (u_fill_r_sample gray fuel x).
  move=> {}x u i I; rewrite /u_fill_r_sample.
  apply: counted_impl (u_loop_counted _ _ _ I) => x' u' i' [[j1 j2 j3] le -> ->]; split; first by split.
  move=> y [<-]; case: I => /= -> _ _; rewrite /= sumn_nseq mul0n subn0 addn0; split=> //.
  by rewrite addnA.
rewrite /ugcc_simulate; apply: counted_ret => x1 E.
have I0 : uinv (set_ug x1 (reset_sample (nseq (size (calc_matrix (g_calc (ug_gcc x1)))) 0%N) (ug_gcc x1)) (ug_dist x1, ug_unw x1)).
  move: E; rewrite /ugcc_start; case: (generate_possible_states _ _ _ _) => [outs|e] //=.
  case: (py_set _ _ _) => [d|e] //= [<-].
  by split.
apply: counted_impl (sample_loop_counted (cu := fun y => (sumn s + sumn y)%N) (ci := fun=> 0%N) H k 0 0 I0).
move=> y u i [<- [-> ->]]; rewrite sumn_const muln0 !add0n; split=> //.
by elim: (y.1) => //= t l ->; lia.
Qed.

End Top.
