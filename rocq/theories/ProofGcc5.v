(* Version A: shapes of the samples, for every matrix and every run. *)
From mathcomp Require Import all_ssreflect all_algebra complex.
From mathcomp Require Import ring zify.
From Verif Require Import Base SpecStates Combi SpecPerm PermMath.
From Verif Require Import ModelStates ProofStates1 LemStates ModelPerm ProofPerm6 LemPerm ModelDist ProofDist1.
From Verif Require Import SpecProb ProbMath ModelGcc SpecGcc ProofSel ProofGcc1 ProofGcc2 ProofGcc3 ProofGcc4.
Set Implicit Arguments.
Unset Strict Implicit.
Unset Printing Implicit Defensive.
Import Order.TTheory GRing.Theory Num.Theory.
Local Open Scope ring_scope.
Local Open Scope py_scope.

Lemma always_ifok (R : realFieldType) (A B : Type) (P : A -> Prop) (Q : B -> Prop) (p : rprog R (res A)) f :
  always (if_ok P) p -> (forall a, P a -> always (if_ok Q) (f a)) -> always (if_ok Q) (rpbind p f).
Proof. by move=> h k; apply: always_rbind; apply: always_impl h => [[a|e]] //=; apply: k. Qed.

Lemma sample_loop_shape (R : rcfType) (G X : Type) (fill : G -> rprog R (res G)) (out : G -> res X)
    (inv : G -> Prop) (P : X -> Prop) :
  (forall g, inv g -> always (if_ok (fun g' => inv g' /\ if_ok P (out g'))) (fill g)) ->
  forall k g, inv g ->
  always (if_ok (fun x => [/\ size x.1 = k, inv x.2 & forall y, List.In y x.1 -> P y])) (sample_loop fill out k g).
Proof.
move=> H; elim=> [|k IH] g I //=.
apply: always_ifok (H g I) _ => g' [I' py].
apply: always_ifok (_ : always (if_ok P) _) _ => // y {}py.
apply: always_ifok (IH g' I') _ => [[L g2]] [/= sL I2 aL]; split=> //=; first by rewrite sL.
by move=> z [<-|/aL].
Qed.

Section Shape.
Variable R : rcfType.
Notation CF := (ComplexField.complex_numFieldType R).
Variables (meas : seq nat -> nat) (layer : gcc R -> res (gcc R)) (s : seq nat).
Variable val : any_calc CF -> seq nat -> seq (nat * seq (seq nat)) -> seq nat ->
  res (seq R * seq (seq nat) * any_calc CF).
Variable ok : seq nat -> Prop.
Hypothesis layerE : forall g, layer g =
  let! v := val (g_calc g) (g_input g) (g_labeled g) (g_r g) in Ok (with_layer g v).
Hypothesis valE : forall a lab r v, ok r -> val a s lab r = Ok v ->
  forall r', r' \in v.1.2 -> ok r' /\ meas r' = (meas r).+1.

Record sinv (g : gcc R) : Prop := SInv {
  si_n : g_n g = sumn s;
  si_in : g_input g = s;
  si_ok : ok (g_r g);
  si_key : g_key g = g_r g;
  si_cache : forall key pmf outs, dget (g_pmfs g) key = Some pmf -> dget (g_outputs g) key = Some outs ->
     forall r', r' \in outs -> ok r' /\ meas r' = (meas key).+1
}.

Lemma ensure_shape g : sinv g -> if_ok (fun g' => [/\ sinv g', g_r g' = g_r g & has_layer g']) (ensure_layer layer g).
Proof using layerE valE.
move=> I; rewrite /ensure_layer; case D: (dget _ _) => [pmf|] /=; first by rewrite /has_layer D.
rewrite layerE; case E: (val _ _ _ _) => [v|e] //=; split=> //; last by rewrite /has_layer /= dget_dset eqxx.
case: I E => i1 i2 i3 i4 i5 E; split=> //= key pmf outs; rewrite !dget_dset.
case: eqP => [<- _ [<-]|_]; last exact: i5.
by rewrite i2 in E; rewrite i4; exact: valE E.
Qed.

Lemma sample_shape g u : sinv g -> has_layer g ->
  if_ok (fun g' => sinv g' /\ meas (g_r g') = (meas (g_r g)).+1) (sample_with g u).
Proof.
rewrite /has_layer => [[i1 i2 i3 i4 i5]] h; rewrite /sample_with /dget_res.
case D: (dget (g_pmfs g) _) h => [pmf|] //= _; case: (py_get pmf _) => [p|] //=.
case D2: (dget _ _) => [outs|] //=; case E: (py_get outs _) => [r|] //=.
have rin : r \in outs.
  move: E; rewrite /py_get; case: (py_index _ _) => [k|] //= .
  case E: (drop k outs) => [|x l] //= [<-].
  by rewrite -(cat_take_drop k outs) E mem_cat inE eqxx orbT.
have [kr mr] := i5 _ _ _ D D2 _ rin.
by split; [split|rewrite -i4].
Qed.

Lemma gloop_shape n g : sinv g -> (meas (g_r g) <= sumn s)%N ->
  always (if_ok (fun g' => sinv g' /\ meas (g_r g') = sumn s)) (gloop meas layer n g).
Proof using layerE valE.
elim: n g => [//|n IH] g I le /=; rewrite (si_n I); case: ltnP => lt; last first.
  by split=> //; apply/eqP; rewrite eqn_leq le.
apply: always_ifok (_ : always (if_ok (fun g' => [/\ sinv g', g_r g' = g_r g & has_layer g'])) _) _.
  exact: ensure_shape.
move=> g' [I' er hl]; rewrite -er in lt.
apply: always_ifok (_ : always (if_ok (fun g2 => sinv g2 /\ meas (g_r g2) = (meas (g_r g')).+1)) _) _.
  by move=> u _; exact: sample_shape.
by move=> g2 [I2 e2]; apply: IH => //; rewrite e2.
Qed.
End Shape.

Section Top.
Variable R : rcfType.
Notation CF := (ComplexField.complex_numFieldType R).
Variables (gray : nat -> seq nat) (fuel : nat) (s : seq nat).

Lemma gcc_shape k (g : gcc R) :
  always (if_ok (fun x => size x.1 = k /\ forall t, t \in x.1 -> is_state (size s) (sumn s) t))
    (gcc_simulate gray fuel s k g).
Proof.
pose inv g := sinv (R := R) sumn s (fun r => size r = size s) (reset_sample (nseq (size (g_input g)) 0%N) g).
have H : forall g, inv g ->
    always (if_ok (fun g' => inv g' /\ if_ok (fun t => is_state (size s) (sumn s) t) (Ok (g_r g')))) (fill_r_sample gray fuel g).
  move=> {}g I; rewrite /fill_r_sample fill_loopE.
  apply: always_impl (gloop_shape (s := s) (new_layerE gray fuel) _ _ I _).
  - move=> [g'|e] //= [[i1 i2 i3 i4 i5] e]; split; last by rewrite /is_state i3 e !eqxx.
    by split=> //=; rewrite size_nseq i2.
  - move=> a lab r v sr; rewrite /val_a possible_output_statesE.
    case: (layer_weights _ _ _) => [ws|] //=; case: (rfoldl _ _ _) => [pa|] //= [<-] r' /= /mapP[j].
    by rewrite mem_iota /= => jl ->; rewrite size_incr ?sumn_incr.
  - by rewrite /= sumn_nseq.
have I0 : inv (gcc_start s g) by split=> //=; rewrite size_nseq.
apply: always_impl (sample_loop_shape H k I0) => [[x|e]] //= [sx _ ax]; split=> // t /aux_in; exact: ax.
Qed.

Lemma ma_shape k (g : gcc R) :
  always (if_ok (fun x => size x.1 = k /\ forall t, t \in x.1 -> is_state (size s) (sumn s) t))
    (ma_simulate gray fuel s k g).
Proof.
pose ok := (fun r : seq nat => all (fun i => i < size s)%N r).
pose inv g := sinv (R := R) size s ok (reset_sample [::] g).
have H : forall g, inv g ->
    always (if_ok (fun g' => inv g' /\ if_ok (fun t => is_state (size s) (sumn s) t)
      (mode_assignment_to_mode_occupation (map Posz (g_r g')) (Posz (size (g_input g')))))) (ma_fill_r_sample gray fuel g).
  move=> {}g I; rewrite /ma_fill_r_sample ma_fill_loopE.
  apply: always_impl (gloop_shape (s := s) (ma_new_layerE gray fuel) _ _ I _) => //.
  - move=> [g'|e] //= [[i1 i2 i3 i4 i5] e]; split; first by split.
    rewrite i2; case: (posnP (size s)) => m0; last by rewrite assignment_to_occupation_nat //= occ_state.
    have r0 : g_r g' = [::] by case: (g_r g') i3 => //= x r; rewrite m0.
    by rewrite r0 m0.
  - move=> a lab r v kr; rewrite /val_m.
    case: (layer_weights _ _ _) => [ws|] //=; case: (rfoldl _ _ _) => [pa|] //= [<-] r' /= /mapP[j].
    by rewrite mem_iota /= => jl ->; rewrite size_rcons /ok all_rcons jl.
have I0 : inv (gcc_start s g) by split.
apply: always_impl (sample_loop_shape H k I0) => [[x|e]] //= [sx _ ax]; split=> // t /aux_in; exact: ax.
Qed.
End Top.
