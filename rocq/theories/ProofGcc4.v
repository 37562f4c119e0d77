(* Version A: shapes of the results, caches and histories. *)
From mathcomp Require Import all_ssreflect all_algebra complex.
From mathcomp Require Import ring zify.
From Verif Require Import Base SpecStates Combi SpecPerm PermMath.
From Verif Require Import ModelStates ProofStates1 LemStates ModelPerm ProofPerm6 LemPerm ModelDist ProofDist1.
From Verif Require Import SpecProb ProbMath ModelGcc SpecGcc ProofSel ProofGcc1 ProofGcc2 ProofGcc3.
Set Implicit Arguments.
Unset Strict Implicit.
Unset Printing Implicit Defensive.
Import Order.TTheory GRing.Theory Num.Theory.
Local Open Scope ring_scope.
Local Open Scope py_scope.

(* ---- related results ---- *)
Lemma same_res_bind (A B A' B' : Type) (P : A -> B -> Prop) (Q : A' -> B' -> Prop) x y f g :
  same_res P x y -> (forall a b, P a b -> same_res Q (f a) (g b)) -> same_res Q (rbind x f) (rbind y g).
Proof. by case: x y => [a|e] [b|e'] //= p h; exact: h. Qed.

Lemma same_res_eq (A : Type) (x : res A) : same_res eq x x.
Proof. by case: x. Qed.

Lemma same_res_foldl (A B T : Type) (P : A -> B -> Prop) f g (l : seq T) x y :
  P x y -> (forall a b t, P a b -> same_res P (f a t) (g b t)) ->
  same_res P (rfoldl f x l) (rfoldl g y l).
Proof.
move=> p h; elim: l x y p => [//|t l IH] x y p /=.
by apply: same_res_bind (h _ _ _ p) _ => a b; apply: IH.
Qed.

Lemma same_run_refl (R : realFieldType) (A : Type) (P : A -> A -> Prop) (p : rprog R A) :
  (forall a, P a a) -> same_run P p p.
Proof. by move=> h; elim: p => [a|k IH|n k IH] /=. Qed.

Lemma same_run_rbind (R : realFieldType) (A A' B B' : Type) (P : A -> A' -> Prop) (Q : B -> B' -> Prop) p p' g g' :
  same_run (same_res P) p p' -> (forall a a', P a a' -> same_run (same_res Q) (g a) (g' a')) ->
  same_run (R := R) (same_res Q) (rpbind p g) (rpbind p' g').
Proof. by move=> h k; apply: same_run_bind h _ => [[a|e] [b|e']] //=; apply: k. Qed.

Section Core.
Variable F : numFieldType.
Implicit Types a b : any_calc F.

Lemma core_refl a : same_core a a. Proof. exact: same_refl. Qed.
Lemma core_sym a b : same_core a b -> same_core b a. Proof. exact: same_sym. Qed.
Lemma core_trans a b c : same_core a b -> same_core b c -> same_core a c. Proof. exact: same_trans. Qed.
Lemma core_public a b : same_public a b -> same_core a b.
Proof. by case: a b => [? ? ?|? ? ?|? ?] [? ? ?|? ? ?|? ?] //= []. Qed.
Lemma core_io a s t : same_core (set_output t (set_input s a)) a.
Proof. by case: a. Qed.
Lemma core_input a s : same_core (set_input s a) a.
Proof. by case: a. Qed.
Lemma core_set_io a b s t : same_core a b -> same_public (set_output t (set_input s a)) (set_output t (set_input s b)).
Proof. by case: a b => [? ? ?|? ? ?|? ?] [? ? ?|? ? ?|? ?] //= []. Qed.
Lemma core_set_matrix a b M : same_core a b -> same_core (set_matrix M a) (set_matrix M b).
Proof. by case: a b => [? ? ?|? ? ?|? ?] [? ? ?|? ? ?|? ?] //= []. Qed.
Lemma core_matrix a b : same_core a b -> calc_matrix a = calc_matrix b.
Proof. by move/same_matrix; rewrite !core_set. Qed.

Lemma compute_core gray fuel a b s t : same_core a b ->
  same_res (fun x y => [/\ x.1 = y.1, same_core x.2 a & same_core y.2 b])
    (compute_any gray fuel (set_output t (set_input s a))) (compute_any gray fuel (set_output t (set_input s b))).
Proof.
move=> c; have e := compute_any_sim gray fuel (core_set_io s t c); move: e.
case E: (compute_any _ _ _) => [x|e]; case E': (compute_any _ _ _) => [y|e'] //= [] // e; split=> //.
  by apply: core_trans (core_io a s t); apply: core_public; exact: compute_any_public E.
by apply: core_trans (core_io b s t); apply: core_public; exact: compute_any_public E'.
Qed.
End Core.

Section A.
Variable R : rcfType.
Notation CF := (ComplexField.complex_numFieldType R).
Variables (gray : nat -> seq nat) (fuel : nat).
Implicit Types (a b : any_calc CF) (g : gcc R).

Lemma pmf_entry_core a b Ts (ws : seq R) t : same_core a b ->
  same_res (fun x y => [/\ x.1 = y.1, same_core x.2 a & same_core y.2 b])
    (pmf_entry gray fuel a Ts ws t) (pmf_entry gray fuel b Ts ws t).
Proof.
move=> c; rewrite /pmf_entry.
apply: same_res_foldl => [|[v a1] [v' b1] i [/= -> ca cb]]; first by split=> //; exact: core_refl.
apply: same_res_bind (same_res_eq _) _ => T _ <-.
have c1 : same_core a1 b1 by apply: core_trans ca (core_trans c (core_sym cb)).
apply: same_res_bind (_ : same_res (fun x y => [/\ x.1 = y.1, same_core x.2 a & same_core y.2 b]) _ _) _.
  apply: same_res_bind (compute_core gray fuel T t c1) _ => x y [-> ca1 cb1] /=.
  by split=> //; [exact: core_trans ca1 ca|exact: core_trans cb1 cb].
by move=> x y [-> c2 c3]; case: (py_get _ _).
Qed.

(* the value of a layer *)
Definition val_a a (s : seq nat) (lab : seq (nat * seq (seq nat))) (r : seq nat) :
    res (seq R * seq (seq nat) * any_calc CF) :=
  let Ts := dgetl lab (sumn r).+1 in
  let! ws := layer_weights R s Ts in
  let! outs := possible_output_states r in
  let! pa := rfoldl (fun st t =>
    let! pa := pmf_entry gray fuel st.2 Ts ws t in
    Ok (rcons st.1 pa.1, pa.2)) ([::], a) outs in
  Ok (pa.1, outs, pa.2).
Definition val_m a (s : seq nat) (lab : seq (nat * seq (seq nat))) (r : seq nat) :
    res (seq R * seq (seq nat) * any_calc CF) :=
  let Ts := dgetl lab (size r).+1 in
  let! ws := layer_weights R s Ts in
  let outs := ma_possible_outputs s r in
  let! pa := rfoldl (fun st t =>
    let! t := mode_assignment_to_mode_occupation (map Posz t) (Posz (size s)) in
    let! pa := pmf_entry gray fuel st.2 Ts ws t in
    Ok (rcons st.1 pa.1, pa.2)) ([::], a) outs in
  Ok (pa.1, outs, pa.2).

Definition with_layer g (v : seq R * seq (seq nat) * any_calc CF) : gcc R :=
  Gcc (g_r g) (g_n g) (dset (g_pmfs g) (g_key g) v.1.1) v.2 (g_input g) (g_labeled g)
    (dset (g_outputs g) (g_key g) v.1.2) (g_key g) (g_prob g).

Lemma new_layerE g : new_layer gray fuel g =
  let! v := val_a (g_calc g) (g_input g) (g_labeled g) (g_r g) in Ok (with_layer g v).
Proof.
rewrite /new_layer /val_a; case: (layer_weights _ _ _) => [ws|e] //=.
by case: (possible_output_states _) => [outs|e] //=; case: (rfoldl _ _ _).
Qed.
Lemma ma_new_layerE g : ma_new_layer gray fuel g =
  let! v := val_m (g_calc g) (g_input g) (g_labeled g) (g_r g) in Ok (with_layer g v).
Proof.
rewrite /ma_new_layer /val_m; case: (layer_weights _ _ _) => [ws|e] //=.
by case: (rfoldl _ _ _).
Qed.

Definition val_rel a b := same_res (fun x y : seq R * seq (seq nat) * any_calc CF =>
  [/\ x.1 = y.1, same_core x.2 a & same_core y.2 b]).

Lemma val_a_core a b s lab r : same_core a b -> val_rel a b (val_a a s lab r) (val_a b s lab r).
Proof.
move=> c; rewrite /val_a; apply: same_res_bind (same_res_eq _) _ => ws _ <-.
apply: same_res_bind (same_res_eq _) _ => outs _ <-.
apply: same_res_bind (_ : same_res (fun x y => [/\ x.1 = y.1, same_core x.2 a & same_core y.2 b]) _ _) _.
  apply: same_res_foldl => [|[v a1] [v' b1] t [/= -> ca cb]]; first by split=> //; exact: core_refl.
  have c1 : same_core a1 b1 by apply: core_trans ca (core_trans c (core_sym cb)).
  apply: same_res_bind (pmf_entry_core _ _ _ c1) _ => x y [-> ca1 cb1] /=.
  by split=> //; [exact: core_trans ca1 ca|exact: core_trans cb1 cb].
by move=> x y [/= -> ca cb].
Qed.

Lemma val_m_core a b s lab r : same_core a b -> val_rel a b (val_m a s lab r) (val_m b s lab r).
Proof.
move=> c; rewrite /val_m; apply: same_res_bind (same_res_eq _) _ => ws _ <-.
apply: same_res_bind (_ : same_res (fun x y => [/\ x.1 = y.1, same_core x.2 a & same_core y.2 b]) _ _) _.
  apply: same_res_foldl => [|[v a1] [v' b1] t [/= -> ca cb]]; first by split=> //; exact: core_refl.
  have c1 : same_core a1 b1 by apply: core_trans ca (core_trans c (core_sym cb)).
  apply: same_res_bind (same_res_eq _) _ => t' _ <-.
  apply: same_res_bind (pmf_entry_core _ _ _ c1) _ => x y [-> ca1 cb1] /=.
  by split=> //; [exact: core_trans ca1 ca|exact: core_trans cb1 cb].
by move=> x y [/= -> ca cb].
Qed.

(* ---- generic loop ---- *)
Section Gen.
Variables (meas : seq nat -> nat) (layer : gcc R -> res (gcc R)).
Variable val : any_calc CF -> seq nat -> seq (nat * seq (seq nat)) -> seq nat ->
  res (seq R * seq (seq nat) * any_calc CF).
Hypothesis layerE : forall g, layer g =
  let! v := val (g_calc g) (g_input g) (g_labeled g) (g_r g) in Ok (with_layer g v).
Hypothesis valC : forall a b s lab r, same_core a b -> val_rel a b (val a s lab r) (val b s lab r).
Variable a0 : any_calc CF.

(* the cache of g is what recomputation gives *)
Definition cache_ok g := forall key pmf, dget (g_pmfs g) key = Some pmf ->
  exists outs a', val a0 (g_input g) (g_labeled g) key = Ok (pmf, outs, a') /\
    dget (g_outputs g) key = Some outs.

Record sim g h : Prop := Sim {
  sim_r : g_r g = g_r h;
  sim_n : g_n g = g_n h;
  sim_in : g_input g = g_input h;
  sim_lab : g_labeled g = g_labeled h;
  sim_key : g_key g = g_r g;
  sim_key' : g_key h = g_r h;
  sim_c : same_core (g_calc g) a0;
  sim_c' : same_core (g_calc h) a0;
  sim_cache : cache_ok g
}.

Definition has_layer g := dget (g_pmfs g) (g_key g) != None.
Definition fresh_layer g h := dget (g_pmfs g) (g_key g) = dget (g_pmfs h) (g_key h) /\
  dget (g_outputs g) (g_key g) = dget (g_outputs h) (g_key h).

Lemma cache_with g v : cache_ok g -> same_core (g_calc g) a0 -> g_key g = g_r g ->
  val (g_calc g) (g_input g) (g_labeled g) (g_r g) = Ok v -> cache_ok (with_layer g v).
Proof using valC.
move=> co cg ek E key pmf; rewrite /= !dget_dset; case: eqP => [<- [<-]|_]; last exact: co.
have := valC (g_input g) (g_labeled g) (g_r g) (core_sym cg); rewrite E ek.
by case E2: (val a0 _ _ _) => [[[p o] a']|] //= [/= e _ _]; exists o, a'; rewrite -e.
Qed.

Lemma ensure_sim g h : sim g h ->
  same_res (fun g' h' => sim g' h' /\ fresh_layer g' h') (ensure_layer layer g) (layer h).
Proof using layerE valC.
move=> S; have c : same_core (g_calc g) (g_calc h) := core_trans (sim_c S) (core_sym (sim_c' S)).
rewrite /ensure_layer; case D: (dget _ _) => [pmf|]; last first.
  have := valC (g_input g) (g_labeled g) (g_r g) c; rewrite !layerE.
  rewrite -(sim_in S) -(sim_lab S) -(sim_r S).
  case E: (val (g_calc g) _ _ _) => [v|e]; case E2: (val (g_calc h) _ _ _) => [v'|e'] //= [ev cv cv'].
  have [s1 s2 s3 s4 s5 s6 s7 s8 s9] := S.
  split; last by rewrite /fresh_layer /with_layer /= !dget_dset !eqxx ev.
  split=> //=; first exact: core_trans cv s7.
    exact: core_trans cv' s8.
  exact: cache_with.
have [outs [a' [E Do]]] := sim_cache S D; rewrite layerE.
have := valC (g_input g) (g_labeled g) (g_key g) (sim_c' S).
have [s1 s2 s3 s4 s5 s6 s7 s8 s9] := S.
rewrite -s3 -s4 -s1 -s5 E.
case E2: (val (g_calc h) _ _ _) => [v'|e'] //= [ev cv cv'].
split; last by rewrite /fresh_layer /= !dget_dset !eqxx D Do ev.
split=> //=; exact: core_trans cv s8.
Qed.

Lemma sample_sim g h u : sim g h -> fresh_layer g h ->
  same_res sim (sample_with g u) (sample_with h u).
Proof.
move=> [s1 s2 s3 s4 s5 s6 s7 s8 s9] [f1 f2].
rewrite /sample_with /dget_res f1 f2; case: (dget (g_pmfs h) _) => [pmf|] //=.
case: (py_get pmf _) => [p|e] //=; case: (dget _ _) => [outs|] //=.
by case: (py_get outs _) => [r|e] //=.
Qed.

Lemma loop_sim_nocache n g h : sim g h ->
  same_run (same_res sim) (gloop meas layer n g) (nocache_loop meas layer n h).
Proof using layerE valC.
elim: n g h => [//|n IH] g h S /=; rewrite -(sim_r S) -(sim_n S); case: ifP => _; last by [].
apply: same_run_rbind (_ : same_run (same_res (fun g' h' => sim g' h' /\ fresh_layer g' h')) _ _) _.
  exact: ensure_sim.
move=> g' h' [S' fr]; apply: same_run_rbind IH => /= u u01; exact: sample_sim.
Qed.

End Gen.
End A.

Lemma sample_loop_sim (R : rcfType) (G H X : Type) (fill : G -> rprog R (res G)) (fill' : H -> rprog R (res H))
    (out : G -> res X) (out' : H -> res X) (rel : G -> H -> Prop) :
  (forall g h, rel g h -> same_run (same_res (fun g' h' => rel g' h' /\ out g' = out' h')) (fill g) (fill' h)) ->
  forall k g h, rel g h ->
  same_run (same_res (fun x y => x.1 = y.1 /\ rel x.2 y.2)) (sample_loop fill out k g) (sample_loop fill' out' k h).
Proof.
move=> hf; elim=> [|k IH] g h r //=.
apply: same_run_rbind (hf _ _ r) _ => g' h' [r' e]; rewrite e.
apply: same_run_rbind (_ : same_run (same_res eq) _ _) _ => [|x _ <-]; first exact: same_res_eq.
by apply: same_run_rbind (IH _ _ r') _ => y z [e' r2] /=; rewrite e'.
Qed.

Section Top.
Variable R : rcfType.
Notation CF := (ComplexField.complex_numFieldType R).
Variables (gray : nat -> seq nat) (fuel : nat).
Implicit Types (g h : gcc R).

Definition rel_a (a0 : any_calc CF) g h :=
  [/\ g_n g = g_n h, g_input g = g_input h, g_labeled g = g_labeled h,
      same_core (g_calc g) a0 /\ same_core (g_calc h) a0 & cache_ok (val_a gray fuel) a0 g].
Definition rel_m (a0 : any_calc CF) g h :=
  [/\ g_n g = g_n h, g_input g = g_input h, g_labeled g = g_labeled h,
      same_core (g_calc g) a0 /\ same_core (g_calc h) a0 & cache_ok (val_m gray fuel) a0 g].

Lemma gcc_nocache (s : seq nat) k g h : same_core (g_calc g) (g_calc h) ->
  same_run (same_res (fun x y => x.1 = y.1 /\ rel_a (g_calc h) x.2 y.2))
    (gcc_simulate gray fuel s k g) (nocache_simulate gray fuel s k h).
Proof.
move=> c; apply: sample_loop_sim => [g' h' [r1 r2 r3 [r4 r4'] r5]|]; last first.
  by split=> //=; split=> //; exact: core_refl.
rewrite /fill_r_sample fill_loopE r2.
apply: same_run_impl (loop_sim_nocache (a0 := g_calc h) sumn (new_layerE gray fuel) (val_a_core gray fuel) fuel _).
  by move=> [x|e] [y|e'] //= [s1 s2 s3 s4 s5 s6 s7 s8 s9]; split=> //; rewrite s1.
by split.
Qed.

Lemma ma_nocache (s : seq nat) k g h : same_core (g_calc g) (g_calc h) ->
  same_run (same_res (fun x y => x.1 = y.1 /\ rel_m (g_calc h) x.2 y.2))
    (ma_simulate gray fuel s k g) (ma_nocache_simulate gray fuel s k h).
Proof.
move=> c; apply: sample_loop_sim => [g' h' [r1 r2 r3 [r4 r4'] r5]|]; last first.
  by split=> //=; split=> //; exact: core_refl.
rewrite /ma_fill_r_sample ma_fill_loopE.
apply: same_run_impl (loop_sim_nocache (a0 := g_calc h) size (ma_new_layerE gray fuel) (val_m_core gray fuel) fuel _).
  by move=> [x|e] [y|e'] //= [s1 s2 s3 s4 s5 s6 s7 s8 s9]; split=> //; rewrite s1 s3.
by split.
Qed.

Lemma same_run_comp (A B C : Type) (P : A -> B -> Prop) (Q : C -> B -> Prop) (S : A -> C -> Prop)
    (p : rprog R A) (q : rprog R B) (r : rprog R C) :
  (forall a b c, P a b -> Q c b -> S a c) -> same_run P p q -> same_run Q r q -> same_run S p r.
Proof.
move=> h; elim: p q r => [a|k IH|n k IH] [b|k'|n' k'] [c|k2|n2 k2] //=; first exact: h.
- by move=> h1 h2 u u01; apply: IH; [exact: h1|exact: h2].
- by move=> [e h1] [e' h2]; split; [rewrite e e'|move=> i il; apply: IH; [exact: h1|apply: h2; rewrite e' -e]].
Qed.

Lemma same_run_always (A B : Type) (P : A -> B -> Prop) (Q : A -> Prop) (p : rprog R A) (q : rprog R B) :
  (forall a b, P a b -> Q a) -> same_run P p q -> always Q p.
Proof.
move=> h; elim: p q => [a|k IH|n k IH] [b|k'|n' k'] //=; first exact: h.
- by move=> h1 u u01; apply: IH; exact: h1.
- by move=> [e h1] i il; apply: IH; exact: h1.
Qed.

(* any two objects with equivalent calculators *)
Lemma gcc_same s k g h : same_core (g_calc g) (g_calc h) ->
  same_run (same_res (fun x y => x.1 = y.1 /\ same_core (g_calc x.2) (g_calc h)))
    (gcc_simulate gray fuel s k g) (gcc_simulate gray fuel s k h).
Proof.
move=> c; apply: same_run_comp (gcc_nocache s k c) (gcc_nocache s k (core_refl _)).
move=> [x|e] [y|e'] [z|e2] //=; last by move=> -> ->.
by move=> [e1 [_ _ _ [c1 _] _]] [e3 _]; rewrite e1 e3.
Qed.
Lemma ma_same s k g h : same_core (g_calc g) (g_calc h) ->
  same_run (same_res (fun x y => x.1 = y.1 /\ same_core (g_calc x.2) (g_calc h)))
    (ma_simulate gray fuel s k g) (ma_simulate gray fuel s k h).
Proof.
move=> c; apply: same_run_comp (ma_nocache s k c) (ma_nocache s k (core_refl _)).
move=> [x|e] [y|e'] [z|e2] //=; last by move=> -> ->.
by move=> [e1 [_ _ _ [c1 _] _]] [e3 _]; rewrite e1 e3.
Qed.

Section History.
Variable simulate : seq nat -> nat -> gcc R -> rprog R (res (seq (seq nat) * gcc R)).
Hypothesis same : forall s k g h, same_core (g_calc g) (g_calc h) ->
  same_run (same_res (fun x y => x.1 = y.1 /\ same_core (g_calc x.2) (g_calc h)))
    (simulate s k g) (simulate s k h).
Variable broken : gcc_op R -> pyerr -> gcc R -> gcc R.
Hypothesis brokenE : forall op e g, same_core (g_calc (broken op e g)) (g_calc g).

Lemma run_ops_core ops g : always (fun g' =>
    same_core (g_calc g') (set_matrix (last_matrix (calc_matrix (g_calc g)) ops) (g_calc g)))
  (run_gcc_ops simulate broken ops g).
Proof using same brokenE.
elim: ops g => [|op ops IH] g /=; first by case: (g_calc g) => [? ? ?|? ? ?|? [? ? ? ? ? ? ? ? ?]].
apply: always_bind; case: op => [s k|M] /=.
  have H : always (fun x => if x is Ok y then same_core (g_calc y.2) (g_calc g) else True) (simulate s k g).
    apply: same_run_always (same s k (core_refl (g_calc g))) => [[x|e] [y|e'] //= [_]] //.
  apply: always_bind; apply: always_impl H => x c /=.
  have {}c : same_core (g_calc (match x with Ok y => y.2 | Err e => broken (OpSimulate R s k) e g end)) (g_calc g).
    by case: x c => [y|e] // _; exact: brokenE.
  apply: always_impl (IH _) => g' c'; apply: core_trans c' _.
  by rewrite (core_matrix c) /last_matrix; apply: core_set_matrix.
apply: always_impl (IH _) => g' c'; apply: core_trans c' _ => /=.
have -> : calc_matrix (set_matrix M (g_calc g)) = M by case: (g_calc g).
by case: (g_calc g) => [? ? ?|? ? ?|? [? ? ? ? ? ? ? ? ?]].
Qed.

Lemma history_same ops (a : any_calc CF) s k :
  always (fun g => same_run (@same_samples _ _ _)
      (simulate s k g) (simulate s k (new_gcc (set_matrix (last_matrix (calc_matrix a) ops) a))))
    (run_gcc_ops simulate broken ops (new_gcc a)).
Proof using same brokenE.
apply: always_impl (run_ops_core ops (new_gcc a)) => g c.
have := same s k (h := new_gcc (set_matrix (last_matrix (calc_matrix a) ops) a)) c.
by apply: same_run_impl => [[x|e] [y|e']] //= [].
Qed.
End History.
End Top.
