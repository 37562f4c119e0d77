(* The strategies with independent particles in rounded arithmetic: samples. *)
From mathcomp Require Import all_ssreflect all_algebra complex.
From mathcomp Require Import ring zify.
From Verif Require Import Base SpecStates Combi SpecPerm PermMath SpecBS BsMath BsComb BsNorm SpecProb ProbMath ModelStates ProofSel.
From Verif Require Import ModelGcc ModelGccB ModelNet SpecNet LemNet ProofGcc3 ProofGccB1 ProofGccB2 SpecGcc LemGcc ModelBobs ProofBobs4 ProofBobs5.
From Verif Require Import SpecFixed ModelFixed ProofFixed1 ProofFixed2 ProofFixed3.
From Verif Require Import ModelFloat SpecFloat ModelFloatNet SpecFloatNet ProofFloat ModelFloatFixed SpecFloatFixed ProofFloatFixed1 ProofFloatFixed2.
Set Implicit Arguments.
Unset Strict Implicit.
Unset Printing Implicit Defensive.
Import Order.TTheory GRing.Theory Num.Theory.
Local Open Scope ring_scope.
Local Open Scope py_scope.

Lemma exp_bound (R : rcfType) (X : Type) (F : X -> R) (p : rprog R X) v d :
  has_exp F p v -> (forall a, `|F a| <= d) -> `|v| <= d.
Proof.
move=> H h; rewrite ler_norml; apply/andP; split.
  by apply: (has_exp_le (has_exp_const (- d) H) H); apply: always_true => a; have := h a; rewrite ler_norml => /andP[].
by apply: (has_exp_le H (has_exp_const d H)); apply: always_true => a; have := h a; rewrite ler_norml => /andP[].
Qed.

Lemma exp_01 (R : rcfType) (X : Type) (F : X -> R) (p : rprog R X) v :
  has_exp F p v -> (forall a, 0 <= F a <= 1) -> 0 <= v <= 1.
Proof.
move=> H h; apply/andP; split.
  by apply: (has_exp_le (has_exp_const 0 H) H); apply: always_true => a; have /andP[] := h a.
by apply: (has_exp_le H (has_exp_const 1 H)); apply: always_true => a; have /andP[] := h a.
Qed.

Lemma on_ok01 (R : rcfType) (X : Type) (f : X -> R) : (forall t, 0 <= f t <= 1) -> forall r : res X, 0 <= on_ok f r <= 1.
Proof. by move=> h [t|e] /=; rewrite ?lexx ?ler01. Qed.

(* repeated samples of a nearly known law *)
Section Loop.
Variables (R : rcfType) (T : Type) (p : rprog R (res T)) (S : seq T) (P : T -> R) (V : (T -> R) -> R) (del : R).
Hypothesis HV : forall f, has_exp (on_ok f) p (V f).
Hypothesis HD : forall f, (forall t, 0 <= f t <= 1) -> `|V f - \sum_(t <- S) P t * f t| <= del.
Hypothesis HP : forall h d, (forall t, `|h t| <= d) -> `|\sum_(t <- S) P t * h t| <= d.

Fixpoint loopv (k : nat) (f : seq T -> R) : R :=
  if k is k'.+1 then V (fun t => loopv k' (fun L => f (t :: L))) else f [::].

Lemma loopv_01 k f : (forall L, 0 <= f L <= 1) -> 0 <= loopv k f <= 1.
Proof.
elim: k f => [|k IH] f f01 //=; apply: (exp_01 (HV _)); apply: on_ok01 => t.
by apply: IH => L; exact: f01.
Qed.

Lemma loopv_exp k f g : has_exp (on_ok (fun x => f x.1)) (sample_loop (fun _ => p) (fun t => Ok t) k g) (loopv k f).
Proof.
elim: k f g => [|k IH] f g /=; first by constructor.
apply: has_exp_rbind (HV _) _; apply: always_true => -[t|//]; rewrite /rpbind /=.
apply: has_exp_bind (IH (fun L => f (t :: L)) t) _; apply: always_true => [[a|e']] /=; by constructor.
Qed.

Lemma loopv_near k f : (forall L, 0 <= f L <= 1) -> `|loopv k f - iid_exp S P k f| <= k%:R * del.
Proof.
elim: k f => [|k IH] f f01 /=; first by rewrite subrr normr0 mul0r.
set g := fun t => loopv k _.
have g01 t : 0 <= g t <= 1 by apply: loopv_01 => L; exact: f01.
apply: le_trans (ler_dist_add (\sum_(t <- S) P t * g t) _ _) _.
rewrite mulrSr mulrDl mul1r addrC; apply: ler_add; last exact: HD.
rewrite -sumrB; under eq_bigr => t _ do rewrite -mulrBr.
by apply: HP => t; apply: IH => L; exact: f01.
Qed.
End Loop.

Section Sample.
Variable R : rcfType.
Notation C := (ComplexField.complex_numFieldType R).
Notation mat := (seq (seq C)).
Variables (u c nu : R) (A : arith C) (B : arith R) (f_sqrt : R -> R) (f_dot : seq C -> seq C -> C) (cis f_cis : R -> C).
Hypotheses (u0 : 0 <= u) (u8 : u <= 8%:R^-1) (c0 : 0 <= c) (nu0 : 0 <= nu).
Hypotheses (accA : accurate (u%:C)%C A) (accB : accurate u B) (acc_sqrt : accurate_sqrt u f_sqrt).
Hypotheses (ok : cis_ok cis) (acc_cis : accurate_cis c cis f_cis).
Variables (m : nat) (M : mat).
Hypotheses (m0 : (0 < m)%N) (sub : subunitary m M).
Variables (N l : nat) (x : fixed R) (s : seq nat) (rand : nat -> rprog R (res (seq R))).
Hypothesis N0 : (0 < N)%N.
Hypotheses (xl : fx_left x = l) (xm : fx_modes x = m) (netok : accurate_network f_dot m M nu (fx_net x)).
Notation n := (sumn s).
Notation ie := (intensity_error u c nu m).
Notation fst d := (fstate A B f_sqrt f_cis m n d).


Lemma fl_prepare_always (P : seq R -> Prop) :
  always (fun r => exists2 d, r = Ok d & P d) (rand m) ->
  always (fun r => exists2 d, r = Ok (fst d) & P d) (fl_prepare_state A B f_sqrt f_cis rand m n).
Proof.
move=> H; apply: always_rbind; apply: always_impl H => _ [d -> pd]; exists d => //; congr Ok.
by apply/eq_in_map => i; rewrite mem_iota => im; rewrite /fvec (nth_map 0%N) ?size_iota // nth_iota.
Qed.

Lemma fl_prepare_exp (S : seq (seq R)) (W : seq R -> R) f :
  always (fun r => exists2 d, r = Ok d & d \in S) (rand m) ->
  (forall f, has_exp (on_ok f) (rand m) (\sum_(d <- S) W d * f d)) ->
  has_exp (on_ok f) (fl_prepare_state A B f_sqrt f_cis rand m n) (\sum_(d <- S) W d * f (fst d)).
Proof.
move=> HA HE; apply: has_exp_rbind (HE (fun d => f (fst d))) _.
apply: always_impl HA => _ [d -> _]; apply: has_exp_eq (ExpRet _ _) _ => /=; congr f.
by apply/eq_in_map => i; rewrite mem_iota => im; rewrite /fvec (nth_map 0%N) ?size_iota // nth_iota.
Qed.

(* the computed probabilities *)
Definition pint (ev : seq C) : seq R := [seq fl_intensity B z | z <- ev].

Lemma fl_probE ev : fl_probabilities B n ev = if n == 0%N then nseq (size ev) None else [seq Some z | z <- pint ev].
Proof.
rewrite /fl_probabilities /pint; case: (n == 0%N); last by rewrite -map_comp.
by elim: ev => //= z ev ->.
Qed.

Lemma pint_ge0 ev : all (fun z => 0 <= z) (pint ev).
Proof. by apply/allP => _ /mapP[z _ ->] /=; apply: (intensity_ge0 (u := u)). Qed.

Lemma net_ok d : exists2 ev, fl_network_simulate f_dot (fx_net x) (fst d) = Ok ev & size ev = m.
Proof. by have [|ev [e1 e2 _]] := netok (v := fst d); [rewrite size_map size_iota|exists ev]. Qed.

Lemma fl_nan j out : size out = m -> fl_place B (nseq m (@None R)) j out = Ok (incr out 0).
Proof.
move=> so; rewrite /fl_place; case: (m) m0 so => [//|m'] _ so /=.
have -> : fl_find_mode B j None 0 (nseq m' None) = 0%N by case: (m').
by rewrite size_nseq /= incr_atE ?so.
Qed.

Lemma incr_iter k (out : seq nat) : incr (iter k (incr^~ 0%N) out) 0 = iter k (incr^~ 0%N) (incr out 0).
Proof. by elim: k => //= k ->. Qed.

Lemma fl_place_nan_always k out : size out = m ->
  always (fun y => y = Ok (iter k (incr^~ 0%N) out)) (fl_place_all B N (nseq m (@None R)) k out).
Proof.
elim: k out => [|k IH] out so //= j jN; rewrite fl_nan // /rpbind /= incr_iter.
by apply: IH; rewrite size_incr ?so.
Qed.

Lemma fl_place_nan_exp f k out : size out = m ->
  has_exp (on_ok f) (fl_place_all B N (nseq m (@None R)) k out) (f (iter k (incr^~ 0%N) out)).
Proof.
elim: k out => [|k IH] out so /=; first exact: ExpRet.
have E : (\sum_(j < N) f (incr (iter k (incr^~ 0%N) out) 0)) / N%:R = f (incr (iter k (incr^~ 0%N) out) 0).
  by rewrite sumr_const card_ord -[_ *+ N]mulr_natr mulfK // pnatr_eq0 -lt0n.
rewrite -E; apply: (@ExpInt _ _ _ N _ (fun=> f (incr (iter k (incr^~ 0%N) out) 0))) => // j jN.
rewrite fl_nan // /rpbind /= incr_iter; by apply: IH; rewrite size_incr ?so.
Qed.

Lemma iter0E k : iter k (incr^~ 0%N) (nseq m 0%N) = k :: nseq m.-1 0%N.
Proof. by case: (m) m0 => // j _ /=; elim: k => //= i ->; rewrite incr0. Qed.

Lemma fl_fixed_always :
  always (fun r => exists d, r = Ok d) (rand m) ->
  always (fun y => exists t, [/\ y = Ok t, size t = m, (sumn t <= l)%N & n = 0%N -> t = l :: nseq m.-1 0%N])
    (fl_fixed_sample A B f_sqrt f_dot f_cis rand N x s).
Proof.
move=> HA; apply: always_rbind; rewrite xm.
have HA' : always (fun r => exists2 d, r = Ok d & True) (rand m) by apply: always_impl HA => _ [d ->]; exists d.
apply: always_impl (fl_prepare_always HA') => _ [d -> _].
have [ev e1 e2] := net_ok d; rewrite e1 /rpbind /= fl_probE xl.
case: ifP => n0.
  rewrite e2; apply: always_impl (fl_place_nan_always l (size_nseq m 0%N)) => _ ->; rewrite iter0E.
  by eexists; split; rewrite /= ?size_nseq ?prednK // ?sumn_nseq ?mul0n ?addn0.
have so : size (nseq m 0%N) = size (pint ev) by rewrite size_nseq size_map.
have mp : (0 < size (pint ev))%N by rewrite size_map e2.
have := fl_place_all_always B N mp l so; rewrite size_map e2.
by apply: always_impl => _ [t [-> st le]]; exists t; split=> // [|e]; [move: le; rewrite sumn_nseq mul0n|rewrite e in n0].
Qed.

Section Law.
Variables (S : seq (seq R)) (W : seq R -> R).
Hypothesis HA : always (fun r => exists2 d, r = Ok d & d \in S) (rand m).
Hypothesis HE : forall f, has_exp (on_ok f) (rand m) (\sum_(d <- S) W d * f d).

Lemma phase_bound (g : seq R -> R) d : (forall a, `|g a| <= d) -> `|\sum_(a <- S) W a * g a| <= d.
Proof.
move=> h; apply: (exp_bound (HE g)) => -[a|e] //=; rewrite normr0.
by apply: le_trans (h [::]); exact: normr_ge0.
Qed.

Lemma fixed_lawE f : \sum_(t <- lcomps m l) fixed_law cis m M n l S W t * f t =
    \sum_(d <- S) W d * \sum_(t <- lcomps m l) multinomial_prob l (smeared cis m M n d) t * f t.
Proof.
rewrite /fixed_law; under eq_bigr => t _ do rewrite mulr_suml.
rewrite exchange_big; apply: eq_bigr => d _ /=; rewrite mulr_sumr; apply: eq_bigr => t _; by rewrite mulrA.
Qed.

Lemma sm_size d : size (smeared cis m M n d) = m. Proof. by rewrite size_map size_iota. Qed.

Definition fixedv (f : seq nat -> R) (v : seq C) : R :=
  if n == 0%N then f (l :: nseq m.-1 0%N) else
  if fl_network_simulate f_dot (fx_net x) v is Ok ev then place_val B N (pint ev) f l (nseq m 0%N) else 0.

Lemma fl_fixed_exp f :
  has_exp (on_ok f) (fl_fixed_sample A B f_sqrt f_dot f_cis rand N x s) (\sum_(d <- S) W d * fixedv f (fst d)).
Proof.
rewrite /fl_fixed_sample xm; apply: has_exp_rbind (fl_prepare_exp (fixedv f) HA HE) _.
apply: always_impl (fl_prepare_always HA) => _ [d -> _].
have [ev e1 e2] := net_ok d; rewrite /fixedv e1 /rpbind /= fl_probE xl.
case: ifP => n0.
  by rewrite e2 -iter0E; apply: fl_place_nan_exp; rewrite size_nseq.
apply: fl_place_all_exp => //; first by rewrite size_map e2.
by rewrite size_nseq size_map.
Qed.

Hypothesis nl : (0 < n)%N || (l == 0)%N.

Lemma fixed_law_bound h d : (forall t, `|h t| <= d) -> `|\sum_(t <- lcomps m l) fixed_law cis m M n l S W t * h t| <= d.
Proof.
move=> hd; rewrite fixed_lawE; apply: phase_bound => a.
case/orP: nl => [n0|/eqP ->]; last by rewrite mp0.
apply: le_trans (ler_norm_sum _ _ _) _.
rewrite -[X in _ <= X]mul1r -(multinomial_sum l (sm_size a)) mulr_suml; apply: ler_sum => t _.
have g0 := multinomial_ge0 l t (smeared_ge0 cis m M n a) (smeared_le1 ok sub a n0).
by rewrite normrM (ger0_norm g0) ler_wpmul2l.
Qed.

Lemma fl_fixed_near f : (forall t, 0 <= f t <= 1) ->
  `|\sum_(d <- S) W d * fixedv f (fst d) - \sum_(t <- lcomps m l) fixed_law cis m M n l S W t * f t| <= fixed_error u c nu N m l.
Proof.
move=> f01; rewrite fixed_lawE -sumrB; under eq_bigr => d _ do rewrite -mulrBr.
apply: phase_bound => d; rewrite /fixedv.
have [n0|n0] := posnP n.
  by move: nl; rewrite n0 => /= /eqP ->; rewrite mp0 -iter0E subrr normr0 /fixed_error mul0r.
have [ev [e1 e2 e3]] := intensities u0 u8 c0 nu0 accA accB acc_sqrt ok acc_cis sub netok d n0.
rewrite e1 /fixed_error; have sp : size (pint ev) = m by rewrite size_map.
have H := @place_val_near R u ie B N u0 accB N0 (pint ev) (smeared cis m M n d) (smeared_ge0 cis m M n d)
  (smeared_le1 ok sub d n0) (pint_ge0 ev).
rewrite sp sm_size in H; have {}H := H erefl _ m0 f l (nseq m 0%N) f01 (size_nseq m 0%N).
apply: le_trans _ (H _); last by move=> i im; rewrite (nth_map 0) ?e2 //; exact: e3.
rewrite le_eqVlt; apply/orP; left; apply/eqP; congr `|_ - _|.
by apply: eq_big_seq => t; rewrite mem_lcomps => /andP[/eqP st _]; rewrite add0v.
Qed.

Lemma fl_fixed_simulate_exp k f : (forall L, 0 <= f L <= 1) ->
  exists v, [/\ has_exp (on_ok (fun y => f y.1)) (fl_fixed_simulate A B f_sqrt f_dot f_cis rand N s k x) v, 0 <= v <= 1
   & `|v - iid_exp (lcomps m l) (fixed_law cis m M n l S W) k f| <= k%:R * fixed_error u c nu N m l].
Proof.
move=> f01; pose V f := \sum_(d <- S) W d * fixedv f (fst d).
exists (loopv V k f); split.
- apply: has_exp_rbind (loopv_exp fl_fixed_exp k f [::]) _.
  by apply: always_true => -[y|] //=; exact: ExpRet.
- exact: (loopv_01 fl_fixed_exp).
- by apply: (loopv_near fl_fixed_exp) => //; [exact: fl_fixed_near|exact: fixed_law_bound].
Qed.
End Law.

Lemma fl_fixed_simulate_always k :
  always (fun r => exists d, r = Ok d) (rand m) ->
  always (fun y => exists L, [/\ y = Ok (L, x), size L = k & forall t, t \in L -> [/\ size t = m, (sumn t <= l)%N & n = 0%N -> t = l :: nseq m.-1 0%N]])
    (fl_fixed_simulate A B f_sqrt f_dot f_cis rand N s k x).
Proof.
move=> HA.
have H := @sample_loop_always R _ _ (fun _ => fl_fixed_sample A B f_sqrt f_dot f_cis rand N x s) (fun t => Ok t) (fun=> True)
  (fun t => [/\ size t = m, (sumn t <= l)%N & n = 0%N -> t = l :: nseq m.-1 0%N]) k [::].
apply: always_rbind; apply: always_impl (H _ _) => //.
  by move=> _ [L [g [-> sL _ h]]]; exists L; split=> //= t /aux_in/h.
by move=> _ _; apply: always_impl (fl_fixed_always HA) => _ [t [-> a b c']]; exists t, t.
Qed.
End Sample.
