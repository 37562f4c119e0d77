(* Rounded distribution calculators: exactness, sign, whole distributions. *)
From mathcomp Require Import all_ssreflect all_algebra complex.
From mathcomp Require Import ring zify.
From Verif Require Import Base SpecStates Combi SpecPerm PermMath SpecBS BsMath BsComb BsNorm.
From Verif Require Import ModelStates LemStates ModelPerm ProofPerm6 LemPerm ModelDist ProofDist1 LemDist
  ModelFloat ModelFloatDist SpecFloat ProofFloat ProofFloat4 ProofFloatDist.
Set Implicit Arguments.
Unset Strict Implicit.
Unset Printing Implicit Defensive.
Import Order.Theory GRing.Theory Num.Theory.
Local Open Scope ring_scope.
Local Open Scope py_scope.

Section Exact.
Variable R : rcfType.
Notation CF := (ComplexField.complex_numFieldType R).
Variables (H : eqType) (hash : seq nat -> H) (gray : nat -> seq nat) (fuel : nat).
Notation A := (exact_arith CF).
Notation B := (exact_arith R).
Notation ab := (@py_abs R).

Lemma rbind_ext (S T : Type) (x : res S) (f g : S -> res T) : (forall y, f y = g y) -> rbind x f = rbind x g.
Proof. by move=> fg; case: x => /=. Qed.

Lemma rbind_ext2 (S T : Type) (x y : res S) (f g : S -> res T) : x = y -> (forall y, f y = g y) ->
  rbind x f = rbind y g.
Proof. by move=> <-; apply: rbind_ext. Qed.

Lemma rfoldl_ext (S T : Type) (f g : S -> T -> res S) x l : (forall y z, f y z = g y z) ->
  rfoldl f x l = rfoldl g x l.
Proof. by move=> fg; elim: l x => [//|y l IH] x; rewrite !rfoldl_cons fg; case: (g x y) => /=. Qed.

Lemma fl_fixed_outcome_exact cfg a t :
  fl_fixed_outcome_probability A B ab hash gray fuel cfg a t = fixed_outcome_probability hash gray fuel cfg a t.
Proof.
rewrite /fl_fixed_outcome_probability /fixed_outcome_probability.
have E0 : fl_indistinguishable_probability A B ab hash gray fuel cfg a t =
    indistinguishable_probability hash gray fuel cfg a t.
  rewrite /fl_indistinguishable_probability /indistinguishable_probability; apply: rbind_ext => Ts.
  have E x b : fl_fixed_losses_step A B ab gray fuel cfg t x b = fixed_losses_step gray fuel cfg t x b; last first.
    by apply: rbind_ext2 (rfoldl_ext _ _ E) _ => -[[p b] [T|]].
  case: x b => [[p b] o] T; rewrite /fl_fixed_losses_step /fixed_losses_step; apply: rbind_ext => k.
  apply: rbind_ext2 (fl_compute_any_exact _ _ _) _ => va; congr (Ok (_, _, _)).
apply: rbind_ext2 E0 _ => pa; apply: rbind_ext2 _ _ => [|p]; last by [].
by apply: rfoldl_ext.
Qed.

Lemma fl_fixed_exact cfg a ts :
  fl_fixed_probabilities A B ab hash gray fuel cfg a ts = fixed_probabilities hash gray fuel cfg a ts.
Proof. by apply: rfoldl_ext => st t; apply: rbind_ext2 (fl_fixed_outcome_exact _ _ _) _ => pa. Qed.

Lemma rmapM_ext (S T : Type) (f g : S -> res T) l : (forall x, f x = g x) -> rmapM f l = rmapM g l.
Proof. by move=> fg; elim: l => [//|x l IH] /=; rewrite fg IH. Qed.

Lemma fl_uniform_exact uc ts :
  fl_uniform_probabilities A B ab hash gray fuel uc ts = uniform_probabilities hash gray fuel uc ts.
Proof.
apply: rmapM_ext => t; rewrite /fl_uniform_outcome_probability /uniform_outcome_probability.
case: eqP => _; first by [].
by apply: rbind_ext2 (fl_fixed_exact _ _ _) _.
Qed.

End Exact.

(* ---- rounded values keep their sign ---- *)
Section Sign.
Variable R : rcfType.
Notation CF := (ComplexField.complex_numFieldType R).
Variables (u : R) (A : arith CF) (B : arith R) (f_abs : CF -> R).
Hypothesis u0 : 0 <= u.
Hypothesis accB : accurate u B.
Hypothesis acc_abs : forall z, `|f_abs z - py_abs z| <= u * py_abs z.
Variables (H : eqType) (hash : seq nat -> H) (gray : nat -> seq nat) (fuel : nat).
Hypothesis u4 : 2%:R * u <= 2%:R^-1.

Lemma sign_le (d v w : R) : d <= 1 -> 0 <= v -> `|w - v| <= d * `|v| -> 0 <= w.
Proof.
move=> d1 v0; rewrite (ger0_norm v0) => h.
have : `|w - v| <= v by apply: le_trans h _; rewrite -[X in _ <= X]mul1r ler_wpmul2r.
by rewrite ler_norml => /andP[h' _]; move: h'; rewrite ler_subr_addr addNr.
Qed.

Lemma u1 : u <= 1.
Proof.
have h : u <= 2%:R * u by rewrite mulr_natl mulr2n ler_addl.
apply: le_trans h (le_trans u4 _); rewrite invf_le1 ?ltr0n // ler1n //.
Qed.

Lemma pow_ge0 x e : e%:R * u <= 2%:R^-1 -> 0 <= x -> 0 <= f_pow B x e.
Proof.
move=> h x0; apply: sign_le (acc_pow accB x e); last by rewrite exprn_ge0.
apply: le_trans (E_linear u0 h) _; rewrite -mulrA -[X in _ <= X](@mulfV R 2%:R) ?pnatr_eq0 //.
by rewrite ler_wpmul2l ?ler0n.
Qed.

Lemma div_ge0 x k : 0 <= x -> 0 <= f_div B x (Posz k`!).
Proof.
move=> x0; apply: (sign_le u1) (acc_div accB x _); first by rewrite divr_ge0 // -pmulrn ler0n.
by have := fact_gt0 k; lia.
Qed.

Lemma mul_ge0 x y : 0 <= x -> 0 <= y -> 0 <= f_mul B x y.
Proof. by move=> x0 y0; apply: (sign_le u1) (acc_mul accB x y); rewrite mulr_ge0. Qed.

Lemma add_ge0 x y : 0 <= x -> 0 <= y -> 0 <= f_add B x y.
Proof. by move=> x0 y0; apply: (sign_le u1) (acc_add accB x y); rewrite addr_ge0. Qed.

Lemma int_ge0 (k : nat) : 0 <= f_int B (Posz k).
Proof. by apply: (sign_le u1) (acc_int accB k); rewrite -pmulrn ler0n. Qed.

Lemma foldl_ge0 (x : R) (l : seq nat) : 0 <= x -> 0 <= foldl (fun x k => f_div B x (Posz k`!)) x l.
Proof. by elim: l x => [//|k l IH] x x0 /=; apply: IH; apply: div_ge0. Qed.

Lemma rfoldl_ge0 (T : Type) (f : R -> T -> res R) x l y :
  (forall x t y, 0 <= x -> f x t = Ok y -> 0 <= y) -> 0 <= x -> rfoldl f x l = Ok y -> 0 <= y.
Proof.
move=> hf; elim: l x => [|t l IH] x x0; first by move=> [<-].
by rewrite rfoldl_cons; case E: (f x t) => [z|//]; apply: IH; apply: hf x0 E.
Qed.

Lemma fl_fixed_outcome_ge0 cfg a t p a' : (cf_left cfg <= cf_particles cfg)%N ->
  fl_fixed_outcome_probability A B f_abs hash gray fuel cfg a t = Ok (p, a') -> 0 <= p.
Proof.
move=> le; rewrite /fl_fixed_outcome_probability /fl_indistinguishable_probability.
case: (generate_lossy_n_particle_input_states _ _ _) => [Ts|e] //=.
have L q b o : 0 <= q -> forall q' b' o', rfoldl (fl_fixed_losses_step A B f_abs gray fuel cfg t) (q, b, o) Ts
    = Ok (q', b', o') -> 0 <= q'.
  elim: Ts q b o => [|T Ts IH] q b o q0 q' b' o'; first by move=> [<-].
  rewrite rfoldl_cons {1}/fl_fixed_losses_step; case: (lossy_multiplicity cfg T) => //= k.
  case: (fl_compute_any _ _ _ _) => //= -[v c] /=; apply: IH.
  apply: add_ge0 => //; apply: mul_ge0 (int_ge0 _); apply: foldl_ge0; apply: pow_ge0 => //.
  have p0 : 0 <= py_abs v by exact: sqrtr_ge0.
  by apply: (sign_le u1 p0); rewrite (ger0_norm p0).
case E: (rfoldl _ _ _) => [[[q b] [T|]]|e] //=.
have q0 := L _ _ _ (lexx 0) _ _ _ E.
case E': (rfoldl _ _ _) => [x|e] //= [<- _].
apply: rfoldl_ge0 E' => [y i z y0|].
  by case: (py_get t i) => //= k [<-]; apply: div_ge0.
apply: mul_ge0 (int_ge0 _); apply: (sign_le u1) (acc_div accB _ _).
  by rewrite divr_ge0 ?div_ge0 // -pmulrn ler0n.
by have := bin_gt0 (cf_particles cfg) (cf_left cfg); rewrite le; lia.
Qed.

Lemma fl_fixed_ge0 cfg a ts ps a' : (cf_left cfg <= cf_particles cfg)%N ->
  fl_fixed_probabilities A B f_abs hash gray fuel cfg a ts = Ok (ps, a') -> forall p, p \in ps -> 0 <= p.
Proof.
move=> le; rewrite /fl_fixed_probabilities.
have: forall p, p \in ([::] : seq R) -> 0 <= p by [].
elim: ts a ([::] : seq R) => [|t ts IH] a acc h; first by move=> [<- _].
rewrite rfoldl_cons /=; case E: (fl_fixed_outcome_probability _ _ _ _ _ _ _ _ _) => [[p b]|e] //=.
apply: IH => q; rewrite mem_rcons inE => /orP[/eqP ->|]; last exact: h.
exact: fl_fixed_outcome_ge0 le E.
Qed.

Lemma fl_weights_ge0 cfg : 0 <= cf_eta cfg <= 1 -> (cf_particles cfg)%:R * u <= 2%:R^-1 ->
  forall w, w \in fl_uniform_weights B cfg -> 0 <= w.
Proof.
move=> /andP[e0 e1] nu w /mapP[l]; rewrite mem_iota => /andP[_ ll] ->.
have le k : (k <= cf_particles cfg)%N -> k%:R * u <= 2%:R^-1.
  by move=> kl; apply: le_trans nu; rewrite ler_wpmul2r ?ler_nat.
apply: mul_ge0; first by apply: mul_ge0 (int_ge0 _); apply: pow_ge0 => //; apply: le; lia.
apply: pow_ge0; first by apply: le; lia.
by apply: (sign_le u1) (acc_sub accB _ _); rewrite subr_ge0.
Qed.

Lemma fl_uniform_ge0 cfg a ts ps : 0 <= cf_eta cfg <= 1 -> (cf_particles cfg)%:R * u <= 2%:R^-1 ->
  all (fun t => sumn t <= cf_particles cfg)%N ts ->
  fl_uniform_probabilities A B f_abs hash gray fuel (fl_new_uniform_calc B cfg a) ts = Ok ps ->
  forall p, p \in ps -> 0 <= p.
Proof.
move=> e01 nu; have w0 := fl_weights_ge0 e01 nu.
have gw i w : py_get (fl_uniform_weights B cfg) i = Ok w -> 0 <= w.
  rewrite /py_get; case: (py_index _ _) => //= k; case E: (drop k _) => [|x l] //= [<-].
  by apply: w0; rewrite -(cat_take_drop k (fl_uniform_weights B cfg)) mem_cat E mem_head orbT.
elim: ts ps => [|t ts IH] ps /=; first by move=> _ [<-].
case/andP=> lt al; rewrite /fl_uniform_probabilities /=.
case E: (fl_uniform_outcome_probability _ _ _ _ _ _ _ _) => [p|e] //=.
case E': (rmapM _ _) => [qs|e] //= [<-] q; rewrite inE => /orP[/eqP ->|]; last exact: IH E' q.
move: E; rewrite /fl_uniform_outcome_probability /=; case: eqP => _; first exact: gw.
set cfg' := Config _ _ _ _ _ _ _.
case F: (fl_fixed_probabilities _ _ _ _ _ _ _ _ _) => [[rs b]|e] //=.
have := fl_fixed_ge0 _ F => /(_ lt) r0.
case G: (py_get rs 0) => [r|e] //=; case W: (py_get _ _) => [w|e] //= [<-].
apply: mul_ge0; last exact: gw W.
by apply: r0; move: G; case: (rs) => //= x l [<-]; rewrite mem_head.
Qed.

End Sign.

(* ---- sums ---- *)
Section Sums.
Variable R : rcfType.

Lemma sum_dist (ps : seq R) (T : eqType) (L : seq T) (f : T -> R) x0 (d : T -> R) : size ps = size L ->
  (forall i, (i < size L)%N -> `|nth 0 ps i - f (nth x0 L i)| <= d (nth x0 L i)) ->
  \sum_(x <- zip ps L) `|x.1 - f x.2| <= \sum_(t <- L) d t /\
  `|\sum_(p <- ps) p - \sum_(t <- L) f t| <= \sum_(t <- L) d t.
Proof.
elim: L ps => [|t L IH] [|p ps] //=; first by rewrite !big_nil subrr normr0.
move=> [sp] h; have [i il|h1 h2] := IH ps sp _; first by have := h i.+1 il.
have := h 0%N isT => /= h0; rewrite !big_cons; split; first exact: ler_add.
rewrite opprD addrACA; apply: le_trans (ler_norm_add _ _) _; exact: ler_add.
Qed.

Lemma unitary_entries m (U : seq (seq R[i])) : unitary m U ->
  entries_bounded m (U : seq (seq (ComplexField.complex_numFieldType R))) (1%:C)%C.
Proof.
move=> [_ orth] j i jm im; have := orth i i im im; rewrite /ortho_cols eqxx => E.
have E1 : \sum_(j < m) nsq (ent U j i) = 1.
  apply: complexI; rewrite rmorph_sum /= -[RHS]E; apply: eq_bigr => k _.
  by case: (ent U k i) => a b; rewrite /nsq /conjc; simpc; congr (_ +i* _)%C; ring.
have le1 : nsq (ent U j i) <= 1.
  rewrite -E1 (bigD1 (Ordinal jm)) //= ler_addl sumr_ge0 // => k _.
  by rewrite addr_ge0 ?sqr_ge0.
by rewrite (normE (ent U j i)) lecR -[X in _ <= X](@sqrtr1 R) ler_sqrt // ltr01.
Qed.

End Sums.
