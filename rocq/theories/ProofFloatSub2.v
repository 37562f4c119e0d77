(* Sub-matrix permanents calculators: exact operations, final bounds. *)
From mathcomp Require Import all_ssreflect all_algebra zify ring.
From Verif Require Import Base SpecStates Combi SpecPerm PermMath ModelPerm ProofPerm1 ProofPerm2 ProofPerm5
  ModelFloat ModelFloatSub SpecFloat SpecFloatSub ProofFloat ProofFloat2 ProofFloat4 ProofFloatDist2 ProofFloatSub.
Set Implicit Arguments.
Unset Strict Implicit.
Unset Printing Implicit Defensive.
Import Order.Theory GRing.Theory Num.Theory.
Local Open Scope ring_scope.

Section Exact.
Variable F : numFieldType.
Notation A := (exact_arith F).

Lemma fl_updated_binomial_exact (b : F) s r : fl_updated_binomial A b s r = updated_binomial b s r.
Proof. by rewrite /fl_updated_binomial /updated_binomial /fl_pydiv /pydiv intr_eq0; case: eqP. Qed.

Lemma fl_update_permanents_exact k (c : subcalc F) : fl_update_permanents A k c = update_permanents k c.
Proof.
apply: rfoldl_ext => p i; apply: rbind_ext => s; apply: rbind_ext => r; case: ifP => _; first by [].
apply: rbind_ext2; last by move=> y; reflexivity.
case: k; first by apply: rbind_ext2 (fl_updated_binomial_exact _ _ _) _ => y; reflexivity.
by apply: rbind_ext => d; apply: rbind_ext2 (fl_updated_binomial_exact _ _ _) _ => y; reflexivity.
Qed.

Lemma fl_update_sub_sums_exact k (c : subcalc F) : fl_update_sub_sums A k c = update_sub_sums k c.
Proof. by apply: rbind_ext2 (fl_update_sums_exact _ _ _ _) _ => d; reflexivity. Qed.

Lemma fl_init_sums_ex k (M : seq (seq F)) s c : fl_init_sums A k M s c = init_sums k M s c.
Proof. by case: k. Qed.

Lemma fl_init_sub_exact k (c : subcalc F) : fl_init_subcomputation A k c = init_subcomputation k c.
Proof.
apply: rbind_ext2 (fl_init_sums_ex _ _ _ _) _ => d.
have -> : fl_sub_multiplier A k (sc_input c) (sc_output c) = match k with
    | Ryser => (-1) ^+ sumn (sc_output c)
    | ChinHuh => 1 / (2%:R ^ (Posz (sumn (sc_input c)) - 1)) end.
  case: k => //; rewrite /fl_sub_multiplier; case: (sumn _) => [|n].
    by rewrite /= sub0r exprN1 div1r invrK.
  have -> : (Posz n.+1 - 1)%R = Posz n by lia.
  by rewrite /= rmorphX.
case: k; first by reflexivity.
by apply: rbind_ext2 (fl_update_permanents_exact _ _) _ => y; reflexivity.
Qed.

Lemma fl_permanents_loop_exact fuel k (c : subcalc F) :
  fl_permanents_loop A fuel k c = permanents_loop fuel k c.
Proof.
elim: fuel c => [|fuel IH] c.
  by apply: rbind_ext => r; apply: rbind_ext => l; reflexivity.
apply: rbind_ext => r.
apply: rbind_ext => l.
case: (r <= l); last by reflexivity.
apply: rbind_ext => g.
case: (g_idx g == size (g_r g)); first by reflexivity.
apply: rbind_ext2 (fl_update_binomials_exact _ _ _) _ => b.
apply: rbind_ext2 (fl_update_sub_sums_exact _ _) _ => sp.
by apply: rbind_ext2 (fl_update_permanents_exact _ _) _ => ps; apply: IH.
Qed.

Lemma fl_compute_permanents_exact fuel k (c : subcalc F) :
  fl_compute_permanents A fuel k c = compute_permanents fuel k c.
Proof.
rewrite /fl_compute_permanents /compute_permanents; case: ifP => _; first by [].
apply: rbind_ext2 (fl_init_sub_exact _ _) _ => c'.
by apply: rbind_ext2 (fl_permanents_loop_exact _ _ _) _ => c''; reflexivity.
Qed.

End Exact.

Section Bounds.
Variable F : numFieldType.
Variables (u : F) (A : arith F).
Hypothesis u0 : 0 <= u.
Hypothesis u2 : u <= 2%:R^-1.
Hypothesis accA : accurate u A.
Variables (m : nat) (M : seq (seq F)) (s t : seq nat) (mu : F).
Hypothesis sqM : is_square m M.
Hypothesis st_size : size t = size s.
Hypothesis sm : (size s <= m)%N.
Hypothesis st_sum : sumn s = (sumn t).+1.
Hypothesis mu_max : entries_bounded m M mu.

Definition sub_scale k : F :=
  match k with Ryser => ryser_sub_scale (sumn t) (code_number s) mu
             | ChinHuh => chin_huh_sub_scale (sumn t) (code_number s) mu end.

Lemma fl_sub_nearE k c fuel : sc_matrix c = M -> sc_input c = s -> sc_output c = t ->
  (code_number s <= fuel)%N ->
  exists ps c', [/\ fl_compute_permanents A fuel k c = Ok (ps, c'),
    [/\ sc_matrix c' = M, sc_input c' = s & sc_output c' = t], size ps = size s &
    forall i, (i < size s)%N -> near u (sub_roundings (size s) (sumn t) (code_number s))
      (nth 0 (sub_permanents M s t) i) (sub_scale k) ps`_i].
Proof.
move=> e1 e2 e3 fu.
have E i : (i < size s)%N -> nth 0 (sub_permanents M s t) i =
    if nth 0%N s i == 0%N then 0 else bs_permanent M (decr s i) t.
  by move=> il; rewrite (nth_map 0%N) ?size_iota // nth_iota // add0n /one_less decrE.
have [t0|t0] := posnP (sumn t).
  have ce : compute_permanents fuel k c = Ok (sub_permanents M s t, c).
    rewrite (compute_sub_one _ _ st_size _ t0 e1 e2 e3) ?st_sum ?t0 //; congr (Ok (_, _)).
    by apply: eq_map => i; rewrite /one_less decrE.
  exists [seq f_int A (Posz v) | v <- s], c; split=> //.
  - by rewrite /fl_compute_permanents e2 st_sum t0 eqxx.
  - by rewrite size_map.
  move: ce; rewrite /compute_permanents e2 st_sum t0 eqxx => -[ce] i il.
  rewrite -ce !(nth_map 0%N) //.
  have x1 : (nth 0 s i <= sumn s)%N by rewrite sumn_nth (bigD1 (Ordinal il)) //= leq_addr.
  rewrite st_sum t0 in x1.
  have -> : sub_scale k = 1 by rewrite /sub_scale /ryser_sub_scale /chin_huh_sub_scale t0 !expr0; case: (k).
  have := near_int u0 accA (nth 0%N s i); apply: near_mono => //; first by rewrite /sub_roundings; lia.
  by rewrite normr_nat lern1.
have [ps [c' [ec dc sp np]]] := fl_compute_subE u0 u2 accA k sqM st_size sm st_sum t0 mu_max e1 e2 e3 fu.
exists ps, c'; split=> // i il; rewrite E //; have := np i il.
rewrite -/(code_number s); set N := code_number s.
have mu0 := sub_mu0 sm st_sum mu_max.
have -> : cs F t k * (2%:R * (sbd s k mu N + mu)) ^+ sumn t = sub_scale k.
  rewrite /cs /sbd /coef /sub_scale /ryser_sub_scale /chin_huh_sub_scale -/N.
  have -> a : a%:R * mu + mu = a.+1%:R * mu by rewrite -[a.+1]addn1 natrD mulrDl mul1r.
  rewrite !mulrA -!natrM; case: (k) => /=.
    by rewrite normrX normrN1 expr1n mul1r.
  rewrite st_sum normrM normr1 mul1r normfV normrX normr_nat mulrC.
  have -> : (2 * ((sumn t).+1 + 2 * N).+1 = 2 * (sumn t + 2 * N + 2))%N by lia.
  by rewrite natrM -mulrA exprMn mulrAC mulfV ?mul1r // expf_neq0 // pnatr_eq0.
apply: near_k => //; rewrite /sub_roundings_ /kadd /sub_roundings -/(code_number s) -/N; nia.
Qed.

End Bounds.
