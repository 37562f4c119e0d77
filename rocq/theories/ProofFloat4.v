(* The calculators with rounding: common bounds; exact arithmetic. *)
From mathcomp Require Import all_ssreflect all_fingroup all_algebra zify ring.
From Verif Require Import Base SpecStates Combi SpecPerm PermMath ModelPerm ProofPerm1 ProofPerm2
  ProofPerm3 ProofPerm4 ProofDist1 ModelFloat SpecFloat ProofFloat ProofFloat2 ProofFloat3.
Set Implicit Arguments.
Unset Strict Implicit.
Unset Printing Implicit Defensive.
Import Order.Theory GRing.Theory Num.Theory.
Local Open Scope ring_scope.

Section Calcs.
Variable F : numFieldType.
Variables (u : F) (A : arith F).
Hypothesis u0 : 0 <= u.
Hypothesis accA : accurate u A.
Variables (m : nat) (M : seq (seq F)) (s t : seq nat) (mu : F).
Hypothesis sqM : is_square m M.
Hypothesis st_size : size t = size s.
Hypothesis sm : (size s <= m)%N.
Hypothesis s0 : s != [::].
Hypothesis st : sumn s = sumn t.
Hypothesis mu_max : entries_bounded m M mu.

Lemma fl_guanE k c fuel : c_matrix c = M -> c_input c = s -> c_output c = t ->
  (code_number s <= fuel)%N ->
  exists c', fl_compute_permanent A fuel k c = Ok c' /\
    near u (guan_roundings (size s) (sumn s) (code_number s)) (bs_permanent M s t)
      (((match k with Ryser => 2 * code_number s | ChinHuh => sumn s + 2 * code_number s end)%N%:R
          * mu) ^+ sumn s) (c_perm c').
Proof.
move=> e1 e2 e3 fu.
have [c' [-> nc]] := fl_computeE u0 accA k sqM st_size sm s0 mu_max e1 e2 e3 fu.
exists c'; split=> //; move: nc; rewrite guan_sum // /guan_roundings /kterm -st -/(code_number s).
suff -> : c0 F s k * 2%:R ^+ sumn s * sbd s k mu (code_number s) ^+ sumn s =
   ((match k with Ryser => 2 * code_number s | ChinHuh => sumn s + 2 * code_number s end)%N%:R
          * mu) ^+ sumn s by [].
rewrite /c0 /sbd /coef; case: k => /=.
  by rewrite normrX normrN1 expr1n mul1r -exprMn mulrA -natrM.
rewrite normrM normr1 mul1r normfV normrX normr_nat mulVf ?mul1r //.
by rewrite expf_neq0 // pnatr_eq0.
Qed.

End Calcs.

Lemma prodS_le (s : seq nat) : (\prod_(x <- s) x.+1 <= 2 ^ sumn s)%N.
Proof.
elim: s => [|x s IH]; first by rewrite big_nil.
by rewrite big_cons /= expnD leq_mul // ltn_expl.
Qed.

Lemma fact_leX n : (n`! <= n ^ n)%N.
Proof.
have H k : (k <= n)%N -> (k`! <= n ^ k)%N.
  by elim: k => [//|k IH] kn; rewrite factS expnS leq_mul // IH // ltnW.
exact: H.
Qed.

Lemma scale_le (F : numFieldType) (a b n : nat) (mu : F) : 0 <= mu -> (a <= b)%N ->
  (a%:R * mu) ^+ n <= (b%:R * mu) ^+ n.
Proof.
move=> m0 ab; apply: ler_expn2r; rewrite ?nnegrE ?mulr_ge0 ?ler0n //.
by rewrite ler_wpmul2r // ler_nat.
Qed.

Lemma guan_roundings_le l n c : (c <= 2 ^ n)%N -> (guan_roundings l n c <= any_roundings l n)%N.
Proof. by rewrite /guan_roundings /any_roundings => cl; nia. Qed.

Lemma fl_anyE (F : numFieldType) (u : F) (A : arith F) gray fuel m (M : seq (seq F)) s t
   (a : any_calc F) mu : 0 <= u -> accurate u A ->
  is_square m M -> size t = size s -> (size s <= m)%N -> s != [::] -> sumn s = sumn t ->
  entries_bounded m M mu ->
  gray_ok gray (sumn s) -> (code_number s <= fuel)%N ->
  calc_matrix a = M -> calc_input a = s -> calc_output a = t ->
  exists v a', fl_compute_any A gray fuel a = Ok (v, a') /\
    near u (any_roundings (size s) (sumn s)) (bs_permanent M s t) (any_scale (sumn s) mu) v.
Proof.
move=> u0 accA sq sts sm s0 st mub g fu e1 e2 e3.
have m0 : (0 < m)%N by apply: leq_trans sm; rewrite lt0n size_eq0.
have mu0 : 0 <= mu := le_trans (normr_ge0 _) (mub 0 0 m0 m0)%N.
have tm : (size t <= m)%N by rewrite sts.
case: a e1 e2 e3 => [M' s' t'|M' s' t'|k c] /= e1 e2 e3; rewrite ?e1 ?e2 ?e3.
- have fu' : (sumn s <= fuel)%N.
    apply: leq_trans fu; rewrite /code_number; elim: (s) => [|x l IH]; first by rewrite big_nil.
    have p0 : (0 < \prod_(y <- l) y.+1)%N by rewrite prodn_gt0.
    by rewrite big_cons /= mulSn addnC leq_add // -{1}[x]muln1 leq_mul.
  have [v -> nv] := fl_classicE u0 accA sq sm tm st fu' mub.
  do 2!eexists; split; first by [].
  apply: near_mono nv => //; first by rewrite /any_roundings; nia.
  apply: (@le_trans _ _ (((sumn s)%:R * mu) ^+ sumn s)); last by apply: scale_le => //; lia.
  rewrite exprMn ler_wpmul2r ?exprn_ge0 // -natrX ler_nat.
  exact: fact_leX.
- have [] := @fl_glynnE _ u A M m s t gray mu u0 accA sq sm tm st _ mub.
    by move=> p; apply: g; rewrite subn1 prednK.
  move=> v -> nv; do 2!eexists; split; first by [].
  apply: near_mono nv => //; first by rewrite /any_roundings /gkterm; nia.
  by apply: scale_le => //; nia.
have [c' [-> nc]] := fl_guanE u0 accA sq sts sm s0 st mub k e1 e2 e3 fu.
do 2!eexists; split; first by [].
have cn := prodS_le s.
apply: near_mono nc => //; first exact: guan_roundings_le.
by apply: scale_le => //; case: (k); rewrite /code_number; lia.
Qed.

(* ------------------------------------------------------------------ *)
Section Exact.
Variable F : numFieldType.
Notation E := (exact_arith F).

Lemma eq_rfoldl (S T : Type) (f g : S -> T -> res S) x l :
  (forall x y, f x y = g x y) -> rfoldl f x l = rfoldl g x l.
Proof. by move=> fg; elim: l x => [//|y l IH] x; rewrite !rfoldl_cons fg; case: (g x y) => /=. Qed.

Lemma eq_rmapM (S T : Type) (f g : S -> res T) l : (forall x, f x = g x) -> rmapM f l = rmapM g l.
Proof. by move=> fg; elim: l => [//|x l IH] /=; rewrite fg IH. Qed.

Lemma fl_update_binomials_exact s g (b : F) :
  fl_update_binomials E s g b = update_binomials s g b.
Proof.
rewrite /fl_update_binomials /update_binomials /fl_pydiv /pydiv.
by case: (py_get _ _) => //= r; case: (py_get _ _) => //= x; rewrite !intr_eq0.
Qed.

Lemma fl_update_sums_exact k (M : seq (seq F)) g d :
  fl_update_sums E k M g d = update_sums k M g d.
Proof.
apply: eq_rfoldl => d' j; case: (dict_get d' j) => //= v; case: (py_get _ _) => //= r.
by case: (mget _ _ _) => //= a; rewrite intrM.
Qed.

Lemma fl_loop_exact fuel k (c : calc F) : fl_permanent_loop E fuel k c = permanent_loop fuel k c.
Proof.
elim: fuel c => [//|fuel IH] c /=.
case: (py_get _ _) => //= r; case: (py_get _ _) => //= lim; case: ifP => // _.
case: (update_guan_code _) => //= g; case: ifP => // _.
rewrite fl_update_sums_exact; case: (update_sums _ _ _ _) => //= sums.
rewrite fl_update_binomials_exact; case: (update_binomials _ _ _) => //= b.
set c1 := Calc _ _ _ _ _ _ _ _ _.
have -> : fl_update_permanent E c1 = update_permanent c1 by [].
by case: (update_permanent c1) => //=.
Qed.

Lemma fl_compute_exact fuel k (c : calc F) : fl_compute_permanent E fuel k c = compute_permanent fuel k c.
Proof.
rewrite /fl_compute_permanent /compute_permanent; case: (can_calculate _ _ _) => //= -[] //.
have -> : fl_init_computation E k c = init_computation k c.
  rewrite /fl_init_computation /init_computation.
  have -> : fl_init_sums E k (c_matrix c) (c_input c) (np_nonzero (c_output c)) =
     init_sums k (c_matrix c) (c_input c) (np_nonzero (c_output c)) by case: k.
  case: (init_sums _ _ _ _) => //= sums.
  have -> // : fl_init_multiplier E k (c_input c) = init_multiplier F k (c_input c).
  by case: k => //=; rewrite rmorphX.
by case: (init_computation k c) => //= c'; rewrite fl_loop_exact.
Qed.

Lemma fl_glynn_exact gray (M : seq (seq F)) s t :
  fl_glynn_permanent E gray M s t = glynn_permanent gray M s t.
Proof.
rewrite /fl_glynn_permanent /glynn_permanent; case: (scattering_calculate _ _ _) => //= sc.
case: ifP => // _.
have -> : fl_glynn_init_sums E sc (nseq (size sc) 1) = glynn_init_sums sc (nseq (size sc) 1) by [].
case: (glynn_init_sums _ _) => //= sums.
have -> : rfoldl (fl_glynn_step E sc) (nseq (size sc) 1, 1, sums, 1 * foldl *%R 1 sums) (gray (size sc - 1)%N)
   = rfoldl (glynn_step sc) (nseq (size sc) 1, 1, sums, 1 * foldl *%R 1 sums) (gray (size sc - 1)%N).
  apply: eq_rfoldl => -[[[delta mult] su] p] i /=.
  case: (py_get _ _) => //= di; case: (py_set _ _ _) => //= dl.
  congr (rbind _ _); apply: eq_rmapM => j; case: (py_get _ _) => //= x.
  by case: (py_get _ _) => //= d; case: (mget _ _ _) => //= y; rewrite intrM.
by case: (rfoldl _ _ _) => //= -[[[? ?] ?] ?]; rewrite rmorphX.
Qed.

Lemma fl_classic_rec_exact fuel (mtx : seq (seq F)) col sel p :
  fl_classic_rec E fuel mtx col sel p = classic_rec fuel mtx col sel p.
Proof. by []. Qed.

Lemma fl_compute_any_exact gray fuel (a : any_calc F) :
  fl_compute_any E gray fuel a = compute_any gray fuel a.
Proof.
case: a => [M s t|M s t|k c] //=; first by rewrite fl_glynn_exact.
by rewrite fl_compute_exact.
Qed.

Lemma exact_accurate (u : F) : 0 <= u -> accurate u E.
Proof.
move=> u0; split=> * /=; rewrite subrr normr0 mulr_ge0 //; exact: E0.
Qed.

End Exact.

(* an arithmetic with the largest allowed errors *)
Definition scaled_arith (F : numFieldType) (u : F) : arith F :=
  Arith (fun x y => (1 + u) * (x + y)) (fun x y => (1 + u) * (x - y)) (fun x y => (1 + u) * (x * y))
    (fun x z => (1 + u) * (x / z%:~R)) (fun x e => (1 + u) ^+ e * x ^+ e)
    (fun z => (1 + u) * z%:~R) (fun y z => (1 + u) * (y%:~R / z%:~R)) (fun x y => (1 + u) * (x / y)).

Lemma scaled_accurate (F : numFieldType) (u : F) : 0 <= u -> accurate u (scaled_arith u).
Proof.
have H (k : nat) (x : F) : 0 <= u -> `|(1 + u) ^+ k * x - x| = ((1 + u) ^+ k - 1) * `|x|.
  by move=> u0; rewrite -{2}[x]mul1r -mulrBl normrM ger0_norm ?E0.
have H1 (x : F) : 0 <= u -> `|(1 + u) * x - x| <= u * `|x|.
  by move=> u0; rewrite -[1 + u]expr1 H // expr1 [1 + u]addrC addrK.
by move=> u0; split=> * /=; rewrite ?H1 ?H.
Qed.
