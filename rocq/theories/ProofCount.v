(* C82: float64 in the counting functions. *)
From mathcomp Require Import all_ssreflect all_algebra zify.
From Coq Require ZArith.
From Verif Require Import Base ModelStates ModelQC ModelCount ProofStates5.
Set Implicit Arguments.
Unset Strict Implicit.
Unset Printing Implicit Defensive.
Import Order.TTheory GRing.Theory Num.Theory.

Lemma odd_part_le (d n : nat) : 0 < n -> d %| n -> d`_2^' <= n`_2^'.
Proof. by move=> n0 dn; apply: dvdn_leq; [exact: part_gt0|exact: partn_dvd]. Qed.

Lemma odd_part_mul (a k : nat) : 0 < a -> odd a -> (a * 2 ^ k)`_2^' = a.
Proof.
move=> a0 oa; have k0 : 0 < 2 ^ k by rewrite expn_gt0.
rewrite partnM // part_pnat_id; last first.
  rewrite /pnat a0 /=; apply/allP => p; rewrite mem_primes !inE => /and3P [pp _ pa].
  by apply/eqP => p2; move: pa; rewrite p2 dvdn2 oa.
rewrite part_p'nat ?muln1 // pnatNK.
by rewrite pnatX.
Qed.

Lemma fact22 : exists X, [/\ odd X, X < 2 ^ 53, 2 ^ 53 < 23 * X & 22`! = X * 2 ^ 19].
Proof.
exists (3*5*3*7*9*5*11*3*13*7*15*17*9*19*5*21*11); split.
- by rewrite !oddM.
- by rewrite !expnS expn0; lia.
- by rewrite !expnS expn0; lia.
- by rewrite !factS fact0 !expnS expn0; lia.
Qed.

Lemma fact22_odd : (22`!)`_2^' < 2 ^ 53.
Proof. by have [X [oX s _ ->]] := fact22; rewrite odd_part_mul ?odd_gt0. Qed.

Lemma fact23_odd : 2 ^ 53 < (23`!)`_2^'.
Proof.
have [X [oX _ s E]] := fact22.
by rewrite factS E mulnA odd_part_mul ?odd_gt0 // oddM.
Qed.

Lemma fact22_log : logn 2 (22`!) = 19.
Proof.
have [X [oX _ _ ->]] := fact22.
have X0 : 0 < X by rewrite odd_gt0.
have k0 : 0 < 2 ^ 19 by rewrite expn_gt0.
rewrite (lognM 2 X0 k0) (@pfactorK 2 19 isT) logn_coprime //.
by rewrite coprime2n.
Qed.

Section Float.
Variable R : rcfType.
Local Open Scope ring_scope.
Notation float64 := (@float64 R).

Lemma two53 : Posz 2 ^+ 53 = (2 ^ 53)%N%:R.
Proof. by rewrite natrX. Qed.

Lemma float64_nat (b k : nat) : (b < 2 ^ 53)%N -> (k <= 971)%N -> float64 (b * 2 ^ k)%:R.
Proof.
move=> bs ks; exists (Posz b), (Posz k); split.
- by rewrite -[Posz b]natz normr_nat two53 ltr_nat.
- by lia.
- by rewrite natrM natrX -pmulrn.
Qed.

Lemma float64_natP (n : nat) : float64 n%:R ->
  exists b k, (b < 2 ^ 53)%N /\ (n = b * 2 ^ k \/ n * 2 ^ k = b)%N.
Proof.
move=> [a [e [sa _ E]]]; exists `|a|%N.
have ba : (`|a| < 2 ^ 53)%N.
  by move: sa; rewrite -abszE -[Posz `|a|]natz two53 ltr_nat.
have {}E : n%:R = (`|a|%N)%:R * 2%:R ^ e :> R.
  rewrite -(normr_nat R n) E normrM; congr (_ * _); first by rewrite pmulrn abszE intr_norm.
  by rewrite ger0_norm // exprz_ge0 // ler0n.
case: e E => k E; [exists k|exists k.+1]; split=> //; [left|right].
  by apply/eqP; rewrite -(eqr_nat R) E natrM natrX.
apply/eqP; rewrite -(eqr_nat R) natrM natrX E NegzE -exprnN mulfVK //.
by rewrite expf_eq0 pnatr_eq0.
Qed.

Lemma divisor_bounds (N d : nat) : (0 < N)%N -> (N`_2^' < 2 ^ 53)%N -> logn 2 N = 19%N -> (d %| N)%N ->
  [/\ (0 < d)%N, (d`_2^' < 2 ^ 53)%N & (logn 2 d <= 971)%N].
Proof.
move=> N0 No Nl dN; split; first exact: dvdn_gt0 dN.
  exact: leq_ltn_trans (odd_part_le N0 dN) No.
by apply: leq_trans (dvdn_leq_log 2%N N0 dN) _; rewrite Nl.
Qed.

Lemma fact_dvd (n m : nat) : (n <= m)%N -> (n`! %| m`!)%N.
Proof. by move=> nm; rewrite -(bin_fact nm) mulnCA dvdn_mulr. Qed.

Lemma fact22_divisor (n d : nat) : (n <= 22)%N -> (d %| n`!)%N ->
  [/\ (0 < d)%N, (d`_2^' < 2 ^ 53)%N & (logn 2 d <= 971)%N].
Proof.
move=> n22 dn.
apply: (divisor_bounds (fact_gt0 22) fact22_odd fact22_log (dvdn_trans dn (fact_dvd n22))).
Qed.

Lemma float64_divisor (n d : nat) : (n <= 22)%N -> (d %| n`!)%N -> float64 d%:R.
Proof.
move=> n22 /(fact22_divisor n22) [d0 l1 l2].
by rewrite -(partnC (2%N : nat_pred) d0) p_part mulnC; apply: float64_nat.
Qed.

Lemma not_float64 (n : nat) : (0 < n)%N -> (2 ^ 53 < n`_2^')%N -> ~ float64 n%:R.
Proof.
move=> n0 big /float64_natP [b [k [bs [E|E]]]].
- have b0 : (0 < b)%N by move: n0; rewrite E muln_gt0 => /andP [].
  have k0 : (0 < 2 ^ k)%N by rewrite expn_gt0.
  move: big; rewrite E partnM // [X in (_ * X)%N](_ : _ = 1%N); last first.
    by rewrite part_p'nat // pnatNK pnatX.
  rewrite muln1 => big; have := ltn_trans big (leq_ltn_trans (dvdn_leq b0 (dvdn_part _ _)) bs).
  by rewrite ltnn.
- have := leq_ltn_trans _ bs; move/(_ n); rewrite -E leq_pmulr ?expn_gt0 // => /(_ isT) ns.
  have := ltn_trans big (leq_ltn_trans (dvdn_leq n0 (dvdn_part _ _)) ns).
  by rewrite ltnn.
Qed.

Lemma fact_not_float64 (m : nat) : (23 <= m)%N -> ~ float64 m`!%:R.
Proof.
move=> m23; apply: not_float64; first exact: fact_gt0.
apply: leq_trans fact23_odd _; apply: odd_part_le; first exact: fact_gt0.
exact: fact_dvd.
Qed.

(* ------------------------------------------------------------------ *)
Variables (factorial : nat -> option R) (floordiv : R -> R -> option R).
Hypotheses (hf : float_factorial factorial) (hd : float_floordiv floordiv).

Let step (x : option R) c : option R :=
  if x is Some a then (if factorial c is Some b then floordiv a b else Some 0) else None.

Lemma fl_foldl_div (n K : nat) (cs : seq nat) : (n <= 22)%N -> all (fun c => c <= 22)%N cs ->
  (\prod_(c <- cs) c`! * K %| n`!)%N ->
  foldl step (Some (\prod_(c <- cs) c`! * K)%N%:R) cs = Some K%:R.
Proof.
move=> n22; elim: cs => [|c cs IH] /=; first by rewrite big_nil mul1n.
case/andP=> c22 cs22; rewrite big_cons -mulnA => dn.
have dn' := dvdn_trans (dvdn_mull _ (dvdnn _)) dn.
have fc : float64 c`!%:R by apply: (@float64_divisor c).
have [_ hf2 _] := hf; rewrite /step hf2 //.
rewrite mulnC (proj2 hd) ?fact_gt0 //; first exact: IH.
- by rewrite mulnC; apply: (@float64_divisor n).
- exact: (@float64_divisor n).
Qed.

Lemma fl_states_exact (vals t : seq nat) : perm_eq vals (undup t) -> (size t <= 22)%N ->
  fl_states_of_given_type factorial floordiv vals t
  = Some (compute_number_of_states_of_given_type vals t)%:R.
Proof.
move=> pe t22; rewrite (number_of_states_of_typeE pe) /fl_states_of_given_type.
have uv : uniq vals by rewrite (perm_uniq pe) undup_uniq.
have sub : {subset t <= vals} by move=> y yt; rewrite (perm_mem pe) mem_undup.
have ft : float64 (size t)`!%:R by apply: (@float64_divisor (size t)).
have [_ hf2 _] := hf; rewrite hf2 // -(perm_count_fact uv sub).
rewrite -(big_map (fun v => count_mem v t) xpredT (fun c => c`!)).
apply: (@fl_foldl_div (size t)) => //.
  by apply/allP => c /mapP [v _ ->]; apply: leq_trans (count_size _ _) t22.
by rewrite big_map perm_count_fact.
Qed.

Lemma fl_states_float (vals t : seq nat) x :
  fl_states_of_given_type factorial floordiv vals t = Some x -> float64 x.
Proof.
rewrite /fl_states_of_given_type; have [hf1 _ _] := hf.
have : forall y, factorial (size t) = Some y -> float64 y by exact: hf1.
move: (factorial (size t)) => o; elim: [seq _ | v <- vals] o => [|c cs IH] o fo /=; first exact: fo.
apply: IH => y; case: o fo => [a|] // fo.
case: (factorial c) => [b|]; first exact: (proj1 hd).
by case=> <-; have := @float64_nat 0 0 isT isT; rewrite mul0n.
Qed.

Lemma fl_states_none (vals t : seq nat) : (2 ^ 1024 <= (size t)`!)%N ->
  fl_states_of_given_type factorial floordiv vals t = None.
Proof.
move=> ov; rewrite /fl_states_of_given_type; have [_ _ ->] := hf => //.
by elim: [seq _ | v <- vals].
Qed.

Lemma fl_states_wrong (vals : seq nat) m : (23 <= m)%N -> perm_eq vals (undup (iota 0 m)) ->
  fl_states_of_given_type factorial floordiv vals (iota 0 m)
  <> Some (compute_number_of_states_of_given_type vals (iota 0 m))%:R.
Proof.
move=> m23 pe /fl_states_float; rewrite (number_of_states_of_typeE pe).
by rewrite size_permutations ?iota_uniq // size_iota; apply: fact_not_float64.
Qed.
End Float.

(* ------------------------------------------------------------------ *)
(* large numbers, with the binary integers *)
Fixpoint zfact (n : nat) : BinInt.Z := if n is n'.+1 then BinInt.Z.mul (BinInt.Z.of_nat n) (zfact n') else BinInt.Z.one.
Fixpoint zffact (n m : nat) : BinInt.Z :=
  if m is m'.+1 then BinInt.Z.mul (zffact n m') (BinInt.Z.of_nat (n - m')) else BinInt.Z.one.

Lemma zfactE n : BinInt.Z.of_nat n`! = zfact n.
Proof. by elim: n => // n IH; rewrite factS -multE Znat.Nat2Z.inj_mul IH. Qed.
Lemma zffactE n m : BinInt.Z.of_nat (n ^_ m) = zffact n m.
Proof. by elim: m => // m IH; rewrite ffactnSr -multE Znat.Nat2Z.inj_mul IH. Qed.
Lemma zexpE a k : BinInt.Z.of_nat (a ^ k) = BinInt.Z.pow (BinInt.Z.of_nat a) (BinInt.Z.of_nat k).
Proof.
elim: k => // k IH; rewrite expnS -multE Znat.Nat2Z.inj_mul IH Znat.Nat2Z.inj_succ.
by rewrite BinInt.Z.pow_succ_r //; apply: Znat.Nat2Z.is_nonneg.
Qed.
Lemma zle m n : BinInt.Z.leb (BinInt.Z.of_nat m) (BinInt.Z.of_nat n) = true -> m <= n.
Proof. by move=> /BinInt.Z.leb_le /Znat.Nat2Z.inj_le /ssrnat.leP. Qed.

Lemma zle2 m n a b : BinInt.Z.of_nat m = a -> BinInt.Z.of_nat n = b -> BinInt.Z.leb a b = true -> m <= n.
Proof. by move=> <- <-; exact: zle. Qed.

Lemma fact171 : 2 ^ 1024 <= 171`!.
Proof. refine (zle2 (zexpE 2 1024) (zfactE 171) _); vm_compute; reflexivity. Qed.

Lemma zbin n m : m <= n -> BinInt.Z.of_nat 'C(n, m) = BinInt.Z.div (zffact n m) (zfact m).
Proof.
move=> mn; rewrite -zffactE -bin_ffact -multE Znat.Nat2Z.inj_mul zfactE.
rewrite BinInt.Z.div_mul // -zfactE => E.
by have := fact_gt0 m; move: (m`!) E => f E; lia.
Qed.

Lemma zodd n z : BinInt.Z.of_nat n = z -> BinInt.Z.odd z = true -> odd n.
Proof.
move=> <- /BinInt.Z.odd_spec [q E].
have -> : n = (2 * BinInt.Z.to_nat q).+1 by lia.
by rewrite /= oddM.
Qed.

Lemma bin63_odd : odd 'C(63, 31).
Proof. refine (zodd (@zbin 63 31 isT) _); vm_compute; reflexivity. Qed.

Lemma zlt2 m n a b : BinInt.Z.of_nat m = a -> BinInt.Z.of_nat n = b -> BinInt.Z.ltb a b = true -> m < n.
Proof. by move=> <- <- /BinInt.Z.ltb_lt /Znat.Nat2Z.inj_lt /ssrnat.ltP. Qed.
Lemma bin63_large : 2 ^ 53 < 'C(63, 31).
Proof. refine (zlt2 (zexpE 2 53) (@zbin 63 31 isT) _); vm_compute; reflexivity. Qed.

(* ------------------------------------------------------------------ *)
Section Dimension.
Variable R : rcfType.
Local Open Scope ring_scope.
Variables (binom : nat -> nat -> R) (round : R -> int).
Hypothesis hr : rounds round.

Lemma int_near (k l : int) : `|k%:~R - l%:~R| < 1 :> R -> k = l.
Proof. by rewrite -rmorphB /= -intr_norm ltrz1; lia. Qed.

Lemma round_near x (k : int) : `|x - k%:~R| < 2%:R^-1 -> round x = k.
Proof.
move=> h; apply: int_near; rewrite -(subrKA x).
apply: le_lt_trans (ler_norm_add _ _) _; rewrite distrC.
have e : 2%:R^-1 + 2%:R^-1 = 1 :> R by rewrite -mulr2n -[_ *+ 2]mulr_natl mulfV ?pnatr_eq0.
by rewrite -[X in _ < X]e; exact: ler_lt_add (hr x) h.
Qed.

Lemma bin_mono k n m : (k <= n)%N -> (0 < m)%N -> ('C(k + m - 1, k) <= 'C(n + m - 1, n))%N.
Proof.
case: m => // m kn _; rewrite !addnS !subn1 /=.
elim: n kn => [|n IH]; first by rewrite leqn0 => /eqP ->.
rewrite leq_eqVlt => /orP [/eqP -> //|]; rewrite ltnS => /IH h; apply: leq_trans h _.
by rewrite addSn binS leq_addl.
Qed.

Lemma fl_dimension_exact (u : R) (n m : nat) (losses : bool) : (0 < m)%N -> 0 <= u ->
  (forall a b, `|binom a b - 'C(a, b)%:R| <= u * 'C(a, b)%:R) ->
  u * 'C(n + m - 1, n)%:R < 2%:R^-1 ->
  fl_bosonic_space_dimension binom round n m losses = Posz (bosonic_space_dimension n m losses).
Proof.
move=> m0 u0 acc hu.
have one k : (k <= n)%N -> round (binom (k + m - 1)%N k) = Posz 'C(k + m - 1, k).
  move=> kn; apply: round_near; rewrite -pmulrn; apply: le_lt_trans (acc _ _) _.
  by apply: le_lt_trans hu; apply: ler_wpmul2l => //; rewrite ler_nat bin_mono.
rewrite /fl_bosonic_space_dimension /bosonic_space_dimension one //.
case: losses => //=.
have : all (fun k => k <= n)%N (iota 0 n) by apply/allP => k; rewrite mem_iota add0n => /ltnW.
move: 'C(n + m - 1, n) => d; elim: (iota 0 n) d => //= k l IH d /andP [kn ln].
by rewrite one // -IH // PoszD.
Qed.

Lemma near_int (T C : nat) (a e : int) (x : R) : (`|a| < T)%N -> x = a%:~R * 2%:R ^ e ->
  `|x - C%:R| <= 2%:R^-1 -> (T < C)%N -> x = C%:R.
Proof.
move=> aT Ex near TC.
have h1 : 2%:R^-1 < 1 :> R by rewrite invf_lt1 ?ltr1n ?ltr0n.
case: e Ex => k Ex.
  have xk : x = (a * (2 ^ k)%N)%:~R by rewrite Ex rmorphM /= -pmulrn natrX.
  have xC : a * (2 ^ k)%N = C.
    by apply: int_near; rewrite -xk -pmulrn; apply: le_lt_trans near h1.
  by rewrite xk xC -pmulrn.
have xs : `|x| <= T%:R.
  rewrite Ex normrM -intr_norm NegzE -exprnN normfV normrX normr_nat.
  rewrite ler_pdivr_mulr ?exprn_gt0 ?ltr0n // -natrX -natrM.
  rewrite -abszE -pmulrn ler_nat; apply: leq_trans (ltnW aT) _.
  by rewrite leq_pmulr // expn_gt0.
have : C%:R <= `|x| + 2%:R^-1.
  have -> : C%:R = x - (x - C%:R) :> R by rewrite opprB addrC subrK.
  by rewrite (le_trans (ler_norm _)) // (le_trans (ler_norm_sub _ _)) // ler_add2l.
move=> h; have : C%:R < T.+1%:R :> R.
  by rewrite -addn1 natrD; apply: le_lt_trans h _; apply: ler_lt_add.
by rewrite ltr_nat ltnS leqNgt TC.
Qed.

Lemma fl_dimension_wrong (n m : nat) :
  (forall a b, float64 (binom a b)) ->
  odd 'C(n + m - 1, n) -> (2 ^ 53 < 'C(n + m - 1, n))%N ->
  fl_bosonic_space_dimension binom round n m false <> Posz (bosonic_space_dimension n m false).
Proof.
move=> fb; rewrite /fl_bosonic_space_dimension /bosonic_space_dimension /=.
have := hr (binom (n + m - 1)%N n); have := fb (n + m - 1)%N n.
move: (binom _ _) => x fx near oC C53 E; move: near; rewrite E -pmulrn => near.
move: (fx) => [a [e [sa _ Ex]]].
have ba : (`|a| < 2 ^ 53)%N.
  by move: sa; rewrite -abszE -[Posz `|a|]natz two53 ltr_nat.
have xC := near_int ba Ex near C53; rewrite xC in fx.
refine (@not_float64 R _ _ _ fx); first by rewrite odd_gt0.
by rewrite -[X in (_ < X`_ _)%N]muln1 -[X in (_ * X)%N](expn0 2) odd_part_mul // odd_gt0.
Qed.
End Dimension.

(* ------------------------------------------------------------------ *)
(* such operations exist *)
Section Exist.
Variable R : rcfType.
Local Open Scope ring_scope.

Definition small_float (T : nat) (x : R) : bool :=
  has (fun b : nat => has (fun e : nat => x == b%:R * 2%:R ^ (Posz e - 1074)) (iota 0 2046)) (iota 0 T).

Lemma small_floatP (T : nat) (x : R) : small_float T x ->
  exists (a e : int), [/\ `|a| < Posz T, -1074 <= e <= 971 & x = a%:~R * 2%:R ^ e].
Proof.
case/hasP => b; rewrite mem_iota add0n => bT /hasP [e]; rewrite mem_iota add0n => es /eqP ->.
exists (Posz b), (Posz e - 1074); split; [by lia| |by rewrite -pmulrn].
by lia.
Qed.

Lemma small_float_nat (T : nat) (k : nat) (a e : int) : `|a| < Posz T -> -1074 <= e <= 971 ->
  k%:R = a%:~R * 2%:R ^ e :> R -> small_float T (k%:R).
Proof.
move=> aT es E; apply/hasP; exists `|a|%N; first by rewrite mem_iota add0n /=; lia.
apply/hasP; exists (absz (e + 1074)); first by rewrite mem_iota add0n /=; lia.
have -> : Posz (absz (e + 1074)) - 1074 = e by lia.
rewrite -{1}(normr_nat R k) E normrM; apply/eqP; congr (_ * _); first by rewrite pmulrn abszE intr_norm.
by rewrite ger0_norm // exprz_ge0 // ler0n.
Qed.

Lemma float64_posz (x : R) : float64 x <->
  exists (a e : int), [/\ `|a| < Posz (2 ^ 53)%N, -1074 <= e <= 971 & x = a%:~R * 2%:R ^ e].
Proof. by rewrite /float64 two53 natz. Qed.

Lemma count_ops_exist : exists (factorial : nat -> option R) (floordiv : R -> R -> option R),
  float_factorial factorial /\ float_floordiv floordiv.
Proof.
exists (fun n => if (n <= 22)%N then Some n`!%:R else None).
exists (fun x y => if small_float (2 ^ 53)%N (x / y) then Some (x / y) else None).
split; [split|split].
- move=> n x; case: ifP => // n22 [<-]; exact: (@float64_divisor R n).
- move=> n fn; case: ifP => // /negbT; rewrite -ltnNge => n23.
  by case: (fact_not_float64 n23 fn).
- move=> n h; case: ifP => // n22; exfalso.
  move: (leq_trans h (dvdn_leq (fact_gt0 22) (fact_dvd n22))).
  have [X [_ s _ ->]] := fact22; rewrite leqNgt => /negP; apply.
  apply: (@leq_trans (2 ^ 53 * 2 ^ 19)); first by rewrite ltn_pmul2r ?expn_gt0.
  by rewrite -expnD leq_exp2l.
- move=> x y z; case: ifP => // /small_floatP h [<-]; apply/float64_posz; exact: h.
- move=> k l l0 _ _ /float64_posz [a [e [h1 h2 h3]]].
  have -> : (k * l)%:R / l%:R = k%:R :> R by rewrite natrM mulfK // pnatr_eq0 -lt0n.
  by rewrite (small_float_nat h1 h2 h3).
Qed.
End Exist.

(* ------------------------------------------------------------------ *)
(* get_prime_factors *)
Section PrimeFactors.
Variables (fdiv : nat -> nat -> nat) (isq : nat -> nat).

Section Below.
Variables (T : nat).
Hypothesis hT : forall n i, 0 < i -> i %| n -> n < T -> fdiv n i = n %/ i.

Lemma fl_divide_outE fuel i n fs : 0 < i -> n < T -> fl_divide_out fdiv fuel i n fs = divide_out fuel i n fs.
Proof.
move=> i0; elim: fuel n fs => //= fuel IH n fs nT; case: ifP => // /eqP ni.
have di : i %| n by rewrite /dvdn ni.
by rewrite (hT i0 di nT) IH // (leq_ltn_trans (leq_div _ _)).
Qed.

Lemma divide_out_le fuel i n fs r : divide_out fuel i n fs = Ok r -> r.1 <= n.
Proof.
elim: fuel n fs => //= fuel IH n fs; case: ifP => _; last by case=> <-.
by move/IH => h; apply: leq_trans h (leq_div _ _).
Qed.

Lemma fl_prime_factorsE fuel n : (forall m, m < T -> isq m = isqrt m) -> n < T ->
  fl_prime_factors fdiv isq fuel n = get_prime_factors fuel (Posz n).
Proof.
move=> hs nT; rewrite /fl_prime_factors /= /prime_factors_nat fl_divide_outE //.
case E: (divide_out fuel 2 n [::]) => [nf|e] //=.
have nfT : nf.1 < T by apply: leq_ltn_trans (divide_out_le E) nT.
rewrite hs //; congr rbind.
have : all (fun i => 0 < i) (odds_from_3 (isqrt nf.1).+1) by apply/allP => i /mapP [j _ ->].
move: (odds_from_3 _) => L; clear E; elim: L nf nfT => //= i l IH x xT /andP [i0 l0].
rewrite fl_divide_outE //; case E1: (divide_out fuel i x.1 x.2) => [y|e] //=.
by apply: IH => //; apply: leq_ltn_trans (divide_out_le E1) xT.
Qed.
End Below.

Lemma fl_divide_out_prefix fuel i n fs r : fl_divide_out fdiv fuel i n fs = Ok r ->
  exists l, r.2 = fs ++ l.
Proof.
elim: fuel n fs => //= fuel IH n fs; case: ifP => _; last by case=> <-; exists [::]; rewrite cats0.
by case/IH => l ->; exists (i :: l); rewrite cat_rcons.
Qed.

Lemma rfoldl_prefix fuel l nf r : rfoldl (fun nf i => fl_divide_out fdiv fuel i nf.1 nf.2) nf l = Ok r ->
  exists k, r.2 = nf.2 ++ k.
Proof.
elim: l nf => [|i l IH] nf /=; first by case=> <-; exists [::]; rewrite cats0.
case E: (fl_divide_out fdiv fuel i nf.1 nf.2) => [y|e] //= /IH [k ->].
by have [k' ->] := fl_divide_out_prefix E; exists (k' ++ k); rewrite catA.
Qed.

(* an even number whose half is not a float64 number *)
Lemma fl_prime_factors_wrong T fuel m l : odd m -> T < m ->
  (T <= m -> T <= fdiv m.*2 2 /\ exists b k, b < T /\ fdiv m.*2 2 = b * 2 ^ k) ->
  fl_prime_factors fdiv isq fuel m.*2 = Ok l -> \prod_(f <- l) f <> m.*2.
Proof.
move=> om Tm /(_ (ltnW Tm)) [ge [b [k [bT E]]]].
have ev : fdiv m.*2 2 %% 2 == 0.
  move: ge; rewrite E; case: k {E} => [|k]; first by rewrite muln1 leqNgt bT.
  by rewrite expnS mulnCA modnMr.
have e2 : m.*2 %% 2 == 0 by rewrite modn2 odd_double.
rewrite /fl_prime_factors; case: fuel => [|[|fuel]] //=; rewrite e2 //= ev.
case E1: (fl_divide_out fdiv fuel 2 _ _) => [nf|e] //=.
have [l1 h1] := fl_divide_out_prefix E1; rewrite /= in h1.
case E2: (rfoldl _ nf _) => [r|e] //= [<-].
have [l2 ->] := @rfoldl_prefix fuel.+2 _ _ _ E2; rewrite h1 /= !big_cons => h.
have : 4 %| m.*2 by rewrite -h mulnA dvdn_mulr.
rewrite -mul2n (_ : 4 = 2 * 2) // dvdn_pmul2l // dvdn2.
by rewrite om.
Qed.
End PrimeFactors.
