(* The mean of the multinomial laws over random phases. *)
From mathcomp Require Import all_ssreflect all_algebra complex.
From mathcomp Require Import ring zify.
From Verif Require Import Base SpecProb ProbMath SpecStates Combi SpecPerm PermMath SpecBS BsMath BsComb BsNorm BsSym SpecNet ProofNet4 SpecLim SpecFixed ProofFixed1 ModelGcc ModelBobs ProofLim1 ProofLim2.
Set Implicit Arguments.
Unset Strict Implicit.
Unset Printing Implicit Defensive.
Import Order.TTheory GRing.Theory Num.Theory.
Local Open Scope ring_scope.
Local Open Scope py_scope.

Section Expand.
Variable F : numFieldType.
Implicit Types (c : nat -> F) (a : seq nat).

Definition mono n c a : F := \prod_(j < n) c j ^+ nth 0%N a j.

Lemma mono_incr n c a i : (i < n)%N -> mono n c (incr a i) = c i * mono n c a.
Proof.
move=> il; rewrite /mono (bigD1 (Ordinal il)) //= [in RHS](bigD1 (Ordinal il)) //= nth_incr eqxx exprS -mulrA.
by congr (_ * (_ * _)); apply: eq_bigr => j ne; rewrite nth_incr; case: eqP => // e; case/eqP: ne; apply: val_inj.
Qed.

Lemma prod_expand (u : nat -> nat -> F) c n x :
  \prod_(p <- x) (\sum_(b < n) u p b * c b) =
  \sum_(a <- comps n (size x)) PerO u x a / (factprod a)%:R * mono n c a.
Proof.
elim: x => [|p x IH].
  rewrite big_nil comps_zero big_seq1 /= /factprod big1_seq => [|y /andP[_ /nseqP[-> _]] //].
  by rewrite divr1 mul1r /mono big1 // => i _; rewrite nth_nseq if_same.
rewrite big_cons IH mulr_sumr.
transitivity (\sum_(r <- comps n (size x)) \sum_(j < n) (fun j a => (nth 0%N a j)%:R * u p j * PerO u x (decr a j) / (factprod a)%:R * mono n c a) j (incr r j)).
  apply: eq_big_seq => r; rewrite mem_comps => /andP[/eqP sr _]; rewrite mulr_suml; apply: eq_bigr => j _.
  have jl : (j < size r)%N by rewrite sr.
  rewrite decr_incr // factprod_incr // mono_incr // nth_incr eqxx natrM.
  have n1 : ((nth 0%N r j).+1%:R : F) != 0 by rewrite pnatr_eq0.
  have n2 : ((factprod r)%:R : F) != 0 by rewrite pnatr_eq0 -lt0n factprod_gt0.
  move: (nth 0%N r j).+1%:R (factprod r)%:R n1 n2 (mono _ _ _) (PerO _ _ _) => A B A0 B0 M P; by field; rewrite ?A0 ?B0.
rewrite -(@comps_incr _ n (size x) (fun j a => (nth 0%N a j)%:R * u p j * PerO u x (decr a j) / (factprod a)%:R * mono n c a)); last first.
  by move=> j t ->; rewrite !mul0r.
apply: eq_big_seq => a; rewrite mem_comps => /andP[/eqP sa _]; rewrite PerO_cons -!mulr_suml sa.
by congr (_ * _ * _); apply: eq_bigr.
Qed.

Lemma multinomial_theorem c n l :
  (\sum_(b < n) c b) ^+ l = \sum_(a <- comps n l) l`!%:R / (factprod a)%:R * mono n c a.
Proof.
elim: l => [|l IH].
  rewrite expr0 comps_zero big_seq1 /= /factprod big1_seq => [|y /andP[_ /nseqP[-> _]] //].
  by rewrite divr1 mul1r /mono big1 // => i _; rewrite nth_nseq if_same.
rewrite exprS IH mulr_sumr.
transitivity (\sum_(r <- comps n l) \sum_(j < n) (fun j a => (nth 0%N a j)%:R * l`!%:R / (factprod a)%:R * mono n c a) j (incr r j)).
  apply: eq_big_seq => r; rewrite mem_comps => /andP[/eqP sr _]; rewrite mulr_suml; apply: eq_bigr => j _.
  have jl : (j < size r)%N by rewrite sr.
  rewrite factprod_incr // mono_incr // nth_incr eqxx natrM.
  have n1 : ((nth 0%N r j).+1%:R : F) != 0 by rewrite pnatr_eq0.
  have n2 : ((factprod r)%:R : F) != 0 by rewrite pnatr_eq0 -lt0n factprod_gt0.
  move: (nth 0%N r j).+1%:R (factprod r)%:R (l`!)%:R n1 n2 (mono _ _ _) => A B L A0 B0 M; by field; rewrite ?A0 ?B0.
rewrite -(@comps_incr _ n l (fun j a => (nth 0%N a j)%:R * l`!%:R / (factprod a)%:R * mono n c a)); last first.
  by move=> j t ->; rewrite !mul0r.
apply: eq_big_seq => a; rewrite mem_comps => /andP[/eqP sa /eqP ea]; rewrite -!mulr_suml.
congr (_ / _ * _); rewrite -natr_sum factS natrM; congr (_%:R * _); rewrite -ea sumnE [RHS](big_nth 0%N) big_mkord sa //.
Qed.
End Expand.

Section Mean.
Variable R : rcfType.
Notation C := (ComplexField.complex_numFieldType R).
Variable cis : R -> C.
Hypothesis ok : cis_ok cis.
Variables (m n : nat) (D : seq (seq C)).
Hypothesis nm : (n <= m)%N.

Definition amp (d : seq R) (i : nat) : C := \sum_(j < n) ent D i j * cis d`_j.

Lemma nsq_prod (I : Type) (r : seq I) (f : I -> C) : nsq (\prod_(i <- r) f i) = \prod_(i <- r) nsq (f i).
Proof. by elim: r => [|i r IH]; rewrite ?big_nil ?nsq1 // !big_cons nsqM IH. Qed.

Lemma RtoC_inj (x y : R) : x%:C%C = y%:C%C -> x = y. Proof. by case. Qed.

Lemma mono_charac a b d : size a = n -> mono n (fun j => cis d`_j) a * conjc (mono n (fun j => cis d`_j) b) = charac cis a b d.
Proof.
move=> sa; rewrite /mono rmorph_prod -big_split /charac sa /=; apply: eq_bigr => j _.
by rewrite rmorphX.
Qed.

Lemma charac_pad a b d k : size a = size b -> charac cis (a ++ nseq k 0%N) (b ++ nseq k 0%N) d = charac cis a b d.
Proof.
move=> e; rewrite /charac size_cat size_nseq big_split_ord /= [X in _ * X]big1 ?mulr1 => [|j _].
  by apply: eq_bigr => j _; rewrite !nth_cat -e ltn_ord.
by rewrite !nth_cat -e ltnNge leq_addr /= addKn !nth_nseq !if_same !expr0 mulr1.
Qed.

Lemma grid_charac_n N a b : size a = n -> size b = n -> all (fun x => x < N)%N a -> all (fun x => x < N)%N b -> (0 < N)%N ->
  \sum_(d <- grid R m N) charac cis a b d = (a == b)%:R * N%:R ^+ m.
Proof.
move=> sa sb aN bN N0.
have -> : (a == b) = (a ++ nseq (m - n) 0%N == b ++ nseq (m - n) 0%N) by rewrite eqseq_cat ?sa ?sb // eqxx andbT.
rewrite -(@grid_charac _ _ ok m N (a ++ nseq (m - n) 0%N) (b ++ nseq (m - n) 0%N)) //; last first.
- by rewrite all_cat bN; apply/allP => x /nseqP[-> _].
- by rewrite all_cat aN; apply/allP => x /nseqP[-> _].
- by rewrite size_cat sb size_nseq subnKC.
- by rewrite size_cat sa size_nseq subnKC.
by apply: eq_bigr => d _; rewrite charac_pad ?sa ?sb.
Qed.

Lemma comps_small l N a : (l < N)%N -> a \in comps n l -> all (fun x => x < N)%N a.
Proof.
move=> lN; rewrite mem_comps => /andP[_ /eqP ea]; apply/allP => x xa; apply: leq_ltn_trans lN.
by rewrite -ea sumnE (big_rem x) //= leq_addr.
Qed.

Lemma grid_nsq N x : (size x < N)%N ->
  \sum_(d <- grid R m N) nsq (\prod_(p <- x) amp d p) =
  N%:R ^+ m * \sum_(a <- comps n (size x)) nsq (PerO (ent D) x a) / (factprod a)%:R ^+ 2.
Proof.
move=> lN; have N0 := leq_ltn_trans (leq0n _) lN; apply: RtoC_inj.
pose A a : C := PerO (ent D) x a / (factprod a)%:R.
pose c (d : seq R) j : C := cis d`_j.
have E d : (nsq (\prod_(p <- x) amp d p))%:C%C = \sum_(a <- comps n (size x)) \sum_(b <- comps n (size x)) (A a * conjc (A b)) * charac cis a b d.
  rewrite nsqE mulrC (prod_expand (ent D) (c d)) rmorph_sum mulr_suml; apply: eq_big_seq => a; rewrite mem_comps => /andP[/eqP sa _].
  rewrite mulr_sumr; apply: eq_bigr => b _.
  rewrite -mono_charac // rmorphM /= -/(A a) -/(A b) -/(c d).
  by move: (A a) (conjc (A b)) (mono n (c d) a) (conjc (mono n (c d) b)) => u v w z; ring.
rewrite (rmorph_sum (ComplexField.real_complex_rmorphism R)) /=.
rewrite (eq_bigr _ (fun d _ => E d)) exchange_big /=.
rewrite (rmorphM (ComplexField.real_complex_rmorphism R)) /= (rmorph_sum (ComplexField.real_complex_rmorphism R)) /= mulr_sumr.
apply: eq_big_seq => a aC; rewrite exchange_big /= (bigD1_seq a) ?comps_uniq //= [X in _ + X]big1_seq ?addr0; last first.
  move=> b /andP[ne bC]; rewrite -mulr_sumr grid_charac_n ?(comps_small lN) // => [||].
  - by rewrite eq_sym (negPf ne) mul0r mulr0.
  - by move: aC; rewrite mem_comps => /andP[/eqP].
  by move: bC; rewrite mem_comps => /andP[/eqP].
have sa : size a = n by move: aC; rewrite mem_comps => /andP[/eqP].
rewrite -mulr_sumr grid_charac_n ?(comps_small lN) // eqxx mul1r mulrC (rmorphX (ComplexField.real_complex_rmorphism R)) (rmorph_nat (ComplexField.real_complex_rmorphism R)).
congr (_ * _); rewrite mulrC -nsqE /A nsqM; congr (_ * _)%:C%C.
have f0 : ((factprod a)%:R : R) ^+ 2 != 0 by rewrite expf_neq0 // pnatr_eq0 -lt0n factprod_gt0.
have f1 : ((factprod a)%:R : C) != 0 by rewrite pnatr_eq0 -lt0n factprod_gt0.
by apply: (mulfI f0); rewrite divff // -nsq_nat -nsqM divff // nsq1.
Qed.

Lemma PerO_pad x a k : PerO (ent D) x (a ++ nseq k 0%N) = PerO (ent D) x a.
Proof. by rewrite !PerO_PerL particle_modes_zeros. Qed.

Lemma factprod_pad a k : factprod (a ++ nseq k 0%N) = factprod a.
Proof. by rewrite factprod_cat [X in (_ * X)%N]big1_seq ?muln1 // => y /andP[_ /nseqP[-> _]]. Qed.

(* the l-particle law in terms of the amplitudes of one particle in D *)
Lemma multinomial_traced M e l t d : (0 < n)%N -> dilation m e M D -> size t = m -> (sumn t <= l)%N ->
  multinomial_prob l (smeared cis m M n d) t =
  \sum_(r <- comps e (l - sumn t)) l`!%:R / (factprod (t ++ r))%:R / n%:R ^+ l * nsq (\prod_(p <- particle_modes (t ++ r)) amp d p).
Proof.
move=> n0 [dM dO] st tl; pose q i := nsq (amp d i) / n%:R.
have nR : (n%:R : R) != 0 by rewrite pnatr_eq0 -lt0n.
have sq i : (i < m)%N -> (smeared cis m M n d)`_i = q i.
  move=> il; rewrite (nth_map 0%N) ?size_iota // nth_iota // add0n /q /amp; congr (nsq _ / _).
  rewrite [RHS](big_ord_widen m (fun j => ent D i j * cis d`_j) nm); apply: eq_bigr => j jn; by rewrite dM.
have tot : \sum_(i < m + e) q i = 1.
  rewrite -mulr_suml; have -> : \sum_(i < m + e) nsq (amp d i) = \sum_(j < n) nsq (cis d`_j).
    rewrite -(@nsq_comb _ (m + e) n D (fun j => cis d`_j)).
      by apply: eq_bigr => i _; congr nsq; apply: eq_bigr => j _; rewrite mulrC.
    by move=> i i' il il' _ _; apply: dO; [exact: leq_trans il nm|exact: leq_trans il' nm].
  by case: ok => _ o _; under eq_bigr => j _ do rewrite o; rewrite sumr_const card_ord divff.
have rest : 1 - \sum_(x <- smeared cis m M n d) x = \sum_(i < e) q (m + i)%N.
  have -> : \sum_(x <- smeared cis m M n d) x = \sum_(i < m) q i.
    by rewrite (big_nth 0) big_mkord size_map size_iota; apply: eq_bigr => i _; rewrite sq.
  by rewrite -tot big_split_ord /= addrAC subrr add0r.
rewrite /multinomial_prob rest (multinomial_theorem (fun i => q (m + i)%N)) mulr_sumr mulr_suml; apply: eq_big_seq => r.
rewrite mem_comps => /andP[/eqP sr /eqP er].
have -> : \prod_(i < size t) (smeared cis m M n d)`_i ^+ nth 0%N t i = mono m q t.
  by rewrite st; apply: eq_bigr => i _; rewrite sq.
have -> : nsq (\prod_(p <- particle_modes (t ++ r)) amp d p) = n%:R ^+ l * (mono m q t * mono e (fun i => q (m + i)%N) r).
  rewrite nsq_prod; have -> : mono m q t * mono e (fun i => q (m + i)%N) r = \prod_(p <- particle_modes (t ++ r)) q p.
    rewrite bigprod_particle_modes size_cat big_split_ord /= st sr; congr (_ * _); apply: eq_bigr => i _.
      by rewrite nth_cat st ltn_ord.
    by rewrite nth_cat st ltnNge leq_addr /= addKn.
  have -> : n%:R ^+ l = \prod_(p <- particle_modes (t ++ r)) n%:R :> R.
    by rewrite big_const_seq count_predT size_particle_modes sumn_cat er subnKC // -Monoid.iteropE.
  by rewrite -big_split; apply: eq_bigr => p _; rewrite /= /q mulrC divfK.
have -> : (\prod_(x <- t) x`! = factprod t)%N by [].
rewrite factprod_cat !natrM.
have n1 : ((l - sumn t)`!%:R : R) != 0 by rewrite pnatr_eq0 -lt0n fact_gt0.
have n2 : ((factprod t)%:R : R) != 0 by rewrite pnatr_eq0 -lt0n factprod_gt0.
have n3 : ((factprod r)%:R : R) != 0 by rewrite pnatr_eq0 -lt0n factprod_gt0.
have n4 : (n%:R ^+ l : R) != 0 by rewrite expf_neq0.
move: (l - sumn t)`!%:R (factprod t)%:R (factprod r)%:R (n%:R ^+ l) (l`!%:R) (mono _ _ _) (mono _ _ _) n1 n2 n3 n4 => A B E X L P Q A0 B0 E0 X0.
by field; rewrite ?A0 ?B0 ?E0 ?X0.
Qed.

Lemma grid_law M e l t N : (0 < n)%N -> dilation m e M D -> size t = m -> (sumn t <= l)%N -> (l < N)%N ->
  grid_mean m N (fun d => multinomial_prob l (smeared cis m M n d) t) = spread_prob m e D n l t.
Proof.
move=> n0 dD st tl lN; have NR : (N%:R ^+ m : R) != 0 by rewrite expf_neq0 // pnatr_eq0 -lt0n; lia.
rewrite /grid_mean -mulr_suml (eq_bigr _ (fun d _ => multinomial_traced d n0 dD st tl)) exchange_big /=.
have -> : spread_prob m e D n l t = \sum_(r <- comps e (l - sumn t)) l`!%:R / (factprod (t ++ r))%:R / n%:R ^+ l * \sum_(a <- comps n l) nsq (PerO (ent D) (particle_modes (t ++ r)) a) / (factprod a)%:R ^+ 2.
  transitivity (\sum_(a <- comps n l) \sum_(r <- comps e (l - sumn t)) l`!%:R / (factprod (t ++ r))%:R / n%:R ^+ l * (nsq (PerO (ent D) (particle_modes (t ++ r)) a) / (factprod a)%:R ^+ 2)); last first.
    by rewrite exchange_big; apply: eq_bigr => r _; rewrite -mulr_sumr.
  apply: eq_big_seq => a; rewrite mem_comps => /andP[/eqP sa /eqP ea].
  rewrite /traced_prob sumn_cat sumn_nseq mul0n addn0 ea mulr_sumr; apply: eq_big_seq => r; rewrite mem_comps => /andP[/eqP sr /eqP er].
  rewrite /bs_prob bs_permanent_PerO ?PerO_pad ?factprod_pad ?natrM /spread_weight; last first.
    by rewrite !sumn_cat sumn_nseq mul0n addn0 ea er subnKC.
  have n1 : ((factprod a)%:R : R) != 0 by rewrite pnatr_eq0 -lt0n factprod_gt0.
  have n2 : ((factprod (t ++ r))%:R : R) != 0 by rewrite pnatr_eq0 -lt0n factprod_gt0.
  have n4 : (n%:R ^+ l : R) != 0 by rewrite expf_neq0 // pnatr_eq0 -lt0n.
  move: (factprod a)%:R (factprod (t ++ r))%:R (n%:R ^+ l) (l`!%:R) (nsq _) n1 n2 n4 => A B X L P A0 B0 X0.
  by field; rewrite ?A0 ?B0 ?X0.
apply: (canLR (mulfK NR)); rewrite mulr_suml; apply: eq_big_seq => r; rewrite mem_comps => /andP[/eqP sr /eqP er].
have sx : size (particle_modes (t ++ r)) = l by rewrite size_particle_modes sumn_cat er subnKC.
by rewrite -mulr_sumr grid_nsq ?sx // mulrCA mulrC.
Qed.

Lemma mp_lipb M l t : cis_lipschitz cis -> lipb (fun d => multinomial_prob l (smeared cis m M n d) t).
Proof.
move=> lip.
have amp_l i : clipb (fun d => \sum_(j < m | (j < n)%N) ent M i j * cis d`_j).
  by apply: clipb_sum => j; apply: clipb_mul; [exact: clipb_const|exact: clipb_cis].
have sm i : lipb (fun d => (smeared cis m M n d)`_i).
  have [il|il] := ltnP i m; last by apply: lipb_ext (lipb_const 0) => d; rewrite nth_default // size_map size_iota.
  apply: lipb_ext (lipb_mul (clipb_nsq (amp_l i)) (lipb_const (n%:R^-1))) => d.
  by rewrite (nth_map 0%N) ?size_iota // nth_iota // add0n.
apply: lipb_mul; last by apply: lipb_prod => i; apply: lipb_exp; exact: sm.
apply: lipb_mul; first exact: lipb_const.
apply: lipb_exp; apply: lipb_add; first exact: lipb_const.
apply: lipb_opp; apply: (@lipb_ext _ (fun d => \sum_(i < m) (smeared cis m M n d)`_i)); last exact: lipb_sum.
by move=> d; rewrite [RHS](big_nth 0) big_mkord size_map size_iota.
Qed.
End Mean.
