(* Version B of the samplers with rounded arithmetic: the probabilities of the next mode. *)
From mathcomp Require Import all_ssreflect all_fingroup all_algebra complex.
From mathcomp Require Import ring zify.
From Verif Require Import Base SpecStates Combi SpecPerm PermMath SpecBS BsMath BsComb BsNorm.
From Verif Require Import ModelStates ProofStates1 LemStates ModelPerm ProofPerm6 LemPerm ModelDist ProofDist1
  SpecProb ProbMath ModelGcc ModelGccB SampMath ProofSel ProofGcc1 ProofGcc2 ProofGcc3 ProofGccB1
  ModelFloat ModelFloatDist SpecFloat SpecFloatSub SpecFloatGcc SpecFloatGccB ProofFloat ProofFloat4 ProofFloatDist ProofFloatDist2
  ModelFloatSub ModelFloatGcc ModelFloatGccB ProofFloatSub2 ProofFloatGcc1 ProofFloatGcc2 ProofFloatGcc3.
Set Implicit Arguments.
Unset Strict Implicit.
Unset Printing Implicit Defensive.
Import Order.Theory GRing.Theory Num.Theory.
Local Open Scope ring_scope.
Local Open Scope py_scope.

Lemma ryser_sub_scaleC (R : rcfType) n c (x : R) :
  ryser_sub_scale n c ((x%:C)%C : ComplexField.complex_numFieldType R) = ((ryser_sub_scale n c x)%:C)%C.
Proof. by rewrite /ryser_sub_scale rmorphX rmorphM rmorph_nat. Qed.

Section Pmf.
Variable R : rcfType.
Notation CF := (ComplexField.complex_numFieldType R).
Variables (u eps : R) (A : arith CF) (B : arith R) (f_abs : CF -> R) (f_sum : seq R -> R).
Hypothesis u0 : 0 <= u.
Hypothesis u2 : u <= 4%:R^-1.
Hypothesis accA : accurate (u%:C)%C A.
Hypothesis accB : accurate u B.
Hypothesis acc_abs : forall z, `|f_abs z - py_abs z| <= u * py_abs z.
Variables (fuel m : nat) (U V : seq (seq CF)) (s : seq nat).
Hypotheses (uU : unitary_on m U s /\ entries_bounded m U (1%:C)%C) (sqV : is_square m V) (ss : size s = m).
Hypothesis fu : (code_number s <= fuel)%N.
Hypothesis e0 : 0 <= eps.
Hypothesis UV : forall j i, (j < m)%N -> (i < m)%N -> `|ent V j i - ent U j i| <= (eps%:C)%C.
Notation nearC := (near (u%:C)%C).
Let uC0 : 0 <= (u%:C)%C :> CF. Proof. by rewrite ler0c. Qed.
Let uC2 : (u%:C)%C <= 2%:R^-1 :> CF.
Proof.
have -> : 2%:R^-1 = ((2%:R^-1)%:C)%C :> CF by rewrite fmorphV rmorph_nat.
by rewrite lecR; apply: le_trans u2 _; rewrite lef_pinv ?posrE ?ltr0n // ler_nat.
Qed.

Notation scale l := (ryser_sub_scale l (code_number s) (1 + eps) : R).

Lemma boundV' : entries_bounded m V ((1 + eps)%:C)%C.
Proof.
move=> j i jm im; rewrite -[ent V j i](subrK (ent U j i)) addrC; apply: le_trans (ler_norm_add _ _) _.
by rewrite rmorphD; apply: ler_add; [apply: uU.2|apply: UV].
Qed.

Lemma square_nn (x : R) : 0 <= f_pow B x 2.
Proof.
have := acc_pow accB x 2; rewrite ler_norml => /andP[h _].
have x2 : 0 <= x ^+ 2 by apply: sqr_ge0.
rewrite (ger0_norm x2) ler_subr_addr in h; apply: le_trans h.
rewrite -[X in _ + X]mul1r addrC -mulrBl mulr_ge0 // subr_ge0.
rewrite ler_subl_addr; apply: (@le_trans _ _ ((1 + 4%:R^-1) ^+ 2)).
  by apply: ler_expn2r; rewrite ?nnegrE ?addr_ge0 ?ler01 ?invr_ge0 ?ler0n // ler_add2l.
have -> : (1 + 4%:R^-1) ^+ 2 = 25%:R / 16%:R :> R by field.
by rewrite ler_pdivr_mulr ?ltr0n // -[1 + 1]/(2%:R : R) -natrM ler_nat.
Qed.

Lemma fl_compute_pmfE (b : gccb R) : calc_matrix (b_calc b) = V -> substate (b_current b) s ->
  size (b_r b) = m -> sumn (b_current b) = (sumn (b_r b)).+1 ->
  exists w, [/\ fl_compute_pmf A B f_abs f_sum fuel b = Ok (GccB (b_r b) (b_n b) (set_input (b_current b) (b_calc b))
       (b_input b) (b_current b) (b_working b) (fl_normalised B f_sum w)),
    size w = m, all (fun x => 0 <= x) w &
    forall j, (j < m)%N -> `|w`_j - nsq (bs_permanent U (b_current b) (incr (b_r b) j))| <=
       square_error u eps m s (sumn (b_r b))].
Proof.
move=> eV sT sr e; rewrite /fl_compute_pmf eV.
set T := b_current b in sT e *; set r := b_r b in sr e *; set l := sumn r in e *.
have /substateP[szT _] := sT.
have cT : (code_number T <= code_number s)%N := prod_subs sT.
have srT : size r = size T by rewrite sr szT ss.
have Tm : (size T <= m)%N by rewrite szT ss.
have cf : (code_number T <= fuel)%N := leq_trans cT fu.
have [ps [c' [-> _ sps hps]]] := @fl_sub_nearE CF _ A uC0 uC2 accA m V T r _ sqV srT Tm e boundV'
  Ryser (new_subcalc V T r) fuel erefl erefl erefl cf.
rewrite [rbind (Ok _) _]/=; rewrite szT ss in hps; rewrite szT ss in sps.
have /andP[/eqP szV /all_nthP rowV] := sqV.
set K := sub_roundings m l (code_number s).
have mu0 : 0 <= 1 + eps by rewrite addr_ge0 ?ler01.
have np i : (i < m)%N -> nearC K ((sub_permanents V T r)`_i) ((scale l)%:C)%C ps`_i.
  move=> im; apply: near_mono (hps i im) => //.
    by rewrite /K /sub_roundings; nia.
  rewrite /sub_scale ryser_sub_scaleC lecR /ryser_sub_scale; apply: ler_expn2r.
  - by rewrite nnegrE mulr_ge0 ?ler0n.
  - by rewrite nnegrE mulr_ge0 ?ler0n.
  by rewrite ler_wpmul2r // ler_nat leq_mul.
pose x i := nth 0%N T i.
have S j k : (j < m)%N -> (k <= m)%N -> exists z, [/\ rfoldl (fun perm i =>
      let! x := py_get T (Posz i) in
      let! q := py_get ps (Posz i) in
      let! row := py_get V (Posz j) in
      let! z := py_get row (Posz i) in
      Ok (f_add A perm (f_mul A (f_mul A (f_int A (Posz x)) q) z))) 0 (iota 0 k) = Ok z &
      nearC (K + 3 + k) (\sum_(i < k) (x i)%:R * ent V j i * bs_permanent V (decr T i) r)
        ((\sum_(i < k) (x i)%:R * (scale l * (1 + eps)))%:C)%C z].
  move=> jm; elim: k => [|k IH] kl.
    by exists 0; split=> //; rewrite !big_ord0; apply: near_exact; rewrite ?normr0 ?lexx.
  have [z [E nz]] := IH (ltnW kl).
  exists (f_add A z (f_mul A (f_mul A (f_int A (Posz (x k))) ps`_k) (ent V j k))); split.
    rewrite -[k.+1]addn1 iotaD rfoldl_cat E add0n [rbind (Ok _) _]/=.
    rewrite (py_get_nth 0%N) ?szT ?ss // [rbind (Ok _) _]/=.
    rewrite (py_get_nth 0) ?sps // [rbind (Ok _) _]/=.
    rewrite (py_get_nth [::]) ?szV // [rbind (Ok _) _]/=.
    by rewrite (py_get_nth 0) //; rewrite (eqP (rowV [::] j _)) ?szV.
  rewrite !big_ord_recr rmorphD addnS; apply: near_add => //.
  have n1 := near_int uC0 accA (Posz (x k)); rewrite -pmulrn normr_nat in n1.
  have n2 : nearC 0 (ent V j k) ((1 + eps)%:C)%C (ent V j k) by apply: near_exact => //; apply: boundV'.
  have := near_mul uC0 accA (near_mul uC0 accA n1 (np k kl)) n2.
  have -> : (x k)%:R * (sub_permanents V T r)`_k * ent V j k = (x k)%:R * ent V j k * bs_permanent V (decr T k) r.
    rewrite /sub_permanents (nth_map 0%N) ?size_iota ?szT ?ss // nth_iota ?szT ?ss // add0n.
    rewrite /one_less -decrE -/(x k); case: eqP => [->|_]; first by rewrite !mul0r.
    by rewrite mulrAC.
  have -> : (x k)%:R * ((scale l)%:C)%C * ((1 + eps)%:C)%C = (((x k)%:R * (scale l * (1 + eps)))%:C)%C :> CF.
    by rewrite -mulrA !rmorphM rmorph_nat.
  by apply: near_k => //; lia.
have Sj j : (j < m)%N -> exists v, [/\ (let! perm := rfoldl (fun perm i =>
      let! x := py_get T (Posz i) in
      let! q := py_get ps (Posz i) in
      let! row := py_get V (Posz j) in
      let! z := py_get row (Posz i) in
      Ok (f_add A perm (f_mul A (f_mul A (f_int A (Posz x)) q) z))) 0 (iota 0 m) in
      Ok (f_pow B (f_abs perm) 2)) = Ok v, 0 <= v &
      `|v - nsq (bs_permanent U T (incr r j))| <= square_error u eps m s l].
  move=> jm; have [z [-> nz]] := S j m jm (leqnn m).
  rewrite [rbind (Ok _) _]/=; exists (f_pow B (f_abs z) 2); split=> //; first exact: square_nn.
  have pE : \sum_(i < m) (x i)%:R * ent V j i * bs_permanent V (decr T i) r = bs_permanent V T (incr r j).
    by rewrite bs_permanent_incr ?sr // szT ss.
  have sE : \sum_(i < m) (x i)%:R * (scale l * (1 + eps)) = l.+1%:R * (scale l * (1 + eps)).
    rewrite -mulr_suml -natr_sum -e sumnE (big_nth 0%N) big_mkord szT ss; congr (_%:R * _).
  rewrite pE sE in nz; have na := near_abs u0 acc_abs nz.
  have [_ h] := near_pow u0 accB 2 na; rewrite py_abs_sq in h.
  rewrite -[f_pow _ _ _](subrK (nsq (bs_permanent V T (incr r j)))) -addrA.
  apply: le_trans (ler_norm_add _ _) _; apply: ler_add.
    apply: le_trans h _; apply: ler_wpmul2r; first by apply: sqr_ge0.
    by rewrite ler_add2r; apply: E_le => //; rewrite /square_roundings -/K; lia.
  have := near_nsq e0 uU.2 UV (s := T) (t := incr r j).
  by rewrite szT ss size_incr ?sumn_incr ?sr // -/l -e; apply.
have [v Hv] := choose_seq 0 Sj.
exists [seq v j | j <- iota 0 m]; split.
- by rewrite szT ss sr (rmapM_ok (g := v)) // => j; rewrite mem_iota => /= jm; have [] := Hv j jm.
- by rewrite size_map size_iota.
- by apply/allP => y /mapP[j]; rewrite mem_iota => /= jm ->; have [] := Hv j jm.
- by move=> j jm; rewrite (nth_map 0%N) ?size_iota // nth_iota //; have [] := Hv j jm.
Qed.

End Pmf.
