(* Proofs about the approximated lossy distribution calculator. *)
From mathcomp Require Import all_ssreflect all_algebra complex ring zify.
From Verif Require Import Base SpecStates Combi SpecPerm SpecBS BsMath BsComb BsNorm ModelStates LemStates ModelPerm ModelDist ProofDist1 SpecProb ProbMath ModelGcc ModelGccB SpecGcc ModelNet SpecNet ProofNet1 ProofNet2 ProofNet3 ProofNet4 ProofNet5 ProofNet7 SpecSep ModelSep.
Set Implicit Arguments.
Unset Strict Implicit.
Unset Printing Implicit Defensive.
Import Order.TTheory GRing.Theory Num.Theory.
Local Open Scope ring_scope.
Local Open Scope py_scope.

(* ------------------------------------------------------------------ *)
(* the constructor *)
Section Construct.
Variable R : rcfType.
Notation C := (ComplexField.complex_numFieldType R).
Notation mat := (seq (seq C)).
Variable svd : mat -> res (mat * seq R * mat).

Lemma new_sep_attrs (at_ : sep_attrs R) (cfg : config R) (a : any_calc C) x : new_sep svd at_ cfg a = Ok x ->
  [/\ at_modes at_ <> None, at_transmissivity at_ <> None & at_conf_modes at_ <> None].
Proof.
rewrite /new_sep /prepare_initial_matrix; case: (py_get _ _) => [row|//]; rewrite [rbind (Ok _) _]/=.
case: (at_transmissivity at_) => [tau|//]; rewrite [rbind (py_getattr _) _]/=.
case: (at_modes at_) => [b|//]; rewrite [rbind (py_getattr _) _]/=.
case: (np_matmul _ _) => [X|//]; rewrite [rbind (Ok _) _]/=; case: (prepare_expanded _ _) => [E|//]; rewrite [rbind (Ok _) _]/=.
rewrite /prepare_initial_state; case: (np_set_prefix _ _ _) => [st|//]; rewrite [rbind (Ok _) _]/=.
by case: (at_conf_modes at_).
Qed.

Lemma new_sep_none (cfg : config R) (a : any_calc C) :
  new_sep svd (no_attrs R) cfg a = Err (if cf_matrix cfg is [::] then IndexError else AttributeError).
Proof.
rewrite /new_sep /prepare_initial_matrix; case: (cf_matrix cfg) => [|row M] //.
Qed.

Lemma initial_stateE (at_ : sep_attrs R) (cfg : config R) a m : cf_modes cfg = m -> size (cf_state cfg) = m ->
  at_conf_modes at_ = Some a -> (0 < a <= m)%N ->
  prepare_initial_state at_ cfg = Ok (bunched a (cf_state cfg) ++ nseq m 0%N).
Proof.
move=> em sz ea /andP[a0 am]; rewrite /prepare_initial_state em /np_set_prefix sz eqxx [rbind (Ok _) _]/= ea [rbind (py_getattr _) _]/=.
have -> : drop m (nseq (2 * m) 0%N) = nseq m 0%N by rewrite drop_nseq mul2n -addnn addnK.
have -> : Posz a - 1 = Posz a.-1 by lia.
rewrite [py_range _]/=; set s := cf_state cfg; set st := s ++ _.
have sst : size st = (m + m)%N by rewrite size_cat sz size_nseq.
have H k : (k <= a.-1)%N -> rfoldl (fun x i =>
      let! n := py_get x.2 (Posz i) in
      let! st := py_set x.2 (Posz i) 0%N in
      Ok ((x.1 + n)%N, st)) (0%N, st) (iota 0 k) = Ok (sumn (take k s), nseq k 0%N ++ drop k st).
  elim: k => [|k IH] kl; first by rewrite /= take0 drop0.
  have km : (k < m)%N by lia.
  rewrite -addn1 iotaD rfoldl_cat IH ?(ltnW kl) // [rbind _ _]/= add0n.
  have ks : (k < size (nseq k 0%N ++ drop k st))%N by rewrite size_cat size_nseq size_drop sst; lia.
  rewrite (py_get_nth 0%N) // [rbind _ _]/= (py_set_nth 0%N) // [rbind _ _]/=; congr (Ok (_, _)).
    rewrite addn1 (take_nth 0%N) ?sz // sumn_rcons nth_cat size_nseq ltnn subnn nth_drop addn0 nth_cat sz km.
    by [].
  apply: (@eq_from_nth _ 0%N); rewrite ?size_set_nth ?size_cat ?size_nseq ?size_drop ?sst; first by lia.
  move=> i il; rewrite nth_set_nth /= !nth_cat !size_nseq !nth_drop !nth_nseq.
  case: (ltngtP i k) => h.
  - by rewrite (_ : (i < k + 1)%N); [|lia].
  - rewrite (_ : (i < k + 1)%N = false); last by lia.
    by congr (nth _ _ _); lia.
  - by rewrite h addn1 ltnSn.
rewrite H // [rbind _ _]/=.
have ks : (a.-1 < size (nseq a.-1 0%N ++ drop a.-1 st))%N by rewrite size_cat size_nseq size_drop sst; lia.
rewrite (py_set_nth 0%N) //; congr Ok; rewrite /bunched -/s -catA.
have -> : drop a.-1 st = nth 0%N s a.-1 :: drop a s ++ nseq m 0%N.
  rewrite (drop_nth 0%N) ?sst; last by lia.
  rewrite prednK // /st nth_cat sz (_ : (a.-1 < m)%N); last by lia.
  rewrite drop_cat sz; case: ltnP => // ma; have {ma}-> : a = m by apply/eqP; rewrite eqn_leq am.
  by rewrite subnn drop0 drop_oversize ?sz.
apply: (@eq_from_nth _ 0%N); rewrite ?size_set_nth ?size_cat ?size_nseq /= ?size_cat ?size_nseq; first by lia.
move=> i il; rewrite nth_set_nth /= !nth_cat !size_nseq !nth_nseq.
case: (ltngtP i a.-1) => // [h|->]; last by rewrite subnn.
by rewrite -[(i - a.-1)%N]prednK ?subn_gt0.
Qed.

Lemma size_bunched a s : (0 < a <= size s)%N -> size (bunched a s) = size s.
Proof. by move=> h; rewrite /bunched size_cat size_nseq /= size_drop; lia. Qed.
Lemma sumn_bunched a s : (0 < a <= size s)%N -> (sumn (bunched a s) + nth 0%N s a.-1 = sumn s)%N.
Proof.
case/andP=> a0 am; rewrite /bunched sumn_cat sumn_nseq /= -{4}(cat_take_drop a.-1 s) sumn_cat.
rewrite [drop a.-1 s](drop_nth 0%N) ?prednK //=; lia.
Qed.
End Construct.

(* ------------------------------------------------------------------ *)
Section Matrices.
Variable R : rcfType.
Notation C := (ComplexField.complex_numFieldType R).
Notation mat := (seq (seq C)).
Variables (svd : mat -> res (mat * seq R * mat)) (cis : R -> C) (m a : nat) (M : mat) (tau : R).
Hypotheses (sv : svd_ok svd) (ok : cis_ok cis) (m0 : (0 < m)%N) (am : (a <= m)%N).
Hypotheses (sqM : is_square m M).
Let N := scaled_columns m a tau M.
Hypothesis su : subunitary m N.

Lemma initial_matrixE at_ : at_modes at_ = Some a -> at_transmissivity at_ = Some tau ->
  exists E, [/\ prepare_initial_matrix svd at_ M = Ok E, is_square (m + m) E & dilation m m N E].
Proof.
move=> ea et; have /andP[/eqP sM _] := sqM.
have rM : is_rect m m M by [].
have [E [eE sqE dE]] := expanded_dilation sv m0 su; exists E; split=> //.
rewrite /prepare_initial_matrix (py_get_nth [::]) ?sM // [rbind (Ok _) _]/= et ea; rewrite [rbind (py_getattr _) _]/=.
rewrite size_map (rect_row rM m0); set v := map _ (iota 0 m).
have sv' : size v = m by rewrite size_map size_iota.
have rD : is_rect m m (np_diag v) by rewrite -{1 2}sv'; exact: diag_rect.
have [X [eX rX mX]] := matmul_ok rM rD m0; rewrite eX [rbind _ _]/=.
suff -> : X = N by [].
apply: (@mxof_inj _ m m) => //; first exact: rect_tab.
rewrite mX (mxof_diag sv') mul_mx_diag; apply/matrixP => i j; rewrite !mxE ent_tab //.
rewrite /v (nth_map 0%N) ?size_iota // nth_iota // add0n.
case: ifP => // _; rewrite (nth_map 0) ?mulr1 //.
by rewrite (rect_row rM m0).
Qed.

Lemma ortho_mul n (W E A : mat) i i' : unitary n W -> is_square n E -> is_square n A ->
  mxof n n A = mxof n n W *m mxof n n E -> (i < n)%N -> (i' < n)%N ->
  ortho_cols n E i i' -> ortho_cols n A i i'.
Proof.
move=> /unitaryP[_ uW] sE sA eA il il'; move/(gram_cols sE (Ordinal il) (Ordinal il')) => h.
apply/(gram_cols sA (Ordinal il) (Ordinal il')); rewrite eA adjM -mulmxA [X in _ *m X]mulmxA uW mul1mx; exact: h.
Qed.

Lemma effectiveE (x : sep R) E : dilation m m N E -> is_square (m + m) E -> sp_matrix x = E ->
  cf_modes (sp_cfg x) = m -> at_conf_modes (sp_attrs x) = Some a ->
  forall (rand : nat -> rprog R (res (seq R))), always (fun r => exists d, r = Ok d) (rand a) ->
  always (fun r => exists A phi, [/\ r = Ok A, is_square (m + m) A & dilation m m (rotated_rows cis m a phi N) A])
    (effective_sep cis rand x).
Proof.
move=> [cE oE] sqE ex em ea rand al; rewrite /effective_sep em muln2 -addnn ea.
have am2 : (a <= m + m)%N by lia.
have [Q [eQ sqQ qE]] := qft_firstE cis am2; have [Q' [eQ' uQ]] := qft_first_unitary ok am2.
move: eQ'; rewrite eQ => -[e]; rewrite -{}e in uQ.
apply: always_rbind; rewrite [always _ _]/= eQ.
apply: always_rbind; rewrite [always _ _]/=.
apply: always_rbind; apply: always_impl al => _ [d ->].
have [P [eP sqP pE]] := phasesE cis am2 d; have [P' [eP' uP]] := phases_unitary ok am2 d.
move: eP'; rewrite eP => -[e]; rewrite -{}e in uP.
have mm0 : (0 < m + m)%N by lia.
have [X [eX sqX mX]] := matmul_ok (sqQ : is_rect _ _ Q) (sqP : is_rect _ _ P) mm0.
have [A [eA sqA mA]] := matmul_ok sqX (sqE : is_rect _ _ E) mm0.
rewrite /rpbind /= eX /= ex eA.
have uX : unitary (m + m) X.
  by apply/unitaryP; split=> //; move/unitaryP: uQ => [_ uQ]; move/unitaryP: uP => [_ uP];
     rewrite mX adjM -mulmxA [X in _ *m X]mulmxA uQ mul1mx.
exists A, (fun k => d`_k); split=> //; split; last first.
  move=> i i' il il'; apply: (ortho_mul uX sqE sqA mA); rewrite ?(ltn_addr _ il) ?(ltn_addr _ il') //; exact: oE.
have xE (i k : nat) : (i < m + m)%N -> (k < m + m)%N -> ent X i k = ent Q i k * (if (k < a)%N then cis d`_k else 1).
  move=> il kl; have := congr1 (fun Z : 'M_(m + m) => Z (Ordinal il) (Ordinal kl)) mX; rewrite /= !mxE /= => ->.
  rewrite (bigD1 (Ordinal kl)) //= big1 ?addr0 => [|k' ne]; first by rewrite !mxE /= pE // eqxx.
  by rewrite !mxE /= pE // (_ : (k' : nat) == k = false) ?mulr0 //; apply: contraNF ne => /eqP e; apply/eqP/val_inj.
move=> i j il jl; rewrite ent_tab //.
have il2 := ltn_addr m il; have jl2 := ltn_addr m jl.
have := congr1 (fun Z : 'M_(m + m) => Z (Ordinal il2) (Ordinal jl2)) mA; rewrite /= !mxE /= => ->.
transitivity (\sum_(k < m + m) ent X i k * ent E k j); first by apply: eq_bigr => k _; rewrite !mxE.
case: ifP => ia.
  rewrite (bigID (fun k : 'I_(m + m) => (k < a)%N)) /= [X in _ + X]big1 ?addr0 => [|k /negPf ka]; last first.
    rewrite xE // qE // ia ka /= (_ : (i == k) = false) ?mul0r //; apply: contraFF ka => /eqP <-; exact: ia.
  rewrite -(big_ord_widen (m + m) (fun k => ent X i k * ent E k j) am2).
  apply: eq_bigr => k _; have km : (k < m)%N by apply: leq_trans (ltn_ord k) am.
  have a0 : (0 < a)%N by apply: leq_ltn_trans ia.
  by rewrite xE ?(ltn_addr m km) // qE ?(ltn_addr m km) // ia ltn_ord /= qft_ent // cE.
rewrite (bigD1 (Ordinal il2)) //= big1 ?addr0 => [|k ne].
  by rewrite xE // qE // ia /= eqxx !mul1r cE.
rewrite xE // qE // ia /= (_ : (i == k) = false) ?mul0r //.
by apply: contraNF ne => /eqP e; apply/eqP/val_inj.
Qed.
End Matrices.
