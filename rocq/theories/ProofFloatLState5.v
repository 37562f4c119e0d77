(* The strategy with an approximated state in rounded arithmetic: simulate. *)
From mathcomp Require Import all_ssreflect all_algebra complex.
From mathcomp Require Import ring zify.
From Verif Require Import Base SpecStates Combi SpecPerm PermMath SpecBS BsMath BsComb BsNorm SpecProb ProbMath ModelStates ModelPerm ModelDist ModelGcc ModelGccB ProofGcc3 ProofSel SpecGcc LemGcc ModelNet SpecNet ProofGccB2
  ProofNet1 ProofNet2 ProofNet7 ModelBobs SpecBobs ProofBobs3 ProofBobs4 ProofBobs5 ModelLState SpecLState ProofLS1 ProofLS2 ProofLS3 ProofLS4.
From Verif Require Import ModelFloat SpecFloat ModelFloatGcc ModelFloatGccB SpecFloatSub SpecFloatGcc SpecFloatGccB ProofFloat ProofFloatGcc2 ProofFloatDist2 ProofFloatGccB2 ProofFloatGccB3 ModelFloatNet SpecFloatNet
  SpecFloatFixed ProofFloatFixed3 ModelFloatLState SpecFloatLState ProofFloatLState1 ProofFloatLState2 ProofFloatLState3 ProofFloatLState4.
Set Implicit Arguments.
Unset Strict Implicit.
Unset Printing Implicit Defensive.
Import Order.TTheory GRing.Theory Num.Theory.
Local Open Scope ring_scope.
Local Open Scope py_scope.

Lemma near_count n : (2 * n + 3 <= 2 * n.+1 + 1)%N. Proof. by lia. Qed.

Section Simulate.
Variable R : rcfType.
Notation C := (ComplexField.complex_numFieldType R).
Notation mat := (seq (seq C)).
Variables (u c eps : R) (A : arith C) (B : arith R) (f_sqrt : R -> R) (f_dot : seq C -> seq C -> C).
Variables (cis f_cis : R -> C) (f_root : nat -> nat -> C).
Variables (f_abs : C -> R) (f_sum f_check : seq R -> R) (f_search : R -> seq R -> nat) (N : nat).
Hypotheses (u0 : 0 <= u) (u8 : u <= 8%:R^-1) (c0 : 0 <= c) (e0 : 0 <= eps).
Hypotheses (accA : accurate (u%:C)%C A) (accB : accurate u B) (acc_sqrt : accurate_sqrt u f_sqrt).
Hypothesis accD : accurate_dot (u%:C)%C f_dot.
Hypotheses (ok : cis_ok cis) (acc_cis : accurate_cis c cis f_cis) (acc_root : accurate_root c cis f_root).
Hypothesis acc_abs : forall z, `|f_abs z - py_abs z| <= u * py_abs z.
Hypotheses (acc_sum : accurate_sum u f_sum) (acc_check : accurate_sum u f_check) (srch : right_search f_search) (N0 : (0 < N)%N).
Variables (m h : nat) (U : mat) (eta : R) (s : seq nat).
Hypotheses (uU : unitary m U) (h0 : (0 < h)%N) (hm : (h < m)%N) (ss : size s = m)
  (eta01 : 0 <= eta <= 1) (le1 : all (fun n => n <= 1)%N (take h s)).
Variables (rand : nat -> rprog R (res (seq R))) (fuel : nat).
Hypothesis fu : (2 ^ h * (sumn (drop h s)).+1 <= fuel)%N.
Variables (S : seq (seq R)) (W : seq R -> R).
Hypotheses (randS : always (fun r => exists2 d, r = Ok d & d \in S) (rand (m - h)))
  (randE : forall f, has_exp (on_ok f) (rand (m - h)) (\sum_(d <- S) W d * f d)).
Notation na := (sumn (drop h s)).+1.
Notation nl := (code_number (take h s)).
Hypotheses (small_m : (9 * m + 4)%:R * u <= (2%:R ^+ 27)^-1) (small_a : (9 * na + 4)%:R * u <= (2%:R ^+ 27)^-1)
  (small_l : (9 * (nl + 2) + 4)%:R * u <= (2%:R ^+ 27)^-1).
Let m0 : (0 < m)%N. Proof. exact: leq_ltn_trans hm. Qed.
Let km : (m - h <= m)%N. Proof. exact: leq_subr. Qed.
Notation shuf := (@np_shuffle R).
Notation ne := (approx_net_error u c eps m).
Let ne0 : 0 <= ne. Proof. exact: approx_net_error_ge0. Qed.
Notation gerr K l := (gccb_error u ne N m (moved m h K l) (sumn K + l)).
Notation isof := (fl_lstate_of A B f_sqrt f_root m U eps h eta).

Variable x : lstate R.
Hypothesis ox : isof x.
Variable L : seq (seq nat).
Hypotheses (eA : ls_approx x = approx_list m h s) (ewA : ls_approx_w x = fl_possible_weights B eta (sumn (drop h s)))
  (eL : ls_exact x = L) (sL : size (ls_exact_w x) = size L)
  (nL : forall i, (i < size L)%N -> near u (2 * (nl + 2) + 1) (left_weight eta (take h s) (nth [::] L i))
        (left_weight eta (take h s) (nth [::] L i)) (ls_exact_w x)`_i)
  (uL : uniq L) (mL : L =i subs (take h s)).

Definition fl_ls_tail (s' : bool * seq nat) (M : mat) (g : gccb R) : rprog R (res (seq nat * gccb R)) :=
  draw! y := (if s'.1 && ~~ nilp s'.2 then Ret (Err TypeError)
              else fl_gccb_simulate A B f_abs f_sum f_check f_search fuel N s'.2 1 (b_set_new_matrix M g)) in
  draw! t := Ret (py_get y.1 0) in
  Ret (Ok (t, y.2)).

Notation fsample := (fl_lstate_sample A B f_dot f_cis f_check f_search N rand shuf f_abs f_sum fuel x).
Notation fmatrix := (fl_lstate_matrix f_dot f_cis rand shuf x).
Notation finput := (fl_lstate_input B f_check f_search N x).

Lemma fl_ls_sampleE g : fsample g = draw! s' := finput in draw! M := fmatrix in fl_ls_tail s' M g.
Proof. by []. Qed.

Lemma size_L : size L = nl.
Proof.
rewrite /code_number -size_subs; apply: perm_size; apply: uniq_perm => //; exact: subs_uniq.
Qed.

Section Cont.
Variables (Y : Type) (f : Y -> R) (cont : seq nat * gccb R -> rprog R (res Y)) (E : seq nat -> R) (del : R).
Hypothesis del0 : 0 <= del.
Hypothesis Hcont : forall t g, napx (on_ok f) (cont (t, g)) (E t) del.
Notation F := (on_ok f).

Lemma tail_napx (M D : mat) K l g : is_square m M -> unitary m D -> close m ne M D ->
  substate K (take h s) -> (l <= sumn (drop h s))%N ->
  napx F (rpbind (fl_ls_tail (false, moved m h K l) M g) cont)
    (\sum_(t <- comps m (sumn K + l)) bs_prob D (moved m h K l) t * E t) (gerr K l + del).
Proof.
move=> sM uD cl sK ll; have [z1 z2 z3 z4] := moved_facts eta h0 hm ss [::] le1 fu sK ll.
rewrite /fl_ls_tail [_ && _]/=; apply: napxA; rewrite /fl_gccb_simulate.
set b := b_start _ _.
have eb : calc_matrix (b_calc b) = M by rewrite /b /b_set_new_matrix /=; case: (b_calc g).
rewrite [sample_loop _ _ _ _]/=; apply: napxA.
pose ct (b' : gccb R) : rprog R (res Y) := cont (b_r b', b').
have Hc b' : fbinv m M (moved m h K l) b' -> sumn (b_r b') = sumn (moved m h K l) ->
    exists v, [/\ has_exp F (ct b') v, 0 <= v <= 1 & `|v - E (b_r b')| <= del].
  by move=> _ _; exact: Hcont.
have uo : unitary_on m D (moved m h K l) /\ entries_bounded m D (1%:C)%C.
  by split; [exact: unitary_is_on|exact: unitary_entries].
have [v [Hv v01 hv]] := fb_run u0 accA accB acc_abs acc_sum acc_check srch N0 uo sM z1 z4 ne0 cl small_m
  (F := F) (fun e => erefl) (leqnn _) Hc (b := b) erefl erefl eb.
exists v; split=> //; move: hv; rewrite z2.
suff -> : \sum_(t <- comps m (sumn K + l)) fixed_loss_prob D (moved m h K l) t * E t =
          \sum_(t <- comps m (sumn K + l)) bs_prob D (moved m h K l) t * E t by [].
by apply: eq_big_seq => t; rewrite mem_comps => /andP[_ /eqP et]; rewrite fixed_loss_full // z2.
Qed.

Lemma fl_ls_matrixE : fmatrix =
  draw! P := (draw! d := rand (m - h) in Ret (fl_phases_matrix_first f_cis (m - h) m d)) in
  draw! sigma := shuf (iota 0 m) in
  draw! V := Ret (np_columns (calc_matrix (ls_calc x)) sigma) in
  draw! X := Ret (fl_matmul f_dot V P) in
  Ret (fl_matmul f_dot X (ls_qft x)).
Proof.
case: (ox) => -[/andP[/eqP sU _] _] o2 o3 o4 o5.
have sQ : size (ls_qft x) = m.
  by have [Q [eQ /andP[/eqP sQ _] _]] := fl_fourierE u0 u8 c0 accA accB acc_sqrt ok acc_root km; move: o5; rewrite eQ => -[<-].
by rewrite /fl_lstate_matrix o2 sQ sU (_ : Posz m - Posz h = Posz (m - h)) // subzn // ltnW.
Qed.

Lemma input_napx K l g : substate K (take h s) -> (l <= sumn (drop h s))%N ->
  napx F (rpbind (draw! M := fmatrix in fl_ls_tail (false, moved m h K l) M g) cont)
    (input_value cis m h U S W E K l) (gerr K l + del).
Proof.
move=> sK ll; have ge0 : 0 <= gerr K l + del.
  by apply: addr_ge0 => //; apply: le_trans (err_mono N u0 m (moved m h K l) ne0 (leq0n _)); rewrite /gccb_error big_ord0.
have [[sq cl] o2 o3 o4 o5] := ox.
apply: napxA; rewrite fl_ls_matrixE; apply: napxA; apply: napxA.
apply: (napx_draw (S := S) (W := W)) => // d dS.
have [P [eP _ _]] := phasesE f_cis km d.
rewrite -[fl_phases_matrix_first _ _ _ _]/(phases_matrix_first f_cis (m - h) m d) eP rpbind_ok.
apply: napxA; apply: (napx_draw (S := permutations (iota 0 m)) (W := fun=> (m`!%:R)^-1)) => //.
- exact: np_shuffle_always.
- move=> hf; apply: has_exp_eq (np_shuffle_exp hf m0) _; rewrite mulr_suml.
  by apply: eq_bigr => q _; rewrite mulrC.
move=> sigma ps.
have [M [eM sM uD cM]] := fl_net_step u0 u8 c0 e0 accA accB acc_sqrt accD ok acc_cis acc_root m0 km uU sq cl o5 d ps.
move: eM; rewrite /fl_net_calc -[fl_phases_matrix_first _ _ _ _]/(phases_matrix_first f_cis (m - h) m d) eP [rbind (Ok P) _]/=.
case: np_columns => // V; rewrite [rbind (Ok V) _]/= rpbind_ok.
case: fl_matmul => // X; rewrite [rbind (Ok X) _]/= rpbind_ok => ->.
rewrite rpbind_ok; exact: tail_napx.
Qed.

Lemma approx_weights_near i : (i < size (approx_list m h s))%N ->
  near u (2 * na + 1) (approx_wt h eta s (nth [::] (approx_list m h s) i)) (approx_wt h eta s (nth [::] (approx_list m h s) i))
    (fl_possible_weights B eta (sumn (drop h s)))`_i.
Proof.
rewrite /approx_list hm size_map size_iota => il; rewrite (nth_map 0%N) ?size_iota // nth_iota // add0n.
rewrite /approx_wt /= sumn_nseq mul0n addn0.
have ii : (i <= sumn (drop h s))%N by rewrite -ltnS.
have le := near_count (sumn (drop h s)).
by have := fl_ws_nth u0 accB eta01 ii; apply: near_k.
Qed.

Lemma sample_napx g : napx F (rpbind (fsample g) cont)
  (\sum_(t <- lcomps m (sumn s)) lstate_law cis m h U eta s S W t * E t)
  (lstate_error u c eps eta N m h s + del).
Proof.
rewrite fl_ls_sampleE; apply: napxA; rewrite /fl_lstate_input eA ewA eL; apply: napxA.
have dA := approx_distr h ss eta01; have dL := left_distr eta01 uL mL le1.
have sA : size (approx_list m h s) = na by rewrite /approx_list hm size_map size_iota.
pose lv (a : seq nat) := head 0%N a.
set GG := (fun a : nat => rpbind _ _).
have := napx_choice u0 accB acc_check srch N0 (f := f) (L := approx_list m h s) (x0 := [::]) (w := approx_wt h eta s)
  (p := fl_possible_weights B eta (sumn (drop h s))) (K := na) (g := GG)
  (E := fun a => \sum_(K <- L) left_weight eta (take h s) K * input_value cis m h U S W E K (lv a))
  (e := fun a => (nl + nl.+1)%:R * choice_error u N (nl + 2) + \sum_(K <- L) left_weight eta (take h s) K * (gerr K (lv a) + del))
  dA.
move=> step; apply: napx_eq (step _ _ _ approx_weights_near _ _) _ _; clear step => //.
- by rewrite fl_size_weights sA.
- by rewrite sA.
- by exists IndexError; rewrite /GG /py_get /= ltnn.
- move=> i il; have : nth [::] (approx_list m h s) i \in approx_list m h s by rewrite mem_nth.
  move=> /(mem_approx hm)[l ll el]; rewrite /GG (py_get_nth [::] il) el rpbind_ok; apply: napxA.
  rewrite -{1 2}size_L /lv [head _ _]/=.
  apply: (napx_choice u0 accB acc_check srch N0 (x0 := [::])) => //.
  + by rewrite size_L leq_addr.
  + by exists IndexError; rewrite /py_get /= ltnn.
  move=> j jl; have sK : substate (nth [::] L j) (take h s) by rewrite -mem_subs -mL mem_nth.
  by rewrite (py_get_nth [::] jl) rpbind_ok [rpbind (Ret _) _]/= (@stackE m h s h0 hm ss _ l sK) ?rpbind_ok; apply: input_napx.
- rewrite -(law_sum cis U eta h0 hm ss uL mL S W E) {1}/approx_list hm big_map; apply: eq_bigr => l _.
  by rewrite /approx_wt /= sumn_nseq mul0n addn0.
rewrite sA /lstate_error /input_error -(err_sum eta uL mL (fun K l => gerr K l)).
set ea := _ * choice_error u N na; set ee := _ * choice_error u N (nl + 2).
rewrite {1}/approx_list hm big_map -!addrA ler_add2l.
have sumL : \sum_(K <- L) left_weight eta (take h s) K = 1 by have [_] := dL; rewrite big_map.
have sumA : \sum_(l <- iota 0 na) binomial_weight (sumn (drop h s)) eta l = 1.
  have [_] := dA; rewrite big_map /approx_list hm big_map => <-.
  by apply: eq_bigr => l _; rewrite /approx_wt /= sumn_nseq mul0n addn0.
rewrite le_eqVlt; apply/orP; left; apply/eqP.
transitivity (\sum_(l <- iota 0 na) (binomial_weight (sumn (drop h s)) eta l * (ee + del) +
   binomial_weight (sumn (drop h s)) eta l * \sum_(K <- L) left_weight eta (take h s) K * gerr K l)).
  apply: eq_bigr => l _; rewrite /approx_wt /= sumn_nseq mul0n addn0 -mulrDr; congr (_ * _).
  have -> : \sum_(K <- L) left_weight eta (take h s) K * (gerr K l + del) =
     \sum_(K <- L) left_weight eta (take h s) K * gerr K l + (\sum_(K <- L) left_weight eta (take h s) K) * del.
    by rewrite mulr_suml -big_split; apply: eq_bigr => K _; rewrite mulrDr.
  by rewrite sumL mul1r -addrA [X in _ + X]addrC.
rewrite big_split /= -mulr_suml sumA mul1r -addrA; congr (_ + _); exact: addrC.
Qed.
End Cont.

Notation law := (lstate_law cis m h U eta s S W).
Notation err := (lstate_error u c eps eta N m h s).

Lemma err_ge0 : 0 <= err.
Proof.
have [v [_ _ hv]] := sample_napx (f := fun _ : unit => 0) (cont := fun=> Ret (Ok tt)) (E := fun=> 0) (lexx 0)
  (fun t g => napx_ret (f := fun=> 0) (y := tt) (introT andP (conj (lexx 0) ler01))) (new_gccb (ls_calc x)).
by rewrite addr0 in hv; apply: le_trans hv.
Qed.

Lemma loop_napx (Y : Type) (f : Y -> R) k st (cont : seq (seq nat) * (seq nat * gccb R) -> rprog R (res Y)) (E : seq (seq nat) -> R) del :
  0 <= del -> (forall Q g, napx (on_ok f) (cont (Q, g)) (E Q) del) ->
  napx (on_ok f) (rpbind (sample_loop (fun st => fsample st.2) (fun st => Ok st.1) k st) cont)
    (iid_exp (lcomps m (sumn s)) law k E) (k%:R * err + del).
Proof.
elim: k st cont E del => [|k IH] st cont E del del0 H.
  by rewrite [sample_loop _ _ _ _]/= rpbind_ok mul0r add0r [iid_exp _ _ _ _]/=; case: st => t g; exact: H.
rewrite [sample_loop _ _ _ _]/=; apply: napxA.
have kd : 0 <= k%:R * err + del by rewrite addr_ge0 ?mulr_ge0 ?ler0n ?err_ge0.
apply: napx_eq (sample_napx (E := fun t => iid_exp (lcomps m (sumn s)) law k (fun Q => E (t :: Q))) kd _ st.2) _ _.
- move=> t g; rewrite rpbind_ok; apply: napxA.
  by apply: (IH (t, g) _ (fun Q => E (t :: Q))) => // Q g'; rewrite rpbind_ok; exact: H.
- by [].
by rewrite -[k.+1]addn1 natrD mulrDl mul1r [k%:R * err + err]addrC addrA.
Qed.

Lemma threads_napx (Y : Type) (f : Y -> R) loads (cont : seq (seq nat) -> rprog R (res Y)) (E : seq (seq nat) -> R) del :
  0 <= del -> (forall Q, napx (on_ok f) (cont Q) (E Q) del) ->
  napx (on_ok f) (rpbind (thread_loop (fl_lstate_parallel A B f_dot f_cis f_check f_search N rand shuf f_abs f_sum fuel x) loads) cont)
    (iid_exp (lcomps m (sumn s)) law (sumn loads) E) ((sumn loads)%:R * err + del).
Proof.
elim: loads cont E del => [|k loads IH] cont E del del0 H.
  by rewrite [thread_loop _ _]/= rpbind_ok mul0r add0r; exact: H.
rewrite [thread_loop _ _]/= [sumn _]/= iid_expD; apply: napxA; apply: napxA.
have kd : 0 <= (sumn loads)%:R * err + del by rewrite addr_ge0 ?mulr_ge0 ?ler0n ?err_ge0.
apply: napx_eq (loop_napx k _ kd (E := fun Q => iid_exp (lcomps m (sumn s)) law (sumn loads) (fun Q' => E (Q ++ Q'))) _) _ _ => //.
  move=> Q g; rewrite rpbind_ok; apply: napxA.
  by apply: (IH _ (fun Q' => E (Q ++ Q'))) => // Q'; rewrite rpbind_ok; exact: H.
by rewrite natrD mulrDl addrA.
Qed.
End Simulate.
