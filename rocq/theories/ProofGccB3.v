(* Version B: shapes and independence of the history, for every matrix; shapes
   of version A with losses. *)
From mathcomp Require Import all_ssreflect all_algebra complex.
From mathcomp Require Import ring zify.
From Verif Require Import Base SpecStates Combi SpecPerm PermMath.
From Verif Require Import ModelStates ProofStates1 LemStates ModelPerm ProofPerm6 LemPerm ModelDist ProofDist1.
From Verif Require Import SpecProb ProbMath ModelGcc ModelGccB SpecGcc ProofSel ProofGcc1 ProofGcc2 ProofGcc3 ProofGcc4 ProofGcc5 ProofGccB2.
Set Implicit Arguments.
Unset Strict Implicit.
Unset Printing Implicit Defensive.
Import Order.TTheory GRing.Theory Num.Theory.
Local Open Scope ring_scope.
Local Open Scope py_scope.

Lemma incr_at_ok (l l' : seq nat) (j : nat) : incr_at l (Posz j) = Ok l' -> size l' = size l /\ sumn l' = (sumn l).+1.
Proof.
rewrite /incr_at; case: (ltnP j (size l)) => jl.
  rewrite (py_get_nth 0%N) // [rbind (Ok _) _]/= (py_set_nth 0%N) // => [[<-]].
  have -> : set_nth 0%N l j (nth 0%N l j).+1 = incr l j.
    apply: (@eq_from_nth _ 0%N) => [|i _]; first by rewrite size_incr // size_set_nth; apply/maxn_idPr.
    by rewrite nth_incr nth_set_nth /= eq_sym; case: eqP => [->|].
  by rewrite size_incr ?sumn_incr.
by rewrite /py_get /py_index /= ltnNge jl.
Qed.

Section B.
Variable R : rcfType.
Notation CF := (ComplexField.complex_numFieldType R).
Variable fuel : nat.
Implicit Types (b c : gccb R).

(* ---- same results for the same matrix ---- *)
Record bsame b c : Prop := BSame {
  bs_r : b_r b = b_r c;
  bs_n : b_n b = b_n c;
  bs_mat : calc_matrix (b_calc b) = calc_matrix (b_calc c);
  bs_in : b_input b = b_input c;
  bs_cur : b_current b = b_current c;
  bs_work : b_working b = b_working c
}.
Definition bfull b c := bsame b c /\ b_pmf b = b_pmf c.

Lemma set_input_matrix (F : numFieldType) (a : any_calc F) s : calc_matrix (set_input s a) = calc_matrix a.
Proof. by case: a. Qed.

Lemma update_same b c : bsame b c -> same_run (same_res bsame) (update_current_input b) (update_current_input c).
Proof.
move=> [e1 e2 e3 e4 e5 e6]; rewrite /update_current_input e6; case: (b_working c) => [//|x w].
split=> // i _ /=; case: (py_pop _ _) => [xw|e] //=; rewrite e5; case: (incr_at _ _) => [cur|e] //=.
Qed.

Lemma compute_same b c : bsame b c -> same_res bfull (compute_pmf fuel b) (compute_pmf fuel c).
Proof.
move=> [e1 e2 e3 e4 e5 e6]; rewrite /compute_pmf e1 e3 e5.
case: (compute_permanents _ _ _) => [pc|e] //=; case: (rmapM _ _) => [pmf|e] //=.
by split=> //; split=> //=; rewrite !set_input_matrix.
Qed.

Lemma sample_same b c : bfull b c -> same_run (same_res bsame) (sample_from_pmf b) (sample_from_pmf c).
Proof.
move=> [[e1 e2 e3 e4 e5 e6] e7]; rewrite /sample_from_pmf e7 e4; case: ifP => _ //=.
rewrite /np_choice; case: ifP => _ //= u _; rewrite e1; case: (incr_at _ _) => [r|e] //=.
Qed.

Lemma fill_same n target b c : bsame b c ->
  same_run (same_res bsame) (b_fill_loop fuel n target b) (b_fill_loop fuel n target c).
Proof.
elim: n b c => [//|n IH] b c S /=; rewrite (bs_r S); case: ifP => _ //.
apply: same_run_rbind (update_same S) _ => b1 c1 S1.
apply: same_run_rbind (_ : same_run (same_res bfull) (Ret (compute_pmf fuel b1)) (Ret (compute_pmf fuel c1))) _.
  exact: compute_same.
move=> b2 c2 S2; apply: same_run_rbind (sample_same S2) _ => b3 c3; exact: IH.
Qed.

Definition brel b c := [/\ b_n b = b_n c, calc_matrix (b_calc b) = calc_matrix (b_calc c) & b_input b = b_input c].

Lemma reset_same b c : brel b c -> bsame (b_reset b) (b_reset c).
Proof. by move=> [e1 e2 e3]; split=> //=; rewrite e3. Qed.

Lemma gccb_same s k b c : calc_matrix (b_calc b) = calc_matrix (b_calc c) ->
  same_run (same_res (fun x y => x.1 = y.1 /\ brel x.2 y.2)) (gccb_simulate fuel s k b) (gccb_simulate fuel s k c).
Proof.
move=> e; apply: (sample_loop_sim (rel := brel)); last by split.
move=> b' c' r; rewrite /b_fill; have [-> _ _] := r.
apply: same_run_impl (fill_same fuel _ (reset_same r)) => [[x|e1] [y|e2]] //= [h1 h2 h3 h4 h5 h6].
by rewrite h1.
Qed.

Definition ubrel (x y : ugccb R) := [/\ brel (ub_b x) (ub_b y), ub_eta x = ub_eta y & ub_weights x = ub_weights y].

Lemma ugccb_same s k x y : calc_matrix (b_calc (ub_b x)) = calc_matrix (b_calc (ub_b y)) -> ub_eta x = ub_eta y ->
  same_run (same_res (fun x y => x.1 = y.1 /\ ubrel x.2 y.2)) (ugccb_simulate fuel s k x) (ugccb_simulate fuel s k y).
Proof.
move=> e e'; apply: (sample_loop_sim (rel := ubrel)); last by split=> //=; rewrite e'.
move=> x' y' [r e1 e2]; rewrite /ub_fill e2.
apply: same_run_rbind (_ : same_run (same_res eq) _ _) _; first by apply: same_run_refl; exact: same_res_eq.
move=> l _ <-; apply: same_run_rbind (fill_same fuel l (reset_same r)) _ => b c S /=.
by case: S => h1 h2 h3 h4 h5 h6; rewrite h1 /ubrel /= e1.
Qed.

(* ---- shapes ---- *)
Record bsh m N b : Prop := BSh { sh_r : size (b_r b) = m; sh_in : size (b_input b) = m; sh_n : b_n b = N }.

Lemma fill_shape m N n target b : bsh m N b -> (sumn (b_r b) <= target)%N ->
  always (if_ok (fun b' => bsh m N b' /\ sumn (b_r b') = target)) (b_fill_loop fuel n target b).
Proof.
elim: n b => [//|n IH] b H le /=; case: ltnP => lt; last by split=> //; apply/eqP; rewrite eqn_leq le.
apply: always_ifok (_ : always (if_ok (fun b' => bsh m N b' /\ sumn (b_r b') = sumn (b_r b))) _) _.
  rewrite /update_current_input; case: (b_working b) => [//|x w] i _ /=.
  case: (py_pop _ _) => [xw|e] //=; case: (incr_at _ _) => [cur|e] //=.
  by case: H => h1 h2 h3.
move=> b1 [H1 e1]; apply: always_ifok (_ : always (if_ok (fun b' => bsh m N b' /\ sumn (b_r b') = sumn (b_r b))) _) _.
  rewrite /compute_pmf /=; case: (compute_permanents _ _ _) => [pc|e] //=; case: (rmapM _ _) => [pmf|e] //=.
  by case: H1 => h1 h2 h3.
move=> b2 [H2 e2]; apply: always_ifok (_ : always (if_ok (fun b' => bsh m N b' /\ sumn (b_r b') = (sumn (b_r b)).+1)) _) _.
  rewrite /sample_from_pmf; case: ifP => _ //; rewrite /np_choice; case: ifP => _ //= u _.
  case E: (incr_at _ _) => [r|e] //=; have [E1 E2] := incr_at_ok E.
  by case: H2 => h1 h2 h3; split; [split=> //=; rewrite E1|rewrite E2 e2].
by move=> b3 [H3 e3]; apply: IH => //; rewrite e3.
Qed.

Definition bsh' s b := size (b_input b) = size s /\ b_n b = sumn s.

Lemma gccb_shape s k b :
  always (if_ok (fun x => size x.1 = k /\ forall t, t \in x.1 -> is_state (size s) (sumn s) t))
    (gccb_simulate fuel s k b).
Proof.
have H : forall b, bsh' s b ->
    always (if_ok (fun b' => bsh' s b' /\ if_ok (fun t => is_state (size s) (sumn s) t) (Ok (b_r b')))) (b_fill fuel b).
  move=> {}b [e1 e2]; rewrite /b_fill e2.
  have S : bsh (size s) (sumn s) (b_reset b) by split=> //=; rewrite size_nseq.
  have le : (sumn (b_r (b_reset b)) <= sumn s)%N by rewrite /= sumn_nseq.
  apply: always_impl (fill_shape fuel S le) => [[b'|e]] //= [[h1 h2 h3] h4].
  by split; [split|rewrite /is_state h1 h4 !eqxx].
apply: always_impl (sample_loop_shape H k _) => [[x|e]|] //= [sx _ ax]; split=> // t /aux_in; exact: ax.
Qed.

Lemma ugccb_shape s k (x : ugccb R) : 0 <= ub_eta x <= 1 ->
  always (if_ok (fun y => size y.1 = k /\ forall t, t \in y.1 -> (size t == size s) && (sumn t <= sumn s)%N))
    (ugccb_simulate fuel s k x).
Proof.
move=> eta01.
pose inv (y : ugccb R) := bsh' s (ub_b y) /\ ub_weights y = ub_binomial_weights (sumn s) (ub_eta x).
have H : forall y, inv y ->
    always (if_ok (fun y' => inv y' /\ if_ok (fun t => (size t == size s) && (sumn t <= sumn s)%N) (Ok (b_r (ub_b y'))))) (ub_fill fuel y).
  move=> y [[e1 e2] e3]; rewrite /ub_fill e3.
  apply: always_ifok (_ : always (if_ok (fun l => l <= sumn s)%N) _) _.
    move=> u u01 /=; have [] := search_pos1 (bw_distr eta01 (sumn s)) u01.
    by rewrite size_map size_iota ltnS.
  move=> l le.
  have S : bsh (size s) (sumn s) (b_reset (ub_b y)) by split=> //=; rewrite size_nseq.
  have z : (sumn (b_r (b_reset (ub_b y))) <= l)%N by rewrite /= sumn_nseq.
  apply: always_ifok (fill_shape fuel S z) _ => b' [[h1 h2 h3] h4] /=.
  by split; [split|rewrite h1 h4 eqxx].
apply: always_impl (sample_loop_shape H k _) => [[y|e]|] //= [sx _ ax]; split=> // t /aux_in; exact: ax.
Qed.
End B.

Lemma rfoldl_ifok (A T : Type) (inv : A -> Prop) f (l : seq T) a :
  (forall a t, inv a -> if_ok inv (f a t)) -> inv a -> if_ok inv (rfoldl f a l).
Proof.
move=> H; elim: l a => [//|t l IH] a I; rewrite rfoldl_cons.
by have := H a t I; case: (f a t) => [a'|e] //= /IH.
Qed.

Section UA.
Variable R : rcfType.
Notation CF := (ComplexField.complex_numFieldType R).
Variables (gray : nat -> seq nat) (fuel : nat) (s : seq nat) (M : nat).
Implicit Types x : ugcc R.

Definition ush x := sinv sumn s (fun r => size r = M) (ug_gcc x) /\ size (calc_matrix (g_calc (ug_gcc x))) = M.

Lemma u_ensure_shape x : ush x ->
  if_ok (fun x' => [/\ ush x', g_r (ug_gcc x') = g_r (ug_gcc x) & has_layer (ug_gcc x')]) (u_ensure_layer gray fuel x).
Proof.
move=> [I em]; rewrite /u_ensure_layer; case D: (dget _ _) => [pmf|] /=; first by split=> //; rewrite /has_layer D.
rewrite /u_new_layer; case: (layer_weights _ _ _) => [ws|e] //; rewrite ![rbind (Ok _) _]/=.
rewrite possible_output_statesE ![rbind (Ok _) _]/=.
set f := (X in rfoldl X _ _).
have H : if_ok (fun st => calc_matrix st.1.2 = calc_matrix (g_calc (ug_gcc x)))
   (rfoldl f ([::], g_calc (ug_gcc x), (ug_dist x, ug_unw x)) [seq incr (g_r (ug_gcc x)) j | j <- iota 0 (size (g_r (ug_gcc x)))]).
  apply: rfoldl_ifok => // [[[pmf a] du]] t /= ea.
  have := pmf_entry_core gray fuel (dgetl (g_labeled (ug_gcc x)) (sumn (g_r (ug_gcc x))).+1) ws t (core_refl a).
  case: (pmf_entry _ _ _ _ _ _) => [pa|e] //= [_ c _]; case: (record_output _ _ _ _) => [du'|e] //=.
  by rewrite (core_matrix c).
case: (rfoldl _ _ _) H => [[[pmf a] du]|e] //= ea.
split=> //; last by rewrite /has_layer /= dget_dset eqxx.
split; last by rewrite /= ea.
case: I => i1 i2 i3 i4 i5; split=> //= key pmf' outs; rewrite !dget_dset.
case: eqP => [<- _ [<-]|_]; last exact: i5.
by move=> r' /mapP[j]; rewrite mem_iota /= => jl ->; rewrite size_incr // sumn_incr // i3 i4.
Qed.

Lemma u_fill_shape i x : ush x -> (sumn (g_r (ug_gcc x)) + i <= sumn s)%N ->
  always (if_ok (fun x' => ush x' /\ (sumn (g_r (ug_gcc x')) <= sumn s)%N)) (u_fill_loop gray fuel i x).
Proof.
elim: i x => [|i IH] x I le; first by split=> //; rewrite addn0 in le.
move=> /= y y01; case: ifP => _; first by apply: IH => //; lia.
apply: always_ifok (_ : always (if_ok (fun x' => [/\ ush x', g_r (ug_gcc x') = g_r (ug_gcc x) & has_layer (ug_gcc x')])) _) _.
  exact: u_ensure_shape.
move=> x' [I' er hl].
apply: always_ifok (_ : always (if_ok (fun g' => ush (set_ug x' g' (ug_dist x', ug_unw x')) /\
    sumn (g_r g') = (sumn (g_r (ug_gcc x'))).+1)) _) _.
  move=> v _ /=; have := sample_shape v I'.1 hl.
  have : if_ok (fun g' => g_calc g' = g_calc (ug_gcc x')) (sample_with (ug_gcc x') v).
    rewrite /sample_with; case: (dget_res _ _) => [?|?] //=; case: (py_get _ _) => [?|?] //=.
    by case: (dget_res _ _) => [?|?] //=; case: (py_get _ _) => [?|?] //=.
  case: (sample_with _ _) => [g'|e] //= ec [S e']; split=> //; split=> //=.
  by rewrite ec; exact: I'.2.
by move=> g' [I2 e2]; apply: IH => //=; rewrite e2 er; lia.
Qed.

Lemma ugcc_shape k x : size (calc_matrix (g_calc (ug_gcc x))) = M ->
  always (if_ok (fun y => size y.1 = k /\ forall t, t \in y.1 -> (size t == M) && (sumn t <= sumn s)%N))
    (ugcc_simulate gray fuel s k x).
Proof.
move=> eM.
pose rs x := set_ug x (reset_sample (nseq (size (calc_matrix (g_calc (ug_gcc x)))) 0%N) (ug_gcc x)) (ug_dist x, ug_unw x).
have H : forall x, ush (rs x) ->
    always (if_ok (fun x' => ush (rs x') /\ if_ok (fun t => (size t == M) && (sumn t <= sumn s)%N) (Ok (g_r (ug_gcc x')))))
      (u_fill_r_sample gray fuel x).
  move=> {eM}x I; rewrite /u_fill_r_sample -/(rs x).
  have -> : g_n (ug_gcc x) = sumn s := si_n I.1.
  have le : (sumn (g_r (ug_gcc (rs x))) + sumn s <= sumn s)%N by rewrite /= sumn_nseq.
  apply: always_impl (u_fill_shape I le) => [[x'|e]] //= [[[i1 i2 i3 i4 i5] em] le'].
  split; last by rewrite i3 eqxx.
  by split=> //; split=> //=; rewrite size_nseq.
rewrite /ugcc_simulate.
apply: always_ifok (_ : always (if_ok (fun x' => ush (rs x'))) _) _; last first.
  move=> x' I'; apply: always_impl (sample_loop_shape H k I') => [[y|e]] //= [sx _ ax].
  by split=> // t /aux_in; exact: ax.
rewrite /ugcc_start; case: (generate_possible_states _ _ _ _) => [outs|e] //.
rewrite {1}/rbind; case: (py_get _ _) => [w0|e] //.
rewrite {1}/rbind; case: (py_set _ _ _) => [d|e] //=.
by split=> //; split=> //=; rewrite size_nseq.
Qed.
End UA.
