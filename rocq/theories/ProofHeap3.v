(* Whole histories with arrays as objects, and the laws of the samples. *)
From mathcomp Require Import all_ssreflect all_algebra complex zify.
From Verif Require Import Base ModelStates ModelPerm ModelDist SpecProb ProbMath SpecGcc ModelGcc ModelGccB ModelHeap SpecHeap ProofPerm6 ProofGcc4 ProofHeap1 ProofHeap2.
Set Implicit Arguments.
Unset Strict Implicit.
Unset Printing Implicit Defensive.
Import GRing.Theory Num.Theory.
Local Open Scope ring_scope.
Local Open Scope py_scope.

Section Heap.
Variable R : rcfType.
Notation CF := (ComplexField.complex_numFieldType R).
Variables (gray : nat -> seq nat) (fuel : nat).
Implicit Types (h : store R) (a p : nat) (g : hgcc R) (b : hgccb R) (w : hworld R).

Lemma same_run_always (A B : Type) (P : A -> B -> Prop) (Q : A -> Prop) (p : rprog R A) (q : rprog R B) :
  (forall x y, P x y -> Q x) -> same_run P p q -> always Q p.
Proof.
move=> PQ; elim: p q => [x|k IH|n k IH] [y|k'|n' k'] //=.
- exact: PQ.
- by move=> s u hu; apply: IH (s u hu).
- by move=> [_ s] i il; apply: IH (s i il).
Qed.

Definition wider h h' : Prop :=
  [/\ (size (st_vecs h) <= size (st_vecs h'))%N, (size (st_mats h) <= size (st_mats h'))%N
    & (size (st_calcs h) <= size (st_calcs h'))%N].

Lemma is_vec_w h h' p : wider h h' -> is_vec h p -> is_vec h' p.
Proof. by move=> [w1 _ _] hp; exact: leq_trans w1. Qed.
Lemma calc_ok_w h h' c : wider h h' -> calc_ok h c -> calc_ok h' c.
Proof.
move=> w0 /and3P[o1 o2 o3]; rewrite /calc_ok !(is_vec_w w0) //=.
by case: w0 => _ w2 _; exact: leq_trans w2.
Qed.
Lemma gcc_ok_w h h' g : wider h h' -> gcc_ok h g -> gcc_ok h' g.
Proof.
move=> w0 /and5P[o1 o2 o3 o4 o5]; apply/and5P; split; rewrite ?(is_vec_w w0) //.
- by case: w0 => _ _ w3; exact: leq_trans w3.
- by apply: sub_all o4 => x; apply: sub_all => p; exact: is_vec_w.
- by apply: sub_all o5 => x; apply: sub_all => p; exact: is_vec_w.
Qed.
Lemma gccb_ok_w h h' b : wider h h' -> gccb_ok h b -> gccb_ok h' b.
Proof.
move=> w0 /and4P[o1 o2 o3 o4]; apply/and4P; split; rewrite ?(is_vec_w w0) //.
by case: w0 => _ _ w3; exact: leq_trans w3.
Qed.

Lemma un_wider a h h' : unchanged a h h' -> wider h h'.
Proof. by move=> [[t e] e2 e3 _]; split; rewrite ?e ?e2 ?e3 // size_cat leq_addr. Qed.

Lemma put_set h a c : store_ok h -> (a < size (st_calcs h))%N -> calc_ok h c ->
  unchanged a h (put_cal h a c) /\ store_ok (put_cal h a c).
Proof. by move=> so al co; split; [exact: put_un|exact: put_ok]. Qed.

(* the world, with the arrays and matrices of the user *)
Definition hist w (L : seq (seq nat)) (M : seq (seq (seq CF))) : Prop :=
  [/\ world_ok w, [seq vec (hw_st w) p | p <- hw_vecs w] = L & [seq mat (hw_st w) p | p <- hw_mats w] = M].

Lemma hist_un a w L M h' gA gB : hist w L M -> unchanged a (hw_st w) h' -> store_ok h' ->
  all (gcc_ok h') gA -> all (gccb_ok h') gB -> hist (HWorld h' (hw_vecs w) (hw_mats w) gA gB) L M.
Proof.
move=> [/and5P[o1 o2 o3 o4 /and3P[o5 o6 o7]] <- <-] u so aA aB; split=> /=.
- rewrite /world_ok /= so o3 o5 aA aB (all_un u o2) /= !andbT.
  by case: u => _ -> _ _.
- exact: map_un u o2.
- by apply: eq_map => p; exact: mat_un u.
Qed.

Lemma hist_A w L M : hist w L M -> all (gcc_ok (hw_st w)) (hw_A w).
Proof. by case=> /and5P[_ _ _ _ /and3P[]]. Qed.
Lemma hist_B w L M : hist w L M -> all (gccb_ok (hw_st w)) (hw_B w).
Proof. by case=> /and5P[_ _ _ _ /and3P[]]. Qed.
Lemma hist_so w L M : hist w L M -> store_ok (hw_st w).
Proof. by case=> /and5P[]. Qed.
Lemma hist_v w L M j p : hist w L M -> py_get (hw_vecs w) j = Ok p -> is_vec (hw_st w) p.
Proof. by case=> /and5P[_ o _ _ _] _ _; exact: py_get_all. Qed.
Lemma hist_m w L M j p : hist w L M -> py_get (hw_mats w) j = Ok p -> (p < size (st_mats (hw_st w)))%N.
Proof. by case=> /and5P[_ _ _ o _] _ _; exact: (py_get_all o). Qed.

Lemma A_w h h' l : wider h h' -> all (gcc_ok h) l -> all (gcc_ok h') l.
Proof. by move=> w0; apply: sub_all => g; exact: gcc_ok_w. Qed.
Lemma B_w h h' l : wider h h' -> all (gccb_ok h) l -> all (gccb_ok h') l.
Proof. by move=> w0; apply: sub_all => g; exact: gccb_ok_w. Qed.

Lemma hist_with a w L M h' : hist w L M -> unchanged a (hw_st w) h' -> store_ok h' -> hist (with_st w h') L M.
Proof.
move=> hw u so; apply: (hist_un hw u so).
- exact: A_w (un_wider u) (hist_A hw).
- exact: B_w (un_wider u) (hist_B hw).
Qed.

Lemma calc_at_ok w a a' : calc_at w a = Ok a' -> (a' < size (st_calcs (hw_st w)))%N.
Proof. by rewrite /calc_at; case: ifP => // al [<-]. Qed.

Lemma py_get_posz (T : Type) (d : T) (l : seq T) j x : py_get l (Posz j) = Ok x -> (j < size l)%N /\ nth d l j = x.
Proof.
rewrite /py_get /py_index /=; case: ifP => //= jl.
by rewrite -[X in nth d X](cat_take_drop j l) nth_cat size_take jl ltnn subnn; case: (drop j l) => [|y r] //= [->].
Qed.

Lemma all_set_nth (T : Type) (P : pred T) d (l : seq T) j x : all P l -> P x -> (j < size l)%N -> all P (set_nth d l j x).
Proof.
move=> al px jl; apply/(all_nthP d) => i; rewrite size_set_nth (maxn_idPr jl) => il.
by rewrite nth_set_nth /=; case: eqP => // _; move/(all_nthP d): al; exact.
Qed.

Lemma map_nth_put (S : Type) (e : S) (V : seq S) (l : seq nat) j s : uniq l -> (j < size l)%N ->
  [seq nth e (set_nth e V (nth 0%N l j) s) x | x <- l] = set_nth e [seq nth e V x | x <- l] j s.
Proof.
move=> ul jl; apply: (@eq_from_nth _ e); rewrite ?size_set_nth ?size_map ?(maxn_idPr jl) // => i il.
rewrite (nth_map 0%N) // !nth_set_nth /= nth_uniq //.
by case: eqP => // _; rewrite (nth_map 0%N).
Qed.

Definition step_ok L M o (x : res (hworld R)) : Prop :=
  if x is Ok w then hist w (user_vecs L o) (user_mats M o) else True.

Lemma hstep_hist o w L M : hist w L M -> always (step_ok L M o) (hstep gray fuel o w).
Proof.
move=> hw; have so := hist_so hw; have hA := hist_A hw; have hB := hist_B hw.
have [wo eL eM] := hw; have /and5P[_ o2 o3 o4 /and3P[o5 _ _]] := wo.
case: o => [s|j s|X|j X|ty jm ji jo|a j|a j|a j|a|a|a|i j k|i j k] /=.
- have u := push_un 0%N (hw_st w) s.
  have w0 := un_wider u; have so' := store_ok_un u (erefl _) so.
  have [/and5P[_ p2 _ p4 _] e1 e2] := hist_with hw u so'.
  split=> /=; last by rewrite -e2.
    rewrite /world_ok /= so' !all_rcons is_vec_push p2 rcons_uniq o3 p4 o5 (A_w w0 hA) (B_w w0 hB) /= !andbT.
    by apply/negP => /(allP o2); rewrite /is_vec ltnn.
  by rewrite map_rcons vec_push e1.
- case E: (py_get _ _) => [p|e] //=; have hp := hist_v hw E.
  have [jl ej] := py_get_posz 0%N E.
  have w0 : wider (hw_st w) (put_vec (hw_st w) p s) by split=> //; rewrite size_put.
  split=> /=.
  + rewrite /world_ok /= store_ok_put // o3 o4 o5 (A_w w0 hA) (B_w w0 hB) /= !andbT.
    by apply: sub_all o2 => q; exact: is_vec_w.
  + by rewrite -eL -ej; exact: map_nth_put.
  + by rewrite -eM.
- have w0 : wider (hw_st w) (push_mat (hw_st w) X) by split=> //=; rewrite size_rcons.
  split=> /=.
  + rewrite /world_ok /= o3 (A_w w0 hA) (B_w w0 hB) rcons_uniq o5 all_rcons size_rcons ltnSn /= !andbT.
    apply/and4P; split.
    * by apply: sub_all so => c; exact: calc_ok_w.
    * by apply: sub_all o2 => q; exact: is_vec_w.
    * by apply: sub_all o4 => q /ltnW.
    * by apply/negP => /(allP o4); rewrite ltnn.
  + exact: eL.
  + rewrite map_rcons /mat /= nth_rcons ltnn eqxx -eM; congr rcons.
    by apply/eq_in_map => q /(allP o4) qm; rewrite nth_rcons qm.
- case E: (py_get _ _) => [p|e] //=; have hp := hist_m hw E.
  have [jl ej] := py_get_posz 0%N E.
  have sz : size (st_mats (put_mat (hw_st w) p X)) = size (st_mats (hw_st w)).
    by rewrite /= size_set_nth; apply/maxn_idPr.
  have w0 : wider (hw_st w) (put_mat (hw_st w) p X) by split=> //; rewrite sz.
  split=> /=.
  + rewrite /world_ok /with_st [hw_st _]/= sz o2 o3 o4 o5 (A_w w0 hA) (B_w w0 hB) /= !andbT.
    by apply: sub_all so => c; exact: calc_ok_w.
  + exact: eL.
  + by rewrite -eM -ej; exact: map_nth_put.
- case E1: (py_get _ _) => [pm|e] //=; case E2: (py_get _ _) => [pi|e] //=; case E3: (py_get _ _) => [po|e] //=.
  have w0 : wider (hw_st w) (push_cal (hw_st w) (no_calc R)) by split=> //=; rewrite size_rcons.
  split=> //=; rewrite /world_ok /= o3 o4 o5 [all _ (hw_A w)](A_w _ hA) ?[all _ (hw_B w)](B_w _ hB) //=; last 2 first.
  + by split=> //=; rewrite size_rcons.
  + by split=> //=; rewrite size_rcons.
  rewrite !andbT o2 andbT /store_ok /= all_rcons /calc_ok /=; apply/andP; split; last exact: so.
  by apply/and3P; split; [exact: (hist_v hw E2)|exact: (hist_v hw E3)|exact: (hist_m hw E1)].
- case E1: (calc_at w a) => [a'|e] //=; case E2: (py_get _ _) => [p|e] //=; have al := calc_at_ok E1.
  have /and3P[c1 c2 c3] := cal_ok so al.
  have [u so'] : unchanged a' (hw_st w) (h_set_matrix (hw_st w) a' p) /\ store_ok (h_set_matrix (hw_st w) a' p).
    by apply: put_set => //; apply/and3P; split=> //; exact: hist_m hw E2.
  exact: hist_with hw u so'.
- case E1: (calc_at w a) => [a'|e] //=; case E2: (py_get _ _) => [p|e] //=; have al := calc_at_ok E1.
  have /and3P[c1 c2 c3] := cal_ok so al.
  have [u so'] : unchanged a' (hw_st w) (h_set_input (hw_st w) a' p) /\ store_ok (h_set_input (hw_st w) a' p).
    by apply: put_set => //; apply/and3P; split=> //; exact: hist_v hw E2.
  exact: hist_with hw u so'.
- case E1: (calc_at w a) => [a'|e] //=; case E2: (py_get _ _) => [p|e] //=; have al := calc_at_ok E1.
  have /and3P[c1 c2 c3] := cal_ok so al.
  have [u so'] : unchanged a' (hw_st w) (h_set_output (hw_st w) a' p) /\ store_ok (h_set_output (hw_st w) a' p).
    by apply: put_set => //; apply/and3P; split=> //; exact: hist_v hw E2.
  exact: hist_with hw u so'.
- case E1: (calc_at w a) => [a'|e] //=; have al := calc_at_ok E1; rewrite /h_compute.
  case: (compute_any _ _ _) => [va|e] //=.
  have /and3P[c1 c2 c3] := cal_ok so al.
  have [u so'] : unchanged a' (hw_st w) (put_cal (hw_st w) a' (HCalc va.2 (hc_mat (cal (hw_st w) a')) (hc_in (cal (hw_st w) a')) (hc_out (cal (hw_st w) a')))) /\ 
     store_ok (put_cal (hw_st w) a' (HCalc va.2 (hc_mat (cal (hw_st w) a')) (hc_in (cal (hw_st w) a')) (hc_out (cal (hw_st w) a')))).
    by apply: put_set => //; apply/and3P.
  exact: hist_with hw u so'.
- case E1: (calc_at w a) => [a'|e] //=; have al := calc_at_ok E1.
  have u1 := push_un a' (hw_st w) [::]; have u2 := push_un a' (push_vec (hw_st w) [::]) [::].
  have u := unchanged_trans u1 u2; have w0 := un_wider u.
  apply: (hist_un hw u) => //; first exact: store_ok_un u (erefl _) so.
  + rewrite all_rcons (A_w w0 hA) andbT /gcc_ok /= is_vec_push (is_vec_un u2) ?is_vec_push //=.
    by rewrite al.
  + exact: B_w w0 hB.
- case E1: (calc_at w a) => [a'|e] //=; have al := calc_at_ok E1.
  have [h' [b [eh u st ob]]] : exists h' b, [/\ h_new_gccb (hw_st w) a' = (h', b), unchanged a' (hw_st w) h', st_calcs h' = st_calcs (hw_st w) & gccb_ok h' b].
    eexists; eexists; split; first by [].
    - exact: unchanged_trans (push_un _ _ _) (unchanged_trans (push_un _ _ _) (push_un _ _ _)).
    - by [].
    - by rewrite /gccb_ok /is_vec /= !size_rcons al !ltnS !leqnSn /= ?andbT ?leqnn; lia.
  case: eh u st ob => <- <- u st ob; have w0 := un_wider u.
  apply: (hist_un hw u) => //; first exact: store_ok_un u st so.
  + exact: A_w w0 hA.
  + by rewrite all_rcons ob; exact: B_w w0 hB.
- case E1: (py_get _ _) => [g|e] //=; case E2: (py_get _ _) => [p|e] //=.
  have go : gcc_ok (hw_st w) g := py_get_all hA E1; have hp := hist_v hw E2.
  have [jl _] := py_get_posz g E1.
  apply: always_rbind; apply: always_rbind; apply: always_rbind.
  refine (@same_run_always _ _ _ _ _ _ _ (h_gccE gray fuel k so go hp)) => -[x|e] [y|e'] //= [_ _ u so' go'].
  have w0 := un_wider u; apply: (hist_un hw u) => //; last exact: B_w w0 hB.
  by apply: all_set_nth => //; exact: A_w w0 hA.
- case E1: (py_get _ _) => [b|e] //=; case E2: (py_get _ _) => [p|e] //=.
  have go : gccb_ok (hw_st w) b := py_get_all hB E1; have hp := hist_v hw E2.
  have [jl _] := py_get_posz b E1.
  apply: always_rbind; apply: always_rbind; apply: always_rbind.
  refine (@same_run_always _ _ _ _ _ _ _ (h_gccbE fuel k so go hp)) => -[x|e] [y|e'] //= [_ _ u so' go'].
  have w0 := un_wider u; apply: (hist_un hw u) => //; first exact: A_w w0 hA.
  by apply: all_set_nth => //; exact: B_w w0 hB.
Qed.

Lemma hrun_hist ops w L M : hist w L M ->
  always (fun x => if x is Ok w' then hist w' (foldl (@user_vecs R) L ops) (foldl (@user_mats R) M ops) else True)
    (hrun gray fuel ops w).
Proof.
elim: ops w L M => [|o ops IH] w L M hw //=; apply: always_rbind.
by apply: always_impl (hstep_hist o hw) => -[w'|e] //= hw'; exact: IH.
Qed.

End Heap.
