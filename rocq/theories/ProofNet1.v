(* numpy matrices and mathcomp matrices. *)
From mathcomp Require Import all_ssreflect all_algebra complex.
From Verif Require Import Base ModelStates SpecPerm ModelPerm ModelNet.
Set Implicit Arguments.
Unset Strict Implicit.
Unset Printing Implicit Defensive.
Import GRing.Theory Num.Theory.
Local Open Scope ring_scope.
Local Open Scope py_scope.

Definition is_rect (F : Type) (r c : nat) (A : seq (seq F)) : bool :=
  (size A == r) && all (fun row => size row == c) A.

Section Np.
Variable F : comRingType.
Notation mat := (seq (seq F)).

Definition mxof (r c : nat) (A : mat) : 'M[F]_(r, c) := \matrix_(i < r, j < c) ent A i j.

Lemma mxofE r c (A : mat) (i : 'I_r) (j : 'I_c) : mxof r c A i j = ent A i j. Proof. by rewrite mxE. Qed.

Lemma foldl_sum (T : Type) (l : seq T) (f : T -> F) : foldl +%R 0 [seq f x | x <- l] = \sum_(x <- l) f x.
Proof.
have h a : foldl +%R a [seq f x | x <- l] = a + \sum_(x <- l) f x.
  by elim: l a => [|x l IH] a /=; rewrite ?big_nil ?addr0 // IH big_cons addrA.
by rewrite h add0r.
Qed.

Lemma ent_rows (T : Type) (x0 : T) (f : T -> seq F) (A : seq T) i j : (i < size A)%N ->
  ent [seq f x | x <- A] i j = nth 0 (f (nth x0 A i)) j.
Proof. by move=> il; rewrite /ent (nth_map x0). Qed.

Lemma ent_tab (f : nat -> nat -> F) r c i j : (i < r)%N -> (j < c)%N ->
  ent [seq [seq f i j | j <- iota 0 c] | i <- iota 0 r] i j = f i j.
Proof.
move=> il jl; rewrite (ent_rows 0%N) ?size_iota // nth_iota // add0n.
by rewrite (nth_map 0%N) ?size_iota // nth_iota.
Qed.

Lemma rect_tab (f : nat -> nat -> F) r c : is_rect r c [seq [seq f i j | j <- iota 0 c] | i <- iota 0 r].
Proof.
rewrite /is_rect size_map size_iota eqxx; apply/allP => row /mapP[i _ ->].
by rewrite size_map size_iota.
Qed.

Lemma rect_square m (A : mat) : is_rect m m A = is_square m A. Proof. by []. Qed.

Lemma rect_row (T : Type) r c (A : seq (seq T)) i : is_rect r c A -> (i < r)%N -> size (nth [::] A i) = c.
Proof. by case/andP=> /eqP <- /all_nthP h /h /eqP. Qed.

Lemma rect_cols r c (A : mat) : is_rect r c A -> (0 < r)%N -> np_cols A = c.
Proof.
move=> h r0; rewrite /np_cols -nth0; exact: rect_row h r0.
Qed.

Lemma mxof_inj r c (A B : mat) : is_rect r c A -> is_rect r c B -> mxof r c A = mxof r c B -> A = B.
Proof.
move=> rA rB e; have /andP[/eqP sA _] := rA; have /andP[/eqP sB _] := rB.
apply: (@eq_from_nth _ [::]); first by rewrite sA sB.
move=> i; rewrite sA => il; apply: (@eq_from_nth _ 0); first by rewrite (rect_row rA) ?(rect_row rB).
move=> j; rewrite (rect_row rA) // => jl.
by have := congr1 (fun X : 'M_(r, c) => X (Ordinal il) (Ordinal jl)) e; rewrite !mxE.
Qed.

(* ------------------------------------------------------------------ *)
Lemma eye_rect n : is_rect n n (np_eye F n). Proof. exact: rect_tab. Qed.
Lemma mxof_eye n : mxof n n (np_eye F n) = 1%:M.
Proof. by apply/matrixP => i j; rewrite !mxE ent_tab // -val_eqE. Qed.

Lemma diag_rect (v : seq F) : is_rect (size v) (size v) (np_diag v). Proof. exact: rect_tab. Qed.
Lemma mxof_diag n (v : seq F) : size v = n -> mxof n n (np_diag v) = diag_mx (\row_(i < n) v`_i).
Proof.
move=> e; apply/matrixP => i j; rewrite !mxE ent_tab ?e // -val_eqE /=.
by case: eqP; rewrite ?mulr1n ?mulr0n.
Qed.

Lemma zeros_rect r c (A : mat) : is_rect r c A -> is_rect r c [seq [seq 0 : F | _ <- row] | row <- A].
Proof.
case/andP=> /eqP <- /allP h; rewrite /is_rect size_map eqxx; apply/allP=> row /mapP[x /h xc ->].
by rewrite size_map.
Qed.
Lemma mxof_zeros r c (A : mat) : mxof r c [seq [seq 0 : F | _ <- row] | row <- A] = 0.
Proof.
apply/matrixP => i j; rewrite !mxE /ent.
case: (ltnP i (size A)) => il; last by rewrite (nth_default [::]) ?size_map ?nth_nil.
rewrite (nth_map [::]) //; set x := nth [::] A i.
case: (ltnP j (size x)) => jl; last by rewrite nth_default ?size_map.
by case: x jl => // y x jl; rewrite (nth_map y).
Qed.

Lemma matmul_ok r k c (A B : mat) : is_rect r k A -> is_rect k c B -> (0 < k)%N ->
  exists X, [/\ np_matmul A B = Ok X, is_rect r c X & mxof r c X = mxof r k A *m mxof k c B].
Proof.
move=> rA rB k0; have /andP[/eqP sA /allP aA] := rA; have /andP[/eqP sB _] := rB.
rewrite /np_matmul sB (rect_cols rB k0).
have -> : all (fun row => size row == k) A by apply/allP.
eexists; split; first by reflexivity.
  rewrite /is_rect size_map sA eqxx; apply/allP => row /mapP[x _ ->].
  by rewrite size_map size_iota.
apply/matrixP => i j; rewrite !mxE (ent_rows [::]) ?sA // (nth_map 0%N) ?size_iota // nth_iota // add0n.
rewrite foldl_sum -[k in iota 0 k]subn0 -/(index_iota 0 k) big_mkord; apply: eq_bigr => x _; rewrite !mxE //.
Qed.

Lemma dot_ok r k (A : mat) (v : seq F) : is_rect r k A -> size v = k ->
  exists w, [/\ np_dot A v = Ok w, size w = r & forall i : nat, (i < r)%N -> w`_i = \sum_(j < k) ent A i j * v`_j].
Proof.
move=> rA sv; have /andP[/eqP sA /allP aA] := rA; rewrite /np_dot sv.
have -> : all (fun row => size row == k) A by apply/allP.
eexists; split; first by reflexivity.
  by rewrite size_map.
move=> i il; rewrite (nth_map [::]) ?sA // foldl_sum -[k in iota 0 k]subn0 -/(index_iota 0 k) big_mkord.
by [].
Qed.

Lemma hstack_ok r c d (A B : mat) : is_rect r c A -> is_rect r d B ->
  exists X, [/\ np_hstack A B = Ok X, is_rect r (c + d) X & mxof r (c + d) X = row_mx (mxof r c A) (mxof r d B)].
Proof.
move=> rA rB; have /andP[/eqP sA _] := rA; have /andP[/eqP sB _] := rB.
rewrite /np_hstack sA sB eqxx; eexists; split; first by reflexivity.
  rewrite /is_rect size_map size1_zip ?sA ?sB // eqxx; apply/(all_nthP [::]) => i.
  rewrite size_map size1_zip ?sA ?sB // => il.
  rewrite (nth_map ([::], [::])) ?size1_zip ?sA ?sB // nth_zip ?sA ?sB //=.
  by rewrite size_cat (rect_row rA) // (rect_row rB).
apply/matrixP => i j; rewrite !mxE (ent_rows ([::], [::])) ?size1_zip ?sA ?sB // nth_zip ?sA ?sB //=.
rewrite nth_cat (rect_row rA) //; case: splitP => k e; rewrite e !mxE.
  by [].
by rewrite addKn.
Qed.

Lemma vstack_ok r q c (A B : mat) : is_rect r c A -> is_rect q c B -> (0 < r)%N -> (0 < q)%N ->
  exists X, [/\ np_vstack A B = Ok X, is_rect (r + q) c X & mxof (r + q) c X = col_mx (mxof r c A) (mxof q c B)].
Proof.
move=> rA rB r0 q0; have /andP[/eqP sA aA] := rA; have /andP[/eqP sB aB] := rB.
rewrite /np_vstack (rect_cols rA r0) (rect_cols rB q0) eqxx; eexists; split; first by reflexivity.
  by rewrite /is_rect size_cat sA sB eqxx all_cat aA.
apply/matrixP => i j; rewrite !mxE /ent nth_cat sA; case: splitP => k e; rewrite e !mxE.
  by [].
by rewrite addKn.
Qed.

Lemma block_ok m (A B C D : mat) : is_rect m m A -> is_rect m m B -> is_rect m m C -> is_rect m m D -> (0 < m)%N ->
  exists X, [/\ np_block A B C D = Ok X, is_rect (m + m) (m + m) X
    & mxof (m + m) (m + m) X = block_mx (mxof m m A) (mxof m m B) (mxof m m C) (mxof m m D)].
Proof.
move=> rA rB rC rD m0; rewrite /np_block.
have [X [-> rX eX]] := hstack_ok rA rB; have [Y [-> rY eY]] := hstack_ok rC rD.
have [Z [e rZ eZ]] := vstack_ok rX rY m0 m0; exists Z; split=> //.
by rewrite eZ eX eY.
Qed.

(* ------------------------------------------------------------------ *)
Lemma trim_toE (T : Type) n (l : seq T) : trim_to n l = take n l.
Proof.
rewrite /trim_to; set f := fun l0 => _.
have h k (x : seq T) : (size x <= n + k)%N -> iter k f x = take n x.
  elim: k x => [|k IH] x; first by rewrite addn0 => h /=; rewrite take_oversize.
  rewrite addnS iterSr => sx; rewrite {2}/f; case: ltnP => nl; last by rewrite IH ?(leq_trans nl) ?leq_addr.
  rewrite /np_delete prednK; last exact: leq_trans nl.
  rewrite drop_size cats0 IH; last first.
    by rewrite size_takel ?leq_pred // -ltnS prednK ?(leq_trans _ nl).
  by rewrite take_take // -ltnS prednK ?(leq_trans _ nl).
by apply: h; rewrite leq_addl.
Qed.

End Np.
