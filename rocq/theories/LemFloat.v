(* Final forms of the lemmas behind the property theorems: C73 (rounding errors of the permanent calculators). *)
From mathcomp Require Import all_ssreflect all_algebra ring zify.
From Verif Require Import Base SpecStates Combi SpecPerm ModelPerm ProofDist1 ModelFloat SpecFloat ProofFloat ProofFloat2 ProofFloat3 ProofFloat4.
Set Implicit Arguments.
Unset Strict Implicit.
Unset Printing Implicit Defensive.
Import Order.TTheory GRing.Theory Num.Theory.
Local Open Scope ring_scope.
Local Open Scope py_scope.

Lemma C73_exact_arithmetic_lemma :
  forall (F : numFieldType) (gray : nat -> seq nat) (fuel : nat) (a : any_calc F),
  fl_compute_any (exact_arith F) gray fuel a = compute_any gray fuel a /\
  forall u : F, 0 <= u -> accurate u (exact_arith F).
Proof.
by move=> F gray fuel a; split=> [|u]; [exact: fl_compute_any_exact|exact: exact_accurate].
Qed.

Lemma C73_ryser_lemma :
  forall (F : numFieldType) (u : F) (A : arith F) (m : nat) (M : seq (seq F)) (s t : seq nat) (mu : F) (fuel : nat) (c : calc F), 0 <= u -> accurate u A -> is_square m M -> size t = size s -> (size s <= m)%N -> s != [::] ->
  sumn s = sumn t -> entries_bounded m M mu ->
  (code_number s <= fuel)%N -> c_matrix c = M -> c_input c = s -> c_output c = t ->
  exists c', fl_compute_permanent A fuel Ryser c = Ok c' /\
    error_bound u (guan_roundings (size s) (sumn s) (code_number s))
      (((2 * code_number s)%:R * mu) ^+ sumn s) (bs_permanent M s t) (c_perm c').
Proof.
move=> F u A m M s t mu fuel c u0 ac sq ts sm s0 st mb fu e1 e2 e3.
by have [c' [-> [_ h]]] := fl_guanE u0 ac sq ts sm s0 st mb Ryser e1 e2 e3 fu; exists c'.
Qed.

Lemma C73_chin_huh_lemma :
  forall (F : numFieldType) (u : F) (A : arith F) (m : nat) (M : seq (seq F)) (s t : seq nat) (mu : F) (fuel : nat) (c : calc F), 0 <= u -> accurate u A -> is_square m M -> size t = size s -> (size s <= m)%N -> s != [::] ->
  sumn s = sumn t -> entries_bounded m M mu ->
  (code_number s <= fuel)%N -> c_matrix c = M -> c_input c = s -> c_output c = t ->
  exists c', fl_compute_permanent A fuel ChinHuh c = Ok c' /\
    error_bound u (guan_roundings (size s) (sumn s) (code_number s))
      (((sumn s + 2 * code_number s)%:R * mu) ^+ sumn s) (bs_permanent M s t) (c_perm c').
Proof.
move=> F u A m M s t mu fuel c u0 ac sq ts sm s0 st mb fu e1 e2 e3.
by have [c' [-> [_ h]]] := fl_guanE u0 ac sq ts sm s0 st mb ChinHuh e1 e2 e3 fu; exists c'.
Qed.

Lemma C73_classic_lemma :
  forall (F : numFieldType) (u : F) (A : arith F) (m : nat) (M : seq (seq F)) (s t : seq nat) (mu : F) (fuel : nat),
  0 <= u -> accurate u A -> is_square m M -> (size s <= m)%N -> (size t <= m)%N -> sumn s = sumn t ->
  entries_bounded m M mu -> (sumn s <= fuel)%N ->
  exists v, fl_classic_permanent A fuel M s t = Ok v /\
    error_bound u (classic_roundings (sumn s)) ((sumn s)`!%:R * mu ^+ sumn s) (bs_permanent M s t) v.
Proof.
move=> F u A m M s t mu fuel u0 ac sq sm tm st mb fu.
by have [v -> [_ h]] := fl_classicE u0 ac sq sm tm st fu mb; exists v.
Qed.

Lemma C73_glynn_lemma :
  forall (F : numFieldType) (u : F) (A : arith F) (m : nat) (M : seq (seq F)) (s t : seq nat) (mu : F) (gray : nat -> seq nat),
  0 <= u -> accurate u A -> is_square m M -> (size s <= m)%N -> (size t <= m)%N -> sumn s = sumn t ->
  entries_bounded m M mu -> gray_ok gray (sumn s) ->
  exists v, fl_glynn_permanent A gray M s t = Ok v /\
    error_bound u (glynn_roundings (sumn s)) (((sumn s + 2 * 2 ^ sumn s)%:R * mu) ^+ sumn s)
      (bs_permanent M s t) v.
Proof.
move=> F u A m M s t mu gray u0 ac sq sm tm st mb g.
have [|v -> nv] := @fl_glynnE _ u A M m s t gray mu u0 ac sq sm tm st _ mb.
  by move=> p; apply: g; rewrite subn1 prednK.
exists v; split=> //; have [_ h] := nv; move: h; rewrite /error_bound /glynn_roundings /gkterm.
have -> // : ((sumn s * (3 * (sumn s + 2 ^ sumn s)).+1).+1 + 2 ^ sumn s =
  sumn s * (3 * (sumn s + 2 ^ sumn s) + 1) + 1 + 2 ^ sumn s)%N by rewrite !addn1.
Qed.

Lemma C73_any_calculator_lemma :
  forall (F : numFieldType) (u : F) (A : arith F) (m : nat) (M : seq (seq F)) (s t : seq nat) (mu : F) (gray : nat -> seq nat) (fuel : nat) (a : any_calc F), 0 <= u -> accurate u A -> is_square m M -> size t = size s -> (size s <= m)%N -> s != [::] ->
  sumn s = sumn t -> entries_bounded m M mu ->
  gray_ok gray (sumn s) -> (code_number s <= fuel)%N ->
  calc_matrix a = M -> calc_input a = s -> calc_output a = t ->
  exists v a', fl_compute_any A gray fuel a = Ok (v, a') /\
    error_bound u (any_roundings (size s) (sumn s)) (any_scale (sumn s) mu) (bs_permanent M s t) v.
Proof.
move=> F u A m M s t mu gray fuel a u0 ac sq ts sm s0 st mb g fu e1 e2 e3.
by have [v [a' [-> [_ h]]]] := fl_anyE u0 ac sq ts sm s0 st mb g fu e1 e2 e3; exists v, a'.
Qed.

Lemma C73_first_order_lemma :
  forall (F : numFieldType) (u a v w : F) (k : nat),
  0 <= u -> 0 <= a -> k%:R * u <= 2%:R^-1 -> error_bound u k a v w -> `|w - v| <= 2%:R * k%:R * u * a.
Proof.
move=> F u a v w k u0 a0 ku h; apply: le_trans h _; apply: ler_wpmul2r => //.
exact: E_linear.
Qed.

Lemma C73_agreement_lemma :
  forall (F : numFieldType) (u : F) (A : arith F) (m : nat) (M : seq (seq F)) (s t : seq nat) (mu : F) (gray : nat -> seq nat) (fuel : nat) (a b : any_calc F), 0 <= u -> accurate u A -> is_square m M -> size t = size s -> (size s <= m)%N -> s != [::] ->
  sumn s = sumn t -> entries_bounded m M mu ->
  gray_ok gray (sumn s) -> (code_number s <= fuel)%N ->
  calc_matrix a = M -> calc_input a = s -> calc_output a = t ->
  calc_matrix b = M -> calc_input b = s -> calc_output b = t ->
  exists v a' w b', [/\ fl_compute_any A gray fuel a = Ok (v, a'), fl_compute_any A gray fuel b = Ok (w, b')
    & `|v - w| <= ((1 + u) ^+ any_roundings (size s) (sumn s) - 1) * (2%:R * any_scale (sumn s) mu)].
Proof.
move=> F u A m M s t mu gray fuel a b u0 ac sq ts sm s0 st mb g fu e1 e2 e3 e4 e5 e6.
have [v [a' [-> [_ h]]]] := fl_anyE u0 ac sq ts sm s0 st mb g fu e1 e2 e3.
have [w [b' [-> [_ h']]]] := fl_anyE u0 ac sq ts sm s0 st mb g fu e4 e5 e6.
exists v, a', w, b'; split=> //; rewrite mulrCA mulr_natl mulr2n.
have -> : v - w = (v - bs_permanent M s t) + (bs_permanent M s t - w) by ring.
by apply: le_trans (ler_norm_add _ _) _; apply: ler_add => //; rewrite distrC.
Qed.
