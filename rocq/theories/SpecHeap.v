(* Objects with references followed, and validity of references. *)
From mathcomp Require Import all_ssreflect all_algebra complex.
From Verif Require Import Base ModelPerm ModelDist ModelGcc ModelGccB ModelHeap.
Set Implicit Arguments.
Unset Strict Implicit.
Unset Printing Implicit Defensive.
Import GRing.Theory Num.Theory.
Local Open Scope ring_scope.

Section Views.
Variable R : rcfType.
Implicit Type h : store R.

(* the calculator, the strategies as values *)
Definition calc_view h (a : nat) := hc_view h (cal h a).
Definition gcc_view h (g : hgcc R) : gcc R :=
  Gcc (vec h (hg_r g)) (hg_n g) (hg_pmfs g) (calc_view h (hg_calc g)) (vec h (hg_input g))
    [seq (x.1, [seq vec h p | p <- x.2]) | x <- hg_labeled g]
    [seq (x.1, [seq vec h p | p <- x.2]) | x <- hg_outputs g] (hg_key g) (hg_prob g).
Definition gccb_view h (b : hgccb R) : gccb R :=
  GccB (vec h (hb_r b)) (hb_n b) (calc_view h (hb_calc b)) (vec h (hb_input b)) (vec h (hb_current b))
    (hb_working b) (hb_pmf b).

Definition ugccb_view h (u : hugccb R) : ugccb R :=
  UGccB (gccb_view h (hub_b u)) (hub_eta u) (hub_weights u) (hub_left u).

(* all references point to objects *)
Definition is_vec h (p : nat) : bool := (p < size (st_vecs h))%N.
Definition calc_ok h (c : hcalc R) : bool :=
  [&& is_vec h (hc_in c), is_vec h (hc_out c) & (hc_mat c < size (st_mats h))%N].
Definition store_ok h : bool := all (calc_ok h) (st_calcs h).
Definition gcc_ok h (g : hgcc R) : bool :=
  [&& is_vec h (hg_r g), is_vec h (hg_input g), (hg_calc g < size (st_calcs h))%N,
      all (fun x => all (is_vec h) x.2) (hg_labeled g) & all (fun x => all (is_vec h) x.2) (hg_outputs g)].
Definition gccb_ok h (b : hgccb R) : bool :=
  [&& is_vec h (hb_r b), is_vec h (hb_input b), is_vec h (hb_current b) & (hb_calc b < size (st_calcs h))%N].
Definition ugccb_ok h (u : hugccb R) : bool := gccb_ok h (hub_b u).
Definition world_ok (w : hworld R) : bool :=
  [&& store_ok (hw_st w), all (is_vec (hw_st w)) (hw_vecs w), uniq (hw_vecs w),
      all (fun p => (p < size (st_mats (hw_st w)))%N) (hw_mats w), uniq (hw_mats w),
      all (gcc_ok (hw_st w)) (hw_A w) & all (gccb_ok (hw_st w)) (hw_B w)].

(* h' has the arrays and matrices of h, unchanged, and the calculators of h,
   unchanged apart from the calculator a *)
Definition unchanged (a : nat) h h' : Prop :=
  [/\ exists t, st_vecs h' = st_vecs h ++ t, st_mats h' = st_mats h, size (st_calcs h') = size (st_calcs h)
    & forall i, i <> a -> cal h' i = cal h i].

(* outcome of a call in the model with references and in the one with values *)
Definition same_call (G H : Type) (view : store R -> G -> H) (ok : store R -> G -> bool) (a : nat) h
    (x : seq (seq nat) * (store R * G)) (y : seq (seq nat) * H) : Prop :=
  [/\ x.1 = y.1, view x.2.1 x.2.2 = y.2, unchanged a h x.2.1, store_ok x.2.1 & ok x.2.1 x.2.2].

End Views.
