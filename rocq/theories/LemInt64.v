(* Final forms of the lemmas behind the property theorems: C79 (states given as arrays of 64 bit integers). *)
From mathcomp Require Import all_ssreflect all_algebra ring zify.
From Verif Require Import Base SpecStates SpecPerm ModelPerm ModelInt64 ProofInt64 LemPerm.
Set Implicit Arguments.
Unset Strict Implicit.
Unset Printing Implicit Defensive.
Import Order.TTheory GRing.Theory Num.Theory.
Local Open Scope ring_scope.
Local Open Scope py_scope.

Lemma C79_below_overflow_lemma :
  forall (F : numFieldType) (fuel : nat) (k : guan_kind) (c : calc F),
  (if k is Ryser then (Posz (sumn (c_input c)) < two63)%R else (sumn (c_input c) <= 62)%N) ->
  compute_permanent64 fuel k c = rmap Some (compute_permanent fuel k c).
Proof.
move=> F fuel k c h; apply: compute64_same.
by case: k h => h; [apply: mult64_ryser|apply: mult64_lt].
Qed.

Lemma C79_sub_below_overflow_lemma :
  forall (F : numFieldType) (fuel : nat) (k : guan_kind) (c : subcalc F),
  (if k is Ryser then (Posz (sumn (sc_input c)) < two63)%R && (Posz (sumn (sc_output c)) < two63)%R
   else (0 < sumn (sc_input c) <= 63)%N) ->
  compute_permanents64 fuel k c = rmap (fun r => Some r.1) (compute_permanents fuel k c).
Proof.
move=> F fuel k c h; have [n1|n1] := eqVneq (sumn (sc_input c)) 1%N; first exact: compute_subs_one.
case: k h => h; first by case/andP: h => h1 h2; apply: compute_subs_same; [exact: h1|exact: n1|exact: submult_ryser].
by apply: compute_subs_same; [case/andP: h => _ h; exact: (@small_le _ 63)|exact: n1|exact: submult_lt].
Qed.

Lemma C79_wrong_sign_refuted_lemma :
  forall (F : numFieldType) (m : nat) (M : seq (seq F)) (s t : seq nat) (fuel : nat),
  is_square m M -> size t = size s -> (size s <= m)%N -> (\prod_(x <- s) x.+1 <= fuel)%N ->
  (forall c : calc F, c_matrix c = M -> c_input c = s -> c_output c = t -> sumn s = 63%N -> sumn t = 63%N ->
     exists c', compute_permanent64 fuel ChinHuh c = Ok (Some c') /\ c_perm c' = - bs_permanent M s t) /\
  (forall c : subcalc F, sc_matrix c = M -> sc_input c = s -> sc_output c = t -> sumn s = 64%N -> sumn t = 63%N ->
     compute_permanents64 fuel ChinHuh c = Ok (Some [seq - p | p <- sub_permanents M s t])).
Proof.
move=> F m M s t fuel sq st sm fu; split=> c E1 E2 E3 hs ht.
- have s0 : s != [::] by move: hs; case: (s).
  have [c' [E P _ _ _]] := C13_chin_huh_permanent_lemma sq st sm s0 E1 E2 E3 fu (etrans hs (esym ht)).
  exists (negc c'); rewrite compute64_neg; last by rewrite E2 mult64_63.
  by rewrite E /= P.
- have [c' [E _ _ _]] := C20_chin_huh_sub_permanents_lemma sq st sm (etrans hs (congr1 S (esym ht))) E1 E2 E3 fu.
  rewrite compute_subs_neg ?E2 ?hs //; last 2 first.
  + by apply: (@small_le _ 64); rewrite ?hs.
  + exact: submult_64.
  by rewrite E.
Qed.

Lemma C79_not_finite_refuted_lemma :
  forall (F : numFieldType) (m : nat) (M : seq (seq F)) (s t : seq nat) (fuel : nat),
  is_square m M -> size t = size s -> (size s <= m)%N -> (\prod_(x <- s) x.+1 <= fuel)%N -> (Posz (sumn s) < two63)%R ->
  (forall c : calc F, c_matrix c = M -> c_input c = s -> c_output c = t -> (64 <= sumn s)%N -> sumn t = sumn s ->
     compute_permanent64 fuel ChinHuh c = Ok None) /\
  (forall c : subcalc F, sc_matrix c = M -> sc_input c = s -> sc_output c = t -> (65 <= sumn s)%N -> sumn s = (sumn t).+1 ->
     compute_permanents64 fuel ChinHuh c = Ok None).
Proof.
move=> F m M s t fuel sq st sm fu sl; split=> c E1 E2 E3 hs ht.
- have s0 : s != [::] by move: hs; case: (s).
  have [c' [E _ _ _ _]] := C13_chin_huh_permanent_lemma sq st sm s0 E1 E2 E3 fu (esym ht).
  rewrite compute64_none; last by rewrite E2; apply: mult64_ge.
  by rewrite E.
- have [c' [E _ _ _]] := C20_chin_huh_sub_permanents_lemma sq st sm ht E1 E2 E3 fu.
  rewrite compute_subs_none ?E2; last 1 first.
  + exact: submult_ge.
  + by rewrite E.
  + exact: sl.
  by apply: contraL hs => /eqP ->.
Qed.

Lemma C79_no_particles_refuted_lemma :
  forall (F : numFieldType) (fuel : nat) (c : subcalc F), sumn (sc_input c) = 0%N ->
  compute_permanents64 fuel ChinHuh c = Err ValueError.
Proof.
move=> F fuel c s0; rewrite /compute_permanents64 sum64_eq1; last by apply: (@small_le _ 0); rewrite ?s0.
by rewrite s0 submult_0.
Qed.
