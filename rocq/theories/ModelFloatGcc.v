(* The generalized Clifford & Clifford strategies of ModelGcc.v (occupations and
   mode assignments) over arbitrary arithmetics for complex128 and float, an
   arbitrary algorithm for sum() on floats, and random() with finitely many
   equally likely values 0, 1/N, ..., (N-1)/N.  Sources as in ModelGcc.v. *)
From mathcomp Require Import all_ssreflect all_algebra complex.
From Verif Require Import Base ModelStates ModelPerm ModelDist SpecProb ModelGcc ModelFloat.
Set Implicit Arguments.
Unset Strict Implicit.
Unset Printing Implicit Defensive.
Import GRing.Theory Num.Theory.
Local Open Scope ring_scope.
Local Open Scope py_scope.

Section Gcc.
Variable R : rcfType.
Notation CF := (ComplexField.complex_numFieldType R).
Notation prog A := (rprog R (res A)).
Variables (A : arith CF) (B : arith R) (f_abs : CF -> R) (f_sum : seq R -> R).

(* for p in l: acc += p; if acc > v: break; i += 1 *)
Fixpoint fl_cum_search (v acc : R) (i : nat) (l : seq R) : nat :=
  if l is p :: l' then
    let acc := f_add B acc p in
    if v < acc then i else fl_cum_search v acc i.+1 l'
  else i.

(* environment: Gray codes, fuel, number of values of random() *)
Variables (gray : nat -> seq nat) (fuel N : nat).

(* scipy's binom on integers *)
Definition fl_binom (n : nat) (k : int) : R := if k is Posz j then f_int B (Posz 'C(n, j)) else 0.

(* _calculate_weights (185-205) *)
Definition fl_calculate_weight (s : seq nat) (kv : seq int) : res R :=
  let l := foldl +%R 0 kv in
  let n := sumn s in
  let! a := py_factorial l in
  let! b := py_factorial (Posz n - l) in
  rfoldl (fun w i => let! x := py_get s (Posz i) in let! k := py_get kv (Posz i) in
                     Ok (f_mul B w (fl_binom x k)))
    (f_quot B (Posz (a * b)) (Posz n`!)) (iota 0 (size s)).

(* the normalised weights (151-155) *)
Definition fl_layer_weights (s : seq nat) (Ts : seq (seq nat)) : res (seq R) :=
  let! kvs := rmapM (k_vector s) Ts in
  let! ws := rmapM (fl_calculate_weight s) kvs in
  if ws is [::] then Err TypeError else
  Ok [seq f_fdiv B w (f_sum ws) | w <- ws].

(* _calculate_outputs_probability (225-247) *)
Definition fl_outputs_probability (a : any_calc CF) (T t : seq nat) : res (R * any_calc CF) :=
  let a := set_output t (set_input T a) in
  let! va := fl_compute_any A gray fuel a in
  Ok (f_div B (foldl (fun x k => f_div B x (Posz k`!)) (f_pow B (f_abs va.1) 2) T) (Posz (sumn T)`!),
      va.2).

(* one entry of the pmf (163-169) *)
Definition fl_pmf_entry (a : any_calc CF) (Ts : seq (seq nat)) (ws : seq R) (t : seq nat) :
    res (R * any_calc CF) :=
  rfoldl (fun st i =>
    let! T := py_get Ts (Posz i) in
    let! pa := fl_outputs_probability st.2 T t in
    let! w := py_get ws (Posz i) in
    Ok (f_add B st.1 (f_mul B pa.1 w), pa.2)) (0, a) (iota 0 (size Ts)).

(* _calculate_new_layer_of_pmfs (136-171) *)
Definition fl_new_layer (g : gcc R) : res (gcc R) :=
  let Ts := dgetl (g_labeled g) (sumn (g_r g)).+1 in
  let! ws := fl_layer_weights (g_input g) Ts in
  let! outs := possible_output_states (g_r g) in
  let! pa := rfoldl (fun st t =>
    let! pa := fl_pmf_entry st.2 Ts ws t in
    Ok (rcons st.1 pa.1, pa.2)) ([::], g_calc g) outs in
  Ok (Gcc (g_r g) (g_n g) (dset (g_pmfs g) (g_key g) pa.1) pa.2 (g_input g) (g_labeled g)
        (dset (g_outputs g) (g_key g) outs) (g_key g) (g_prob g)).

(* _sample_from_latest_pmf (249-266), random() has returned k / N *)
Definition fl_sample_with (g : gcc R) (k : nat) : res (gcc R) :=
  let! pmf := dget_res (g_pmfs g) (g_key g) in
  let i := fl_cum_search (f_mul B (k%:R / N%:R) (f_sum pmf)) 0 0 pmf in
  let! p := py_get pmf (Posz i) in
  let! outs := dget_res (g_outputs g) (g_key g) in
  let! r := py_get outs (Posz i) in
  Ok (Gcc r (g_n g) (g_pmfs g) (g_calc g) (g_input g) (g_labeled g) (g_outputs g) r p).
Definition fl_sample_from_latest_pmf (g : gcc R) : prog (gcc R) :=
  Int N (fun k => Ret (fl_sample_with g k)).

(* _fill_r_sample (123-134) *)
Fixpoint fl_fill_loop (n : nat) (g : gcc R) : prog (gcc R) :=
  if n is n'.+1 then
    if (sumn (g_r g) < g_n g)%N then
      draw! g := Ret (ensure_layer fl_new_layer g) in
      draw! g := fl_sample_from_latest_pmf g in
      fl_fill_loop n' g
    else Ret (Ok g)
  else Ret (Err OutOfFuel).

Definition fl_fill_r_sample (g : gcc R) : prog (gcc R) :=
  fl_fill_loop fuel (reset_sample (nseq (size (g_input g)) 0%N) g).

(* simulate (49-73) *)
Definition fl_gcc_simulate (s : seq nat) (k : nat) (g : gcc R) : prog (seq (seq nat) * gcc R) :=
  sample_loop fl_fill_r_sample (fun g => Ok (g_r g)) k (gcc_start s g).

(* ------------------------------------------------------------------ *)
(* mode-assignment variant *)

(* _calculate_new_layer_of_pmfs (67-97) *)
Definition fl_ma_new_layer (g : gcc R) : res (gcc R) :=
  let Ts := dgetl (g_labeled g) (size (g_r g)).+1 in
  let! ws := fl_layer_weights (g_input g) Ts in
  let outs := ma_possible_outputs (g_input g) (g_r g) in
  let! pa := rfoldl (fun st t =>
    let! t := mode_assignment_to_mode_occupation (map Posz t) (Posz (size (g_input g))) in
    let! pa := fl_pmf_entry st.2 Ts ws t in
    Ok (rcons st.1 pa.1, pa.2)) ([::], g_calc g) outs in
  Ok (Gcc (g_r g) (g_n g) (dset (g_pmfs g) (g_key g) pa.1) pa.2 (g_input g) (g_labeled g)
        (dset (g_outputs g) (g_key g) outs) (g_key g) (g_prob g)).

(* _fill_r_sample (54-65) *)
Fixpoint fl_ma_fill_loop (n : nat) (g : gcc R) : prog (gcc R) :=
  if n is n'.+1 then
    if (size (g_r g) < g_n g)%N then
      draw! g := Ret (ensure_layer fl_ma_new_layer g) in
      draw! g := fl_sample_from_latest_pmf g in
      fl_ma_fill_loop n' g
    else Ret (Ok g)
  else Ret (Err OutOfFuel).
Definition fl_ma_fill_r_sample (g : gcc R) : prog (gcc R) := fl_ma_fill_loop fuel (reset_sample [::] g).

(* simulate (27-52) *)
Definition fl_ma_simulate (s : seq nat) (k : nat) (g : gcc R) : prog (seq (seq nat) * gcc R) :=
  sample_loop fl_ma_fill_r_sample
    (fun g => mode_assignment_to_mode_occupation (map Posz (g_r g)) (Posz (size (g_input g))))
    k (gcc_start s g).

End Gcc.
