(* Model of the generalized Clifford & Clifford sampling strategies:
     simulation_strategies/generalized_cliffords_simulation_strategy.py              (20-266)
     simulation_strategies/mode_assignment_generalized_cliffords_simulation_strategy.py (16-112)
     simulation_strategies/generalized_cliffords_uniform_losses_simulation_strategy.py  (19-173)
   Objects are records, methods map the object to the new object.  Floats are
   modelled by a real closed field R, complex numbers by R[i].  Random numbers
   are draws of the trees of SpecProb. *)
From mathcomp Require Import all_ssreflect all_algebra complex.
From Verif Require Import Base ModelStates ModelPerm ModelDist SpecProb.
Set Implicit Arguments.
Unset Strict Implicit.
Unset Printing Implicit Defensive.
Import GRing.Theory Num.Theory.
Local Open Scope ring_scope.
Local Open Scope py_scope.

(* dictionaries: the first entry for a key counts *)
Definition dget (K : eqType) (V : Type) (d : seq (K * V)) (k : K) : option V :=
  ohead [seq x.2 | x <- d & x.1 == k].
Definition dset (K V : Type) (d : seq (K * V)) (k : K) (v : V) : seq (K * V) := (k, v) :: d.
(* defaultdict(list) *)
Definition dgetl (K : eqType) (V : Type) (d : seq (K * seq V)) (k : K) : seq V := odflt [::] (dget d k).
(* d[k] *)
Definition dget_res (K : eqType) (V : Type) (d : seq (K * V)) (k : K) : res V :=
  if dget d k is Some v then Ok v else Err KeyError.

(* math.factorial *)
Definition py_factorial (i : int) : res nat :=
  if i is Posz k then Ok k`! else Err ValueError.

Section Gcc.
Variable R : rcfType.
Notation CF := (ComplexField.complex_numFieldType R).
Notation prog A := (rprog R (res A)).

(* scipy's binom on integers *)
Definition sp_binom (n : nat) (k : int) : R := if k is Posz j then 'C(n, j)%:R else 0.

(* for p in l: acc += p; if acc > v: break; i += 1 *)
Fixpoint cum_search (v acc : R) (i : nat) (l : seq R) : nat :=
  if l is p :: l' then if v < acc + p then i else cum_search v (acc + p) i.+1 l' else i.

(* sum of a list *)
Definition py_sum (l : seq R) : R := foldl +%R 0 l.

(* environment: Gray codes of the external package, fuel *)
Variables (gray : nat -> seq nat) (fuel : nat).

(* the strategy object (25-39) *)
Record gcc := Gcc {
  g_r : seq nat;                          (* r_sample *)
  g_n : nat;                              (* number_of_input_photons *)
  g_pmfs : seq (seq nat * seq R);
  g_calc : any_calc CF;
  g_input : seq nat;
  g_labeled : seq (nat * seq (seq nat));  (* _labeled_states *)
  g_outputs : seq (seq nat * seq (seq nat)); (* possible_outputs *)
  g_key : seq nat;                        (* current_key *)
  g_prob : R                              (* current_sample_probability *)
}.

Definition new_gcc (a : any_calc CF) : gcc := Gcc [::] 0 [::] a [::] [::] [::] [::] 1.

(* set_new_matrix (41-47) *)
Definition set_new_matrix (M : seq (seq CF)) (g : gcc) : gcc :=
  Gcc (g_r g) (g_n g) (g_pmfs g) (set_matrix M (g_calc g)) (g_input g) (g_labeled g)
    (g_outputs g) (g_key g) (g_prob g).

(* _calculate_all_input_substates (95-121) *)
Fixpoint all_input_substates (s : seq nat) : seq (seq nat) :=
  if s is n :: s' then
    let smaller := all_input_substates s' in
    flatten [seq [seq i :: t | t <- smaller] | i <- iota 0 n.+1]
  else [:: [::]].

(* _get_sorted_possible_states (75-93) *)
Definition label_states (s : seq nat) : seq (nat * seq (seq nat)) :=
  foldl (fun d t => dset d (sumn t) (rcons (dgetl d (sumn t)) t)) [::] (all_input_substates s).

(* the beginning of simulate (64-67) *)
Definition gcc_start (s : seq nat) (g : gcc) : gcc :=
  Gcc (g_r g) (sumn s) [::] (g_calc g) s (label_states s) (g_outputs g) (g_key g) (g_prob g).

(* corresponding_k_vectors (146-149) *)
Definition k_vector (s T : seq nat) : res (seq int) :=
  rmapM (fun i => let! x := py_get s (Posz i) in let! y := py_get T (Posz i) in
                  Ok (Posz x - Posz y)) (iota 0 (size T)).

(* _calculate_weights (185-205) *)
Definition calculate_weight (s : seq nat) (kv : seq int) : res R :=
  let l := foldl +%R 0 kv in
  let n := sumn s in
  let! a := py_factorial l in
  let! b := py_factorial (Posz n - l) in
  rfoldl (fun w i => let! x := py_get s (Posz i) in let! k := py_get kv (Posz i) in
                     Ok (w * sp_binom x k))
    ((a * b)%:R / n`!%:R) (iota 0 (size s)).

(* the normalised weights (151-155) *)
Definition layer_weights (s : seq nat) (Ts : seq (seq nat)) : res (seq R) :=
  let! kvs := rmapM (k_vector s) Ts in
  let! ws := rmapM (calculate_weight s) kvs in
  if ws is [::] then Err TypeError else   (* [] / 0 *)
  Ok [seq w / py_sum ws | w <- ws].

(* _generate_possible_output_states (207-223) *)
Definition possible_output_states (r : seq nat) : res (seq (seq nat)) :=
  rmapM (fun i => incr_at r (Posz i)) (iota 0 (size r)).

(* _calculate_outputs_probability (225-247) *)
Definition outputs_probability (a : any_calc CF) (T t : seq nat) : res (R * any_calc CF) :=
  let a := set_output t (set_input T a) in
  let! va := compute_any gray fuel a in
  Ok (foldl (fun x k => x / k`!%:R) (py_abs va.1 ^+ 2) T / (sumn T)`!%:R, va.2).

(* one entry of the pmf (163-169) *)
Definition pmf_entry (a : any_calc CF) (Ts : seq (seq nat)) (ws : seq R) (t : seq nat) :
    res (R * any_calc CF) :=
  rfoldl (fun st i =>
    let! T := py_get Ts (Posz i) in
    let! pa := outputs_probability st.2 T t in
    let! w := py_get ws (Posz i) in
    Ok (st.1 + pa.1 * w, pa.2)) (0, a) (iota 0 (size Ts)).

(* _calculate_new_layer_of_pmfs (136-171) *)
Definition new_layer (g : gcc) : res gcc :=
  let Ts := dgetl (g_labeled g) (sumn (g_r g)).+1 in
  let! ws := layer_weights (g_input g) Ts in
  let! outs := possible_output_states (g_r g) in
  let! pa := rfoldl (fun st t =>
    let! pa := pmf_entry st.2 Ts ws t in
    Ok (rcons st.1 pa.1, pa.2)) ([::], g_calc g) outs in
  Ok (Gcc (g_r g) (g_n g) (dset (g_pmfs g) (g_key g) pa.1) pa.2 (g_input g) (g_labeled g)
        (dset (g_outputs g) (g_key g) outs) (g_key g) (g_prob g)).

(* if current_key not in pmfs: _calculate_new_layer_of_pmfs (132-133) *)
Definition ensure_layer (layer : gcc -> res gcc) (g : gcc) : res gcc :=
  if dget (g_pmfs g) (g_key g) is Some _ then Ok g else layer g.

(* _sample_from_latest_pmf (249-266), given the draw u of random() *)
Definition sample_with (g : gcc) (u : R) : res gcc :=
  let! pmf := dget_res (g_pmfs g) (g_key g) in
  let i := cum_search (u * py_sum pmf) 0 0 pmf in
  let! p := py_get pmf (Posz i) in
  let! outs := dget_res (g_outputs g) (g_key g) in
  let! r := py_get outs (Posz i) in
  Ok (Gcc r (g_n g) (g_pmfs g) (g_calc g) (g_input g) (g_labeled g) (g_outputs g) r p).
Definition sample_from_latest_pmf (g : gcc) : prog gcc := Unif (fun u => Ret (sample_with g u)).

(* _fill_r_sample (123-134): the loop, then the whole *)
Fixpoint fill_loop (n : nat) (g : gcc) : prog gcc :=
  if n is n'.+1 then
    if (sumn (g_r g) < g_n g)%N then
      draw! g := Ret (ensure_layer new_layer g) in
      draw! g := sample_from_latest_pmf g in
      fill_loop n' g
    else Ret (Ok g)
  else Ret (Err OutOfFuel).

Definition reset_sample (r : seq nat) (g : gcc) : gcc :=
  Gcc r (g_n g) (g_pmfs g) (g_calc g) (g_input g) (g_labeled g) (g_outputs g) r 1.

Definition fill_r_sample (g : gcc) : prog gcc :=
  fill_loop fuel (reset_sample (nseq (size (g_input g)) 0%N) g).

(* the loop of simulate (69-73): k samples are missing *)
Fixpoint sample_loop (G X : Type) (fill : G -> prog G) (out : G -> res X) (k : nat) (g : G) :
    prog (seq X * G) :=
  if k is k'.+1 then
    draw! g := fill g in
    draw! x := Ret (out g) in
    draw! y := sample_loop fill out k' g in
    Ret (Ok (x :: y.1, y.2))
  else Ret (Ok ([::], g)).

(* simulate (49-73) *)
Definition gcc_simulate (s : seq nat) (k : nat) (g : gcc) : prog (seq (seq nat) * gcc) :=
  sample_loop fill_r_sample (fun g => Ok (g_r g)) k (gcc_start s g).

(* ------------------------------------------------------------------ *)
(* mode-assignment variant: r_sample is a tuple of modes *)

(* _generate_possible_output_states (99-112) *)
Definition ma_possible_outputs (s r : seq nat) : seq (seq nat) :=
  [seq rcons r i | i <- iota 0 (size s)].

(* _calculate_new_layer_of_pmfs (67-97) *)
Definition ma_new_layer (g : gcc) : res gcc :=
  let Ts := dgetl (g_labeled g) (size (g_r g)).+1 in
  let! ws := layer_weights (g_input g) Ts in
  let outs := ma_possible_outputs (g_input g) (g_r g) in
  let! pa := rfoldl (fun st t =>
    let! t := mode_assignment_to_mode_occupation (map Posz t) (Posz (size (g_input g))) in
    let! pa := pmf_entry st.2 Ts ws t in
    Ok (rcons st.1 pa.1, pa.2)) ([::], g_calc g) outs in
  Ok (Gcc (g_r g) (g_n g) (dset (g_pmfs g) (g_key g) pa.1) pa.2 (g_input g) (g_labeled g)
        (dset (g_outputs g) (g_key g) outs) (g_key g) (g_prob g)).

(* _fill_r_sample (54-65) *)
Fixpoint ma_fill_loop (n : nat) (g : gcc) : prog gcc :=
  if n is n'.+1 then
    if (size (g_r g) < g_n g)%N then
      draw! g := Ret (ensure_layer ma_new_layer g) in
      draw! g := sample_from_latest_pmf g in
      ma_fill_loop n' g
    else Ret (Ok g)
  else Ret (Err OutOfFuel).
Definition ma_fill_r_sample (g : gcc) : prog gcc := ma_fill_loop fuel (reset_sample [::] g).

(* simulate (27-52) *)
Definition ma_simulate (s : seq nat) (k : nat) (g : gcc) : prog (seq (seq nat) * gcc) :=
  sample_loop ma_fill_r_sample
    (fun g => mode_assignment_to_mode_occupation (map Posz (g_r g)) (Posz (size (g_input g))))
    k (gcc_start s g).

(* ------------------------------------------------------------------ *)
(* uniform losses: the object (22-34) *)
Record ugcc := UGcc {
  ug_gcc : gcc;
  ug_eta : R;                       (* _transmissivity *)
  ug_dist : seq R;                  (* distribution *)
  ug_unw : seq R;                   (* unweighted_distribution *)
  ug_outs : seq (seq nat);          (* _possible_outputs *)
  ug_weights : seq R;               (* _binomial_weights *)
  ug_missing : bool                 (* missing_values_in_distribution *)
}.

Definition new_ugcc (a : any_calc CF) (eta : R) : ugcc :=
  UGcc (new_gcc a) eta [::] [::] [::] [::] false.

(* _initialize_simulation (52-85) *)
Definition ugcc_start (s : seq nat) (x : ugcc) : res ugcc :=
  let init : R := if ug_missing x then -1 else 0 in
  let! outs := generate_possible_states fuel (Posz (sumn s)) (Posz (size s)) true in
  let n := sumn s in
  let eta := ug_eta x in
  let ws := [seq eta ^+ l * 'C(n, l)%:R * (1 - eta) ^+ (n - l) | l <- iota 0 n.+1] in
  let! w0 := py_get ws 0 in
  let! dist := py_set [seq init | _ <- outs] 0 w0 in
  Ok (UGcc (gcc_start s (ug_gcc x)) eta dist [seq init | _ <- outs] outs ws (ug_missing x)).

(* the update of the distributions for one output (164-171): every position
   whose outcome equals the output *)
Definition record_output (x : ugcc) (t : seq nat) (p : R) (du : seq R * seq R) :
    res (seq R * seq R) :=
  rfoldl (fun du i =>
    let! o := py_get (ug_outs x) (Posz i) in
    if t == o then
      let v := foldl (fun v k => v / k`!%:R) (p * (sumn t)`!%:R) t in
      let! un := py_set du.2 (Posz i) v in
      let! b := py_get (ug_weights x) (Posz (sumn t)) in
      let! di := py_set du.1 (Posz i) (v * b) in
      Ok (di, un)
    else Ok du) du (iota 0 (size (ug_outs x))).

Definition set_ug (x : ugcc) (g : gcc) (du : seq R * seq R) : ugcc :=
  UGcc g (ug_eta x) du.1 du.2 (ug_outs x) (ug_weights x) (ug_missing x).

(* _calculate_new_layer_of_pmfs (140-173) *)
Definition u_new_layer (x : ugcc) : res ugcc :=
  let g := ug_gcc x in
  let Ts := dgetl (g_labeled g) (sumn (g_r g)).+1 in
  let! ws := layer_weights (g_input g) Ts in
  let! outs := possible_output_states (g_r g) in
  let! st := rfoldl (fun st t =>
    let: (pmf, a, du) := st in
    let! pa := pmf_entry a Ts ws t in
    let! du := record_output x t pa.1 du in
    Ok (rcons pmf pa.1, pa.2, du)) ([::], g_calc g, (ug_dist x, ug_unw x)) outs in
  let: (pmf, a, du) := st in
  Ok (set_ug x
    (Gcc (g_r g) (g_n g) (dset (g_pmfs g) (g_key g) pmf) a (g_input g) (g_labeled g)
       (dset (g_outputs g) (g_key g) outs) (g_key g) (g_prob g)) du).

Definition u_ensure_layer (x : ugcc) : res ugcc :=
  if dget (g_pmfs (ug_gcc x)) (g_key (ug_gcc x)) is Some _ then Ok x else u_new_layer x.

(* _fill_r_sample (125-138): i photons are to be considered *)
Fixpoint u_fill_loop (i : nat) (x : ugcc) : prog ugcc :=
  if i is i'.+1 then
    Unif (fun u =>
      if ug_eta x <= u then u_fill_loop i' x else
      draw! x := Ret (u_ensure_layer x) in
      draw! g := sample_from_latest_pmf (ug_gcc x) in
      u_fill_loop i' (set_ug x g (ug_dist x, ug_unw x)))
  else Ret (Ok x).

Definition u_fill_r_sample (x : ugcc) : prog ugcc :=
  let g := ug_gcc x in
  u_fill_loop (g_n g)
    (set_ug x (reset_sample (nseq (size (calc_matrix (g_calc g))) 0%N) g) (ug_dist x, ug_unw x)).

(* simulate (35-50) *)
Definition ugcc_simulate (s : seq nat) (k : nat) (x : ugcc) : prog (seq (seq nat) * ugcc) :=
  draw! x := Ret (ugcc_start s x) in
  sample_loop u_fill_r_sample (fun x => Ok (g_r (ug_gcc x))) k x.

(* compute_distribution_up_to_accuracy (87-103); isclose(z, 0) is z <= tol *)
Section Accuracy.
Variables (dist : ugcc -> R) (accuracy tol : R).
Fixpoint accuracy_loop (n : nat) (x : ugcc) : prog ugcc :=
  if n is n'.+1 then
    if Num.max (accuracy - dist x) 0 <= tol then Ret (Ok x) else
    draw! x := u_fill_r_sample x in
    accuracy_loop n' x
  else Ret (Err OutOfFuel).
End Accuracy.

Definition compute_distribution (accuracy tol : R) (n : nat) (s : seq nat) (x : ugcc) :
    prog (seq R * ugcc) :=
  draw! x := Ret (ugcc_start s x) in
  draw! x := accuracy_loop (fun x => py_sum (ug_dist x)) accuracy tol n x in
  Ret (Ok (ug_dist x, x)).

(* compute_unweighted_distribution_up_to_accuracy (105-123); the first test of
   the loop divides by the number of particles *)
Definition compute_unweighted (accuracy tol : R) (n : nat) (s : seq nat) (x : ugcc) :
    prog (seq R * ugcc) :=
  draw! x := Ret (ugcc_start s x) in
  if sumn s == 0%N then Ret (Err ZeroDivisionError) else
  draw! x := accuracy_loop (fun x => py_sum (ug_unw x) / (sumn s)%:R) accuracy tol n x in
  Ret (Ok (ug_unw x, x)).

End Gcc.
