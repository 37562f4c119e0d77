(* The calculators and the strategies
     permanent_calculators/bs_permanent_calculator_base.py                (25-85)
     simulation_strategies/generalized_cliffords_simulation_strategy.py   (25-266)
     simulation_strategies/generalized_cliffords_b_simulation_strategy.py (31-110)
     simulation_strategies/generalized_cliffords_b_uniform_losses_simulation_strategy.py (24-121)
   with arrays and lists as objects.  Attributes hold references, `copy` and new
   lists are new objects, item assignment changes an object in place, and so is
   seen by everyone who holds a reference to it. *)
From mathcomp Require Import all_ssreflect all_algebra complex.
From Verif Require Import Base ModelStates ModelPerm ModelDist SpecProb ModelGcc ModelGccB.
Set Implicit Arguments.
Unset Strict Implicit.
Unset Printing Implicit Defensive.
Import GRing.Theory Num.Theory.
Local Open Scope ring_scope.
Local Open Scope py_scope.

Section Heap.
Variable R : rcfType.
Notation CF := (ComplexField.complex_numFieldType R).
Notation prog A := (rprog R (res A)).
Notation mtx := (seq (seq CF)).

(* a calculator: three references; the fields of hc_own other than matrix,
   input and output state belong to the calculator alone *)
Record hcalc := HCalc { hc_own : any_calc CF; hc_mat : nat; hc_in : nat; hc_out : nat }.
Definition no_calc : hcalc := HCalc (ClassicCalc [::] [::] [::]) 0 0 0.

(* the objects: arrays and lists of integers, matrices, calculators.  References
   are positions; objects are never removed *)
Record store := Store { st_vecs : seq (seq nat); st_mats : seq mtx; st_calcs : seq hcalc }.

Definition vec (h : store) (p : nat) : seq nat := nth [::] (st_vecs h) p.
Definition mat (h : store) (p : nat) : mtx := nth [::] (st_mats h) p.
Definition cal (h : store) (a : nat) : hcalc := nth no_calc (st_calcs h) a.

(* a new object has the reference size (st_vecs h) *)
Definition push_vec (h : store) (s : seq nat) : store := Store (rcons (st_vecs h) s) (st_mats h) (st_calcs h).
Definition push_mat (h : store) (M : mtx) : store := Store (st_vecs h) (rcons (st_mats h) M) (st_calcs h).
Definition push_cal (h : store) (c : hcalc) : store := Store (st_vecs h) (st_mats h) (rcons (st_calcs h) c).
Definition put_vec (h : store) (p : nat) (s : seq nat) : store :=
  Store (set_nth [::] (st_vecs h) p s) (st_mats h) (st_calcs h).
Definition put_mat (h : store) (p : nat) (M : mtx) : store :=
  Store (st_vecs h) (set_nth [::] (st_mats h) p M) (st_calcs h).
Definition put_cal (h : store) (a : nat) (c : hcalc) : store :=
  Store (st_vecs h) (st_mats h) (set_nth no_calc (st_calcs h) a c).

(* l[i] += 1, in place *)
Definition h_incr (h : store) (p : nat) (i : int) : res store :=
  let! s := incr_at (vec h p) i in Ok (put_vec h p s).

Variables (gray : nat -> seq nat) (fuel : nat).

(* the calculator with its references followed *)
Definition hc_view (h : store) (c : hcalc) : any_calc CF :=
  set_output (vec h (hc_out c)) (set_input (vec h (hc_in c)) (set_matrix (mat h (hc_mat c)) (hc_own c))).

Definition h_set_matrix (h : store) (a p : nat) : store :=
  let c := cal h a in put_cal h a (HCalc (hc_own c) p (hc_in c) (hc_out c)).
Definition h_set_input (h : store) (a p : nat) : store :=
  let c := cal h a in put_cal h a (HCalc (hc_own c) (hc_mat c) p (hc_out c)).
Definition h_set_output (h : store) (a p : nat) : store :=
  let c := cal h a in put_cal h a (HCalc (hc_own c) (hc_mat c) (hc_in c) p).
(* compute_permanent *)
Definition h_compute (h : store) (a : nat) : res (CF * store) :=
  let c := cal h a in
  let! va := compute_any gray fuel (hc_view h c) in
  Ok (va.1, put_cal h a (HCalc va.2 (hc_mat c) (hc_in c) (hc_out c))).

(* ------------------------------------------------------------------ *)
(* version A *)
Record hgcc := HGcc {
  hg_r : nat;
  hg_n : nat;
  hg_pmfs : seq (seq nat * seq R);
  hg_calc : nat;
  hg_input : nat;
  hg_labeled : seq (nat * seq nat);       (* lists of references *)
  hg_outputs : seq (seq nat * seq nat);   (* lists of references *)
  hg_key : seq nat;
  hg_prob : R
}.

(* __init__ (25-39): the calculator a; r_sample and input_state are new lists *)
Definition h_new_gcc (h : store) (a : nat) : store * hgcc :=
  let h1 := push_vec h [::] in
  (push_vec h1 [::], HGcc (size (st_vecs h)) 0 [::] a (size (st_vecs h1)) [::] [::] [::] 1).

(* _get_sorted_possible_states (75-93) *)
Definition h_label_states (h : store) (s : seq nat) : store * seq (nat * seq nat) :=
  foldl (fun st t => (push_vec st.1 t, dset st.2 (sumn t) (rcons (dgetl st.2 (sumn t)) (size (st_vecs st.1)))))
    (h, [::]) (all_input_substates s).

(* the beginning of simulate (64-67) *)
Definition h_gcc_start (p : nat) (x : store * hgcc) : store * hgcc :=
  let: (h, g) := x in
  let hl := h_label_states h (vec h p) in
  (hl.1, HGcc (hg_r g) (sumn (vec h p)) [::] (hg_calc g) p hl.2 (hg_outputs g) (hg_key g) (hg_prob g)).

(* _generate_possible_output_states (207-223): copy, then += 1 in the copy *)
Definition h_possible_outputs (h : store) (r : nat) : res (store * seq nat) :=
  rfoldl (fun st i =>
    let p := size (st_vecs st.1) in
    let! h := h_incr (push_vec st.1 (vec st.1 r)) p (Posz i) in
    Ok (h, rcons st.2 p)) (h, [::]) (iota 0 (size (vec h r))).

(* _calculate_outputs_probability (225-247) *)
Definition h_outputs_probability (h : store) (a T t : nat) : res (R * store) :=
  let h := h_set_output (h_set_input h a T) a t in
  let! vh := h_compute h a in
  Ok (foldl (fun x k => x / k`!%:R) (py_abs vh.1 ^+ 2) (vec h T) / (sumn (vec h T))`!%:R, vh.2).

(* one entry of the pmf (163-169) *)
Definition h_pmf_entry (h : store) (a : nat) (Ts : seq nat) (ws : seq R) (t : nat) : res (R * store) :=
  rfoldl (fun st i =>
    let! T := py_get Ts (Posz i) in
    let! ph := h_outputs_probability st.2 a T t in
    let! w := py_get ws (Posz i) in
    Ok (st.1 + ph.1 * w, ph.2)) (0, h) (iota 0 (size Ts)).

(* _calculate_new_layer_of_pmfs (136-171) *)
Definition h_new_layer (x : store * hgcc) : res (store * hgcc) :=
  let: (h, g) := x in
  let Ts := dgetl (hg_labeled g) (sumn (vec h (hg_r g))).+1 in
  let! ws := layer_weights R (vec h (hg_input g)) [seq vec h T | T <- Ts] in
  let! ho := h_possible_outputs h (hg_r g) in
  let! pa := rfoldl (fun st t =>
    let! pa := h_pmf_entry st.2 (hg_calc g) Ts ws t in
    Ok (rcons st.1 pa.1, pa.2)) ([::], ho.1) ho.2 in
  Ok (pa.2, HGcc (hg_r g) (hg_n g) (dset (hg_pmfs g) (hg_key g) pa.1) (hg_calc g) (hg_input g) (hg_labeled g)
        (dset (hg_outputs g) (hg_key g) ho.2) (hg_key g) (hg_prob g)).

Definition h_ensure_layer (x : store * hgcc) : res (store * hgcc) :=
  if dget (hg_pmfs x.2) (hg_key x.2) is Some _ then Ok x else h_new_layer x.

(* _sample_from_latest_pmf (249-266): r_sample becomes one of the stored lists *)
Definition h_sample_with (x : store * hgcc) (u : R) : res (store * hgcc) :=
  let: (h, g) := x in
  let! pmf := dget_res (hg_pmfs g) (hg_key g) in
  let i := cum_search (u * py_sum pmf) 0 0 pmf in
  let! p := py_get pmf (Posz i) in
  let! outs := dget_res (hg_outputs g) (hg_key g) in
  let! r := py_get outs (Posz i) in
  Ok (h, HGcc r (hg_n g) (hg_pmfs g) (hg_calc g) (hg_input g) (hg_labeled g) (hg_outputs g) (vec h r) p).

(* _fill_r_sample (123-134) *)
Fixpoint h_fill_loop (n : nat) (x : store * hgcc) : prog (store * hgcc) :=
  if n is n'.+1 then
    if (sumn (vec x.1 (hg_r x.2)) < hg_n x.2)%N then
      draw! x := Ret (h_ensure_layer x) in
      draw! x := Unif (fun u => Ret (h_sample_with x u)) in
      h_fill_loop n' x
    else Ret (Ok x)
  else Ret (Err OutOfFuel).
Definition h_reset_sample (x : store * hgcc) : store * hgcc :=
  let: (h, g) := x in
  let r := nseq (size (vec h (hg_input g))) 0%N in
  (push_vec h r, HGcc (size (st_vecs h)) (hg_n g) (hg_pmfs g) (hg_calc g) (hg_input g) (hg_labeled g)
     (hg_outputs g) r 1).
Definition h_fill_r_sample (x : store * hgcc) : prog (store * hgcc) := h_fill_loop fuel (h_reset_sample x).

(* simulate (49-73) of the array p; the samples are tuples *)
Definition h_gcc_simulate (p k : nat) (x : store * hgcc) : prog (seq (seq nat) * (store * hgcc)) :=
  sample_loop h_fill_r_sample (fun x => Ok (vec x.1 (hg_r x.2))) k (h_gcc_start p x).

(* ------------------------------------------------------------------ *)
(* version B: r_sample and _current_input are changed in place *)
Record hgccb := HGccB {
  hb_r : nat;
  hb_n : nat;
  hb_calc : nat;
  hb_input : nat;
  hb_current : nat;
  hb_working : seq nat;    (* a list of its own for every sample *)
  hb_pmf : seq R
}.

Definition h_new_gccb (h : store) (a : nat) : store * hgccb :=
  let h1 := push_vec h [::] in
  let h2 := push_vec h1 [::] in
  (push_vec h2 [::], HGccB (size (st_vecs h)) 0 a (size (st_vecs h1)) (size (st_vecs h2)) [::] [::]).

(* _update_current_input (102-105) *)
Definition h_update_current (x : store * hgccb) : prog (store * hgccb) :=
  let: (h, b) := x in
  if hb_working b is [::] then Ret (Err ValueError)
  else Int (size (hb_working b)) (fun i => Ret (
    let! xw := py_pop (hb_working b) i in
    let! h := h_incr h (hb_current b) (Posz xw.1) in
    Ok (h, HGccB (hb_r b) (hb_n b) (hb_calc b) (hb_input b) (hb_current b) xw.2 (hb_pmf b)))).

(* _compute_pmf (69-92): the calculator gets a reference to _current_input *)
Definition h_compute_pmf (x : store * hgccb) : res (store * hgccb) :=
  let: (h, b) := x in
  let U := mat h (hc_mat (cal h (hb_calc b))) in
  let! pc := compute_permanents fuel Ryser (new_subcalc U (vec h (hb_current b)) (vec h (hb_r b))) in
  let h := h_set_input h (hb_calc b) (hb_current b) in
  let! pmf := rmapM (fun m =>
    let! perm := rfoldl (fun perm i =>
      let! x := py_get (vec h (hb_current b)) (Posz i) in
      let! q := py_get pc.1 (Posz i) in
      let! row := py_get U (Posz m) in
      let! z := py_get row (Posz i) in
      Ok (perm + x%:R * q * z)) 0 (iota 0 (size (vec h (hb_current b)))) in
    Ok (py_abs perm ^+ 2)) (iota 0 (size (vec h (hb_r b)))) in
  Ok (h, HGccB (hb_r b) (hb_n b) (hb_calc b) (hb_input b) (hb_current b) (hb_working b)
        [seq v / py_sum pmf | v <- pmf]).

(* _sample_from_pmf (107-110) *)
Definition h_sample_from_pmf (x : store * hgccb) : prog (store * hgccb) :=
  let: (h, b) := x in
  if size (hb_pmf b) != size (vec h (hb_input b)) then Ret (Err ValueError) else
  draw! m := np_choice (hb_pmf b) in
  Ret (let! h := h_incr h (hb_r b) (Posz m) in Ok (h, b)).

Fixpoint h_b_fill_loop (n target : nat) (x : store * hgccb) : prog (store * hgccb) :=
  if n is n'.+1 then
    if (sumn (vec x.1 (hb_r x.2)) < target)%N then
      draw! x := h_update_current x in
      draw! x := Ret (h_compute_pmf x) in
      draw! x := h_sample_from_pmf x in
      h_b_fill_loop n' target x
    else Ret (Ok x)
  else Ret (Err OutOfFuel).

(* zeros_like(input_state), the copy of the assignment, the new r_sample *)
Definition h_b_reset (x : store * hgccb) : store * hgccb :=
  let: (h, b) := x in
  let s := vec h (hb_input b) in
  let h1 := push_vec h (nseq (size s) 0%N) in
  (push_vec h1 (nseq (size s) 0%N),
   HGccB (size (st_vecs h1)) (hb_n b) (hb_calc b) (hb_input b) (size (st_vecs h))
     (mode_occupation_to_mode_assignment (map Posz s)) (hb_pmf b)).
Definition h_b_fill (x : store * hgccb) : prog (store * hgccb) := h_b_fill_loop fuel (hb_n x.2) (h_b_reset x).
Definition h_b_start (p : nat) (x : store * hgccb) : store * hgccb :=
  let: (h, b) := x in
  (h, HGccB (hb_r b) (sumn (vec h p)) (hb_calc b) p (hb_current b) (hb_working b) (hb_pmf b)).

(* simulate (41-67) *)
Definition h_gccb_simulate (p k : nat) (x : store * hgccb) : prog (seq (seq nat) * (store * hgccb)) :=
  sample_loop h_b_fill (fun x => Ok (vec x.1 (hb_r x.2))) k (h_b_start p x).

(* with uniform losses *)
Record hugccb := HUGccB { hub_b : hgccb; hub_eta : R; hub_weights : seq R; hub_left : nat }.
Definition h_ub_fill (x : store * hugccb) : prog (store * hugccb) :=
  let: (h, u) := x in
  draw! l := particles_left (hub_weights u) in
  draw! y := h_b_fill_loop fuel l (h_b_reset (h, hub_b u)) in
  Ret (Ok (y.1, HUGccB y.2 (hub_eta u) (hub_weights u) l)).
(* simulate (87-109): the samples are new arrays *)
Definition h_ugccb_simulate (p k : nat) (x : store * hugccb) : prog (seq (seq nat) * (store * hugccb)) :=
  let: (h, u) := x in
  let: (h, b) := h_b_start p (h, hub_b u) in
  sample_loop h_ub_fill (fun x => Ok (vec x.1 (hb_r (hub_b x.2)))) k
    (h, HUGccB b (hub_eta u) (ub_binomial_weights (sumn (vec h p)) (hub_eta u)) (hub_left u)).

(* ------------------------------------------------------------------ *)
(* the program of a user: arrays, matrices, calculators and strategies made and
   used in any order; positions count what the user made *)
Record hworld := HWorld {
  hw_st : store;
  hw_vecs : seq nat;         (* the arrays of the user *)
  hw_mats : seq nat;         (* the matrices *)
  hw_A : seq hgcc;
  hw_B : seq hgccb
}.
Definition empty_world : hworld := HWorld (Store [::] [::] [::]) [::] [::] [::] [::].

Inductive hop :=
  | NewVec of seq nat
  | WriteVec of nat & seq nat            (* change the contents in place *)
  | NewMat of mtx
  | WriteMat of nat & mtx
  | NewCalc of calc_type & nat & nat & nat
  | SetMatrix of nat & nat
  | SetInput of nat & nat
  | SetOutput of nat & nat
  | Compute of nat
  | NewA of nat
  | NewB of nat
  | SimA of nat & nat & nat              (* strategy, array, number of samples *)
  | SimB of nat & nat & nat.

Definition with_st (w : hworld) (h : store) : hworld := HWorld h (hw_vecs w) (hw_mats w) (hw_A w) (hw_B w).
Definition calc_at (w : hworld) (a : nat) : res nat :=
  if (a < size (st_calcs (hw_st w)))%N then Ok a else Err IndexError.

Definition hstep (o : hop) (w : hworld) : prog hworld :=
  let h := hw_st w in
  match o with
  | NewVec s => Ret (Ok (HWorld (push_vec h s) (rcons (hw_vecs w) (size (st_vecs h))) (hw_mats w) (hw_A w) (hw_B w)))
  | WriteVec j s => Ret (let! p := py_get (hw_vecs w) (Posz j) in Ok (with_st w (put_vec h p s)))
  | NewMat M => Ret (Ok (HWorld (push_mat h M) (hw_vecs w) (rcons (hw_mats w) (size (st_mats h))) (hw_A w) (hw_B w)))
  | WriteMat j M => Ret (let! p := py_get (hw_mats w) (Posz j) in Ok (with_st w (put_mat h p M)))
  | NewCalc ty jm ji jo => Ret (
      let! pm := py_get (hw_mats w) (Posz jm) in
      let! pi := py_get (hw_vecs w) (Posz ji) in
      let! po := py_get (hw_vecs w) (Posz jo) in
      Ok (with_st w (push_cal h (HCalc (generate_calculator (CalcFactory [::] [::] [::] ty)) pm pi po))))
  | SetMatrix a j => Ret (let! a := calc_at w a in let! p := py_get (hw_mats w) (Posz j) in Ok (with_st w (h_set_matrix h a p)))
  | SetInput a j => Ret (let! a := calc_at w a in let! p := py_get (hw_vecs w) (Posz j) in Ok (with_st w (h_set_input h a p)))
  | SetOutput a j => Ret (let! a := calc_at w a in let! p := py_get (hw_vecs w) (Posz j) in Ok (with_st w (h_set_output h a p)))
  | Compute a => Ret (let! a := calc_at w a in let! vh := h_compute h a in Ok (with_st w vh.2))
  | NewA a => Ret (let! a := calc_at w a in
      let: (h, g) := h_new_gcc h a in Ok (HWorld h (hw_vecs w) (hw_mats w) (rcons (hw_A w) g) (hw_B w)))
  | NewB a => Ret (let! a := calc_at w a in
      let: (h, b) := h_new_gccb h a in Ok (HWorld h (hw_vecs w) (hw_mats w) (hw_A w) (rcons (hw_B w) b)))
  | SimA i j k =>
      draw! g := Ret (py_get (hw_A w) (Posz i)) in
      draw! p := Ret (py_get (hw_vecs w) (Posz j)) in
      draw! y := h_gcc_simulate p k (h, g) in
      Ret (Ok (HWorld y.2.1 (hw_vecs w) (hw_mats w) (set_nth g (hw_A w) i y.2.2) (hw_B w)))
  | SimB i j k =>
      draw! b := Ret (py_get (hw_B w) (Posz i)) in
      draw! p := Ret (py_get (hw_vecs w) (Posz j)) in
      draw! y := h_gccb_simulate p k (h, b) in
      Ret (Ok (HWorld y.2.1 (hw_vecs w) (hw_mats w) (hw_A w) (set_nth b (hw_B w) i y.2.2)))
  end.

Fixpoint hrun (ops : seq hop) (w : hworld) : prog hworld :=
  if ops is o :: ops' then draw! w := hstep o w in hrun ops' w else Ret (Ok w).

(* what the user wrote, seen without the library *)
Definition user_vecs (l : seq (seq nat)) (o : hop) : seq (seq nat) :=
  match o with NewVec s => rcons l s | WriteVec j s => set_nth [::] l j s | _ => l end.
Definition user_mats (l : seq mtx) (o : hop) : seq mtx :=
  match o with NewMat M => rcons l M | WriteMat j M => set_nth [::] l j M | _ => l end.

End Heap.
