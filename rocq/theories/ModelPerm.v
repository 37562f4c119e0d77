(* Model of the effective scattering matrix and of the permanent calculators:
     boson_sampling_utilities/boson_sampling_utilities.py            (545-626)
     permanent_calculators/bs_permanent_calculator_base.py           (22-214)
     permanent_calculators/ryser_permanent_calculator.py             (33-64)
     permanent_calculators/chin_huh_permanent_calculator.py          (24-57)
     permanent_calculators/classic_permanent_calculator.py           (27-67)
     permanent_calculators/glynn_gray_permanent_calculator.py        (41-84)
     permanent_calculators/bs_submatrices_permanent_calculator_base.py  (150-189)
     permanent_calculators/bs_cc_ryser_submatrices_permanent_calculator.py (73-119)
     permanent_calculators/bs_cc_ch_submatrices_permanent_calculator.py (51-105)
     permanent_calculators/bs_permanent_calculator_factory.py        (29-115)
   complex128 is modelled by an arbitrary field F of characteristic 0
   (numFieldType): arithmetic is exact.  Occupation numbers are naturals. *)
From mathcomp Require Import all_ssreflect all_algebra.
From Verif Require Import Base.
Set Implicit Arguments.
Unset Strict Implicit.
Unset Printing Implicit Defensive.
Import GRing.Theory.
Local Open Scope ring_scope.
Local Open Scope py_scope.

Section Calculators.
Variable F : numFieldType.

Notation matrix_t := (seq (seq F)).

(* true division *)
Definition pydiv (a b : F) : res F := if b == 0 then Err ZeroDivisionError else Ok (a / b).

(* M[j][i] *)
Definition mget (M : matrix_t) (j i : nat) : res F :=
  let! row := py_get M (Posz j) in py_get row (Posz i).

(* dict with int keys, in insertion order *)
Definition dict := seq (nat * F).
Fixpoint dict_get (d : dict) (j : nat) : res F :=
  match d with
  | [::] => Err KeyError
  | (k, v) :: d' => if k == j then Ok v else dict_get d' j
  end.
Fixpoint dict_set (d : dict) (j : nat) (v : F) : dict :=
  match d with
  | [::] => [:: (j, v)]
  | (k, w) :: d' => if k == j then (k, v) :: d' else (k, w) :: dict_set d' j v
  end.

(* numpy.nonzero(v)[0] *)
Definition np_nonzero (s : seq nat) : seq nat := [seq j <- iota 0 (size s) | nth 0%N s j != 0%N].

(* ------------------------------------------------------------------ *)
(* EffectiveScatteringMatrixCalculator.calculate (595-626).  numpy.transpose
   of a rectangular list of rows; an empty list is a 1-d array, equal to its
   transpose. *)
Definition np_transpose (M : matrix_t) : matrix_t :=
  [seq [seq nth 0 row i | row <- M] | i <- iota 0 (size (head [::] M))].

(* 612-615, 621-624: helper += [rows[i]] * int(state[i]) for i in range(len(state)) *)
Definition repeat_rows (rows : matrix_t) (state : seq nat) : res matrix_t :=
  rfoldl (fun acc i =>
    let! row := py_get rows (Posz i) in
    let! k := py_get state (Posz i) in
    Ok (acc ++ nseq k row)) [::] (iota 0 (size state)).

Definition scattering_calculate (M : matrix_t) (input output : seq nat) : res matrix_t :=
  if (sumn input == 0%N) || (sumn output == 0%N) then Ok [::] else
  let transposed := np_transpose M in
  let! helper := repeat_rows transposed input in
  let helper := np_transpose helper in
  repeat_rows helper output.

(* ------------------------------------------------------------------ *)
(* Guan codes: attributes of BSGuanCodeBasedPermanentCalculatorBase (90-97) *)
Record guan := Guan {
  g_r : seq int;      (* _r_vector *)
  g_u : seq int;      (* _code_update_information *)
  g_lim : seq int;    (* _position_limits *)
  g_idx : nat;        (* _index_to_update *)
  g_last : int        (* _last_value_at_index *)
}.

(* loop 131-146 and the lines 148-149 after it; k is updated_value_at_index *)
Fixpoint guan_scan (fuel : nat) (g : guan) (k : int) : res guan :=
  let! lim := py_get (g_lim g) (Posz (g_idx g)) in
  if (lim < k) || (k < 0) then
    if fuel is fuel'.+1 then
      let! ui := py_get (g_u g) (Posz (g_idx g)) in
      let! u' := py_set (g_u g) (Posz (g_idx g)) (- ui) in
      let idx' := (g_idx g).+1 in
      if idx' == size (g_r g) then
        Ok (Guan (g_r g) u' (g_lim g) idx' (g_last g))
      else
        let! ri := py_get (g_r g) (Posz idx') in
        let! ui' := py_get u' (Posz idx') in
        guan_scan fuel' (Guan (g_r g) u' (g_lim g) idx' (g_last g)) (ri + ui')
    else Err OutOfFuel
  else
    let! last := py_get (g_r g) (Posz (g_idx g)) in
    let! r' := py_set (g_r g) (Posz (g_idx g)) k in
    Ok (Guan r' (g_u g) (g_lim g) (g_idx g) last).

(* _update_guan_code (123-149) *)
Definition update_guan_code (g : guan) : res guan :=
  let! r0 := py_get (g_r g) 0 in
  let! u0 := py_get (g_u g) 0 in
  guan_scan (size (g_r g)) (Guan (g_r g) (g_u g) (g_lim g) 0%N (g_last g)) (r0 + u0).

(* _initialize_guan_codes_variables (115-121): index and last value are not reset *)
Definition init_guan (input : seq nat) (g : guan) : guan :=
  Guan (nseq (size input) 0) (nseq (size input) 1) (map Posz input) (g_idx g) (g_last g).

(* _update_binomials_product (151-164) *)
Definition update_binomials (input : seq nat) (g : guan) (b : F) : res F :=
  let! r := py_get (g_r g) (Posz (g_idx g)) in
  let! s := py_get input (Posz (g_idx g)) in
  if g_last g < r then
    let! q := pydiv (Posz s - g_last g)%:~R r%:~R in Ok (b * q)
  else
    let! q := pydiv (g_last g)%:~R (Posz s - r)%:~R in Ok (b * q).

(* The iteration of compute_permanent (185-190) reduced to the codes: apply the
   update until the index runs off the end, collecting the codes. *)
Fixpoint guan_iterate (fuel : nat) (g : guan) : res (seq (seq int)) :=
  if fuel is fuel'.+1 then
    let! g' := update_guan_code g in
    if g_idx g' == size (g_r g') then Ok [::]
    else let! l := guan_iterate fuel' g' in Ok (g_r g' :: l)
  else Err OutOfFuel.

(* ------------------------------------------------------------------ *)
(* Ryser and Chin-Huh calculators: a calculator object *)
Inductive guan_kind := Ryser | ChinHuh.

Record calc := Calc {
  c_matrix : matrix_t;
  c_input : seq nat;
  c_output : seq nat;
  c_guan : guan;
  c_binom : F;       (* _binomials_product *)
  c_mult : F;        (* _multiplier *)
  c_cols : seq nat;  (* _considered_columns_indices *)
  c_sums : dict;     (* _sums *)
  c_perm : F         (* permanent *)
}.

(* constructor (81-101); attributes only annotated there are left at dummy values *)
Definition new_calc (M : matrix_t) (input output : seq nat) : calc :=
  Calc M input output
    (Guan (nseq (size input) 0) (nseq (size input) 1) (map Posz input) 0%N 0)
    1 1 [::] [::] 0.

(* _can_calculation_be_performed (61-72) *)
Definition can_calculate (M : matrix_t) (input output : seq nat) : res bool :=
  let! row0 := py_get M 0 in
  Ok [&& size M == size row0, size output == size input & (size output <= size row0)%N].

(* _update_permanent (200-209) *)
Definition update_permanent (c : calc) : res calc :=
  let! v := rfoldl (fun acc j =>
      let! s := dict_get (c_sums c) j in
      let! e := py_get (c_output c) (Posz j) in
      Ok (acc * s ^+ e)) (c_mult c * c_binom c) (c_cols c) in
  Ok (Calc (c_matrix c) (c_input c) (c_output c) (c_guan c) (c_binom c) (c_mult c)
        (c_cols c) (c_sums c) (c_perm c + v)).

(* ryser 50-51; chin-huh 43-46 *)
Definition init_sums (k : guan_kind) (M : matrix_t) (input cols : seq nat) : res dict :=
  match k with
  | Ryser => Ok (foldl (fun d j => dict_set d j 0) [::] cols)
  | ChinHuh =>
      rfoldl (fun d i =>
        rfoldl (fun d j =>
          let! v := dict_get d i in
          let! s := py_get input (Posz j) in
          let! a := mget M i j in
          Ok (dict_set d i (v + s%:R * a)))
        (dict_set d i 0) (iota 0 (size input))) [::] cols
  end.

(* ryser 48; chin-huh 41 *)
Definition init_multiplier (k : guan_kind) (input : seq nat) : F :=
  match k with
  | Ryser => (-1) ^+ sumn input
  | ChinHuh => 1 / 2%:R ^+ sumn input
  end.

(* _initialize_permanent_computation: base 103-113, ryser 45-53, chin-huh 38-48 *)
Definition init_computation (k : guan_kind) (c : calc) : res calc :=
  let cols := np_nonzero (c_output c) in
  let! sums := init_sums k (c_matrix c) (c_input c) cols in
  update_permanent
    (Calc (c_matrix c) (c_input c) (c_output c) (init_guan (c_input c) (c_guan c)) 1
       (init_multiplier k (c_input c)) cols sums 0).

(* _update_sums: ryser 55-64, chin-huh 50-59.  Iteration over the dict. *)
Definition update_sums (k : guan_kind) (M : matrix_t) (g : guan) (d : dict) : res dict :=
  rfoldl (fun d' j =>
    let! v := dict_get d' j in
    let! r := py_get (g_r g) (Posz (g_idx g)) in
    let! a := mget M j (g_idx g) in
    let step := (r - g_last g)%:~R in
    Ok (dict_set d' j
      (match k with Ryser => v + step * a | ChinHuh => v - 2%:R * step * a end)))
   d (map fst d).

(* loop 185-198 of compute_permanent *)
Fixpoint permanent_loop (fuel : nat) (k : guan_kind) (c : calc) : res calc :=
  let! r := py_get (g_r (c_guan c)) (Negz 0) in
  let! lim := py_get (g_lim (c_guan c)) (Negz 0) in
  if r <= lim then
    if fuel is fuel'.+1 then
      let! g := update_guan_code (c_guan c) in
      if g_idx g == size (g_r g) then
        Ok (Calc (c_matrix c) (c_input c) (c_output c) g (c_binom c) (c_mult c)
              (c_cols c) (c_sums c) (c_perm c))
      else
        let! sums := update_sums k (c_matrix c) g (c_sums c) in
        let! b := update_binomials (c_input c) g (c_binom c) in
        let! c' := update_permanent
          (Calc (c_matrix c) (c_input c) (c_output c) g b (- c_mult c)
             (c_cols c) sums (c_perm c)) in
        permanent_loop fuel' k c'
    else Err OutOfFuel
  else Ok c.

(* compute_permanent (166-198): the object afterwards (its c_perm is returned) *)
Definition compute_permanent (fuel : nat) (k : guan_kind) (c : calc) : res calc :=
  let! ok := can_calculate (c_matrix c) (c_input c) (c_output c) in
  if ok then let! c' := init_computation k c in permanent_loop fuel k c'
  else Err AttributeError.

(* ------------------------------------------------------------------ *)
(* Classic calculator (27-67) *)
Fixpoint classic_rec (fuel : nat) (mtx : matrix_t) (column : nat) (selected : seq nat)
    (prod : F) : res F :=
  let! row0 := py_get mtx 0 in        (* mtx.shape[1] *)
  if column == size row0 then Ok prod else
  if fuel is fuel'.+1 then
    rfoldl (fun result row =>
      if row \notin selected then
        let! a := mget mtx row column in
        let! v := classic_rec fuel' mtx column.+1 (rcons selected row) (prod * a) in
        Ok (result + v)
      else Ok result) 0 (iota 0 (size mtx))
  else Err OutOfFuel.

Definition classic_permanent (fuel : nat) (M : matrix_t) (input output : seq nat) : res F :=
  if sumn input == 0%N then (if sumn output == 0%N then Ok 1 else Ok 0) else
  let! sc := scattering_calculate M input output in
  classic_rec fuel sc 0 [::] 1.

(* ------------------------------------------------------------------ *)
(* Glynn calculator (41-84); [gray n] stands for the list returned by
   guancodes.get_gray_code_update_indices(n). *)
Definition glynn_init_sums (sc : matrix_t) (delta : seq int) : res (seq F) :=
  rmapM (fun j =>
    rfoldl (fun acc i =>
      let! d := py_get delta (Posz i) in
      let! a := mget sc i j in
      Ok (acc + d%:~R * a)) 0 (iota 0 (size delta))) (iota 0 (size sc)).

Definition glynn_step (sc : matrix_t) (st : seq int * F * seq F * F) (i : nat)
  : res (seq int * F * seq F * F) :=
  let: (delta, mult, sums, perm) := st in
  let mult := - mult in
  let! di := py_get delta (Posz i) in
  let! delta := py_set delta (Posz i) (- di) in
  let! sums := rmapM (fun j =>
     let! s := py_get sums (Posz j) in
     let! d := py_get delta (Posz i) in
     let! a := mget sc i j in
     Ok (s + 2%:R * d%:~R * a)) (iota 0 (size sums)) in
  Ok (delta, mult, sums, perm + mult * foldl *%R 1 sums).

Definition glynn_permanent (gray : nat -> seq nat) (M : matrix_t) (input output : seq nat) : res F :=
  let! sc := scattering_calculate M input output in
  if size sc == 0%N then Ok 1 else
  let delta := nseq (size sc) (1 : int) in
  let! sums := glynn_init_sums sc delta in
  let! st := rfoldl (glynn_step sc) (delta, 1, sums, 1 * foldl *%R 1 sums)
    (gray (size sc - 1)%N) in
  let: (_, _, _, perm) := st in
  Ok (perm / 2%:R ^+ (size sc - 1)).

(* ------------------------------------------------------------------ *)
(* Sub-matrix permanents calculators *)
Record subcalc := Subcalc {
  sc_matrix : matrix_t;
  sc_input : seq nat;
  sc_output : seq nat;
  sc_guan : guan;
  sc_binom : F;
  sc_mult : F;
  sc_cols : seq nat;
  sc_sums : dict;
  sc_prod : F;            (* _prod, Ryser variant only *)
  sc_perms : seq F        (* permanents *)
}.

Definition new_subcalc (M : matrix_t) (input output : seq nat) : subcalc :=
  Subcalc M input output (Guan [::] [::] [::] 0%N 0) 1 1 [::] [::] 0 [::].

(* updated_binomials_product: ryser variant 112-117, chin-huh variant 92-94 *)
Definition updated_binomial (b : F) (s : nat) (r : int) : res F :=
  let! q := pydiv s%:R (Posz s - r)%:~R in pydiv b q.

(* _update_permanents: ryser variant 96-119, chin-huh variant 77-105 *)
Definition update_permanents (k : guan_kind) (c : subcalc) : res (seq F) :=
  rfoldl (fun perms i =>
    let! s := py_get (sc_input c) (Posz i) in
    let! r := py_get (g_r (sc_guan c)) (Posz i) in
    if (s == 0%N) || (r == Posz s) then Ok perms else
    let! addend :=
      match k with
      | Ryser => let! b := updated_binomial (sc_binom c) s r in Ok (sc_prod c * b)
      | ChinHuh =>
          let! upd := rfoldl (fun d j =>
             let! v := dict_get (sc_sums c) j in
             let! a := mget (sc_matrix c) j i in
             Ok (dict_set d j (v - a))) [::] (sc_cols c) in
          let! b := updated_binomial (sc_binom c) s r in
          rfoldl (fun acc j =>
             let! v := dict_get upd j in
             let! e := py_get (sc_output c) (Posz j) in
             Ok (acc * v ^+ e)) (sc_mult c * b) (sc_cols c)
      end in
    let! p := py_get perms (Posz i) in
    py_set perms (Posz i) (p + addend))
  (sc_perms c)
  (iota 0 (match k with Ryser => size (sc_perms c) | ChinHuh => size (sc_input c) end)).

(* _update_sums: ryser variant 80-94 (also computes _prod), chin-huh variant 66-75 *)
Definition update_sub_sums (k : guan_kind) (c : subcalc) : res (dict * F) :=
  let! d := update_sums k (sc_matrix c) (sc_guan c) (sc_sums c) in
  match k with
  | Ryser =>
      let! p := rfoldl (fun acc j =>
          let! v := dict_get d j in
          let! e := py_get (sc_output c) (Posz j) in
          Ok (acc * v ^+ e)) 1 (map fst d) in
      Ok (d, p * sc_mult c)
  | ChinHuh => Ok (d, sc_prod c)
  end.

(* _initialize_permanents_computation: base 177-189, ryser 73-78, chin-huh 51-64 *)
Definition init_subcomputation (k : guan_kind) (c : subcalc) : res subcalc :=
  let cols := np_nonzero (sc_output c) in
  let perms := nseq (size (sc_input c)) 0 in
  let! sums := init_sums k (sc_matrix c) (sc_input c) cols in
  let mult := match k with
    | Ryser => (-1) ^+ sumn (sc_output c)
    | ChinHuh => 1 / (2%:R ^ (Posz (sumn (sc_input c)) - 1))
    end in
  let c' := Subcalc (sc_matrix c) (sc_input c) (sc_output c)
    (init_guan (sc_input c) (sc_guan c)) 1 mult cols sums (sc_prod c) perms in
  match k with
  | Ryser => Ok c'
  | ChinHuh =>
      let! perms' := update_permanents k c' in
      Ok (Subcalc (sc_matrix c) (sc_input c) (sc_output c)
            (sc_guan c') 1 mult cols sums (sc_prod c) perms')
  end.

(* loop 162-175 *)
Fixpoint permanents_loop (fuel : nat) (k : guan_kind) (c : subcalc) : res subcalc :=
  let! r := py_get (g_r (sc_guan c)) (Negz 0) in
  let! lim := py_get (g_lim (sc_guan c)) (Negz 0) in
  if r <= lim then
    if fuel is fuel'.+1 then
      let! g := update_guan_code (sc_guan c) in
      if g_idx g == size (g_r g) then
        Ok (Subcalc (sc_matrix c) (sc_input c) (sc_output c) g (sc_binom c) (sc_mult c)
              (sc_cols c) (sc_sums c) (sc_prod c) (sc_perms c))
      else
        let! b := update_binomials (sc_input c) g (sc_binom c) in
        let c1 := Subcalc (sc_matrix c) (sc_input c) (sc_output c) g b (- sc_mult c)
             (sc_cols c) (sc_sums c) (sc_prod c) (sc_perms c) in
        let! sp := update_sub_sums k c1 in
        let c2 := Subcalc (sc_matrix c) (sc_input c) (sc_output c) g b (- sc_mult c)
             (sc_cols c) sp.1 sp.2 (sc_perms c) in
        let! perms := update_permanents k c2 in
        permanents_loop fuel' k
          (Subcalc (sc_matrix c) (sc_input c) (sc_output c) g b (- sc_mult c)
             (sc_cols c) sp.1 sp.2 perms)
    else Err OutOfFuel
  else Ok c.

(* compute_permanents (150-175): returned list and the object afterwards *)
Definition compute_permanents (fuel : nat) (k : guan_kind) (c : subcalc) : res (seq F * subcalc) :=
  if sumn (sc_input c) == 1%N then Ok ([seq v%:R | v <- sc_input c], c) else
  let! c' := init_subcomputation k c in
  let! c'' := permanents_loop fuel k c' in
  Ok (sc_perms c'', c'').

(* ------------------------------------------------------------------ *)
(* BSPermanentCalculatorFactory (27-115) *)
Inductive calc_type := CLASSIC | GLYNN | CHIN_HUH | RYSER | OTHER_TYPE of int.

Inductive any_calc :=
  | ClassicCalc of matrix_t & seq nat & seq nat
  | GlynnCalc of matrix_t & seq nat & seq nat
  | GuanCalc of guan_kind & calc.

Record calc_factory := CalcFactory {
  f_matrix : matrix_t; f_input : seq nat; f_output : seq nat; f_type : calc_type }.

Definition generate_calculator (f : calc_factory) : any_calc :=
  match f_type f with
  | CLASSIC => ClassicCalc (f_matrix f) (f_input f) (f_output f)
  | GLYNN => GlynnCalc (f_matrix f) (f_input f) (f_output f)
  | CHIN_HUH => GuanCalc ChinHuh (new_calc (f_matrix f) (f_input f) (f_output f))
  | RYSER => GuanCalc Ryser (new_calc (f_matrix f) (f_input f) (f_output f))
  | OTHER_TYPE _ => GuanCalc ChinHuh (new_calc (f_matrix f) (f_input f) (f_output f))
  end.

(* compute_permanent of any calculator: value and object afterwards *)
Definition compute_any (gray : nat -> seq nat) (fuel : nat) (a : any_calc) : res (F * any_calc) :=
  match a with
  | ClassicCalc M i o => rmap (fun v => (v, a)) (classic_permanent fuel M i o)
  | GlynnCalc M i o => rmap (fun v => (v, a)) (glynn_permanent gray M i o)
  | GuanCalc k c => rmap (fun c' => (c_perm c', GuanCalc k c')) (compute_permanent fuel k c)
  end.

Definition set_matrix (M : matrix_t) (a : any_calc) : any_calc :=
  match a with
  | ClassicCalc _ i o => ClassicCalc M i o
  | GlynnCalc _ i o => GlynnCalc M i o
  | GuanCalc k c => GuanCalc k (Calc M (c_input c) (c_output c) (c_guan c) (c_binom c)
      (c_mult c) (c_cols c) (c_sums c) (c_perm c))
  end.
Definition set_input (s : seq nat) (a : any_calc) : any_calc :=
  match a with
  | ClassicCalc M _ o => ClassicCalc M s o
  | GlynnCalc M _ o => GlynnCalc M s o
  | GuanCalc k c => GuanCalc k (Calc (c_matrix c) s (c_output c) (c_guan c) (c_binom c)
      (c_mult c) (c_cols c) (c_sums c) (c_perm c))
  end.
Definition set_output (t : seq nat) (a : any_calc) : any_calc :=
  match a with
  | ClassicCalc M i _ => ClassicCalc M i t
  | GlynnCalc M i _ => GlynnCalc M i t
  | GuanCalc k c => GuanCalc k (Calc (c_matrix c) (c_input c) t (c_guan c) (c_binom c)
      (c_mult c) (c_cols c) (c_sums c) (c_perm c))
  end.
Definition calc_matrix (a : any_calc) := match a with
  | ClassicCalc M _ _ | GlynnCalc M _ _ => M | GuanCalc _ c => c_matrix c end.
Definition calc_input (a : any_calc) := match a with
  | ClassicCalc _ i _ | GlynnCalc _ i _ => i | GuanCalc _ c => c_input c end.
Definition calc_output (a : any_calc) := match a with
  | ClassicCalc _ _ o | GlynnCalc _ _ o => o | GuanCalc _ c => c_output c end.

(* the factory's setters (55-84) *)
Definition set_f_matrix M f := CalcFactory M (f_input f) (f_output f) (f_type f).
Definition set_f_input s f := CalcFactory (f_matrix f) s (f_output f) (f_type f).
Definition set_f_output t f := CalcFactory (f_matrix f) (f_input f) t (f_type f).
Definition set_f_type k f := CalcFactory (f_matrix f) (f_input f) (f_output f) k.

(* A client's operations on one calculator object.  A computation that raises
   may leave the private attributes in any state: [broken] is that state. *)
Inductive calc_op :=
  | OpMatrix of matrix_t | OpInput of seq nat | OpOutput of seq nat | OpCompute.

Definition run_op gray fuel (broken : any_calc -> any_calc) (a : any_calc) (o : calc_op) :=
  match o with
  | OpMatrix M => set_matrix M a
  | OpInput s => set_input s a
  | OpOutput t => set_output t a
  | OpCompute => if compute_any gray fuel a is Ok p then p.2 else broken a
  end.

(* the private attributes may differ, the class and the public ones may not *)
Definition same_public (a b : any_calc) : Prop :=
  match a, b with
  | ClassicCalc M s t, ClassicCalc M' s' t' => [/\ M = M', s = s' & t = t']
  | GlynnCalc M s t, GlynnCalc M' s' t' => [/\ M = M', s = s' & t = t']
  | GuanCalc k c, GuanCalc k' c' =>
      [/\ k = k', c_matrix c = c_matrix c', c_input c = c_input c' & c_output c = c_output c']
  | _, _ => False
  end.

(* the factory configuration reached by the same setter calls *)
Definition track_op (f : calc_factory) (o : calc_op) : calc_factory :=
  match o with
  | OpMatrix M => set_f_matrix M f
  | OpInput s => set_f_input s f
  | OpOutput t => set_f_output t f
  | OpCompute => f
  end.

End Calculators.
