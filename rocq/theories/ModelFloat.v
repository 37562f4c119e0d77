(* The calculators of ModelPerm.v over an arbitrary arithmetic: the same code
   with the operations on complex128 replaced by the operations of a record.
   Integers stay exact (Python's int and the small numpy integers), so do list
   indices, dictionaries and Guan codes.  Sources as in ModelPerm.v. *)
From mathcomp Require Import all_ssreflect all_algebra.
From Verif Require Import Base ModelPerm.
Set Implicit Arguments.
Unset Strict Implicit.
Unset Printing Implicit Defensive.
Import GRing.Theory.
Local Open Scope ring_scope.
Local Open Scope py_scope.

(* the operations on (complex) floating point numbers used by the code;
   negation is exact *)
Record arith (F : Type) := Arith {
  f_add : F -> F -> F;
  f_sub : F -> F -> F;
  f_mul : F -> F -> F;
  f_div : F -> int -> F;      (* division by an integer *)
  f_pow : F -> nat -> F;      (* integer exponent *)
  f_int : int -> F;           (* conversion of an integer operand *)
  f_quot : int -> int -> F;   (* true division of integers *)
  f_fdiv : F -> F -> F        (* division of floating point numbers *)
}.

(* exact arithmetic *)
Definition exact_arith (F : numFieldType) : arith F :=
  Arith +%R (fun x y => x - y) *%R (fun x z => x / z%:~R) (fun x e => x ^+ e)
    (fun z => z%:~R) (fun y z => y%:~R / z%:~R) (fun x y => x / y).

Section Calculators.
Variable F : numFieldType.
Variable A : arith F.

Notation matrix_t := (seq (seq F)).

(* true division of integers *)
Definition fl_pydiv (a b : int) : res F :=
  if b == 0 then Err ZeroDivisionError else Ok (f_quot A a b).

(* _update_binomials_product (base 151-164) *)
Definition fl_update_binomials (input : seq nat) (g : guan) (b : F) : res F :=
  let! r := py_get (g_r g) (Posz (g_idx g)) in
  let! s := py_get input (Posz (g_idx g)) in
  if g_last g < r then
    let! q := fl_pydiv (Posz s - g_last g) r in Ok (f_mul A b q)
  else
    let! q := fl_pydiv (g_last g) (Posz s - r) in Ok (f_mul A b q).

(* _update_permanent (base 200-209) *)
Definition fl_update_permanent (c : calc F) : res (calc F) :=
  let! v := rfoldl (fun acc j =>
      let! s := dict_get (c_sums c) j in
      let! e := py_get (c_output c) (Posz j) in
      Ok (f_mul A acc (f_pow A s e))) (f_mul A (c_mult c) (c_binom c)) (c_cols c) in
  Ok (Calc (c_matrix c) (c_input c) (c_output c) (c_guan c) (c_binom c) (c_mult c)
        (c_cols c) (c_sums c) (f_add A (c_perm c) v)).

(* ryser 50-51; chin-huh 43-46 *)
Definition fl_init_sums (k : guan_kind) (M : matrix_t) (input cols : seq nat) : res (dict F) :=
  match k with
  | Ryser => Ok (foldl (fun d j => dict_set d j 0) [::] cols)
  | ChinHuh =>
      rfoldl (fun d i =>
        rfoldl (fun d j =>
          let! v := dict_get d i in
          let! s := py_get input (Posz j) in
          let! a := mget M i j in
          Ok (dict_set d i (f_add A v (f_mul A (f_int A (Posz s)) a))))
        (dict_set d i 0) (iota 0 (size input))) [::] cols
  end.

(* ryser 48 (an integer); chin-huh 41 *)
Definition fl_init_multiplier (k : guan_kind) (input : seq nat) : F :=
  match k with
  | Ryser => (-1) ^+ sumn input
  | ChinHuh => f_quot A 1 (Posz 2 ^+ sumn input)
  end.

(* _initialize_permanent_computation *)
Definition fl_init_computation (k : guan_kind) (c : calc F) : res (calc F) :=
  let cols := np_nonzero (c_output c) in
  let! sums := fl_init_sums k (c_matrix c) (c_input c) cols in
  fl_update_permanent
    (Calc (c_matrix c) (c_input c) (c_output c) (init_guan (c_input c) (c_guan c)) 1
       (fl_init_multiplier k (c_input c)) cols sums 0).

(* _update_sums: ryser 55-64, chin-huh 50-59 *)
Definition fl_update_sums (k : guan_kind) (M : matrix_t) (g : guan) (d : dict F) : res (dict F) :=
  rfoldl (fun d' j =>
    let! v := dict_get d' j in
    let! r := py_get (g_r g) (Posz (g_idx g)) in
    let! a := mget M j (g_idx g) in
    let step := r - g_last g in
    Ok (dict_set d' j
      (match k with
       | Ryser => f_add A v (f_mul A (f_int A step) a)
       | ChinHuh => f_sub A v (f_mul A (f_int A (Posz 2 * step)) a)
       end)))
   d (map fst d).

(* loop 185-198 of compute_permanent *)
Fixpoint fl_permanent_loop (fuel : nat) (k : guan_kind) (c : calc F) : res (calc F) :=
  let! r := py_get (g_r (c_guan c)) (Negz 0) in
  let! lim := py_get (g_lim (c_guan c)) (Negz 0) in
  if r <= lim then
    if fuel is fuel'.+1 then
      let! g := update_guan_code (c_guan c) in
      if g_idx g == size (g_r g) then
        Ok (Calc (c_matrix c) (c_input c) (c_output c) g (c_binom c) (c_mult c)
              (c_cols c) (c_sums c) (c_perm c))
      else
        let! sums := fl_update_sums k (c_matrix c) g (c_sums c) in
        let! b := fl_update_binomials (c_input c) g (c_binom c) in
        let! c' := fl_update_permanent
          (Calc (c_matrix c) (c_input c) (c_output c) g b (- c_mult c)
             (c_cols c) sums (c_perm c)) in
        fl_permanent_loop fuel' k c'
    else Err OutOfFuel
  else Ok c.

(* compute_permanent (166-198) *)
Definition fl_compute_permanent (fuel : nat) (k : guan_kind) (c : calc F) : res (calc F) :=
  let! ok := can_calculate (c_matrix c) (c_input c) (c_output c) in
  if ok then let! c' := fl_init_computation k c in fl_permanent_loop fuel k c'
  else Err AttributeError.

(* Classic calculator (27-67) *)
Fixpoint fl_classic_rec (fuel : nat) (mtx : matrix_t) (column : nat) (selected : seq nat)
    (prod : F) : res F :=
  let! row0 := py_get mtx 0 in
  if column == size row0 then Ok prod else
  if fuel is fuel'.+1 then
    rfoldl (fun result row =>
      if row \notin selected then
        let! a := mget mtx row column in
        let! v := fl_classic_rec fuel' mtx column.+1 (rcons selected row) (f_mul A prod a) in
        Ok (f_add A result v)
      else Ok result) 0 (iota 0 (size mtx))
  else Err OutOfFuel.

Definition fl_classic_permanent (fuel : nat) (M : matrix_t) (input output : seq nat) : res F :=
  if sumn input == 0%N then (if sumn output == 0%N then Ok 1 else Ok 0) else
  let! sc := scattering_calculate M input output in
  fl_classic_rec fuel sc 0 [::] 1.

(* Glynn calculator (41-84) *)
Definition fl_glynn_init_sums (sc : matrix_t) (delta : seq int) : res (seq F) :=
  rmapM (fun j =>
    rfoldl (fun acc i =>
      let! d := py_get delta (Posz i) in
      let! a := mget sc i j in
      Ok (f_add A acc (f_mul A (f_int A d) a))) 0 (iota 0 (size delta))) (iota 0 (size sc)).

Definition fl_glynn_step (sc : matrix_t) (st : seq int * F * seq F * F) (i : nat)
  : res (seq int * F * seq F * F) :=
  let: (delta, mult, sums, perm) := st in
  let mult := - mult in
  let! di := py_get delta (Posz i) in
  let! delta := py_set delta (Posz i) (- di) in
  let! sums := rmapM (fun j =>
     let! s := py_get sums (Posz j) in
     let! d := py_get delta (Posz i) in
     let! a := mget sc i j in
     Ok (f_add A s (f_mul A (f_int A (Posz 2 * d)) a))) (iota 0 (size sums)) in
  Ok (delta, mult, sums, f_add A perm (f_mul A mult (foldl (f_mul A) 1 sums))).

Definition fl_glynn_permanent (gray : nat -> seq nat) (M : matrix_t) (input output : seq nat) : res F :=
  let! sc := scattering_calculate M input output in
  if size sc == 0%N then Ok 1 else
  let delta := nseq (size sc) (1 : int) in
  let! sums := fl_glynn_init_sums sc delta in
  let! st := rfoldl (fl_glynn_step sc) (delta, 1, sums, f_mul A 1 (foldl (f_mul A) 1 sums))
    (gray (size sc - 1)%N) in
  let: (_, _, _, perm) := st in
  Ok (f_div A perm (Posz 2 ^+ (size sc - 1))).

(* compute_permanent of any calculator: value and object afterwards *)
Definition fl_compute_any (gray : nat -> seq nat) (fuel : nat) (a : any_calc F)
  : res (F * any_calc F) :=
  match a with
  | ClassicCalc M i o => rmap (fun v => (v, a)) (fl_classic_permanent fuel M i o)
  | GlynnCalc M i o => rmap (fun v => (v, a)) (fl_glynn_permanent gray M i o)
  | GuanCalc k c => rmap (fun c' => (c_perm c', GuanCalc k c')) (fl_compute_permanent fuel k c)
  end.

End Calculators.
