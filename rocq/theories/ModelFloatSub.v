(* The sub-matrix permanents calculators of ModelPerm.v over an arbitrary
   arithmetic (see ModelFloat.v).  Sources as in ModelPerm.v. *)
From mathcomp Require Import all_ssreflect all_algebra.
From Verif Require Import Base ModelPerm ModelFloat.
Set Implicit Arguments.
Unset Strict Implicit.
Unset Printing Implicit Defensive.
Import GRing.Theory Num.Theory.
Local Open Scope ring_scope.
Local Open Scope py_scope.

Section Sub.
Variable F : numFieldType.
Variable A : arith F.

(* updated_binomials_product: ryser variant 112-117, chin-huh variant 92-94 *)
Definition fl_updated_binomial (b : F) (s : nat) (r : int) : res F :=
  let! q := fl_pydiv A s (Posz s - r) in
  if q == 0 then Err ZeroDivisionError else Ok (f_fdiv A b q).

(* _update_permanents: ryser variant 96-119, chin-huh variant 77-105 *)
Definition fl_update_permanents (k : guan_kind) (c : subcalc F) : res (seq F) :=
  rfoldl (fun perms i =>
    let! s := py_get (sc_input c) (Posz i) in
    let! r := py_get (g_r (sc_guan c)) (Posz i) in
    if (s == 0%N) || (r == Posz s) then Ok perms else
    let! addend :=
      match k with
      | Ryser => let! b := fl_updated_binomial (sc_binom c) s r in Ok (f_mul A (sc_prod c) b)
      | ChinHuh =>
          let! upd := rfoldl (fun d j =>
             let! v := dict_get (sc_sums c) j in
             let! a := mget (sc_matrix c) j i in
             Ok (dict_set d j (f_sub A v a))) [::] (sc_cols c) in
          let! b := fl_updated_binomial (sc_binom c) s r in
          rfoldl (fun acc j =>
             let! v := dict_get upd j in
             let! e := py_get (sc_output c) (Posz j) in
             Ok (f_mul A acc (f_pow A v e))) (f_mul A (sc_mult c) b) (sc_cols c)
      end in
    let! p := py_get perms (Posz i) in
    py_set perms (Posz i) (f_add A p addend))
  (sc_perms c)
  (iota 0 (match k with Ryser => size (sc_perms c) | ChinHuh => size (sc_input c) end)).

(* _update_sums: ryser variant 80-94 (also computes _prod), chin-huh variant 66-75 *)
Definition fl_update_sub_sums (k : guan_kind) (c : subcalc F) : res (dict F * F) :=
  let! d := fl_update_sums A k (sc_matrix c) (sc_guan c) (sc_sums c) in
  match k with
  | Ryser =>
      let! p := rfoldl (fun acc j =>
          let! v := dict_get d j in
          let! e := py_get (sc_output c) (Posz j) in
          Ok (f_mul A acc (f_pow A v e))) 1 (map fst d) in
      Ok (d, f_mul A p (sc_mult c))
  | ChinHuh => Ok (d, sc_prod c)
  end.

(* _multiplier: base 183 (an integer), chin-huh 55 *)
Definition fl_sub_multiplier (k : guan_kind) (input output : seq nat) : F :=
  match k with
  | Ryser => (-1) ^+ sumn output
  | ChinHuh => if sumn input is n.+1 then f_quot A 1 (Posz 2 ^+ n) else f_int A 2
  end.

(* _initialize_permanents_computation: base 177-189, ryser 73-78, chin-huh 51-64 *)
Definition fl_init_subcomputation (k : guan_kind) (c : subcalc F) : res (subcalc F) :=
  let cols := np_nonzero (sc_output c) in
  let perms := nseq (size (sc_input c)) 0 in
  let! sums := fl_init_sums A k (sc_matrix c) (sc_input c) cols in
  let mult := fl_sub_multiplier k (sc_input c) (sc_output c) in
  let c' := Subcalc (sc_matrix c) (sc_input c) (sc_output c)
    (init_guan (sc_input c) (sc_guan c)) 1 mult cols sums (sc_prod c) perms in
  match k with
  | Ryser => Ok c'
  | ChinHuh =>
      let! perms' := fl_update_permanents k c' in
      Ok (Subcalc (sc_matrix c) (sc_input c) (sc_output c)
            (sc_guan c') 1 mult cols sums (sc_prod c) perms')
  end.

(* loop 162-175 *)
Fixpoint fl_permanents_loop (fuel : nat) (k : guan_kind) (c : subcalc F) : res (subcalc F) :=
  let! r := py_get (g_r (sc_guan c)) (Negz 0) in
  let! lim := py_get (g_lim (sc_guan c)) (Negz 0) in
  if r <= lim then
    if fuel is fuel'.+1 then
      let! g := update_guan_code (sc_guan c) in
      if g_idx g == size (g_r g) then
        Ok (Subcalc (sc_matrix c) (sc_input c) (sc_output c) g (sc_binom c) (sc_mult c)
              (sc_cols c) (sc_sums c) (sc_prod c) (sc_perms c))
      else
        let! b := fl_update_binomials A (sc_input c) g (sc_binom c) in
        let c1 := Subcalc (sc_matrix c) (sc_input c) (sc_output c) g b (- sc_mult c)
             (sc_cols c) (sc_sums c) (sc_prod c) (sc_perms c) in
        let! sp := fl_update_sub_sums k c1 in
        let c2 := Subcalc (sc_matrix c) (sc_input c) (sc_output c) g b (- sc_mult c)
             (sc_cols c) sp.1 sp.2 (sc_perms c) in
        let! perms := fl_update_permanents k c2 in
        fl_permanents_loop fuel' k
          (Subcalc (sc_matrix c) (sc_input c) (sc_output c) g b (- sc_mult c)
             (sc_cols c) sp.1 sp.2 perms)
    else Err OutOfFuel
  else Ok c.

(* compute_permanents (150-175): returned list and the object afterwards *)
Definition fl_compute_permanents (fuel : nat) (k : guan_kind) (c : subcalc F) :
    res (seq F * subcalc F) :=
  if sumn (sc_input c) == 1%N then Ok ([seq f_int A (Posz v) | v <- sc_input c], c) else
  let! c' := fl_init_subcomputation k c in
  let! c'' := fl_permanents_loop fuel k c' in
  Ok (sc_perms c'', c'').

End Sub.
