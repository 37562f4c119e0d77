(* The Guan code calculators for states given as numpy arrays of int64: sums and
   powers of such numbers are int64 and wrap around silently, and 1 / 0 is not an
   exception but infinity.  The codes and their updates are Python integers. *)
From mathcomp Require Import all_ssreflect all_algebra.
From Verif Require Import Base ModelPerm.
Set Implicit Arguments.
Unset Strict Implicit.
Unset Printing Implicit Defensive.
Import GRing.Theory Num.Theory.
Local Open Scope ring_scope.
Local Open Scope py_scope.

(* reduction to -2^63, ..., 2^63 - 1 *)
Definition two63 : int := 2%:R ^+ 63.
Definition wrap64 (z : int) : int :=
  let r := (z %% (two63 + two63))%Z in if r < two63 then r else r - (two63 + two63).

(* sum() of an array *)
Definition sum64 (s : seq nat) : int := foldl (fun acc x => wrap64 (acc + Posz x)) 0 s.

(* pow(b, e) *)
Definition pow64 (b e : int) : res int :=
  if e is Posz n then Ok (wrap64 (b ^+ n)) else Err ValueError.

Section Calculators.
Variable F : numFieldType.

(* 1 / z; None is infinity *)
Definition recip64 (z : int) : option F := if z == 0 then None else Some (1 / z%:~R).

(* ryser 48; chin-huh 41 *)
Definition init_multiplier64 (k : guan_kind) (input : seq nat) : res (option F) :=
  match k with
  | Ryser => let! p := pow64 (-1) (sum64 input) in Ok (Some p%:~R)
  | ChinHuh => let! p := pow64 2%:R (sum64 input) in Ok (recip64 p)
  end.

(* _initialize_permanent_computation with a given multiplier *)
Definition init_with (k : guan_kind) (m : F) (c : calc F) : res (calc F) :=
  let cols := np_nonzero (c_output c) in
  let! sums := init_sums k (c_matrix c) (c_input c) cols in
  update_permanent
    (Calc (c_matrix c) (c_input c) (c_output c) (init_guan (c_input c) (c_guan c)) 1 m cols sums 0).

(* compute_permanent (166-198); with an infinite multiplier every addend is
   infinite or NaN, and so is the sum: None *)
Definition compute_permanent64 (fuel : nat) (k : guan_kind) (c : calc F) : res (option (calc F)) :=
  let! ok := can_calculate (c_matrix c) (c_input c) (c_output c) in
  if ok then
    let! m := init_multiplier64 k (c_input c) in
    let! c' := init_with k (odflt 1 m) c in
    let! c'' := permanent_loop fuel k c' in
    Ok (if m is Some _ then Some c'' else None)
  else Err AttributeError.

(* the sub-matrix calculators: base 185, chin-huh variant 57 *)
Definition init_submultiplier64 (k : guan_kind) (input output : seq nat) : res (option F) :=
  match k with
  | Ryser => let! p := pow64 (-1) (sum64 output) in Ok (Some p%:~R)
  | ChinHuh => let! p := pow64 2%:R (wrap64 (sum64 input - 1)) in Ok (recip64 p)
  end.

Definition init_sub_with (k : guan_kind) (mult : F) (c : subcalc F) : res (subcalc F) :=
  let cols := np_nonzero (sc_output c) in
  let perms := nseq (size (sc_input c)) 0 in
  let! sums := init_sums k (sc_matrix c) (sc_input c) cols in
  let c' := Subcalc (sc_matrix c) (sc_input c) (sc_output c)
    (init_guan (sc_input c) (sc_guan c)) 1 mult cols sums (sc_prod c) perms in
  match k with
  | Ryser => Ok c'
  | ChinHuh =>
      let! perms' := update_permanents k c' in
      Ok (Subcalc (sc_matrix c) (sc_input c) (sc_output c)
            (sc_guan c') 1 mult cols sums (sc_prod c) perms')
  end.

(* compute_permanents (150-175): the returned list *)
Definition compute_permanents64 (fuel : nat) (k : guan_kind) (c : subcalc F) : res (option (seq F)) :=
  if sum64 (sc_input c) == 1 then Ok (Some [seq v%:R | v <- sc_input c]) else
  let! m := init_submultiplier64 k (sc_input c) (sc_output c) in
  let! c' := init_sub_with k (odflt 1 m) c in
  let! c'' := permanents_loop fuel k c' in
  Ok (if m is Some _ then Some (sc_perms c'') else None).

End Calculators.
