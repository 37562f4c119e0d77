(* Floating point operations on real and complex numbers built from a rounding
   of real numbers: float64 operations round the exact result; the operations on
   complex128 are those of numpy (loops of add, subtract, multiply; divide after
   Smith; powers with small integer exponents by multiplications). *)
From mathcomp Require Import all_ssreflect all_algebra complex.
From Verif Require Import ModelFloat.
Set Implicit Arguments.
Unset Strict Implicit.
Unset Printing Implicit Defensive.
Import GRing.Theory Num.Theory.
Local Open Scope ring_scope.

(* orders of evaluation of n-fold sums and products; O n is the order for n
   operands *)
Inductive tree := Leaf of nat | Node of tree & tree.
Fixpoint leaves (t : tree) : seq nat :=
  match t with Leaf i => [:: i] | Node a b => leaves a ++ leaves b end.
Fixpoint eval_tree (T : Type) (op : T -> T -> T) (x : nat -> T) (t : tree) : T :=
  match t with Leaf i => x i | Node a b => op (eval_tree op x a) (eval_tree op x b) end.

(* from left to right; halves first *)
Fixpoint left_order (n : nat) : tree := if n is n'.+1 then (if n' is _.+1 then Node (left_order n') (Leaf n') else Leaf 0) else Leaf 0.
Fixpoint half_order (fuel lo n : nat) : tree :=
  if fuel is fuel'.+1 then
    if (n <= 1)%N then Leaf lo else Node (half_order fuel' lo n./2) (half_order fuel' (lo + n./2) (n - n./2))
  else Leaf lo.
Definition pairwise_order (n : nat) : tree := half_order n 0 n.

Section Round.
Variable R : rcfType.
Notation CF := (ComplexField.complex_numFieldType R).
Variables (rnd : R -> R) (Op Os : nat -> tree).

(* float64 *)
Definition r_pow (x : R) (e : nat) : R := if e is 0 then 1 else eval_tree (fun x y => rnd (x * y)) (fun=> x) (Op e).
Definition r_sum (l : seq R) : R :=
  if l is [::] then 0 else eval_tree (fun x y => rnd (x + y)) (fun i => l`_i) (Os (size l)).
(* the compensated sum of numpy.random (choice) *)
Fixpoint kahan (s c : R) (l : seq R) : R :=
  if l is x :: l' then
    let y := rnd (x - c) in
    let t := rnd (s + y) in
    kahan t (rnd (rnd (t - s) - y)) l'
  else s.
Definition kahan_sum (l : seq R) : R := if l is x :: l' then kahan x 0 l' else 0.
Definition real_arith : arith R :=
  Arith (fun x y => rnd (x + y)) (fun x y => rnd (x - y)) (fun x y => rnd (x * y))
    (fun x z => rnd (x / rnd z%:~R)) r_pow (fun z => rnd z%:~R) (fun y z => rnd (y%:~R / z%:~R))
    (fun x y => rnd (x / y)).

(* complex128 *)
Definition c_add (x y : CF) : CF :=
  let: (a +i* b)%C := x in let: (c +i* d)%C := y in (rnd (a + c) +i* rnd (b + d))%C.
Definition c_sub (x y : CF) : CF :=
  let: (a +i* b)%C := x in let: (c +i* d)%C := y in (rnd (a - c) +i* rnd (b - d))%C.
Definition c_mul (x y : CF) : CF :=
  let: (a +i* b)%C := x in let: (c +i* d)%C := y in
  (rnd (rnd (a * c) - rnd (b * d)) +i* rnd (rnd (a * d) + rnd (b * c)))%C.
Definition c_div (x y : CF) : CF :=
  let: (a +i* b)%C := x in let: (c +i* d)%C := y in
  if `|d| <= `|c| then
    let rat := rnd (d / c) in
    let scl := rnd (1 / rnd (c + rnd (d * rat))) in
    (rnd (rnd (a + rnd (b * rat)) * scl) +i* rnd (rnd (b - rnd (a * rat)) * scl))%C
  else
    let rat := rnd (c / d) in
    let scl := rnd (1 / rnd (d + rnd (c * rat))) in
    (rnd (rnd (rnd (a * rat) + b) * scl) +i* rnd (rnd (rnd (b * rat) - a) * scl))%C.
Definition c_pow (x : CF) (e : nat) : CF := if e is 0 then 1 else eval_tree c_mul (fun=> x) (Op e).
Definition c_abs (z : CF) : R :=
  let: (a +i* b)%C := z in rnd (Num.sqrt (rnd (rnd (a * a) + rnd (b * b)))).
Definition complex_arith : arith CF :=
  Arith c_add c_sub c_mul (fun x z => c_div x ((rnd z%:~R)%:C)%C) c_pow (fun z => ((rnd z%:~R)%:C)%C)
    (fun y z => ((rnd (y%:~R / z%:~R))%:C)%C) c_div.

End Round.
