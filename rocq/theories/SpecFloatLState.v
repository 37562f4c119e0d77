(* Error bounds for the strategy with an approximated state. *)
From mathcomp Require Import all_ssreflect all_algebra complex.
From Verif Require Import Base SpecStates SpecPerm SpecBS SpecBobs ModelPerm ModelNet ModelBobs ModelLState SpecLState Combi
  ModelFloat SpecFloat SpecFloatGccB SpecFloatNet SpecFloatFixed ModelFloatLState.
Set Implicit Arguments.
Unset Strict Implicit.
Unset Printing Implicit Defensive.
Import GRing.Theory Num.Theory.
Local Open Scope ring_scope.

Section LState.
Variable R : rcfType.
Notation C := (ComplexField.complex_numFieldType R).

(* the computed roots of unity *)
Definition accurate_root (c : R) (cis : R -> C) (f_root : nat -> nat -> C) : Prop :=
  forall n k : nat, (0 < n)%N -> `|f_root n k - cis (1 / n%:R) ^+ k| <= (c%:C)%C.

(* entries of the Fourier matrix; of the product of the given matrix, whose
   entries are known up to eps, with the phases and the Fourier matrix *)
Definition fourier_error (u c : R) : R := (1 + u) ^+ 5 * (1 + c) - 1.
Definition approx_net_error (u c eps : R) (m : nat) : R :=
  product_error u m (product_error u m eps c) (fourier_error u c).

(* the choices of the two parts of the input *)
Definition input_error (u : R) (N h : nat) (s : seq nat) : R :=
  let a := (sumn (drop h s)).+1 in let e := code_number (take h s) in
  (a + a.+1)%:R * choice_error u N a + (e + e.+1)%:R * choice_error u N (e + 2).

(* one sample: the error of version B is the mean over the inputs *)
Definition lstate_error (u c eps eta : R) (N m h : nat) (s : seq nat) : R :=
  input_error u N h s +
  \sum_(K <- subs (take h s)) \sum_(l < (sumn (drop h s)).+1)
    left_weight eta (take h s) K * binomial_weight (sumn (drop h s)) eta l *
      gccb_error u (approx_net_error u c eps m) N m (moved m h K l) (sumn K + l).

(* an object for the network U, of which the entries are stored up to eps *)
Definition fl_lstate_of (A : arith C) (B : arith R) (f_sqrt : R -> R) (f_root : nat -> nat -> C)
    (m : nat) (U : seq (seq C)) (eps : R) (h : nat) (eta : R) (x : lstate R) : Prop :=
  [/\ is_square m (calc_matrix (ls_calc x)) /\ close m eps (calc_matrix (ls_calc x)) U,
      ls_level x = Posz h, ls_eta x = eta, (0 < ls_threads x)%N
    & fl_qft_matrix_first A B f_sqrt f_root (m - h) m = Ok (ls_qft x)].

End LState.
