(* Reference programs and histories for the samplers. *)
From mathcomp Require Import all_ssreflect all_algebra complex.
From Verif Require Import Base ModelStates ModelPerm ModelDist SpecProb ModelGcc.
Set Implicit Arguments.
Unset Strict Implicit.
Unset Printing Implicit Defensive.
Import GRing.Theory Num.Theory.
Local Open Scope ring_scope.
Local Open Scope py_scope.

(* both succeed with related values, or both raise the same exception *)
Definition same_res (A B : Type) (P : A -> B -> Prop) (x : res A) (y : res B) : Prop :=
  match x, y with
  | Ok a, Ok b => P a b
  | Err e, Err e' => e = e'
  | _, _ => False
  end.

(* the same samples, or the same exception *)
Definition same_samples (X G H : Type) (x : res (seq X * G)) (y : res (seq X * H)) : Prop :=
  same_res (fun a b => a.1 = b.1) x y.

(* no claim about a call that raises *)
Definition if_ok (A : Type) (P : A -> Prop) (x : res A) : Prop := if x is Ok a then P a else True.

(* the call returns k independent samples in S, each equal to t with
   probability P t: the exact probability of every list of samples *)
Definition iid_samples (R : realFieldType) (X : eqType) (G : Type) (p : rprog R (res (seq X * G)))
    (k : nat) (S : pred X) (P : X -> R) : Prop :=
  forall L : seq X,
  has_exp (on_ok (fun x => (x.1 == L)%:R)) p
    (if (size L == k) && all S L then \prod_(t <- L) P t else 0).

(* calculators of the same class holding the same matrix *)
Definition same_core (F : numFieldType) (a b : any_calc F) : Prop :=
  same_public (set_output [::] (set_input [::] a)) (set_output [::] (set_input [::] b)).

Section Spec.
Variable R : rcfType.
Notation CF := (ComplexField.complex_numFieldType R).
Notation prog A := (rprog R (res A)).
Variables (gray : nat -> seq nat) (fuel : nat).

(* the sampler without a cache: the layer is computed anew before every draw *)
Fixpoint nocache_loop (meas : seq nat -> nat) (layer : gcc R -> res (gcc R)) (n : nat) (g : gcc R) :
    prog (gcc R) :=
  if n is n'.+1 then
    if (meas (g_r g) < g_n g)%N then
      draw! g := Ret (layer g) in
      draw! g := sample_from_latest_pmf g in
      nocache_loop meas layer n' g
    else Ret (Ok g)
  else Ret (Err OutOfFuel).
Definition nocache_simulate (s : seq nat) (k : nat) (g : gcc R) : prog (seq (seq nat) * gcc R) :=
  sample_loop
    (fun g => nocache_loop sumn (new_layer gray fuel) fuel (reset_sample (nseq (size (g_input g)) 0%N) g))
    (fun g => Ok (g_r g)) k (gcc_start s g).
Definition ma_nocache_simulate (s : seq nat) (k : nat) (g : gcc R) : prog (seq (seq nat) * gcc R) :=
  sample_loop
    (fun g => nocache_loop size (ma_new_layer gray fuel) fuel (reset_sample [::] g))
    (fun g => mode_assignment_to_mode_occupation (map Posz (g_r g)) (Posz (size (g_input g))))
    k (gcc_start s g).

(* uniform losses: the object after k samples and i photons of the next one *)
Definition moment (s : seq nat) (k i : nat) (x : ugcc R) : prog (ugcc R) :=
  draw! x := Ret (ugcc_start fuel s x) in
  draw! y := sample_loop (u_fill_r_sample gray fuel) (fun x => Ok (g_r (ug_gcc x))) k x in
  let g := ug_gcc y.2 in
  u_fill_loop gray fuel i (set_ug y.2
    (reset_sample (nseq (size (calc_matrix (g_calc g))) 0%N) g) (ug_dist y.2, ug_unw y.2)).

(* calls on a strategy object.  A call that raises leaves the object in some
   state, described by [broken]. *)
Inductive gcc_op := OpSimulate of seq nat & nat | OpSetMatrix of seq (seq CF).
Variable simulate : seq nat -> nat -> gcc R -> prog (seq (seq nat) * gcc R).
Variable broken : gcc_op -> pyerr -> gcc R -> gcc R.

Definition run_gcc_op (op : gcc_op) (g : gcc R) : rprog R (gcc R) :=
  match op with
  | OpSimulate s k => pbind (simulate s k g) (fun x =>
      Ret (match x with Ok y => y.2 | Err e => broken op e g end))
  | OpSetMatrix M => Ret (set_new_matrix M g)
  end.
Fixpoint run_gcc_ops (ops : seq gcc_op) (g : gcc R) : rprog R (gcc R) :=
  if ops is op :: ops' then pbind (run_gcc_op op g) (run_gcc_ops ops') else Ret g.

(* the matrix set last *)
Definition last_matrix (M : seq (seq CF)) (ops : seq gcc_op) : seq (seq CF) :=
  foldl (fun M op => if op is OpSetMatrix M' then M' else M) M ops.

End Spec.
