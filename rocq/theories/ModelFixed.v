(* Model of
     simulation_strategies/fixed_loss_simulation_strategy.py   (19-145)
     simulation_strategies/uniform_loss_simulation_strategy.py (17-72)
     boson_sampling_simulator.py                               (19-25)
   exp(2 pi i x), numpy's svd and the draws of rand are parameters.  The
   probabilities are complex numbers with imaginary part 0 in the code, compared
   by their real parts.  Samples are arrays of floats with integral values. *)
From mathcomp Require Import all_ssreflect all_algebra complex.
From Verif Require Import Base ModelStates ModelPerm ModelDist SpecProb ModelGcc ModelGccB ModelNet.
Set Implicit Arguments.
Unset Strict Implicit.
Unset Printing Implicit Defensive.
Import GRing.Theory Num.Theory.
Local Open Scope ring_scope.
Local Open Scope py_scope.

Section Fixed.
Variable R : rcfType.
Notation CF := (ComplexField.complex_numFieldType R).
Notation mat := (seq (seq CF)).
Notation prog A := (rprog R (res A)).
Variables (svd : mat -> res (mat * seq R * mat)) (cis : R -> CF).
Variable rand : nat -> prog (seq R).

(* the network strategies *)
Inductive network :=
  | LosslessNetwork of mat
  | LossyNetwork of mat.      (* the expanded matrix *)
Definition network_simulate (net : network) (v : seq CF) : res (seq CF) :=
  match net with
  | LosslessNetwork M => lossless_network M v
  | LossyNetwork E => lossy_network_simulate E v
  end.

(* the object (24-40) *)
Record fixed := Fixed {
  fx_left : nat;       (* number_of_photons_left *)
  fx_modes : nat;      (* number_of_observed_modes *)
  fx_net : network
}.
Definition new_fixed (M : mat) (left modes : nat) (net : option network) : res fixed :=
  if net is Some net then Ok (Fixed left modes net) else
  let! E := lossy_network_init svd M in
  Ok (Fixed left modes (LossyNetwork E)).

(* _prepare_initial_state, _randomize_modes_phases (71-106); see [probabilities]
   for n = 0 *)
Definition prepare_state (modes n : nat) : prog (seq CF) :=
  let st := [seq (if (i < n)%N then 1 else 0) / Num.sqrt n%:R | i <- iota 0 modes] in
  draw! d := rand modes in
  Ret (Ok [seq cis d`_i * (st`_i)%:C%C | i <- iota 0 modes]).

(* _calculate_probabilities (108-119).  None is NaN: without particles the
   state is 0/0 in every mode, and so is every entry behind the network *)
Definition probabilities (n : nat) (ev : seq CF) : seq (option R) :=
  [seq if n == 0%N then None else Some (complex.Re z ^+ 2 + complex.Im z ^+ 2) | z <- ev].

(* x > p, p + q with NaN *)
Definition above (x : R) (p : option R) : bool := if p is Some p then p < x else false.
Definition nan_add (p q : option R) : option R :=
  if p is Some p then if q is Some q then Some (p + q) else None else None.

(* the while loop (137-141): the mode i, len(probabilities) if there is none *)
Fixpoint find_mode (x : R) (prob : option R) (i : nat) (rest : seq (option R)) : nat :=
  if above x prob then
    if rest is p :: rest' then find_mode x (nan_add prob p) i.+1 rest' else i.+1
  else i.

(* one turn of the for loop (133-143) *)
Definition place (ps : seq (option R)) (x : R) (out : seq nat) : res (seq nat) :=
  if ps is p :: rest then
    let i := find_mode x p 0 rest in
    if i != size ps then incr_at out (Posz i) else Ok out
  else Err IndexError.

(* _calculate_approximation_of_boson_sampling_outcome (121-145) *)
Fixpoint place_all (ps : seq (option R)) (left : nat) (out : seq nat) : prog (seq nat) :=
  if left is left'.+1 then
    Unif (fun x => draw! out := Ret (place ps x out) in place_all ps left' out)
  else Ret (Ok out).

(* the body of the loop of simulate (55-68) *)
Definition fixed_sample (x : fixed) (s : seq nat) : prog (seq nat) :=
  let n := sumn s in
  draw! v := prepare_state (fx_modes x) n in
  draw! ev := Ret (network_simulate (fx_net x) v) in
  place_all (probabilities n ev) (fx_left x) (nseq (fx_modes x) 0%N).

(* simulate (42-69); the object does not change *)
Definition fixed_simulate (s : seq nat) (k : nat) (x : fixed) : prog (seq (seq nat) * fixed) :=
  draw! y := sample_loop (fun _ => fixed_sample x s) (fun t => Ok t) k [::] in
  Ret (Ok (y.1, x)).

(* ------------------------------------------------------------------ *)
(* UniformLossSimulationStrategy: the object (22-30) *)
Record uniform := Uniform {
  un_matrix : mat;
  un_modes : nat;
  un_eta : R
}.

(* 49-51 *)
Definition separable_weights (eta : R) (n : nat) : seq R :=
  [seq eta ^+ l * 'C(n, l)%:R * (1 - eta) ^+ (n - l) | l <- iota 0 n.+1].

(* the body of the loop of simulate (56-70) *)
Definition uniform_sample (x : uniform) (s : seq nat) : prog (seq nat) :=
  draw! l := np_choice (separable_weights (un_eta x) (sumn s)) in
  draw! y := Ret (new_fixed (un_matrix x) l (un_modes x) None) in
  draw! L := fixed_simulate s 1 y in
  Ret (py_get L.1 0).

(* simulate (32-72) *)
Definition uniform_simulate (s : seq nat) (k : nat) (x : uniform) : prog (seq (seq nat) * uniform) :=
  draw! y := sample_loop (fun _ => uniform_sample x s) (fun t => Ok t) k [::] in
  Ret (Ok (y.1, x)).

End Fixed.
