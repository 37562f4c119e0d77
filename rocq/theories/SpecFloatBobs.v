(* Error bounds of the strategy for networks with losses that differ from mode
   to mode, in rounded arithmetic. *)
From mathcomp Require Import all_ssreflect all_algebra complex.
From Verif Require Import Base SpecStates SpecBS SpecPerm SpecProb ModelStates ModelPerm ModelDist ModelGcc ModelGccB ModelNet SpecNet ModelBobs SpecBobs
  ModelFloat SpecFloat ModelFloatGccB SpecFloatGcc SpecFloatGccB ModelFloatNet SpecFloatNet ModelFloatLState SpecFloatLState ModelFloatBobs Combi.
Set Implicit Arguments.
Unset Strict Implicit.
Unset Printing Implicit Defensive.
Import GRing.Theory Num.Theory.
Local Open Scope ring_scope.

Section Bobs.
Variable R : rcfType.
Notation C := (ComplexField.complex_numFieldType R).
Notation mat := (seq (seq C)).

(* the losses simulated in front of the network: those the weights are computed for *)
Definition fl_kept_losses (B : arith R) (l : R) : R := if close_to_0 l then 0 else 1 - f_sub B 1 l.

(* K of the particles s are left when each is lost with probability l *)
Definition kept_weight (l : R) (s K : seq nat) : R := (ways s K)%:R * (1 - l) ^+ sumn K * l ^+ (sumn s - sumn K).

(* the choices of the particles left in each mode *)
Definition own_error (u : R) (N : nat) (s : seq nat) : R :=
  \sum_(n <- s) (n.+1 + n.+2)%:R * left_error u N n.

(* a sample of the network with the particles K in front of it; e is the error
   of the entries of the network, d that of its decomposition *)
Definition tail_error (u d e : R) (N m : nat) (K : seq nat) : R :=
  gccb_error u (expand_error u d m) N (m + m) (K ++ nseq m 0%N) (sumn K) + network_error e m K.

(* one sample: the mean over the inputs and over the particles left *)
Definition bobs_error (u d e l : R) (N m k p : nat) (s : seq nat) : R :=
  (\sum_(s' <- approx_inputs k p s)
     (own_error u N s' + \sum_(K <- subs s') kept_weight l s' K * tail_error u d e N m K))
  / (size (approx_inputs k p s))%:R.

(* the law of a sample when the phases have the values S with the probabilities W;
   D d adds e d modes to the network with the phases d *)
Definition bobs_law (k p : nat) (s : seq nat) (S : seq (seq R)) (W : seq R -> R) (e : seq R -> nat) (D : seq R -> mat) (t : seq nat) : R :=
  \sum_(d <- S) W d * bobs_prob (e d) (D d) k p s t.

(* distance of the laws of two networks whose entries differ by at most g *)
Definition near_network_error (g : R) (m k p : nat) (s : seq nat) : R :=
  (\sum_(s' <- approx_inputs k p s) network_error (m%:R * g) m s') / (size (approx_inputs k p s))%:R.

(* removing the common losses of a network of transmissivity t: the losses, the
   divisor, the singular values and the entries of the network that is left *)
Definition divisor_error (u d : R) : R := (1 + u) ^+ 4 * (1 + d) ^+ 2 - 1.
Definition ratio_error (u d t : R) : R := (1 + u) * (1 + 4%:R * divisor_error u d / t) - 1.
Definition left_sv_error (u d t : R) : R := (1 + u) * (1 + Num.sqrt (ratio_error u d t)) - 1.
Definition extract_error (u d t : R) (m : nat) : R :=
  product_error u m (product_error u m d (left_sv_error u d t)) d.

(* M scales every vector by at most sqrt t, and one by sqrt t; N is M without
   these common losses *)
Definition common_losses (m : nat) (M : mat) (t : R) (N : mat) : Prop :=
  [/\ 0 < t, forall v, image_norm m M v <= t * vec_norm m v,
      exists v, vec_norm m v = 1 /\ image_norm m M v = t
    & forall i j : nat, (i < m)%N -> (j < m)%N -> ent M i j = (Num.sqrt t)%:C%C * ent N i j].

(* the decomposition of every matrix whose entries differ by at most e from those
   of a network: up to d the one of a network M1 close to the matrix *)
Definition stable_svd (svd : mat -> res (mat * seq R * mat)) (m : nat) (e d e1 : R) : Prop :=
  forall Y X, is_square m Y -> subunitary m X -> close m e Y X ->
    exists V s U M1, [/\ svd Y = Ok (V, s, U), near_svd m d M1 V s U, subunitary m M1 & close m e1 Y M1].

(* a backward stable decomposition: up to d that of a matrix within b of the argument *)
Definition backward_svd (svd : mat -> res (mat * seq R * mat)) (m : nat) (b d : R) : Prop :=
  forall Y, is_square m Y -> exists V s U Y1, [/\ svd Y = Ok (V, s, U), is_square m Y1, close m b Y Y1 & near_svd m d Y1 V s U].

(* an object whose network without the common losses is, up to eps, N0 *)
Definition fl_bobs_of (B : arith R) (f_sqrt : R -> R) (f_dot : seq C -> seq C -> C)
    (svd : mat -> res (mat * seq R * mat)) (m : nat) (N0 : mat) (eps : R) (x : bobs R) : Prop :=
  [/\ is_square m (bo_matrix x) /\ close m eps (bo_matrix x) N0,
      ~~ close_to_0 (bo_losses x) -> 0 <= bo_losses x <= 1,
      (bo_modes x <= m)%N, (0 < bo_threads x)%N
    & exists E, fl_prepare_expanded B f_sqrt f_dot svd (calc_matrix (bo_calc x)) = Ok E].

End Bobs.
