(* Expectations of programs which use a uniform draw for more than comparisons,
   like a random phase exp(2 pi i u).

   [near_exp f p v e]: the expectation of f over the results of p is within e of
   v.  After a draw of the uniform distribution this is shown by cutting [0,1)
   into finitely many intervals, as for Riemann integrals.
   [lim_exp f p v]: the expectation of f is v. *)
From mathcomp Require Import all_ssreflect all_algebra complex.
From Verif Require Import Base SpecProb SpecStates Combi SpecPerm SpecBS SpecNet.
Set Implicit Arguments.
Unset Strict Implicit.
Unset Printing Implicit Defensive.
Import GRing.Theory Num.Theory.
Local Open Scope ring_scope.

Section Lim.
Variable R : realFieldType.

Inductive near_exp (A : Type) (f : A -> R) : rprog R A -> R -> R -> Prop :=
  | NearRet a v e : `|f a - v| <= e -> near_exp f (Ret a) v e
  | NearUnif k w v e x d :
      is_distr w ->
      (forall i u, (i < size w)%N -> inside_step w i u -> near_exp f (k u) (v i) (e i)) ->
      `|\sum_(i < size w) w`_i * v i - x| + \sum_(i < size w) w`_i * e i <= d ->
      near_exp f (Unif k) x d
  | NearInt n k v e x d :
      (0 < n)%N ->
      (forall i, (i < n)%N -> near_exp f (k i) (v i) (e i)) ->
      `|(\sum_(i < n) v i) / n%:R - x| + (\sum_(i < n) e i) / n%:R <= d ->
      near_exp f (Int n k) x d.

Definition lim_exp (A : Type) (f : A -> R) (p : rprog R A) (v : R) : Prop :=
  forall e, 0 < e -> near_exp f p v e.

(* k independent samples in S, each equal to t with probability P t *)
Definition lim_iid_samples (X : eqType) (G : Type) (p : rprog R (res (seq X * G)))
    (k : nat) (S : pred X) (P : X -> R) : Prop :=
  forall L : seq X,
  lim_exp (on_ok (fun x => (x.1 == L)%:R)) p
    (if (size L == k) && all S L then \prod_(t <- L) P t else 0).

End Lim.

(* exp(2 pi i x) and exp(2 pi i y) are at most K |x - y| apart *)
Definition cis_lipschitz (R : rcfType) (cis : R -> R[i]) : Prop :=
  exists K : R, forall x y, nsq (cis x - cis y) <= (K * (x - y)) ^+ 2.

(* l particles of n in one mode each, left by thinning a product state: the
   weight of the occupation a *)
Definition spread_weight (R : rcfType) (n l : nat) (a : seq nat) : R :=
  l`!%:R / (factprod a)%:R / n%:R ^+ l.

(* the law of the strategies with independent particles: the l particles
   occupy the first n modes, each of them in a uniformly chosen one, and go
   through the network D, whose d last modes are not observed *)
Definition spread_prob (R : rcfType) (m d : nat) (D : seq (seq R[i])) (n l : nat) (t : seq nat) : R :=
  \sum_(a <- comps n l) spread_weight R n l a * traced_prob d D (a ++ nseq (m - n) 0%N) t.

(* the same when every particle is independently left with probability eta *)
Definition spread_uniform (R : rcfType) (m d : nat) (D : seq (seq R[i])) (n : nat) (eta : R) (t : seq nat) : R :=
  \sum_(l < n.+1 | (sumn t <= l)%N) binomial_weight n eta l * spread_prob m d D n l t.

(* the exact laws: l of the particles of s, chosen uniformly, are left and go
   through the network D, whose d last modes are not observed *)
Definition lost_prob (R : rcfType) (d : nat) (D : seq (seq R[i])) (s : seq nat) (l : nat) (t : seq nat) : R :=
  (\sum_(T <- subs s | sumn T == l) (ways s T)%:R * traced_prob d D T t) / 'C(sumn s, l)%:R.

Definition lost_uniform (R : rcfType) (d : nat) (D : seq (seq R[i])) (s : seq nat) (eta : R) (t : seq nat) : R :=
  \sum_(l < (sumn s).+1 | (sumn t <= l)%N) binomial_weight (sumn s) eta l * lost_prob d D s l t.

(* one particle in each of the first n of m modes *)
Definition one_each (m n : nat) : seq nat := nseq n 1%N ++ nseq (m - n) 0%N.
