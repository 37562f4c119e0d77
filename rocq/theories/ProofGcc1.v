(* Version A of the generalized Clifford & Clifford sampler: one layer. *)
From mathcomp Require Import all_ssreflect all_algebra complex.
From mathcomp Require Import ring zify.
From Verif Require Import Base SpecStates Combi SpecPerm PermMath SpecBS BsMath BsComb BsNorm.
From Verif Require Import ModelStates LemStates ModelPerm ProofPerm6 LemPerm ModelDist ProofDist1.
From Verif Require Import SpecProb ProbMath ModelGcc ModelGccB SampMath ProofSel.
Set Implicit Arguments.
Unset Strict Implicit.
Unset Printing Implicit Defensive.
Import Order.TTheory GRing.Theory Num.Theory.
Local Open Scope ring_scope.
Local Open Scope py_scope.

(* ---- dictionaries ---- *)
Lemma dget_dset (K : eqType) (V : Type) (d : seq (K * V)) k v k' :
  dget (dset d k v) k' = if k == k' then Some v else dget d k'.
Proof. by rewrite /dget /dset /=; case: eqP. Qed.

Lemma all_input_substatesE s : all_input_substates s = subs s.
Proof. by elim: s => [//|x s IH]; rewrite subs_cons /= IH. Qed.

Lemma labelE s k : dgetl (label_states s) k = [seq T <- subs s | sumn T == k].
Proof.
rewrite /label_states all_input_substatesE.
have H d L : dgetl (foldl (fun d t => dset d (sumn t) (rcons (dgetl d (sumn t)) t)) d L) k =
    dgetl d k ++ [seq T <- L | sumn T == k].
  elim: L d => [|T L IH] d /=; first by rewrite cats0.
  rewrite IH {1}/dgetl dget_dset; case: eqP => [->|_] /=; last by [].
  by rewrite -cats1 -catA.
by rewrite H.
Qed.

Lemma prod_gt s : (sumn s < \prod_(x <- s) x.+1)%N.
Proof.
elim: s => [|x s IH]; first by rewrite big_nil.
rewrite big_cons /=; apply: leq_trans (leq_mul (leqnn x.+1) IH); lia.
Qed.

Lemma core_set (F : numFieldType) (a : any_calc F) s t : calc_matrix (set_output t (set_input s a)) = calc_matrix a.
Proof. by case: a. Qed.

Lemma same_matrix (F : numFieldType) (a b : any_calc F) : same_public a b -> calc_matrix a = calc_matrix b.
Proof. by case: a b => [? ? ?|? ? ?|? ?] [? ? ?|? ? ?|? ?] //= []. Qed.

Section Layer.
Variable R : rcfType.
Notation CF := (ComplexField.complex_numFieldType R).
Variables (gray : nat -> seq nat) (fuel m : nat) (U : seq (seq CF)) (s : seq nat).
Hypotheses (sqU : is_square m U) (ss : size s = m) (gr : gray_ok gray (sumn s)).
Hypothesis fu : (\prod_(x <- s) x.+1 <= fuel)%N.

Lemma k_vectorE T : substate T s ->
  k_vector s T = Ok [seq Posz (nth 0%N s i - nth 0%N T i) | i <- iota 0 (size s)].
Proof.
case/substateP=> sz l; rewrite /k_vector sz.
have: all (fun i => i < size s)%N (iota 0 (size s)) by apply/allP => i; rewrite mem_iota.
elim: (iota 0 (size s)) => [//|i L IH] /= /andP[il al].
by rewrite !(py_get_nth 0%N) ?sz //= IH //= subzn.
Qed.

Lemma foldl_posz (L : seq nat) : foldl +%R 0 (map Posz L) = Posz (sumn L).
Proof.
have H a : foldl +%R (Posz a) (map Posz L) = Posz (a + sumn L).
  by elim: L a => [|x L IH] a /=; rewrite ?addn0 // -PoszD IH addnA.
by rewrite H.
Qed.

Lemma sumn_sub T : substate T s ->
  sumn [seq (nth 0 s i - nth 0 T i)%N | i <- iota 0 (size s)] = (sumn s - sumn T)%N.
Proof.
move=> sT; rewrite -sumn_subn // sumnE big_map -[X in iota _ X]subn0 -/(index_iota _ _) big_mkord.
by [].
Qed.

Lemma calculate_weightE T : substate T s ->
  calculate_weight R s [seq Posz (nth 0%N s i - nth 0%N T i) | i <- iota 0 (size s)] =
  Ok ((ways s T)%:R / 'C(sumn s, sumn T)%:R).
Proof.
move=> sT; have /substateP[sz l] := sT; rewrite /calculate_weight.
rewrite (map_comp Posz (fun i => nth 0 s i - nth 0 T i)%N) foldl_posz sumn_sub // [rbind (py_factorial _) _]/=.
have le := substate_sumn sT.
have -> : Posz (sumn s) - Posz (sumn s - sumn T) = Posz (sumn T) by rewrite subzn ?leq_subr // subKn.
rewrite [rbind (py_factorial _) _]/=.
set w0 := _ / _.
have A k : (k <= size s)%N -> rfoldl (fun w i => let! x := py_get s (Posz i) in
    let! k0 := py_get (map Posz [seq (nth 0 s i - nth 0 T i)%N | i <- iota 0 (size s)]) (Posz i) in
    Ok (w * sp_binom R x k0)) w0 (iota 0 k) = Ok (w0 * (\prod_(i < k) 'C(nth 0 s i, nth 0 T i))%N%:R).
  elim: k => [|k IH] kl; first by rewrite big_ord0 mulr1.
  rewrite -[k.+1]addn1 iotaD rfoldl_cat IH ?(ltnW kl) // add0n addn1 big_ord_recr /=.
  rewrite (py_get_nth 0%N) //= (py_get_nth 0) ?size_map ?size_iota //=.
  rewrite (nth_map 0%N) ?size_map ?size_iota // (nth_map 0%N) ?size_iota // nth_iota // add0n.
  by rewrite /sp_binom bin_sub // natrM mulrA.
rewrite A // -/(ways s T) /w0; congr Ok.
have f0 k : k`!%:R != 0 :> R by rewrite pnatr_eq0 -lt0n fact_gt0.
have c0 : 'C(sumn s, sumn T)%:R != 0 :> R by rewrite pnatr_eq0 -lt0n bin_gt0.
rewrite mulrC; congr (_ * _); apply: (mulIf c0); rewrite mulVf //.
apply: (mulIf (f0 (sumn s))); rewrite mul1r mulrAC divfK // -natrM.
by rewrite mulnC [(_ * (sumn T)`!)%N]mulnC bin_fact.
Qed.

Definition lay k := [seq T <- subs s | sumn T == k].

Lemma mem_lay k T : T \in lay k -> substate T s /\ sumn T = k.
Proof. by rewrite mem_filter mem_subs => /andP[/eqP -> ->]. Qed.

Lemma layer_weightsE k : (k <= sumn s)%N ->
  layer_weights R s (lay k) = Ok [seq (ways s T)%:R / 'C(sumn s, k)%:R | T <- lay k].
Proof.
move=> kn; rewrite /layer_weights.
have A L : {subset L <= lay k} -> rmapM (k_vector s) L =
  Ok [seq [seq Posz (nth 0%N s i - nth 0%N T i) | i <- iota 0 (size s)] | T <- L].
  elim: L => [//|T L IH] sub /=.
  have [sT _] := mem_lay (sub T (mem_head _ _)).
  by rewrite k_vectorE //= IH // => T' i; apply: sub; rewrite inE i orbT.
have B L : {subset L <= lay k} -> rmapM (calculate_weight R s)
    [seq [seq Posz (nth 0%N s i - nth 0%N T i) | i <- iota 0 (size s)] | T <- L] =
    Ok [seq (ways s T)%:R / 'C(sumn s, k)%:R | T <- L].
  elim: L => [//|T L IH] sub /=.
  have [sT eT] := mem_lay (sub T (mem_head _ _)).
  by rewrite calculate_weightE //= IH ?eT // => T' i; apply: sub; rewrite inE i orbT.
rewrite A // [rbind (Ok _) _]/= B // [rbind (Ok _) _]/=.
have c0 : 'C(sumn s, k)%:R != 0 :> R by rewrite pnatr_eq0 -lt0n bin_gt0.
have S : py_sum [seq (ways s T)%:R / 'C(sumn s, k)%:R | T <- lay k] = 1 :> R.
  by rewrite py_sumE big_map big_filter -mulr_suml vandermonde divff.
case E: [seq _ | T <- lay k] => [|w ws].
  by move: S; rewrite E /py_sum /= => /esym/eqP; rewrite oner_eq0.
by rewrite -E S; congr Ok; rewrite -[RHS]map_id; apply: eq_map => x; rewrite divr1.
Qed.

Lemma outputs_probabilityE (a : any_calc CF) T t : calc_matrix a = U -> substate T s -> s != [::] ->
  size t = m -> sumn T = sumn t ->
  exists a', outputs_probability gray fuel a T t =
    Ok (nsq (bs_permanent U T t) / (factprod T)%:R / (sumn T)`!%:R, a') /\ calc_matrix a' = U.
Proof using sqU ss gr fu.
move=> ea sT s0 st e; have /substateP[szT _] := sT.
rewrite /outputs_probability.
have [|||||||||b' E] := any_calcE (gray := gray) (fuel := fuel) (t := t) (s := T)
   (a := set_output t (set_input T a)) sqU.
- by rewrite szT ss.
- by rewrite szT ss.
- by move: s0; rewrite -!size_eq0 szT.
- by [].
- by move=> k kl; apply: gr; apply: leq_trans kl (substate_sumn sT).
- exact: leq_trans (prod_subs sT) fu.
- by rewrite core_set.
- by case: (a).
- by case: (a).
have P := compute_any_public E.
exists b'; rewrite E [rbind (Ok _) _]/= py_abs_sq foldl_div; split=> //.
by rewrite (same_matrix P) core_set.
Qed.

Lemma pmf_entryE (a : any_calc CF) t : calc_matrix a = U -> s != [::] -> size t = m ->
  (sumn t <= sumn s)%N ->
  exists a', pmf_entry gray fuel a (lay (sumn t))
     [seq (ways s T)%:R / 'C(sumn s, sumn t)%:R | T <- lay (sumn t)] t = Ok (qprob U s t, a')
   /\ calc_matrix a' = U.
Proof using sqU ss gr fu.
move=> ea s0 st le; rewrite /pmf_entry.
set Ts := lay _; set ws := map _ _.
pose term T := nsq (bs_permanent U T t) / (factprod T)%:R / (sumn T)`!%:R * ((ways s T)%:R / 'C(sumn s, sumn t)%:R) : R.
have A k : (k <= size Ts)%N -> exists a', rfoldl (fun st i =>
    let! T := py_get Ts (Posz i) in
    let! pa := outputs_probability gray fuel st.2 T t in
    let! w := py_get ws (Posz i) in
    Ok (st.1 + pa.1 * w, pa.2)) (0, a) (iota 0 k) = Ok (\sum_(T <- take k Ts) term T, a')
    /\ calc_matrix a' = U.
  elim: k => [|k IH] kl; first by exists a; rewrite take0 big_nil.
  have [a' [E ea']] := IH (ltnW kl).
  rewrite -[k.+1]addn1 iotaD rfoldl_cat E add0n addn1 [rbind (Ok _) _]/= (take_nth [::]) // -cats1 big_cat big_seq1 /=.
  rewrite (py_get_nth [::]) // [rbind (Ok _) _]/=.
  have [sT eT] := mem_lay (mem_nth [::] kl).
  have [a2 [E2 ea2]] := outputs_probabilityE ea' sT s0 st eT.
  rewrite E2 [rbind (Ok _) _]/= (py_get_nth 0) ?size_map //= (nth_map [::]) //.
  by exists a2.
have [a' [E ea']] := A _ (leqnn _).
exists a'; rewrite E take_size; split=> //; congr (Ok (_, _)).
rewrite /Ts big_filter /qprob /qnum mulr_suml; apply: eq_bigr => T /eqP eT.
rewrite /term eT -bin_ffact natrM invfM.
move: (nsq _) ((factprod T)%:R^-1) ((sumn t)`!%:R^-1) ('C(_, _)%:R^-1) ((ways s T)%:R) => p x y z w.
ring.
Qed.

Lemma possible_output_statesE r : possible_output_states r = Ok [seq incr r j | j <- iota 0 (size r)].
Proof.
rewrite /possible_output_states.
have: all (fun i => i < size r)%N (iota 0 (size r)) by apply/allP => i; rewrite mem_iota.
elim: (iota 0 (size r)) => [//|i L IH] /= /andP[il al].
by rewrite /incr_at (py_get_nth 0%N) //= (py_set_nth 0%N) //= IH //= incrE.
Qed.

End Layer.
