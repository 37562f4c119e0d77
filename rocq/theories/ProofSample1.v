(* The distribution estimated from samples. *)
From mathcomp Require Import all_ssreflect all_algebra complex.
From mathcomp Require Import ring zify.
From Verif Require Import Base SpecStates PermMath SpecProb ProbMath ModelStates ModelPerm ModelDist ModelSample SpecSample.
From Verif Require Import ProofGccB1 ProofGccB2.
Set Implicit Arguments.
Unset Strict Implicit.
Unset Printing Implicit Defensive.
Import Order.TTheory GRing.Theory Num.Theory.
Local Open Scope ring_scope.
Local Open Scope py_scope.

Section Count.
Variable se : pyerr.

Lemma np_all_equalE (a b : seq nat) : size a = size b -> np_all_equal se a b = Ok (a == b).
Proof. by move=> e; rewrite /np_all_equal e eqxx. Qed.

Lemma count_sampleE m t j rest cs : size t = m -> modes_of m rest -> (j + size rest <= size cs)%N ->
  count_sample se t j rest cs = Ok (if t \in rest then incr cs (j + index t rest) else cs).
Proof.
move=> st; elim: rest j => [|o rest IH] j //= /andP[/eqP so h] le.
rewrite np_all_equalE ?so // inE [t == o]eq_sym; case: eqP => /= [_|_].
  by rewrite addn0 incr_atE //; lia.
by rewrite IH ?addSnnS.
Qed.

Lemma count_allE m outs L : modes_of m outs -> modes_of m L ->
  rfoldl (fun cs t => count_sample se t 0 outs cs) (nseq (size outs) 0%N) L =
  Ok [seq count (fun t => index t outs == j) L | j <- iota 0 (size outs)].
Proof.
move=> ho; elim/last_ind: L => [|L t IH] hL.
  by congr Ok; apply: (@eq_from_nth _ 0%N); rewrite ?size_nseq ?size_map ?size_iota // => i il;
     rewrite nth_nseq il (nth_map 0%N) ?size_iota.
have [st hL'] : size t = m /\ modes_of m L by move: hL; rewrite /modes_of all_rcons => /andP[/eqP].
rewrite -cats1 rfoldl_cat IH //= (count_sampleE st ho) ?size_map ?size_iota ?add0n //.
congr Ok.
have sz : size (if t \in outs then incr [seq count (fun t0 => index t0 outs == j) L | j <- iota 0 (size outs)] (index t outs)
    else [seq count (fun t0 => index t0 outs == j) L | j <- iota 0 (size outs)]) = size outs.
  by case: ifP => h; rewrite ?size_incr ?size_map ?size_iota ?index_mem.
apply: (@eq_from_nth _ 0%N); rewrite sz; first by rewrite size_map size_iota.
move=> i il; rewrite [RHS](nth_map 0%N) ?size_iota // nth_iota // add0n count_cat /= addn0.
case: ifP => h; last first.
  have -> : (index t outs == i) = false by move: h; rewrite -index_mem; case: eqP => // ->; rewrite il.
  by rewrite addn0 (nth_map 0%N) ?size_iota // nth_iota.
have nm k : (k < size outs)%N -> nth 0%N [seq count (fun t0 => index t0 outs == j) L | j <- iota 0 (size outs)] k =
    count (fun t0 => index t0 outs == k) L by move=> kl; rewrite (nth_map 0%N) ?size_iota // nth_iota.
rewrite nth_incr; case: eqP => [->|ne]; first by rewrite nm ?index_mem // eqxx addn1.
by rewrite nm // (_ : (_ == i) = false) ?addn0 //; apply/eqP => e; apply: ne.
Qed.

(* outcomes of any comparable lengths *)
Lemma np_all_equal_matches (a b : seq nat) : comparable a b -> np_all_equal se a b = Ok (matches a b).
Proof.
rewrite /comparable /np_all_equal /matches; case: (size a == size b) => //=.
by case: a => [|x [|x' a]] //=; case: b => [|y [|y' b]].
Qed.

Lemma count_sample_find t j rest cs : all (comparable t) rest -> (j + size rest <= size cs)%N ->
  count_sample se t j rest cs = Ok (if has (matches t) rest then incr cs (j + find (matches t) rest) else cs).
Proof.
elim: rest j => [|o rest IH] j //= /andP[co h] le.
rewrite np_all_equal_matches //; case: (matches t o) => /=.
  by rewrite addn0 incr_atE //; lia.
by rewrite IH ?addSnnS.
Qed.

Lemma count_all_find outs L : all (fun t => all (comparable t) outs) L ->
  rfoldl (fun cs t => count_sample se t 0 outs cs) (nseq (size outs) 0%N) L =
  Ok [seq count (fun t => find (matches t) outs == j) L | j <- iota 0 (size outs)].
Proof.
elim/last_ind: L => [|L t IH] hL.
  by congr Ok; apply: (@eq_from_nth _ 0%N); rewrite ?size_nseq ?size_map ?size_iota // => i il;
     rewrite nth_nseq il (nth_map 0%N) ?size_iota.
have [ct hL'] : all (comparable t) outs /\ all (fun t => all (comparable t) outs) L by move: hL; rewrite all_rcons => /andP[].
rewrite -cats1 rfoldl_cat IH //= count_sample_find ?size_map ?size_iota ?add0n //.
congr Ok; set C := map _ (iota 0 (size outs)).
have sC : size C = size outs by rewrite size_map size_iota.
have nm k : (k < size outs)%N -> nth 0%N C k = count (fun t0 => find (matches t0) outs == k) L.
  by move=> kl; rewrite (nth_map 0%N) ?size_iota // nth_iota.
apply: (@eq_from_nth _ 0%N).
  by case: ifP => h; rewrite ?size_incr ?sC ?size_map ?size_iota -?has_find.
move=> i il; have {}il : (i < size outs)%N by move: il; case: ifP => h; rewrite ?size_incr ?sC -?has_find.
rewrite [RHS](nth_map 0%N) ?size_iota // nth_iota // add0n count_cat /= addn0.
case: ifP => h; last first.
  have -> : (find (matches t) outs == i) = false by move: h; rewrite has_find; case: eqP => // ->; rewrite il.
  by rewrite addn0 nm.
rewrite nth_incr; case: eqP => [->|ne]; first by rewrite nm -?has_find // eqxx addn1.
by rewrite nm // (_ : (_ == i) = false) ?addn0 //; apply/eqP => e; apply: ne.
Qed.
End Count.

Section Approx.
Variables (R : rcfType) (G : Type) (simulate : seq nat -> nat -> G -> rprog R (res (seq (seq nat) * G))).
Variables (se : pyerr) (fuel m : nat) (c : scalc R G) (outs : seq (seq nat)).
Hypothesis houts : (if sc_outcomes c is Some o then Ok o else
    generate_possible_states fuel (Posz (cf_left (sc_conf c))) (Posz (cf_modes (sc_conf c))) false) = Ok outs.
Hypothesis ho : modes_of m outs.
Variable k : nat.
Hypothesis k0 : (0 < k)%N.
Notation run := (simulate (cf_state (sc_conf c)) k (sc_strategy c)).
Notation approx := (approximate_distribution simulate se fuel k c).

Lemma approxE : approx = draw! y := run in draw! counts := Ret (rfoldl (fun counts sample => count_sample se sample 0 outs counts) (nseq (size outs) 0%N) y.1) in
  Ret (Ok ([seq Some (n%:R / k%:R) | n <- counts], sc_set_strategy y.2 c)).
Proof. by rewrite /approximate_distribution houts /simulation_results -(prednK k0). Qed.

Definition result (y : seq (seq nat) * G) := (map Some (frequencies R k outs y.1), sc_set_strategy y.2 c).

Lemma approx_tail y : modes_of m y.1 -> (draw! counts := Ret (rfoldl (fun counts sample => count_sample se sample 0 outs counts) (nseq (size outs) 0%N) y.1) in
  Ret (Ok ([seq Some (n%:R / k%:R) | n <- counts], sc_set_strategy y.2 c))) = Ret (Ok (result y)) :> rprog R _.
Proof. by move=> hy; rewrite (count_allE se ho hy) /rpbind /= /result /frequencies -!map_comp. Qed.

Lemma approx_always Q : samples_ok run (fun L => modes_of m L /\ Q L) ->
  always (fun r => exists L g, r = Ok (result (L, g)) /\ Q L) approx.
Proof.
move=> H; rewrite approxE; apply: always_rbind; apply: always_impl H => _ [L [g [-> [hL q]]]].
by rewrite approx_tail //=; exists L, g.
Qed.

Lemma approx_exp F v : samples_ok run (modes_of m) ->
  has_exp (fun y => if y is Ok y then F (Ok (result y)) else 0) run v -> has_exp F approx v.
Proof.
move=> H E; rewrite approxE; apply: has_exp_bind E _; apply: always_impl H => _ [L [g [-> hL]]].
by rewrite approx_tail //; constructor.
Qed.
End Approx.

(* ------------------------------------------------------------------ *)
Section Freq.
Variables (R : rcfType) (k : nat) (outs : seq (seq nat)).
Notation freq := (frequencies R k outs).

Lemma freq_size L : size (freq L) = size outs.
Proof. by rewrite size_map size_iota. Qed.

Lemma freq_nth L j : (j < size outs)%N -> (freq L)`_j = (count (fun t => index t outs == j) L)%:R / k%:R.
Proof. by move=> jl; rewrite (nth_map 0%N) ?size_iota // nth_iota. Qed.

Lemma freq_bounds L x : (size L <= k)%N -> x \in freq L -> 0 <= x <= 1.
Proof.
move=> le /mapP[j _ ->]; rewrite divr_ge0 ?ler0n //=.
case: k le => [|k']; first by rewrite invr0 mulr0 ler01.
by move=> le; rewrite ler_pdivr_mulr ?ltr0n // mul1r ler_nat (leq_trans (count_size _ _)).
Qed.

Lemma freq_sum L : \sum_(x <- freq L) x = (count (mem outs) L)%:R / k%:R.
Proof.
rewrite big_map -mulr_suml -natr_sum; congr (_%:R / _).
elim: L => [|t L IH] /=; first by rewrite big1.
rewrite big_split /= IH; congr (_ + _)%N; rewrite -index_mem.
rewrite -[X in iota _ X](subn0) -/(index_iota _ _) big_mkord.
case: (ltnP (index t outs)) => h.
  by rewrite (bigD1 (Ordinal h)) //= eqxx big1 // => i; rewrite -val_eqE /= eq_sym => /negbTE ->.
by rewrite big1 // => i _; case: eqP => // e; move: (ltn_ord i); rewrite -e ltnNge h.
Qed.

Lemma freq_uniq L : uniq outs -> freq L = [seq (count_mem t L)%:R / k%:R | t <- outs].
Proof.
move=> uo; apply: (@eq_from_nth _ 0); rewrite ?freq_size ?size_map // => j jl.
rewrite freq_nth // (nth_map [::]) //; congr (_%:R / _); apply: eq_in_count => t _ /=.
by apply/eqP/eqP => [e|->]; [rewrite -e nth_index // -index_mem e|rewrite index_uniq].
Qed.
End Freq.

Lemma iid_exp_size (R : realFieldType) (T : Type) (S : seq T) (P : T -> R) k g g' :
  (forall L, size L = k -> g L = g' L) -> iid_exp S P k g = iid_exp S P k g'.
Proof.
elim: k g g' => [|k IH] g g' e /=; first by rewrite e.
by apply: eq_bigr => t _; congr (_ * _); apply: IH => L sL; rewrite e //= sL.
Qed.

Lemma iid_exp_lin (R : realFieldType) (T : Type) (S : seq T) (P : T -> R) k g g' (a : R) :
  iid_exp S P k (fun L => g L + a * g' L) = iid_exp S P k g + a * iid_exp S P k g'.
Proof.
elim: k g g' => [|k IH] g g' //=; rewrite mulr_sumr -big_split; apply: eq_bigr => t _.
by rewrite IH mulrDr !mulrA [_ * a]mulrC.
Qed.

Lemma iid_exp_const (R : realFieldType) (T : Type) (S : seq T) (P : T -> R) k a : \sum_(t <- S) P t = 1 ->
  iid_exp S P k (fun=> a) = a.
Proof. by move=> P1; elim: k => [|k IH] //=; rewrite IH -mulr_suml P1 mul1r. Qed.

Lemma iid_exp_count (R : realFieldType) (T : Type) (S : seq T) (P : T -> R) k (a : pred T) : \sum_(t <- S) P t = 1 ->
  iid_exp S P k (fun L => (count a L)%:R) = k%:R * \sum_(t <- S | a t) P t.
Proof.
move=> P1; elim: k => [|k IH] /=; first by rewrite mul0r.
rewrite (eq_bigr (fun t => (if a t then P t else 0) + P t * (k%:R * \sum_(t <- S | a t) P t))) => [|t _].
  by rewrite big_split /= -big_mkcond -mulr_suml P1 mul1r -[in RHS]addn1 natrD mulrDl mul1r addrC.
rewrite (iid_exp_ext _ _ _ (g' := fun L => (a t)%:R + 1 * (count a L)%:R)) => [|L]; last by rewrite mul1r natrD.
rewrite (iid_exp_lin _ _ _ (fun=> (a t)%:R) (fun L => (count a L)%:R)) iid_exp_const // IH mul1r mulrDr.
by case: (a t); rewrite ?mulr1 ?mulr0.
Qed.
