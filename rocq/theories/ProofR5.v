(* A sampler as bosonSampler is assumed to be exists. *)
From mathcomp Require Import all_ssreflect all_fingroup all_algebra complex zify.
From Verif Require Import Base SpecStates Combi ModelStates SpecPerm SpecBS SpecProb ProbMath PermMath BsNorm LemStates ModelPerm ModelDist ModelGcc ModelGccB ModelNet ModelBobs ModelLState ModelR SpecGcc SpecR ProofLS1 ProofGcc4 ProofBobs4 ProofSel ProofR1 ProofR2.
Set Implicit Arguments.
Unset Strict Implicit.
Unset Printing Implicit Defensive.
Import Order.TTheory GRing.Theory Num.Theory.
Local Open Scope ring_scope.
Local Open Scope py_scope.

Section Sampler.
Variable R : rcfType.
Notation CF := (ComplexField.complex_numFieldType R).
Notation mat := (seq (seq CF)).
Notation prog A := (rprog R (res A)).

(* k outcomes drawn one after another *)
Fixpoint table_draws (S : seq (seq nat)) (P : seq nat -> R) (k : nat) : prog (seq (seq nat)) :=
  if k is k'.+1 then
    draw! i := np_choice_of (size S) (map P S) in
    draw! L := table_draws S P k' in
    Ret (Ok (nth [::] S i :: L))
  else Ret (Ok [::]).

Definition table_sampler (A : rmatrix R) (k : nat) (perm : bool) : prog (seq int * seq R * seq R) :=
  draw! L := table_draws (comps (rm_rows A) (rm_cols A)) (r_prob A) k in
  Ret (Ok (flatten [seq [seq Posz j.+1 | j <- particle_modes t] | t <- L], [::], [seq r_prob A t | t <- L])).

Section Draws.
Variables (S : seq (seq nat)) (P : seq nat -> R).
Hypothesis d : is_distr (map P S).
Lemma draws_always k : always (fun y => exists L, [/\ y = Ok L, size L = k & {subset L <= S}]) (table_draws S P k).
Proof.
elim: k => [|k IH] /=; first by exists [::].
apply: always_rbind; apply: always_impl (choice_always (size_map _ _) d) => _ [i -> il].
apply: always_rbind; apply: always_impl IH => _ [L [-> sL LS]] /=.
exists (nth [::] S i :: L); split=> //=; first by rewrite sL.
by move=> t; rewrite inE => /orP [/eqP ->|/LS //]; exact: mem_nth.
Qed.
Lemma draws_exp k f : has_exp (on_ok f) (table_draws S P k) (iid_exp S P k f).
Proof.
elim: k f => [|k IH] f /=; first exact: (ExpRet (on_ok _) (Ok _)).
rewrite (big_nth [::]) big_mkord.
apply: has_exp_rbind (choice_exp [::] (fun i => iid_exp S P k (fun L => f (nth [::] S i :: L))) d) _.
apply: always_impl (choice_always (size_map _ _) d) => _ [i -> il].
apply: has_exp_rbind (IH (fun L => f (nth [::] S i :: L))) _.
apply: always_impl (draws_always k) => _ [L [-> _ _]]; exact: (ExpRet (on_ok _) (Ok _)).
Qed.
End Draws.

Section Matrix.
Variable A : rmatrix R.
Notation m := (rm_rows A).
Notation n := (rm_cols A).
Hypothesis n0 : (0 < n)%N.
Hypothesis o : forall j j' : nat, (j < n)%N -> (j' < n)%N -> ortho_cols m (r_rows A) j j'.

(* orthonormal columns are no more than the rows *)
Lemma cols_le : (n <= m)%N.
Proof.
pose X : 'M[CF]_(n, m) := \matrix_(j, i) conjc (ent (r_rows A) i j).
pose Y : 'M[CF]_(m, n) := \matrix_(i, j) ent (r_rows A) i j.
apply: (@mulmx1_min _ _ _ X Y); apply/matrixP => j j'; rewrite !mxE.
under eq_bigr => i _ do rewrite !mxE.
exact: o.
Qed.

(* the square matrix with further columns of zeros *)
Let M : mat := [seq row ++ nseq (m - n) 0 | row <- r_rows A].
Lemma ent_pad (i j : nat) : (i < m)%N -> (j < n)%N -> ent M i j = ent (r_rows A) i j.
Proof.
move=> il jl; rewrite /ent /M (nth_map [::]) ?size_map ?size_iota // nth_cat.
by rewrite (nth_map 0%N) ?size_iota // size_map size_iota jl.
Qed.
Lemma take_pad : [seq take n row | row <- M] = r_rows A.
Proof.
rewrite -map_comp -[RHS]map_id; apply/eq_in_map => _ /mapP [i _ ->] /=.
by rewrite take_size_cat // size_map size_iota.
Qed.
Lemma unitary_pad : unitary_on m M (first_modes m n).
Proof.
split.
  rewrite /is_square !size_map size_iota eqxx /=; apply/allP => _ /mapP [_ /mapP [i _ ->] ->].
  by rewrite size_cat size_map size_iota size_nseq subnKC // cols_le.
move=> j j'; rewrite !first_nth => jl jl'; rewrite /ortho_cols.
under eq_bigr => i _ do rewrite !ent_pad //.
exact: o.
Qed.

Lemma r_prob_pad t : t \in comps m n -> r_prob A t = bs_prob M (first_modes m n) t.
Proof.
have nm := cols_le; have uP := unitary_pad.
move=> tS; rewrite -(r_probE n0 nm uP tS) /r_prob (colsA n0 nm uP); congr (bs_prob _ _ _).
rewrite {2}/r_rows (rowsA n0 nm uP) (colsA n0 nm uP); apply/eq_in_map => i; rewrite mem_iota add0n => /andP [_ il].
apply/eq_in_map => j; rewrite mem_iota add0n => /andP [_ jl].
have [_ _ _ ->] := to_r_matrixE (m0 n0 nm) (rectA nm uP) => //.
by rewrite take_pad /ent /r_rows (nth_map 0%N) ?size_iota // (nth_map 0%N) ?size_iota // !nth_iota.
Qed.

Lemma r_distr : is_distr [seq r_prob A t | t <- comps m n].
Proof.
split; first by apply/allP => _ /mapP [t tS ->]; exact: bs_prob_ge0.
rewrite big_map (eq_big_seq _ r_prob_pad).
by rewrite -{1}(first_sum m n); apply: bs_prob_norm; exact: unitary_pad.
Qed.

Lemma modes_samples k L : size L = k -> {subset L <= comps m n} ->
  let V := flatten [seq [seq Posz j.+1 | j <- particle_modes t] | t <- L] in
  [/\ size V = (k * n)%N, all (fun x : int => 1 <= x <= Posz m) V & r_samples m n k V = L].
Proof using.
clear; move=> <- {k}; elim: L => [|t L IH] h //=.
have [|e1 e2 e3] := IH _; first by move=> x xL; apply: h; rewrite inE xL orbT.
have := h t (mem_head _ _); rewrite mem_comps => /andP [/eqP st /eqP nt].
have sp : size [seq Posz j.+1 | j <- particle_modes t] = n by rewrite size_map size_particle_modes.
split.
- by rewrite size_cat sp e1 mulSn.
- rewrite all_cat e2 andbT all_map; apply/allP => j jt /=.
  have : (j < size t)%N.
    by case/flatten_mapP: jt => i; rewrite mem_iota add0n => /andP [_ il]; rewrite mem_nseq => /andP [_ /eqP ->].
  by rewrite st; lia.
rewrite /r_samples /= take_size_cat // drop_size_cat //; congr cons; last exact: e3.
rewrite -map_comp (@eq_map _ _ _ id) ?map_id; last by move=> j.
apply: (@eq_from_nth _ 0%N) => [|i]; rewrite size_map size_iota // => il.
by rewrite (nth_map 0%N) ?size_iota // nth_iota // count_particle_modes.
Qed.
End Matrix.

Lemma table_sampler_ok : r_sampler_ok table_sampler.
Proof.
move=> A k perm n0 k0 o; have d := r_distr n0 o; split.
  apply: always_rbind; apply: always_impl (draws_always d k) => _ [L [-> sL LS]] /=.
  have [e1 e2 e3] := modes_samples sL LS.
  eexists; exists [::]; eexists; split; [reflexivity|exact: e1|exact: e2|by rewrite e3].
move=> f; apply: has_exp_rbind (draws_exp d k f) _.
apply: always_impl (draws_always d k) => _ [L [-> sL LS]]; have [e1 e2 e3] := modes_samples sL LS.
by apply: has_exp_eq (ExpRet (on_ok _) (Ok _)) _; rewrite /on_ok /= e3.
Qed.
End Sampler.

(* the values of the dictionaries, for any R function *)
Section AnySampler.
Variables (R : rcfType) (boson_sampler : rmatrix R -> nat -> bool -> rprog R (res (seq int * seq R * seq R))).
Variables (A : seq (seq (ComplexField.complex_numFieldType R))) (s : seq nat) (Q : seq nat -> R -> Prop).
Hypothesis al : always (if_ok (fun r => forall t x q, mode_assignment_to_mode_occupation [seq x - 1 | x <- r.1.1] (Posz (size s)) = Ok t -> r.2 = x :: q -> Q t x))
    (boson_sampler (to_r_matrix A) 1%N true).

Lemma single_any : always (if_ok (fun y : seq nat * seq R => forall x q, y.2 = x :: q -> Q y.1 x)) (r_single boson_sampler s A).
Proof.
apply: always_rbind; apply: always_impl al => -[r|e] //= h.
have -> : np_array_split [seq x - 1 | x <- r.1.1] 1 = Ok [:: [seq x - 1 | x <- r.1.1]].
  by rewrite /np_array_split /= modn1 divn1 subn0 /= take_size.
rewrite rpbind_ok /py_get /= rpbind_ok; case E: mode_assignment_to_mode_occupation => [t|e] //=.
by move=> x q e; exact: h E e.
Qed.

Lemma dict_set_any (S : seq nat -> R -> Prop) (d : seq (seq nat * R)) t p :
  (forall x, x \in d -> S x.1 x.2) -> S t p -> forall x, x \in dict_set d t p -> S x.1 x.2.
Proof.
move=> hd ht; elim: d hd => [|y d IH] hd x /=; first by rewrite inE => /eqP ->.
case: ifP => _; rewrite inE => /orP[/eqP -> //|h]; first by apply: hd; rewrite inE h orbT.
  by apply: hd; rewrite inE eqxx.
by apply: IH h => z zd; apply: hd; rewrite inE zd orbT.
Qed.

Lemma find_any outs fuel : always (if_ok (fun d => forall x, x \in d -> x.1 \in outs /\ Q x.1 x.2)) (find_loop boson_sampler fuel s outs A [::]).
Proof.
have : forall x, x \in ([::] : seq (seq nat * R)) -> x.1 \in outs /\ Q x.1 x.2 by [].
elim: fuel [::] => [|fuel IH] d hd //=; case: ifP => // _.
apply: always_rbind; apply: always_impl single_any => -[[t q]|e] //= h; case: ifP => to; last exact: IH.
case: q h => [|p q] h; first by rewrite /py_get /=.
by rewrite /py_get /= rpbind_ok; apply: IH; apply: (@dict_set_any (fun t x => t \in outs /\ Q t x)) => //; split=> //; exact: h.
Qed.

Lemma random_any c fuel : always (if_ok (fun d => forall x, x \in d -> Q x.1 x.2)) (random_loop boson_sampler fuel s c A [::] 0).
Proof.
have : forall x, x \in ([::] : seq (seq nat * R)) -> Q x.1 x.2 by [].
elim: fuel [::] 0 => [|fuel IH] d z hd //=; case: ifP => // _.
apply: always_rbind; apply: always_impl single_any => -[[t q]|e] //= h.
case: q h => [|p q] h; first by rewrite /py_get /=.
by rewrite /py_get /= rpbind_ok; apply: IH; apply: dict_set_any => //; exact: h.
Qed.
End AnySampler.
