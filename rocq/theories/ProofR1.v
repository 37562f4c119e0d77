(* The matrix handed to R and the conversion of the samples. *)
From mathcomp Require Import all_ssreflect all_fingroup all_algebra complex zify.
From Verif Require Import Base SpecStates Combi ModelStates SpecPerm SpecBS SpecProb ProbMath LemStates ModelPerm ModelDist ModelGcc ModelGccB ModelNet ModelBobs ModelLState ModelR SpecGcc SpecR ProofGcc4 ProofFactory1 ProofFactory3 ProofFactory4.
Set Implicit Arguments.
Unset Strict Implicit.
Unset Printing Implicit Defensive.
Import Order.TTheory GRing.Theory Num.Theory.
Local Open Scope ring_scope.
Local Open Scope py_scope.

Lemma nth_flatten_rect (T : Type) (x0 : T) (c : nat) (L : seq (seq T)) i j :
  all (fun l => size l == c) L -> (j < c)%N -> nth x0 (flatten L) (i * c + j) = nth x0 (nth [::] L i) j.
Proof.
elim: L i => [|l L IH] i; first by move=> *; rewrite !nth_nil.
case: i => [|i] /= /andP [/eqP sl al] jc.
- by rewrite nth_cat sl jc.
- rewrite nth_cat sl (_ : (i.+1 * c + j < c)%N = false); last by rewrite mulSn -addnA; apply/negbTE; rewrite -leqNgt leq_addr.
  by rewrite mulSn -addnA addKn IH.
Qed.

Lemma rmapM_err (A : eqType) (B : Type) (f : A -> res B) e (l : seq A) :
  (forall y, y \in l -> f y = Err e \/ exists b, f y = Ok b) -> (exists2 x, x \in l & f x = Err e) -> rmapM f l = Err e.
Proof.
elim: l => [|y l IH] h [x xl fx] //=; case: (h y (mem_head _ _)) => [->|[b fy]] //.
rewrite fy /= IH //; first by move=> z zl; apply: h; rewrite inE zl orbT.
by move: xl; rewrite inE => /orP [/eqP e'|]; [rewrite e' fy in fx|exists x].
Qed.

Section Wrap.
Variable R : rcfType.
Notation CF := (ComplexField.complex_numFieldType R).
Notation mat := (seq (seq CF)).
Implicit Types (A M : mat).

Lemma to_r_matrixE r c A : (0 < r)%N -> is_rect r c A ->
  [/\ rm_rows (to_r_matrix A) = r, rm_cols (to_r_matrix A) = c,
      size (rm_values (to_r_matrix A)) = (r * c)%N
    & forall i j : nat, (i < r)%N -> (j < c)%N -> rm_get (to_r_matrix A) i j = ent A i j].
Proof.
move=> r0 /andP [/eqP sA aA].
have cA : np_cols A = c.
  by rewrite /np_cols; case: A sA aA => [sr|row A _ /= /andP [/eqP]] //; move: r0; rewrite -sr.
have aT : all (fun l => size l == r) (np_transpose A).
  by apply/allP => l /mapP [j _ ->]; rewrite size_map size_iota sA.
split; rewrite /= ?sA ?cA //.
  rewrite size_flatten /shape -/(shape _).
  have -> : shape (np_transpose A) = nseq c r.
    rewrite -cA /shape /np_transpose -map_comp; apply: (@eq_from_nth _ 0%N); rewrite ?size_map ?size_iota ?size_nseq // => i il.
    by rewrite (nth_map 0%N) ?size_iota //= size_map size_iota sA nth_nseq il.
  by rewrite sumn_nseq.
move=> i j il jl; rewrite /rm_get /= sA nth_flatten_rect // /np_transpose cA.
by rewrite (nth_map 0%N) ?size_iota // (nth_map 0%N) ?size_iota ?sA // !nth_iota ?sA.
Qed.

Lemma first_columnsE r c M n : (0 < r)%N -> is_rect r c M ->
  first_columns M n = if (n <= c)%N then Ok [seq take n row | row <- M] else Err IndexError.
Proof.
move=> r0 /andP [/eqP sM aM].
have -> : first_columns M n = np_columns M (iota 0 n) by case: (M) sM => // sr; rewrite -sr in r0.
case: leqP => [nc|cn]; rewrite /np_columns.
  apply: rmapM_ok => row rM; have /eqP sr := allP aM _ rM.
  rewrite (@rmapM_ok _ _ _ (nth 0 row)); last first.
    by move=> j; rewrite mem_iota => /andP [_ jn]; apply: py_get_nth; rewrite sr; exact: leq_trans nc.
  by rewrite map_nth_iota0 ?sr.
case: M sM aM => [sr|row M _ /= /andP [/eqP sr _]]; first by rewrite -sr in r0.
rewrite (@rmapM_err _ _ _ IndexError) //.
- by move=> j; rewrite mem_iota py_getE => _; case: (onth row j) => [x|]; [right; exists x|left].
- exists c; first by rewrite mem_iota.
  by rewrite py_getE onth_oversize // sr.
Qed.

Lemma np_splitE (T : Type) (V : seq T) k n : (0 < k)%N -> size V = (k * n)%N -> np_array_split V k = Ok (reshape (nseq k n) V).
Proof.
move=> k0 sV; rewrite /np_array_split (gtn_eqF k0) sV mulKn // modnMr.
by rewrite subn0.
Qed.

Lemma map_reshape (T U : Type) (f : T -> U) sh (V : seq T) : reshape sh (map f V) = map (map f) (reshape sh V).
Proof. by elim: sh V => [|n sh IH] V //=; rewrite -map_take -map_drop IH. Qed.

Lemma all_reshape (T : Type) (a : pred T) k n (V : seq T) : size V = (k * n)%N -> all (all a) (reshape (nseq k n) V) = all a V.
Proof.
elim: k V => [|k IH] V sV /=; first by rewrite (size0nil sV).
rewrite IH; last by rewrite size_drop sV mulSn addKn.
by rewrite -all_cat cat_take_drop.
Qed.

Definition r_convert (k m : nat) (V : seq int) : res (seq (seq nat)) :=
  let! parts := np_array_split [seq x - 1 | x <- V] k in
  rmapM (fun p => mode_assignment_to_mode_occupation p (Posz m)) parts.

Lemma r_convertE k m n V : (0 < m)%N -> (0 < k)%N -> size V = (k * n)%N ->
  r_convert k m V = if all (fun x : int => 1 - Posz m <= x <= Posz m) V then
    Ok [seq [seq count (fun x : int => (x == Posz i.+1) || (x == Posz i.+1 - Posz m)) p | i <- iota 0 m] | p <- reshape (nseq k n) V]
  else Err IndexError.
Proof.
move=> m0 k0 sV; rewrite /r_convert (@np_splitE _ _ k n) ?size_map //= map_reshape.
rewrite -(@all_reshape _ _ k n) //; elim: (reshape _ _) => [|p L IH] //=.
rewrite C02_lemma // all_map.
rewrite (@eq_all _ (preim _ _) (fun x : int => 1 - Posz m <= x <= Posz m)); last by move=> x /=; lia.
case: ifP => _ //=; rewrite IH; case: ifP => _ //=; congr (Ok (_ :: _)).
apply: eq_map => i; rewrite count_map; apply: eq_count => x /=; lia.
Qed.

Lemma r_convert_ok k m n V : (0 < m)%N -> (0 < k)%N -> size V = (k * n)%N -> all (fun x : int => 1 <= x <= Posz m) V ->
  r_convert k m V = Ok (r_samples m n k V).
Proof.
move=> m0 k0 sV al; rewrite (r_convertE m0 k0 sV) (_ : all _ V); last by apply: sub_all al => x; lia.
congr Ok; apply/eq_in_map => p pV; rewrite /occupation; apply/eq_in_map => i; rewrite mem_iota => il.
rewrite count_map; apply: eq_in_count => x xp /=.
have := al; rewrite -(@all_reshape _ _ k n) // => /allP /(_ _ pV) /allP /(_ _ xp); lia.
Qed.

End Wrap.
