(* Proofs about the enumeration of states (C03-C05). *)
From mathcomp Require Import all_ssreflect all_algebra zify.
From Verif Require Import Base SpecStates ModelStates Combi.
Set Implicit Arguments.
Unset Strict Implicit.
Unset Printing Implicit Defensive.
Import GRing.Theory.
Local Open Scope nat_scope.

Lemma map_const_iota (T : Type) (x : T) k a : [seq x | _ <- iota a k] = nseq k x.
Proof. by elim: k a => [|k IH] a //=; rewrite IH. Qed.

Definition succ_state (a b : seq nat) : Prop :=
  exists pre x j y, a = pre ++ x.+1 :: nseq j 0 ++ [:: y] /\
                    b = pre ++ x :: y.+1 :: nseq j 0.

Fixpoint chain (T : Type) (R : T -> T -> Prop) (a : T) (l : seq T) : Prop :=
  if l is b :: l' then R a b /\ chain R b l' else True.

Lemma chain_cat (T : Type) (R : T -> T -> Prop) a l1 b l2 :
  chain R a l1 -> R (last a l1) b -> chain R b l2 -> chain R a (l1 ++ b :: l2).
Proof. by elim: l1 a => [|c l1 IH] a //= [Rac ch] Rl ch2; split=> //; apply: IH. Qed.

Lemma chain_map (T U : Type) (f : T -> U) (R : T -> T -> Prop) (S : U -> U -> Prop) a l :
  (forall x y, R x y -> S (f x) (f y)) -> chain R a l -> chain S (f a) (map f l).
Proof. by move=> H; elim: l a => [|b l IH] a //= [/H ? /IH]. Qed.

Lemma succ_cons x a b : succ_state a b -> succ_state (x :: a) (x :: b).
Proof. by case=> pre [z [j [y [-> ->]]]]; exists (x :: pre), z, j, y. Qed.

Lemma nseq_rcons (T : Type) k (x : T) : rcons (nseq k x) x = x :: nseq k x.
Proof. by elim: k => [|k /= ->]. Qed.

Lemma comps_chain m n : exists r,
  [/\ comps m.+1 n = (n :: nseq m 0) :: r,
      chain succ_state (n :: nseq m 0) r &
      last (n :: nseq m 0) r = rcons (nseq m 0) n].
Proof.
elim: m n => [|m IH] n; first by exists [::]; rewrite comps1.
pose F := fun i => [seq n - i :: s | s <- comps m.+1 i].
suff H k : k <= n -> exists r,
  [/\ flatten [seq F i | i <- iota (n - k) k.+1] = [:: k, n - k & nseq m 0] :: r,
      chain succ_state [:: k, n - k & nseq m 0] r &
      last [:: k, n - k & nseq m 0] r = rcons (nseq m.+1 0) n].
  by case: (H n (leqnn _)) => r; rewrite subnn => -[E C L]; exists r; split=> //; rewrite compsS.
elim: k => [|k IHk] kn.
  rewrite subn0 /= cats0 /F; case: (IH n) => r [E C L].
  exists (map (cons (n - n)) r); split; first by rewrite E /= subnn.
    rewrite subnn; exact: (chain_map (@succ_cons 0)).
  by rewrite subnn last_map L.
case: (IHk (ltnW kn)) => r [E C L]; case: (IH (n - k.+1)) => r' [E' C' L'].
have knE : (n - k.+1).+1 = n - k by rewrite subnSK.
have nnk : n - (n - k.+1) = k.+1 by rewrite subKn.
exists (map (cons k.+1) r' ++ [:: k, n - k & nseq m 0] :: r); split.
- rewrite -E [iota _ k.+2]/= map_cons [flatten _]/= knE {1}/F E' /= nnk.
  by rewrite -!/(iota _ _).
- apply: chain_cat => //; first exact: (chain_map (@succ_cons k.+1)).
  rewrite last_map L'; exists [::], k, m, (n - k.+1).
  by rewrite /= cats1 knE.
- by rewrite last_cat /= L.
Qed.

(* ---------------- the code's successor ----------------------------- *)

Lemma zero_loop (p l : seq nat) :
  rfoldl (fun s i => py_set s i 0) (p ++ l)
     [seq (Posz (size p) + Posz i)%R | i <- iota 0 (size l)] = Ok (p ++ nseq (size l) 0).
Proof.
elim: l p => [|x l IH] p //=.
rewrite py_set_cat /=; last by rewrite addr0.
have -> : p ++ 0 :: l = rcons p 0 ++ l by rewrite cat_rcons.
rewrite -cat_rcons -(IH (rcons p 0)) size_rcons.
congr rfoldl; rewrite (iotaDl 1 0) -map_comp; apply: eq_map => i /=.
by lia.
Qed.

Lemma gen_find_kE fuel pre x j r i : i <= j -> i < fuel ->
  gen_find_k fuel (pre ++ x.+1 :: nseq j 0 ++ r) (Posz (size pre + i).+1)
  = Ok (Posz (size pre).+1).
Proof.
elim: i fuel => [|i IH] [|fuel] // ij ifu /=.
  have -> : (Posz (size pre + 0).+1 - 1)%R = Posz (size pre) by lia.
  by rewrite py_get_cat //= addn0.
have -> : (Posz (size pre + i.+1).+1 - 1)%R = Posz (size pre + i).+1 by lia.
rewrite (py_get_nth 0); last first.
  by rewrite size_cat /= size_cat size_nseq; lia.
rewrite nth_cat ifF; last by lia.
have -> : (size pre + i).+1 - size pre = i.+1 by lia.
by rewrite /= nth_cat size_nseq ij nth_nseq ij /= IH // ltnW.
Qed.

Lemma gen_nextE fuel n m a b : succ_state a b -> size a = m -> sumn a = n -> m <= fuel ->
  gen_next fuel n m a = Ok b.
Proof.
case=> pre [x [j [y [-> ->]]]] sz sm mf.
have szE : m = (size pre + j).+2 by rewrite -sz size_cat /= size_cat size_nseq /=; lia.
rewrite /gen_next.
have -> : (Posz m - 1)%R = Posz (size pre + j).+1 by lia.
rewrite gen_find_kE //=; last by lia.
have -> : (Posz (size pre).+1 - 1)%R = Posz (size pre) by lia.
rewrite py_get_cat //= py_set_cat //=.
set st := pre ++ x :: (nseq j 0 ++ [:: y]).
have stE : st = rcons pre x ++ (nseq j 0 ++ [:: y]) by rewrite cat_rcons.
have -> : py_range2 (Posz (size pre).+1) (Posz (size st)) =
   [seq (Posz (size (rcons pre x)) + Posz i)%R | i <- iota 0 (size (nseq j 0 ++ [:: y]))].
  rewrite /py_range2 stE !size_cat !size_rcons.
  rewrite ifT; last by lia.
  by congr (map _ (iota _ _)); lia.
rewrite stE zero_loop /= size_cat size_nseq addn1 cat_rcons -cat_rcons.
rewrite py_set_cat ?size_rcons // cat_rcons.
congr (Ok (_ ++ _ :: _ :: _)).
move: sm; rewrite !sumn_cat /= !sumn_cat sumn_rcons !sumn_nseq /=; lia.
Qed.

Lemma gen_loopE fuel n m acc a r :
  chain succ_state a r -> last a r = rcons (nseq m.-1 0) n ->
  all (is_state m n) (a :: r) -> 0 < m -> size r + m < fuel ->
  gen_loop fuel n m (rcons acc a) = Ok (acc ++ a :: r).
Proof.
move=> + + + m0; elim: r fuel acc a => [|b r IH] [|fuel] acc a //.
  move=> _ /= -> _ _; rewrite last_rcons (_ : (Posz m - 1)%R = Posz m.-1); last by lia.
  rewrite -cats1 py_get_cat ?size_nseq //= ltnn -cats1.
  by rewrite cats1.
case=> S ch L /andP[/andP[/eqP sz /eqP sm]] al fu.
rewrite [gen_loop _ _ _ _]/= last_rcons.
have [x E lt] : exists2 x, py_get a (Posz m - 1)%R = Ok x & x < n.
  case: S => pre [x [j [y [E _]]]].
  exists y; last by rewrite -sm E !sumn_cat /= sumn_cat sumn_nseq /=; lia.
  rewrite E -cat_cons catA py_get_cat //.
  by move: sz; rewrite E !size_cat /= !size_cat /= !size_nseq; lia.
rewrite E /= lt (gen_nextE S) //; last by rewrite ltnW // (leq_ltn_trans _ fu) // leq_addl.
by rewrite [rbind _ _]/= IH // cat_rcons.
Qed.

Lemma lexgt_lexge a b : lexgt a b -> lexge a b.
Proof.
elim: a b => [|x a IH] [|y b] //= /orP[->//|/andP[-> /IH ->]]; by rewrite orbT.
Qed.

Lemma lexge_trans : transitive lexge.
Proof.
move=> b a c; elim: a b c => [|x a IH] [|y b] [|z c] //=.
case/orP=> [yx|/andP[/eqP -> ab]]; case/orP=> [zy|/andP[/eqP <- bc]].
- by rewrite (ltn_trans zy yx).
- by rewrite yx.
- by rewrite zy.
- by rewrite eqxx (IH _ _ ab bc) orbT.
Qed.

Lemma gen_n_particleE fuel n m : 0 < m -> size (comps m n) + m <= fuel ->
  generate_n_particle_states fuel n m = Ok (comps m n).
Proof.
case: m => // m _ fu; rewrite /generate_n_particle_states.
case: (comps_chain m n) => r [E C L].
have -> : py_set (nseq m.+1 0) 0%R n = Ok (n :: nseq m 0) by [].
rewrite /rbind -[[:: _]]/(rcons [::] (n :: nseq m 0)) (@gen_loopE _ n m.+1 _ _ _ C L) //=; last first.
- by move: fu; rewrite E /=; lia.
- rewrite -[_ && _]/(all (is_state m.+1 n) ((n :: nseq m 0) :: r)) -E.
  by apply/allP => s; rewrite mem_comps.
congr Ok; rewrite -E; apply: sorted_sort; first exact: lexge_trans.
apply: sub_sorted (comps_sorted _ _); exact: lexgt_lexge.
Qed.

(* ---------------- generate_possible_states ------------------------- *)

Lemma size_comps_mono m n n' : n <= n' -> size (comps m.+1 n) <= size (comps m.+1 n').
Proof.
move=> le; rewrite !size_comps.
have E k : 'C(k + m, k) = 'C(k + m, m) by rewrite -bin_sub ?leq_addr // addKn.
rewrite !E; apply: leq_bin2l; by rewrite leq_add2r.
Qed.

Lemma gen_states_lossless fuel n m : 0 < m -> size (comps m n) + m <= fuel ->
  generate_possible_states fuel (Posz n) (Posz m) false = Ok (comps m n).
Proof.
move=> m0 fu; rewrite /generate_possible_states ifF; last by lia.
case: eqP => [E|n0].
  have -> : n = 0 by lia.
  rewrite comps_zero; congr (Ok [:: _]).
  by rewrite /= map_const_iota.
by rewrite !absz_nat subSnn [iota _ 1]/= [rfoldl _ _ _]/= gen_n_particleE.
Qed.

Definition lossy_comps m n := flatten [seq comps m k | k <- iota 0 n.+1].

Lemma gen_states_lossy fuel n m : 0 < m -> size (comps m n) + m <= fuel ->
  generate_possible_states fuel (Posz n) (Posz m) true = Ok (lossy_comps m n).
Proof.
move=> m0 fu; rewrite /generate_possible_states ifF; last by lia.
case: eqP => [E|n0].
  have -> : n = 0 by lia.
  rewrite /lossy_comps /= comps_zero; congr (Ok [:: _]).
  by rewrite /= map_const_iota.
rewrite !absz_nat subn0.
suff H a k acc : a + k <= n.+1 -> rfoldl (fun states k0 =>
     rbind (generate_n_particle_states fuel k0 m) (fun more => Ok (states ++ more)))
     acc (iota a k) = Ok (acc ++ flatten [seq comps m k | k <- iota a k]) by rewrite H.
elim: k a acc => [|k IH] a acc le; first by rewrite /= cats0.
rewrite [iota _ _]/= [rfoldl _ _ _]/= gen_n_particleE //; last first.
  apply: leq_trans fu; rewrite leq_add2r; case: m m0 {IH} => // m _.
  by apply: size_comps_mono; rewrite -ltnS (leq_trans _ le) // addnS ltnS leq_addr.
by rewrite [rbind _ _]/= IH ?addSnnS //= catA.
Qed.

Lemma gen_states_trivial fuel n m losses : ((n < 0) || (m < 1))%R ->
  generate_possible_states fuel n m losses = Ok [::].
Proof. by rewrite /generate_possible_states => ->. Qed.

Lemma size_lossy_comps m n :
  size (lossy_comps m n) = \sum_(i <- iota 0 n.+1) size (comps m i).
Proof. by rewrite size_flatten /shape -map_comp sumnE big_map. Qed.

Lemma dimension_lossless n m : 0 < m ->
  bosonic_space_dimension n m false = size (comps m n).
Proof. by case: m => // m _; rewrite /bosonic_space_dimension addnS subn1 size_comps. Qed.

Lemma dimension_lossy n m : 0 < m ->
  bosonic_space_dimension n m true = size (lossy_comps m n).
Proof.
case: m => // m _; rewrite /bosonic_space_dimension addnS subn1 -[if ~~ true then _ else _]/(foldl _ _ _).
rewrite size_lossy_comps -{1}(addn1 n) iotaD big_cat big_seq1 size_comps add0n /=.
move: 'C(n + m, n) => acc; rewrite [RHS]addnC; elim: n acc => [|n IH] acc; first by rewrite big_nil addn0.
by rewrite -(addn1 n) iotaD foldl_cat big_cat big_seq1 IH /= addnS subn1 size_comps addnA.
Qed.

Lemma mem_lossy_comps m n s :
  (s \in lossy_comps m n) = (size s == m) && (sumn s <= n).
Proof.
apply/flatten_mapP/idP => [[k]|/andP[/eqP sz le]].
  by rewrite mem_iota leq0n add0n ltnS mem_comps => kn /andP[-> /eqP ->].
by exists (sumn s); rewrite ?mem_iota ?leq0n ?add0n ?ltnS // mem_comps /is_state sz !eqxx.
Qed.

(* the order of the lossy list: by particle number, then lexicographically *)
Definition lossy_order (a b : seq nat) : bool :=
  (sumn a < sumn b) || ((sumn a == sumn b) && lexgt a b).

Lemma lossy_order_trans : transitive lossy_order.
Proof.
move=> b a c /orP[ab|/andP[/eqP ab ab']] /orP[bc|/andP[/eqP bc bc']]; rewrite /lossy_order.
- by rewrite (ltn_trans ab bc).
- by rewrite -bc ab.
- by rewrite ab bc.
- by rewrite ab bc eqxx (lexgt_trans ab' bc') orbT.
Qed.

Lemma lossy_comps_sorted m n : sorted lossy_order (lossy_comps m n).
Proof.
suff H a k : sorted lossy_order (flatten [seq comps m i | i <- iota a k]) by apply: H.
elim: k a => [|k IH] a //.
rewrite [iota _ _]/= map_cons [flatten _]/= (sorted_pairwise lossy_order_trans) pairwise_cat.
rewrite -!(sorted_pairwise lossy_order_trans) IH andbT; apply/andP; split.
  apply/allrelP => x y; rewrite mem_comps => /andP[_ /eqP sx] /flatten_mapP[i].
  rewrite mem_iota mem_comps => /andP[ai _] /andP[_ /eqP sy].
  by rewrite /lossy_order sx sy ai.
have st : all (fun s => sumn s == a) (comps m a).
  by apply/allP => s; rewrite mem_comps => /andP[].
move: (comps_sorted m a) st; elim: (comps m a) => [//|x l IHl] /=.
elim: l x {IHl} => [//|y l IHl] x /= /andP[gt pl] /and3P[/eqP sx /eqP sy al].
by rewrite /lossy_order sx sy ltnn eqxx gt /= IHl // sy eqxx.
Qed.
