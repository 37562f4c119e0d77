(* Mathematics of permanents with repeated rows and columns. *)
From mathcomp Require Import all_ssreflect all_fingroup all_algebra.
From mathcomp Require Import ring.
From Verif Require Import SpecStates Combi SpecPerm.
Set Implicit Arguments.
Unset Strict Implicit.
Unset Printing Implicit Defensive.
Import GRing.Theory.
Local Open Scope ring_scope.

Fact occ_key : unit. Proof. exact tt. Qed.
Definition decr s i := locked_with occ_key (set_nth 0%N s i (nth 0%N s i).-1).
Definition incr s i := locked_with occ_key (set_nth 0%N s i (nth 0%N s i).+1).

Lemma decrE s i : decr s i = set_nth 0%N s i (nth 0%N s i).-1.
Proof. by rewrite /decr unlock. Qed.
Lemma incrE s i : incr s i = set_nth 0%N s i (nth 0%N s i).+1.
Proof. by rewrite /incr unlock. Qed.
Lemma decr_cons x s i : decr (x :: s) i.+1 = x :: decr s i.
Proof. by rewrite !decrE. Qed.
Lemma incr_cons x s i : incr (x :: s) i.+1 = x :: incr s i.
Proof. by rewrite !incrE. Qed.
Lemma decr0 x s : decr (x :: s) 0 = x.-1 :: s.
Proof. by rewrite !decrE. Qed.
Lemma incr0 x s : incr (x :: s) 0 = x.+1 :: s.
Proof. by rewrite !incrE. Qed.

Lemma size_decr s i : (i < size s)%N -> size (decr s i) = size s.
Proof. by move=> il; rewrite decrE size_set_nth; apply/maxn_idPr. Qed.
Lemma size_incr s i : (i < size s)%N -> size (incr s i) = size s.
Proof. by move=> il; rewrite incrE size_set_nth; apply/maxn_idPr. Qed.
Lemma nth_decr s i k : nth 0%N (decr s i) k = if k == i then (nth 0%N s i).-1 else nth 0%N s k.
Proof. by rewrite decrE nth_set_nth. Qed.
Lemma nth_incr s i k : nth 0%N (incr s i) k = if k == i then (nth 0%N s i).+1 else nth 0%N s k.
Proof. by rewrite incrE nth_set_nth. Qed.
Lemma sumn_incr s i : (i < size s)%N -> sumn (incr s i) = (sumn s).+1.
Proof. by elim: s i => [|x s IH] [|i] //= il; rewrite ?incr0 ?incr_cons /= ?IH ?addnS. Qed.
Lemma sumn_decr s i : (0 < nth 0%N s i)%N -> sumn (decr s i) = (sumn s).-1.
Proof.
elim: s i => [|x s IH] [|i] //=; rewrite ?nth_nil //; first by rewrite decr0; case: x.
move=> p; rewrite decr_cons /= IH //.
have: (0 < sumn s)%N by apply: leq_trans p _; elim: (s) (i) => [|y s' IHs] [|j] //=;
  rewrite ?leq_addr //; exact: leq_trans (IHs j) (leq_addl _ _).
by case: (sumn s) => // k _; rewrite addnS.
Qed.
Lemma nth_pos_lt s i : (0 < nth 0%N s i)%N -> (i < size s)%N.
Proof. by case: (ltnP i (size s)) => // le; rewrite nth_default. Qed.
Lemma incr_decr s i : (0 < nth 0%N s i)%N -> incr (decr s i) i = s.
Proof.
move=> p; have il := nth_pos_lt p; apply: (@eq_from_nth _ 0%N).
  by rewrite size_incr size_decr.
move=> k _; rewrite nth_incr nth_decr eqxx prednK //; case: eqP => [->|ne] //.
by rewrite nth_decr; case: eqP.
Qed.
Lemma decr_incr s i : (i < size s)%N -> decr (incr s i) i = s.
Proof.
move=> il; apply: (@eq_from_nth _ 0%N); first by rewrite size_decr size_incr.
move=> k _; rewrite nth_decr nth_incr eqxx; case: eqP => [->|ne] //.
by rewrite nth_incr; case: eqP.
Qed.

Section PerMath.
Variable R : comRingType.
Variable u : nat -> nat -> R.

Implicit Types (rows cols s r : seq nat) (w : nat -> R).

Fixpoint PerO rows s : R :=
  if rows is a :: rows' then
    \sum_(i < size s) (nth 0%N s i)%:R * u a i * PerO rows' (decr s i)
  else 1.

Lemma PerO_cons a rows s : PerO (a :: rows) s =
  \sum_(i < size s) (nth 0%N s i)%:R * u a i * PerO rows (decr s i).
Proof. by []. Qed.

(* ------------------------------------------------------------------ *)
(* the signed sum over sub-states *)

Fixpoint W s r : R :=
  match s, r with
  | x :: s', a :: r' => (-1) ^+ (x - a) * 'C(x, a)%:R * W s' r'
  | _, _ => 1
  end.

Definition Lin r a : R := \sum_(i < size r) (nth 0%N r i)%:R * u a i.

Lemma Lin_incr r a i : (i < size r)%N -> Lin (incr r i) a = Lin r a + u a i.
Proof.
move=> il; rewrite /Lin size_incr // (bigD1 (Ordinal il)) //= nth_incr eqxx.
rewrite [in RHS](bigD1 (Ordinal il)) //= mulrSr mulrDl mul1r -!addrA; congr (_ + _).
rewrite addrC; congr (_ + _); apply: eq_bigr => k ne; rewrite nth_incr ifN //.
Qed.

Lemma Lin_decr r a i : (0 < nth 0%N r i)%N -> Lin (decr r i) a = Lin r a - u a i.
Proof.
move=> p; have il := nth_pos_lt p.
by rewrite -{2}(incr_decr p) Lin_incr ?size_decr // addrK.
Qed.

Lemma big_subs_cons x s (G : seq nat -> R) :
  \sum_(r <- subs (x :: s)) G r = \sum_(a < x.+1) \sum_(r <- subs s) G (nat_of_ord a :: r).
Proof.
rewrite subs_cons big_flatten big_map -{1}[x.+1]subn0 -/(index_iota 0 x.+1).
by rewrite big_mkord; apply: eq_bigr => a _; rewrite big_map.
Qed.

Lemma alt_binomial_sum x : \sum_(a < x.+1) (-1) ^+ (x - a) * 'C(x, a)%:R = (x == 0%N)%:R :> R.
Proof.
have := @exprDn R (-1) 1 x; rewrite addNr expr0n => E.
rewrite -[RHS]/((x == 0%N)%:R) E; apply: eq_bigr => a _.
by rewrite expr1n mulr1 mulr_natr.
Qed.

Lemma sum_W s : \sum_(r <- subs s) W s r = (sumn s == 0%N)%:R.
Proof.
elim: s => [|x s IH]; first by rewrite big_seq1.
rewrite big_subs_cons /=.
under eq_bigr do rewrite -mulr_sumr IH.
by rewrite -mulr_suml alt_binomial_sum addn_eq0 -natrM mulnb.
Qed.

Lemma binom_absorb x a : (a.+1 * 'C(x.+1, a.+1) = x.+1 * 'C(x, a))%N.
Proof. by rewrite -mul_bin_diag. Qed.

Lemma subs_absorb s i (G : seq nat -> R) : (i < size s)%N ->
  \sum_(r <- subs s) W s r * (nth 0%N r i)%:R * G r =
  (nth 0%N s i)%:R * \sum_(r <- subs (decr s i)) W (decr s i) r * G (incr r i).
Proof.
elim: s i G => [|x s IH] [|i] G //= il.
  rewrite big_subs_cons big_ord_recl /=.
  under eq_bigr do rewrite mulr0 mul0r.
  rewrite big1_eq add0r decr0 /=.
  case: x => [|x]; first by rewrite big_ord0 mul0r.
  rewrite big_subs_cons mulr_sumr; apply: eq_bigr => a _.
  rewrite mulr_sumr; apply: eq_bigr => r _ /=.
  rewrite /bump /= add1n subSS incr0.
  have E : (a.+1)%:R * 'C(x.+1, a.+1)%:R = x.+1%:R * 'C(x, a)%:R :> R.
    by rewrite -!natrM binom_absorb.
  transitivity ((-1) ^+ (x - a) * W s r * G (a.+1 :: r) * ((a.+1)%:R * 'C(x.+1, a.+1)%:R)).
    by ring.
  by rewrite E; ring.
rewrite big_subs_cons decr_cons big_subs_cons mulr_sumr; apply: eq_bigr => a _ /=.
have E := IH i (fun r => (-1) ^+ (x - a) * 'C(x, a)%:R * G (nat_of_ord a :: r)) il.
rewrite (eq_bigr (fun r => W s r * (nth 0%N r i)%:R *
   ((-1) ^+ (x - a) * 'C(x, a)%:R * G (nat_of_ord a :: r)))); last by move=> r _; ring.
rewrite E; congr (_ * _); apply: eq_bigr => r _; rewrite incr_cons; ring.
Qed.

Definition RS rows s w : R :=
  \sum_(r <- subs s) W s r * \prod_(a <- rows) (w a + Lin r a).

Lemma size_subs_mem s r : r \in subs s -> size r = size s.
Proof. by rewrite mem_subs => /andP[/eqP]. Qed.

Lemma RS_cons a rows s w :
  RS (a :: rows) s w = w a * RS rows s w +
    \sum_(i < size s) (nth 0%N s i)%:R * u a i * RS rows (decr s i) (fun b => w b + u b i).
Proof.
rewrite /RS.
have -> : \sum_(r <- subs s) W s r * \prod_(b <- a :: rows) (w b + Lin r b)
  = w a * (\sum_(r <- subs s) W s r * \prod_(b <- rows) (w b + Lin r b))
  + \sum_(r <- subs s) \sum_(i < size s)
      u a i * (W s r * (nth 0%N r i)%:R * \prod_(b <- rows) (w b + Lin r b)).
  rewrite mulr_sumr -big_split; apply: eq_big_seq => r rs /=; rewrite big_cons.
  rewrite -(size_subs_mem rs) mulrDl mulrDr mulrCA; congr (_ + _).
  rewrite /Lin mulr_suml mulr_sumr; apply: eq_bigr => i _; ring.
congr (_ + _); rewrite exchange_big /=; apply: eq_bigr => i _.
rewrite -mulr_sumr (subs_absorb (fun r => \prod_(b <- rows) (w b + Lin r b))) //.
rewrite mulrCA -mulrA; congr (_ * (_ * _)); apply: eq_big_seq => r rs.
congr (_ * _); apply: eq_bigr => b _; rewrite Lin_incr; first by ring.
by rewrite (size_subs_mem rs) size_decr.
Qed.

Lemma RS_small rows s w : (size rows < sumn s)%N -> RS rows s w = 0.
Proof.
elim: rows s w => [|a rows IH] s w lt.
  rewrite /RS; under eq_bigr do rewrite big_nil mulr1.
  by rewrite sum_W; move: lt; rewrite /= lt0n => /negPf ->.
rewrite RS_cons IH ?mulr0 ?add0r; last exact: ltnW.
apply: big1 => i _; case: (posnP (nth 0%N s i)) => [->|p]; first by rewrite !mul0r.
by rewrite IH ?mulr0 // sumn_decr // -ltnS prednK // (leq_ltn_trans _ lt).
Qed.

Lemma RS_PerO rows s w : size rows = sumn s -> RS rows s w = PerO rows s.
Proof.
elim: rows s w => [|a rows IH] s w sz.
  rewrite /RS; under eq_bigr do rewrite big_nil mulr1.
  by rewrite sum_W -sz.
rewrite RS_cons RS_small ?mulr0 ?add0r -?sz // PerO_cons; apply: eq_bigr => i _.
case: (posnP (nth 0%N s i)) => [->|p]; first by rewrite !mul0r.
by rewrite IH // sumn_decr // -sz.
Qed.

(* ------------------------------------------------------------------ *)
(* Laplace expansion over a list of columns *)

Fixpoint PerL rows cols : R :=
  if rows is a :: rows' then \sum_(c <- cols) u a c * PerL rows' (rem c cols) else 1.

Lemma PerL_perm rows cols cols' : perm_eq cols cols' -> PerL rows cols = PerL rows cols'.
Proof.
elim: rows cols cols' => [//|a rows IH] cols cols' pe /=.
rewrite (perm_big _ pe) /=; apply: eq_big_seq => c cc; congr (_ * _); apply: IH.
have cc' : c \in cols by rewrite (perm_mem pe).
by rewrite -(perm_cons c) -(permPl (perm_to_rem cc')) (permPl pe) perm_to_rem.
Qed.

Lemma big_particle_modes s (G : nat -> R) :
  \sum_(c <- particle_modes s) G c = \sum_(i < size s) (nth 0%N s i)%:R * G i.
Proof.
rewrite /particle_modes big_flatten big_map /= -{1}[size s]subn0 -/(index_iota 0 (size s)) big_mkord.
apply: eq_bigr => i _; rewrite big_nseq.
by elim: (nth 0%N s i) => [|k IH] /=; rewrite ?mul0r // IH mulrSr mulrDl mul1r addrC.
Qed.

End PerMath.

Lemma count_particle_modes s i : count_mem i (particle_modes s) = nth 0%N s i.
Proof.
have H a m : count_mem i (flatten [seq nseq (nth 0%N s i) i | i <- iota a m])
   = if (a <= i < a + m)%N then nth 0%N s i else 0%N.
  elim: m a => [|m IH] a /=.
    by case: ifP => //; rewrite addn0 leqNgt => /andP[/negPf ->].
  rewrite count_cat IH count_nseq /=.
  case: (ltngtP a i) => [lt|lt|->] /=.
  - by rewrite addSnnS.
  - by [].
  - by rewrite addnS ltnS leq_addr addn0 mul1n.
rewrite H leq0n add0n; case: ltnP => // le; by rewrite nth_default.
Qed.

Lemma size_particle_modes s : size (particle_modes s) = sumn s.
Proof.
rewrite size_flatten /shape -map_comp; congr sumn.
apply: (@eq_from_nth _ 0%N); first by rewrite size_map size_iota.
move=> i; rewrite size_map size_iota => il.
by rewrite (nth_map 0%N) ?size_iota // nth_iota // add0n /= size_nseq.
Qed.

Lemma rem_particle_modes s i : (0 < nth 0%N s i)%N ->
  perm_eq (rem i (particle_modes s)) (particle_modes (decr s i)).
Proof.
move=> p; have im : i \in particle_modes s by rewrite -has_pred1 has_count count_particle_modes.
apply/allP => k _ /=; rewrite count_particle_modes nth_decr.
have := seq.permP (perm_to_rem im) (pred1 k); rewrite count_particle_modes /= => E.
apply/eqP; case: eqP E => [->|ne]; first by rewrite eqxx add1n => ->.
by case: eqP => [E|_ ->] //; rewrite E in ne.
Qed.

Section PerSpec.
Variable R : comRingType.
Variable u : nat -> nat -> R.
Implicit Types (rows cols s r : seq nat).

Lemma PerO_PerL rows s : PerO u rows s = PerL u rows (particle_modes s).
Proof.
elim: rows s => [//|a rows IH] s; rewrite PerO_cons /=.
rewrite (big_particle_modes s (fun c => u a c * PerL u rows (rem c (particle_modes s)))).
apply: eq_bigr => i _; case: (posnP (nth 0%N s i)) => [->|p]; first by rewrite !mul0r.
by rewrite IH -mulrA (PerL_perm _ _ (rem_particle_modes p)).
Qed.

(* Laplace expansion of the permanent along the first row *)
Lemma permanent_expand n (A : 'M[R]_n.+1) :
  permanent A = \sum_(j < n.+1) A ord0 j * permanent (row' ord0 (col' j A)).
Proof.
rewrite /permanent (partition_big (fun p : 'S_n.+1 => p ord0) xpredT) //=.
apply: eq_bigr => j _; rewrite mulr_sumr.
rewrite (reindex (lift_perm ord0 j)); last first.
  pose ulsf i (s : 'S_n.+1) k := odflt k (unlift (s i) (s (lift i k))).
  have ulsfK i (s : 'S_n.+1) k: lift (s i) (ulsf i s k) = s (lift i k).
    rewrite /ulsf; have:= neq_lift i k.
    by rewrite -(can_eq (permK s)) => /unlift_some[] ? ? ->.
  have inj_ulsf: injective (ulsf ord0 _).
    move=> s; apply: can_inj (ulsf (s ord0) s^-1%g) _ => k'.
    by rewrite {1}/ulsf ulsfK !permK liftK.
  exists (fun s : 'S_n.+1 => perm (inj_ulsf s)) => [s _ | s].
    by apply/permP=> k'; rewrite permE /ulsf lift_perm_lift lift_perm_id liftK.
  move/(s _ =P _) => si0; apply/permP=> k.
  case: (unliftP ord0 k) => [k'|] ->; rewrite ?lift_perm_id //.
  by rewrite lift_perm_lift -si0 permE ulsfK.
apply: eq_big => [s|s _]; first by rewrite lift_perm_id eqxx.
rewrite big_ord_recl lift_perm_id; congr (_ * _); apply: eq_bigr => k _.
by rewrite lift_perm_lift !mxE.
Qed.

Definition listmx n rows cols : 'M[R]_n := \matrix_(a, b) u (nth 0%N rows a) (nth 0%N cols b).

Lemma nth_delete (cols : seq nat) j k : (j < size cols)%N ->
  nth 0%N (take j cols ++ drop j.+1 cols) k = nth 0%N cols (bump j k).
Proof.
move=> jl; rewrite nth_cat size_take jl /bump; case: (ltnP k j) => kj.
  by rewrite nth_take // add0n.
by rewrite nth_drop add1n addSn subnKC.
Qed.

Lemma perm_delete (cols : seq nat) j : (j < size cols)%N ->
  perm_eq (take j cols ++ drop j.+1 cols) (rem (nth 0%N cols j) cols).
Proof.
move=> jl; rewrite -(perm_cons (nth 0%N cols j)).
rewrite -(permPr (perm_to_rem (mem_nth 0%N jl))).
by rewrite -[X in perm_eq _ X](cat_take_drop j) (drop_nth 0%N jl) perm_sym perm_catC /=
   perm_cons perm_catC.
Qed.

Lemma permanent_PerL n rows cols : size rows = n -> size cols = n ->
  permanent (listmx n rows cols) = PerL u rows cols.
Proof.
elim: n rows cols => [|n IH] rows cols.
  move=> /size0nil -> _ /=; rewrite /permanent (bigD1 1%g) //= big_ord0 big1 ?addr0 //.
  by move=> p; rewrite (_ : p = 1%g) ?eqxx //; apply/permP => -[].
case: rows => // a rows [sr] sc; rewrite permanent_expand /= (big_nth 0%N) sc big_mkord.
apply: eq_bigr => j _; rewrite mxE /=; congr (_ * _).
have jl : (j < size cols)%N by rewrite sc.
rewrite -(PerL_perm _ _ (perm_delete jl)) -IH //; last first.
  by rewrite size_cat size_take size_drop jl sc subSS subnKC // -ltnS.
congr permanent; apply/matrixP => x y; rewrite !mxE nth_delete //=.
Qed.

Lemma permanent_tr n (A : 'M[R]_n) : permanent A^T = permanent A.
Proof.
rewrite /permanent (reindex_inj invg_inj) /=; apply: eq_bigr => p _.
rewrite (reindex_inj (@perm_inj _ p)) /=; apply: eq_bigr => i _.
by rewrite mxE permK.
Qed.

End PerSpec.

Lemma bs_permanent_PerO (R : comRingType) (U : seq (seq R)) s t : sumn s = sumn t ->
  bs_permanent U s t = PerO (ent U) (particle_modes t) s.
Proof.
move=> E; rewrite PerO_PerL -(@permanent_PerL _ _ (sumn t)) ?size_particle_modes //.
Qed.
