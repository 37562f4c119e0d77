(* Glynn calculator. *)
From mathcomp Require Import all_ssreflect all_fingroup all_algebra zify ring.
From Verif Require Import Base SpecStates Combi SpecPerm PermMath ModelPerm
  ProofPerm1 ProofPerm2 ProofPerm3.
Set Implicit Arguments.
Unset Strict Implicit.
Unset Printing Implicit Defensive.
Import GRing.Theory Num.Theory.
Local Open Scope ring_scope.

Fixpoint allb (n : nat) : seq (seq bool) :=
  if n is n'.+1 then map (cons false) (allb n') ++ map (cons true) (allb n') else [:: [::]].

Lemma mem_allb n v : (v \in allb n) = (size v == n).
Proof.
elim: n v => [|n IH] v; first by rewrite inE; case: v.
rewrite /= mem_cat; case: v => [|b v].
  by apply/negbTE/negP => /orP[] /mapP[].
rewrite /= eqSS -IH; apply/orP/idP => [|H].
  by case=> /mapP[w ww [_ ->]].
by case: b; [right|left]; apply: map_f.
Qed.

Lemma size_allb n : size (allb n) = (2 ^ n)%N.
Proof. by elim: n => //= n IH; rewrite size_cat !size_map IH expnS mul2n addnn. Qed.

Lemma allb_uniq n : uniq (allb n).
Proof.
elim: n => //= n IH; rewrite cat_uniq !map_inj_uniq ?IH /= ?andbT; try by move=> a b [].
by apply/hasPn => x /mapP[v _ ->]; apply/negP => /mapP[].
Qed.

Section Sums.
Variable R : comRingType.

Lemma big_allb_cons n (G : seq bool -> R) :
  \sum_(v <- allb n.+1) G v = \sum_(v <- allb n) (G (false :: v) + G (true :: v)).
Proof. by rewrite /= big_cat !big_map big_split. Qed.

Lemma big_allb_rcons n (G : seq bool -> R) :
  \sum_(v <- allb n.+1) G v = \sum_(v <- allb n) (G (rcons v false) + G (rcons v true)).
Proof.
elim: n G => [|n IH] G; first by rewrite big_allb_cons !big_seq1.
rewrite big_allb_cons big_split /= (IH (fun v => G (false :: v))) (IH (fun v => G (true :: v))).
by rewrite -big_split big_allb_cons.
Qed.

Lemma big_allb_neg n (G : seq bool -> R) :
  \sum_(v <- allb n) G (map negb v) = \sum_(v <- allb n) G v.
Proof.
elim: n G => [|n IH] G; first by rewrite !big_seq1.
rewrite !big_allb_cons !big_split /= addrC.
by rewrite (IH (fun v => G (false :: v))) (IH (fun v => G (true :: v))).
Qed.

Lemma big_subs_allb n (G : seq nat -> R) :
  \sum_(r <- subs (nseq n 1%N)) G r = \sum_(v <- allb n) G (map nat_of_bool v).
Proof.
elim: n G => [|n IH] G; first by rewrite !big_seq1.
rewrite -[nseq _ _]/(1%N :: nseq n 1%N) big_subs_cons big_allb_cons big_split /=.
rewrite big_ord_recl big_ord1 /=.
by rewrite (IH (fun v => G (0%N :: v))) (IH (fun v => G (1%N :: v))).
Qed.
End Sums.

Section Glynn.
Variable F : numFieldType.
Variables (n : nat) (e : nat -> nat -> F).

Definition gS (v : seq bool) (j : nat) : F := \sum_(i < n) (sgn (~~ nth false v i))%:~R * e i j.
Definition gm (v : seq bool) : F := (-1) ^+ count id v.
Definition gT (v : seq bool) : F := gm v * \prod_(j < n) gS v j.

Lemma gm_neg v : gm (map negb v) = (-1) ^+ size v * gm v.
Proof.
rewrite /gm count_map; have E := count_predC id v.
rewrite -E exprD mulrAC -exprMn mulrNN mulr1 expr1n mul1r.
by congr (_ ^+ _); apply: eq_count.
Qed.

Lemma gS_neg v j : size v = n -> gS (map negb v) j = - gS v j.
Proof.
move=> sv; rewrite /gS -sumrN; apply: eq_bigr => i _.
by rewrite (nth_map false) ?sv // -sgnN rmorphN mulNr.
Qed.

Lemma gT_neg v : size v = n -> gT (map negb v) = gT v.
Proof.
move=> sv; rewrite /gT gm_neg sv.
rewrite (eq_bigr (fun j : 'I_n => - gS v j)) => [|j _]; last by rewrite gS_neg.
rewrite prodrN card_ord mulrCA mulrA mulrCA; congr (_ * _).
by rewrite mulrA -exprMn mulrNN mulr1 expr1n mul1r.
Qed.

Lemma sum_gT : \sum_(v <- allb n) gT v = 2%:R ^+ n * permanent (\matrix_(i < n, j < n) e i j).
Proof.
pose u a b := e b a.
have E : permanent (\matrix_(i < n, j < n) e i j) = PerO u (iota 0 n) (nseq n 1%N).
  rewrite PerO_PerL -permanent_tr.
  have -> : particle_modes (nseq n 1%N) = iota 0 n.
    rewrite /particle_modes size_nseq.
    rewrite -[RHS]map_id -[map id _]flatten_map1; congr flatten; apply/eq_in_map => i.
    by rewrite mem_iota add0n => /andP[_ il]; rewrite nth_nseq il.
  rewrite -(@permanent_PerL _ _ n) ?size_iota //; congr permanent.
  by apply/matrixP => a b; rewrite !mxE !nth_iota.
have H := @RS_PerO _ (fun a b => - 2%:R * u a b) (iota 0 n) (nseq n 1%N)
  (fun a => \sum_(i < n) e i a).
rewrite size_iota sumn_nseq mul1n in H; have {H} := H erefl.
rewrite PerO_scale -E size_iota => H.
apply: (@mulfI _ ((-1) ^+ n)); first by rewrite signr_eq0.
rewrite [RHS]mulrA -exprMn mulN1r -H /RS big_subs_allb mulr_sumr.
apply: eq_big_seq => v; rewrite mem_allb => /eqP sv.
rewrite W_binp; last first.
  apply/substateP; split=> [|i]; first by rewrite size_map size_nseq.
  rewrite nth_nseq; case: ltnP => il; last by rewrite nth_default // size_map sv.
  by rewrite (nth_map false) ?sv // leq_b1.
have -> : binp (nseq n 1%N) (map nat_of_bool v) = 1%N.
  by rewrite -sv; elim: (v) => //= b w ->; case: b.
rewrite sumn_nseq mul1n mulr1 -mulrA; congr (_ * _); rewrite /gT /gm -sumn_count.
congr (_ * _); rewrite -[X in iota 0 X]subn0 -/(index_iota 0 n) big_mkord /=.
apply: eq_bigr => j _; rewrite /Lin /gS size_map sv -big_split.
apply: eq_bigr => i _; rewrite /= (nth_map false) ?sv // /u.
by case: (nth false v i); rewrite /sgn /= ?rmorphN /=; ring.
Qed.

End Glynn.

Lemma sum_gT_half (F : numFieldType) n (e : nat -> nat -> F) :
  \sum_(v <- allb n) gT n.+1 e (rcons v false) =
  2%:R ^+ n * permanent (\matrix_(i < n.+1, j < n.+1) e i j).
Proof.
apply: (@mulfI _ 2%:R); first by rewrite pnatr_eq0.
rewrite [RHS]mulrA -exprS -sum_gT big_allb_rcons big_split /= mulr_natl mulr2n.
congr (_ + _); rewrite -[LHS]big_allb_neg; apply: eq_big_seq => v; rewrite mem_allb => /eqP sv.
by rewrite -(@gT_neg _ _ _ (rcons v true)) ?map_rcons // size_rcons sv.
Qed.

Lemma scanl_size T1 T2 (g : T1 -> T2 -> T1) x l : size (scanl g x l) = size l.
Proof. by elim: l x => //= y l IH x; rewrite IH. Qed.

Lemma flip_size v i : (i < size v)%N -> size (flip v i) = size v.
Proof. by move=> il; rewrite size_set_nth; apply/maxn_idPr. Qed.

Lemma visits_size n v idx : size v = n -> all (fun i => (i < n)%N) idx ->
  all (fun w => size w == n) (gray_visits v idx).
Proof.
move=> sv; rewrite /gray_visits /= sv eqxx /=; elim: idx v sv => [//|i idx IH] v sv /= /andP[il al].
by rewrite flip_size sv ?eqxx //=; apply: IH => //; rewrite flip_size sv.
Qed.

Lemma gray_perm n idx : is_gray_code n idx ->
  perm_eq (gray_visits (nseq n false) idx) (allb n).
Proof.
case/and3P => al un /eqP sz; apply: uniq_perm => //; first exact: allb_uniq.
have sub : {subset gray_visits (nseq n false) idx <= allb n}.
  move=> w ww; rewrite mem_allb; have := allP (@visits_size n _ idx (size_nseq n false) al) w.
  exact.
have [] := uniq_min_size un sub => //.
by rewrite size_allb /gray_visits /= scanl_size sz.
Qed.

Lemma foldl_prod (R : comRingType) N (f : nat -> R) :
  foldl *%R 1 [seq f j | j <- iota 0 N] = \prod_(j < N) f j.
Proof.
elim: N => [|N IH]; first by rewrite big_ord0.
by rewrite -addn1 iotaD map_cat foldl_cat IH /= addn1 big_ord_recr /=.
Qed.

Section GlynnModel.
Variable F : numFieldType.
Variables (N : nat) (sc : seq (seq F)).
Hypothesis sqM : is_square N sc.

Definition gstate4 (v : seq bool) (p : F) :=
  ([seq sgn (~~ b) | b <- v], gm F v, [seq gS N (ent sc) v j | j <- iota 0 N], p).

Lemma glynn_initE : glynn_init_sums sc (nseq N 1) = Ok [seq gS N (ent sc) (nseq N false) j | j <- iota 0 N].
Proof.
rewrite /glynn_init_sums; case/andP: (sqM) => /eqP sM _; rewrite sM size_nseq.
apply: rmapM_ok => j; rewrite mem_iota add0n => /andP[_ jl].
suff H k : (k <= N)%N -> rfoldl (fun acc i => rbind (py_get (nseq N (1 : int)) (Posz i)) (fun d =>
    rbind (mget sc i j) (fun a => Ok (acc + d%:~R * a)))) 0 (iota 0 k) =
   Ok (\sum_(i < k) 1%:~R * ent sc i j).
  by rewrite H //; congr Ok; apply: eq_bigr => i _; rewrite nth_nseq if_same.
elim: k => [|k IH] kN; first by rewrite big_ord0.
rewrite -[k.+1]addn1 iotaD rfoldl_cat IH ?(ltnW kN) // addn1 big_ord_recr /= add0n.
rewrite (py_get_nth 0) ?size_nseq //.
by rewrite nth_nseq kN /= (mgetE sqM kN jl).
Qed.

Lemma flip_gm v i : (i < size v)%N -> gm F (flip v i) = - gm F v.
Proof.
rewrite /gm /flip; elim: v i => [//|b v IH] [|i] /= il.
  by rewrite !exprD -mulNr; case: b; rewrite /= expr1 expr0 ?opprK.
by rewrite !exprD IH // mulrN.
Qed.

Lemma flip_gS v i j : (i < N)%N -> size v = N ->
  gS N (ent sc) (flip v i) j =
  gS N (ent sc) v j + 2%:R * (sgn (nth false v i))%:~R * ent sc i j.
Proof.
move=> il sv; rewrite /gS (bigD1 (Ordinal il)) //= [in RHS](bigD1 (Ordinal il)) //=.
rewrite nth_set_nth /= eqxx negbK -!addrA [in RHS]addrC -addrA.
have -> : \sum_(i0 < N | i0 != Ordinal il) (sgn (~~ nth false (flip v i) i0))%:~R * ent sc i0 j
  = \sum_(i0 < N | i0 != Ordinal il) (sgn (~~ nth false v i0))%:~R * ent sc i0 j.
  apply: eq_bigr => k kn; rewrite nth_set_nth /= ifN //.
rewrite addrC; congr (_ + _); case: (nth false v i); rewrite /sgn /= ?rmorphN /=; ring.
Qed.

Lemma glynn_stepE v p i : (i < N)%N -> size v = N ->
  glynn_step sc (gstate4 v p) i = Ok (gstate4 (flip v i) (p + gT N (ent sc) (flip v i))).
Proof.
move=> il sv; rewrite /glynn_step /gstate4.
have iv : (i < size v)%N by rewrite sv.
rewrite (py_get_nth 0) ?size_map //= (py_set_nth 0) ?size_map //= (nth_map false) //.
rewrite sgnN negbK.
have -> : set_nth 0 [seq sgn (~~ b) | b <- v] i (sgn (nth false v i)) = [seq sgn (~~ b) | b <- flip v i].
  apply: (@eq_from_nth _ 0); first by rewrite size_set_nth !size_map flip_size // sv; apply/maxn_idPr.
  rewrite size_set_nth size_map sv => k; rewrite (maxn_idPr il) => kN.
  rewrite nth_set_nth /= [in RHS](nth_map false) ?flip_size ?sv // nth_set_nth /=.
  by case: eqP => _; rewrite ?negbK // (nth_map false) ?sv.
rewrite (@rmapM_ok _ _ _ (fun j => gS N (ent sc) (flip v i) j)); last first.
  rewrite size_iota => j; rewrite mem_iota add0n => /andP[_ jl].
  rewrite (py_get_nth 0) ?size_map ?size_iota //= (py_get_nth 0) ?size_map ?flip_size //=.
  rewrite (mgetE sqM il jl) /= (nth_map 0%N) ?size_iota // nth_iota // add0n.
  rewrite (nth_map false) ?flip_size // nth_set_nth /= eqxx negbK flip_gS //.
rewrite size_iota /= flip_gm //; congr (Ok (_, _, _, _ + _)).
rewrite /gT flip_gm //; congr (_ * _).
exact: foldl_prod.
Qed.

Lemma glynn_loop idx v p : all (fun i => (i < N)%N) idx -> size v = N ->
  exists v', rfoldl (glynn_step sc) (gstate4 v p) idx =
    Ok (gstate4 v' (p + \sum_(w <- scanl flip v idx) gT N (ent sc) w)).
Proof.
elim: idx v p => [|i idx IH] v p; first by exists v; rewrite /= big_nil addr0.
case/andP => il al sv; rewrite rfoldl_cons glynn_stepE // [rbind _ _]/=.
have [|v' ->] := IH (flip v i) (p + gT N (ent sc) (flip v i)) al; first by rewrite flip_size ?sv.
by exists v'; rewrite big_cons addrA.
Qed.

End GlynnModel.

Lemma flip_rcons v i b : (i < size v)%N -> flip (rcons v b) i = rcons (flip v i) b.
Proof.
rewrite /flip => il; rewrite nth_rcons il; elim: v i il => [//|c v IH] [|i] //= il.
by rewrite IH.
Qed.

Lemma scanl_flip_rcons n idx v b : all (fun i => (i < n)%N) idx -> size v = n ->
  scanl flip (rcons v b) idx = [seq rcons w b | w <- scanl flip v idx].
Proof.
elim: idx v => [//|i idx IH] v /= /andP[il al] sv.
by rewrite flip_rcons ?sv // IH // flip_size ?sv.
Qed.

Lemma glynnE (F : numFieldType) (M : seq (seq F)) m s t gray :
  is_square m M -> (size s <= m)%N -> (size t <= m)%N -> sumn s = sumn t ->
  ((0 < sumn s)%N -> is_gray_code (sumn s - 1) (gray (sumn s - 1)%N)) ->
  glynn_permanent gray M s t = Ok (bs_permanent M s t).
Proof.
move=> /andP[/eqP sM rM] sm tm st gr; rewrite /glynn_permanent.
case: (posnP (sumn s)) => [s0|s0].
  rewrite scattering_empty; last by left.
  rewrite /= bs_permanent_PerO //; have := size_particle_modes t; rewrite -st s0.
  by case: (particle_modes t).
have m0 : (0 < m)%N by apply: leq_trans sm; case: (s) s0.
rewrite (scattering_calculateE sM rM) ?sM ?sm ?tm -?st //=.
set sc := [seq _ | _ <- _].
have ssc : size sc = sumn s by rewrite size_map size_particle_modes.
have sq : is_square (sumn s) sc.
  rewrite /is_square ssc eqxx /=; apply/allP => row /mapP[j _ ->].
  by rewrite size_map size_particle_modes.
rewrite ssc eqn0Ngt s0 /=; have {}gr := gr s0; have [n En] : exists n, sumn s = n.+1.
  by exists (sumn s).-1; rewrite prednK.
rewrite (glynn_initE sq) /= foldl_prod mul1r.
have -> : nseq (sumn s) (1 : int) = [seq sgn (~~ b) | b <- nseq (sumn s) false].
  by rewrite map_nseq.
have g0 : gm F (nseq (sumn s) false) = 1.
  by rewrite /gm count_nseq mul0n.
have E1 : \prod_(i < sumn s) gS (sumn s) (ent sc) (nseq (sumn s) false) i =
  gT (sumn s) (ent sc) (nseq (sumn s) false) by rewrite /gT g0 mul1r.
have al : all (fun i => (i < sumn s)%N) (gray (sumn s - 1)%N).
  case/and3P: (gr) => al _ _; apply/allP => i /(allP al); lia.
have [v' E] := @glynn_loop F (sumn s) sc sq _ (nseq (sumn s) false)
   (gT (sumn s) (ent sc) (nseq (sumn s) false)) al (size_nseq _ _).
rewrite /gstate4 g0 in E; rewrite E1 E /=.
have -> (f : seq bool -> F) (x : seq bool) l : f x + \sum_(w <- l) f w = \sum_(w <- x :: l) f w.
  by rewrite big_cons.
have -> : nseq (sumn s) false :: scanl flip (nseq (sumn s) false) (gray (sumn s - 1)%N) =
  [seq rcons w false | w <- gray_visits (nseq n false) (gray (sumn s - 1)%N)].
  have -> : nseq (sumn s) false = rcons (nseq n false) false.
    by rewrite En; elim: (n) => //= k ->.
  rewrite /gray_visits /= (@scanl_flip_rcons n) ?size_nseq //.
  by case/and3P: gr; rewrite En subn1.
rewrite big_map; rewrite En subn1 /= in gr *; rewrite (perm_big _ (gray_perm gr)) /=.
rewrite sum_gT_half [_ * permanent _]mulrC mulfK ?expf_neq0 ?pnatr_eq0 //; congr Ok.
rewrite bs_permanent_PerO // PerO_PerL -(@permanent_PerL _ _ n.+1) ?size_particle_modes -?st //.
by congr permanent; apply/matrixP => a b; rewrite !mxE ent_list // size_particle_modes -?st En.
Qed.

(* the reflected Gray code is a Gray code *)
Lemma visits_cat v l1 i l2 : gray_visits v (l1 ++ i :: l2) =
  gray_visits v l1 ++ gray_visits (flip (last v (scanl flip v l1)) i) l2.
Proof. by rewrite /gray_visits scanl_cat /=; congr (_ :: (_ ++ _)); elim: l1 v => //= j l1 IH v; rewrite IH. Qed.

Lemma drop_flip v i n : (i < n)%N -> (n <= size v)%N -> drop n (flip v i) = drop n v.
Proof.
move=> iN nv; apply: (@eq_from_nth _ false).
  by rewrite !size_drop flip_size // (leq_trans iN).
move=> k _; rewrite !nth_drop nth_set_nth /= ifF //; lia.
Qed.

Lemma last_visits n l v : all (fun i => (i < n)%N) l -> (n <= size v)%N ->
  drop n (last v (scanl flip v l)) = drop n v /\ size (last v (scanl flip v l)) = size v.
Proof.
elim: l v => [//|i l IH] v /= /andP[iN al] nv.
have sf : size (flip v i) = size v by rewrite flip_size // (leq_trans iN).
by have [||-> ->] := IH (flip v i); rewrite ?sf ?drop_flip.
Qed.

Lemma reflected_lt n : all (fun i => (i < n)%N) (reflected_gray n).
Proof.
elim: n => //= n IH; rewrite all_cat /= leqnn !andTb andbb.
by apply/allP => i /(allP IH); lia.
Qed.

Lemma reflected_visits n v : (n <= size v)%N ->
  perm_eq (gray_visits v (reflected_gray n)) [seq w ++ drop n v | w <- allb n].
Proof.
elim: n v => [|n IH] v nv; first by rewrite /= drop0.
rewrite [reflected_gray _]/= visits_cat.
have [d1 s1] := last_visits (reflected_lt n) (ltnW nv).
set v' := last _ _ in d1 s1 *.
have nth1 : nth false v' n = nth false v n.
  by have := congr1 (fun l => nth false l 0) d1; rewrite !nth_drop addn0.
have d2 : drop n (flip v' n) = ~~ nth false v n :: drop n.+1 v.
  rewrite (drop_nth false) ?flip_size ?s1 // nth_set_nth /= eqxx nth1; congr cons.
  apply: (@eq_from_nth _ false); first by rewrite !size_drop flip_size ?s1.
  move=> k _; rewrite !nth_drop nth_set_nth /= ifF; last by lia.
  have := congr1 (fun l => nth false l k.+1) d1; rewrite !nth_drop addnS //.
have d3 : drop n v = nth false v n :: drop n.+1 v by rewrite (drop_nth false).
have P1 := IH v (ltnW nv).
have P2 := IH (flip v' n); rewrite d2 in P2.
rewrite (permPl (perm_cat P1 (P2 _))); last by rewrite flip_size s1 // ltnW.
rewrite d3.
have P3 : perm_eq (allb n.+1) ([seq rcons w (nth false v n) | w <- allb n] ++ [seq rcons w (~~ nth false v n) | w <- allb n]).
  apply: uniq_perm; first exact: allb_uniq.
    rewrite cat_uniq !map_inj_uniq ?allb_uniq; try by move=> a b /rcons_inj[].
    rewrite andbT; apply/hasPn => x /mapP[w ww ->]; apply/negP => /mapP[w' _ /rcons_inj[_]].
    by case: (nth _ _ _).
  move=> x; rewrite mem_allb mem_cat; apply/idP/orP => [|[]/mapP[w]]; last 2 first.
  - by rewrite mem_allb => /eqP <- ->; rewrite size_rcons.
  - by rewrite mem_allb => /eqP <- ->; rewrite size_rcons.
  case: (lastP x) => // w b; rewrite size_rcons eqSS => sw.
  case: (eqVneq b (nth false v n)) => [->|ne]; [left|right].
    by apply: map_f; rewrite mem_allb.
  have -> : b = ~~ nth false v n by case: (b) (nth _ _ _) ne => [] [].
  by apply: map_f; rewrite mem_allb.
rewrite perm_sym (permPl (perm_map _ P3)) map_cat -!map_comp.
apply: perm_cat; apply/allP => x _ /=; apply/eqP; congr count; apply: eq_map => w /=;
  by rewrite cat_rcons.
Qed.

Lemma reflected_is_gray n : is_gray_code n (reflected_gray n).
Proof.
rewrite /is_gray_code reflected_lt andTb.
have P := @reflected_visits n (nseq n false).
rewrite size_nseq drop_oversize ?size_nseq // in P; have {}P := P (leqnn n).
have E : [seq w ++ [::] | w <- allb n] = allb n by rewrite (eq_map (@cats0 _)) map_id.
rewrite E in P; rewrite (perm_uniq P) allb_uniq andTb.
have := perm_size P; rewrite size_allb /gray_visits [size _]/= scanl_size => ->; exact: eqxx.
Qed.
