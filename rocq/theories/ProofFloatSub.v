(* Rounding errors of the sub-matrix permanents calculators. *)
From mathcomp Require Import all_ssreflect all_algebra zify ring.
From Verif Require Import Base SpecStates Combi SpecPerm PermMath ModelPerm ProofPerm1 ProofPerm2 ProofPerm5
  ModelFloat ModelFloatSub SpecFloat ProofFloat ProofFloat2.
Set Implicit Arguments.
Unset Strict Implicit.
Unset Printing Implicit Defensive.
Import Order.Theory GRing.Theory Num.Theory.
Local Open Scope ring_scope.

Section FloatSub.
Variable F : numFieldType.
Variables (u : F) (A : arith F).
Hypothesis u0 : 0 <= u.
Hypothesis u2 : u <= 2%:R^-1.
Hypothesis accA : accurate u A.
Notation near := (near u).

(* division by a rounded number *)
Lemma near_fdivK K k v a w q0 q : (1 + u) ^+ K <= 3%:R / 2%:R -> q0 != 0 ->
  `|q - q0| <= ((1 + u) ^+ K - 1) * `|q0| -> near k v a w ->
  q != 0 /\ near (k + 2 * K).+1 (v / q0) (a / `|q0|) (f_fdiv A w q).
Proof.
move=> y3 q00 qe H; set y := (1 + u) ^+ K in y3 qe.
have y1 : 1 <= y := E1 u0 K.
have yp : 0 <= y := le_trans ler01 y1.
have p0 : 0 < `|q0| by rewrite normr_gt0.
have h1 : 0 < 2%:R - y.
  rewrite subr_gt0; apply: le_lt_trans y3 _; rewrite ltr_pdivr_mulr ?ltr0n // -natrM ltr_nat //.
have ql : (2%:R - y) * `|q0| <= `|q|.
  have -> : (2%:R - y) * `|q0| = `|q0| - (y - 1) * `|q0| by move: (`|q0|) => c; ring.
  rewrite ler_subl_addr; apply: le_trans (ler_add (lexx _) qe).
  by have := ler_norm_add q (q0 - q); rewrite addrC subrK distrC.
have qp : 0 < `|q| by apply: lt_le_trans ql; rewrite mulr_gt0.
have qn : q != 0 by rewrite -normr_gt0.
split=> //.
have I : near (2 * K) (q0^-1) (`|q0|^-1) (q^-1).
  split; first by rewrite normfV.
  have -> : q^-1 - q0^-1 = (q0 - q) / (q * q0) by field; rewrite q00 qn.
  rewrite normrM normfV normrM -normrN opprB mulnC exprM -/y.
  have hh : y - 1 <= (y ^+ 2 - 1) * (2%:R - y).
    rewrite -subr_ge0; have -> : (y ^+ 2 - 1) * (2%:R - y) - (y - 1) = (y - 1) * (1 + y - y ^+ 2) by ring.
    apply: mulr_ge0; first by rewrite subr_ge0.
    have -> : 1 + y - y ^+ 2 = 4%:R^-1 + (3%:R / 2%:R - y) * (y + 2%:R^-1) by field.
    apply: addr_ge0; first by rewrite invr_ge0 ler0n.
    by apply: mulr_ge0; [rewrite subr_ge0|apply: addr_ge0 => //; rewrite invr_ge0 ler0n].
  rewrite ler_pdivr_mulr ?mulr_gt0 //; apply: le_trans qe _.
  rewrite [`|q| * `|q0|]mulrC mulrA divfK ?gt_eqF //.
  have y21 : 0 <= y ^+ 2 - 1 by rewrite subr_ge0 exprn_ege1.
  apply: le_trans (ler_wpmul2l y21 ql); rewrite mulrA.
  by apply: ler_wpmul2r => //; apply: ltW.
have := near_times H I => T; apply: (near_round1 u0) T _.
by apply: (acc_fdiv accA).
Qed.

Lemma near_fdivr k v a w q0 q : q0 != 0 -> `|q - q0| <= u * `|q0| -> near k v a w ->
  q != 0 /\ near (k + 3) (v / q0) (a / `|q0|) (f_fdiv A w q).
Proof.
move=> q00 qe H; have := @near_fdivK 1 k v a w q0 q _ q00 _ H; rewrite expr1 addnS; apply.
  have -> : 3%:R / 2%:R = 1 + 2%:R^-1 :> F by field.
  by rewrite ler_add2l.
by have -> : 1 + u - 1 = u by ring.
Qed.

Variables (m : nat) (M : seq (seq F)) (s t : seq nat) (k : guan_kind) (mu : F).
Hypothesis sqM : is_square m M.
Hypothesis st_size : size t = size s.
Hypothesis sm : (size s <= m)%N.
Hypothesis st_sum : sumn s = (sumn t).+1.
Hypothesis t0 : (0 < sumn t)%N.
Hypothesis mu_max : forall j i, (j < m)%N -> (i < m)%N -> `|ent M j i| <= mu.

Notation cols := (np_nonzero t).
Notation sumv := (sumv M s k).
Notation binv := (binv F).
Notation smult := (smult F t k).
Notation addend := (addend M s t k).
Notation sbd := (sbd s k mu).
Notation near_sums := (near_sums u M s t k mu).

Let s0 : s != [::]. Proof. by case: (s) st_sum. Qed.

Lemma sub_mu0 : 0 <= mu.
Proof.
have m0 : (0 < m)%N by apply: leq_trans sm; rewrite lt0n size_eq0.
exact: le_trans (mu_max m0 m0).
Qed.

Definition cs : F := `|init_multiplier F k t|.
Definition skip i (r : seq nat) := (nth 0%N s i == 0%N) || (nth 0%N r i == nth 0%N s i).
Definition pbd B i (r : seq nat) : F := if skip i r then 0 else cs * B ^+ sumn t * binv (decr s i) r.
Definition kadd (n : nat) : nat := 2 * n + 6 + (sumn t * (3 * (size s + n) + 2) + size s).

Lemma smult_norm r : `|smult r| = cs.
Proof. by rewrite /ProofPerm5.smult normrM normrX normrN1 expr1n mulr1. Qed.

Lemma fl_updated_binomialE n r i b : (i < size s)%N -> substate r s -> ~~ skip i r ->
  near (2 * n) (binv s r) (binv s r) b ->
  exists2 b', fl_updated_binomial A b (nth 0%N s i) (Posz (nth 0%N r i)) = Ok b' &
    near (2 * n + 3) (binv (decr s i) r) (binv (decr s i) r) b'.
Proof.
move=> il rs; rewrite negb_or => /andP[sn rn] nb; have [sr le] := substateP _ _ rs.
have rl : (nth 0 r i < nth 0 s i)%N by rewrite ltn_neqAle rn le.
have dz : Posz (nth 0%N s i) - Posz (nth 0%N r i) != 0 by lia.
rewrite /fl_updated_binomial /fl_pydiv (negPf dz) /=.
set q0 : F := (Posz (nth 0%N s i))%:~R / (Posz (nth 0%N s i) - Posz (nth 0%N r i))%:~R.
have q00 : q0 != 0 by rewrite mulf_neq0 ?invr_eq0 ?intr_eq0.
have [qn nq] := near_fdivr q00 (acc_quot accA _ dz) nb.
rewrite (negPf qn); eexists; first by [].
have E : updated_binomial (binv s r) (nth 0%N s i) (Posz (nth 0%N r i)) = Ok (binv s r / q0).
  rewrite /updated_binomial /pydiv intr_eq0 (negPf dz) [rbind _ _]/=.
  by rewrite -[(nth 0%N s i)%:R]/((Posz (nth 0%N s i))%:~R) -/q0 (negPf q00).
move: E; rewrite updated_binomialE // => -[E]; move: nq; rewrite -E.
suff -> : binv s r / `|q0| = binv (decr s i) r by [].
rewrite E; congr (_ / _); rewrite ger0_norm // /q0 subzn ?(ltnW rl) // divr_ge0 ?ler0n //.
Qed.

Lemma kadd_mono n N : (n <= N)%N -> (kadd n <= kadd N)%N.
Proof. by rewrite /kadd; nia. Qed.

Lemma sum_kcols ks : (\sum_(j <- cols) (nth 0 t j * ks.+1 + 1) <= sumn t * ks.+1 + size s)%N.
Proof.
rewrite big_split /= sum1_size -big_distrl /= sum_cols leq_add2l.
by rewrite -st_size size_filter; apply: leq_trans (count_size _ _) _; rewrite size_iota.
Qed.

(* the product of the Ryser variant *)
Definition near_prd n r prd : Prop :=
  k = Ryser -> near (sumn t * (3 * (size s + n) + 1) + size s + 2)
    (smult r * \prod_(a <- particle_modes t) sumv r a) (cs * sbd n ^+ sumn t) prd.

Lemma fl_prdE n r mh f d : near_sums n r f -> near 1 (smult r) cs mh -> k = Ryser -> d = dict_of f cols ->
  exists p, rfoldl (fun acc j => rbind (dict_get d j) (fun v =>
          rbind (py_get t (Posz j)) (fun e => Ok (f_mul A acc (f_pow A v e))))) 1 (map fst d) = Ok p /\
   near_prd n r (f_mul A p mh).
Proof.
move=> nf nm kk ->.
have n1 : near 0 1 1 (1 : F) by apply: near_exact => //; rewrite normr1.
have [p ep np] := fl_product u0 accA (nth 0%N t) nf n1.
exists p; split.
  rewrite keys_dict_of (@rfoldl_in_ok _ _ _ (fun acc j => f_mul A acc (f_pow A (f j) (nth 0%N t j)))) ?ep //.
  by move=> acc j jc; rewrite dict_get_of //= (py_get_nth 0%N) // np_nonzero_lt.
move=> _; have := near_mul u0 accA np nm.
rewrite (prod_cols (f := sumv r)) // sum_cols !mul1r mulrC [sbd n ^+ _ * _]mulrC; apply: near_k => //.
rewrite add0n [(3 * _ + 1)%N]addn1 addn1 addn2 !ltnS; exact: sum_kcols.
Qed.

Lemma fl_update_permanentsE N n r d idx last b mh f prd perms V P :
  (n <= N)%N -> substate r s -> near_sums n r f -> near (2 * n) (binv s r) (binv s r) b ->
  near 1 (smult r) cs mh -> near_prd n r prd -> size perms = size s ->
  (forall i, (i < size s)%N -> near (kadd N + n) (V i) (P i) perms`_i) ->
  exists perms', [/\ fl_update_permanents A k
      (Subcalc M s t (gstate s r d idx last) b mh cols (dict_of f cols) prd perms) = Ok perms',
    size perms' = size s &
    forall i, (i < size s)%N -> near (kadd N + n.+1) (V i + addend i r) (P i + pbd (sbd N + mu) i r) perms'`_i].
Proof.
move=> nN rs nf nb nm np sp nP; have [sr le] := substateP _ _ rs.
pose q i := f_fdiv A b (f_quot A (nth 0%N s i) (Posz (nth 0%N s i) - Posz (nth 0%N r i))).
pose w i := match k with
  | Ryser => f_mul A prd (q i)
  | ChinHuh => foldl (fun acc j => f_mul A acc (f_pow A (f_sub A (f j) (ent M j i)) (nth 0%N t j)))
       (f_mul A mh (q i)) cols end.
pose p' i := if skip i r then perms`_i else f_add A perms`_i (w i).
exists (mkseq p' (size s)); split; last 1 first.
- move=> i il; rewrite nth_mkseq // /p' /ProofPerm5.addend /pbd -/(skip i r).
  case: ifPn => sk; first by rewrite !addr0; apply: near_k (nP i il) => //; lia.
  have [b' eb nb'] := fl_updated_binomialE il rs sk nb.
  have qE : q i = b'.
    move: eb; rewrite /fl_updated_binomial /fl_pydiv; move: (sk); rewrite negb_or => /andP[_ rn].
    have /negPf -> : Posz (nth 0%N s i) - Posz (nth 0%N r i) != 0.
      by move: rn; apply: contra => /eqP h; apply/eqP; lia.
    by rewrite /=; case: ifP => // _ [].
  rewrite addnS; apply: near_add => //; first by apply: near_k (nP i il) => //; lia.
  have sp0 : (0 < nth 0%N s i)%N by move: sk; rewrite negb_or lt0n => /andP[].
  have sd : sumn (decr s i) = sumn t by rewrite sumn_decr // st_sum.
  have mE : multv F (decr s i) k r = smult r by rewrite /multv /ProofPerm5.smult; case: (k); rewrite /= sd.
  have mono : cs * (sbd n + mu) ^+ sumn t * binv (decr s i) r <= cs * (sbd N + mu) ^+ sumn t * binv (decr s i) r.
    rewrite ler_wpmul2r ?ler0n // ler_wpmul2l ?normr_ge0 // ler_expn2r ?nnegrE ?addr_ge0 ?(sbd_ge0 _ sm s0 mu_max) ?sub_mu0 //.
    by rewrite ler_add2r (sbd_mono _ sm s0 mu_max).
  have kle : (kadd n <= kadd N + n)%N by apply: leq_trans (kadd_mono nN) _; lia.
  apply: near_mono kle mono _ => //; rewrite /w qE /termv mE.
  case kk: k.
    have H := near_mul u0 accA (np kk) nb'.
    have -> : \prod_(a <- particle_modes t) ProofPerm2.sumv M (decr s i) Ryser r a =
      \prod_(a <- particle_modes t) sumv r a by apply: eq_bigr => a _; rewrite /ProofPerm2.sumv kk.
    rewrite -kk [smult r * _ * _]mulrAC; apply: near_mono H => //; first by rewrite /kadd; nia.
    rewrite ler_wpmul2r ?ler0n // ler_wpmul2l ?normr_ge0 //.
    rewrite ler_expn2r ?nnegrE ?addr_ge0 ?(sbd_ge0 _ sm s0 mu_max) ?sub_mu0 //.
    by rewrite ler_addl sub_mu0.
  have nf' j : j \in cols -> near (3 * (size s + n)).+1 (ProofPerm2.sumv M (decr s i) k r j) (sbd n + mu)
      (f_sub A (f j) (ent M j i)).
    move=> jc; rewrite -(sums_decr M r j sp0 kk); apply: near_sub => //; first exact: nf.
    by apply: near_exact => //; apply: mu_max; [exact: (cols_lt st_size sm jc)|exact: leq_trans il sm].
  have [p <- H] := fl_product u0 accA (nth 0%N t) nf' (near_mul u0 accA nm nb').
  move: H; rewrite (prod_cols (f := ProofPerm2.sumv M (decr s i) k r)) // sum_cols -kk.
  rewrite [cs * _ * _]mulrAC; apply: near_k => //; rewrite /kadd.
  rewrite [(3 * _ + 2)%N]addn2; apply: leq_trans (leq_add (leqnn _) (sum_kcols _)) _; lia.
- rewrite /fl_update_permanents /=.
  have -> : match k with Ryser => size perms | ChinHuh => size s end = size s by case: (k).
  have -> : perms = mkseq (nth 0 perms) (size s) by rewrite -sp mkseq_nth.
  apply: (@rfoldl_pointwise _ 0) => ps i il sps pi.
  rewrite (py_get_nth 0%N) //= (py_get_nth 0) ?size_map ?sr //= (nth_map 0%N) ?sr //.
  rewrite eqz_nat -/(skip i r) /p'; case: ifPn => [_|sk].
    congr Ok; apply: (@eq_from_nth _ 0).
      by rewrite size_set_nth; apply/esym/maxn_idPr; rewrite sps.
    by move=> x _; rewrite nth_set_nth /=; case: eqP => [->|]; rewrite ?pi.
  have [b' eb nb'] := fl_updated_binomialE il rs sk nb.
  have qE : q i = b'.
    move: (eb); rewrite /fl_updated_binomial /fl_pydiv; move: (sk); rewrite negb_or => /andP[_ rn].
    have /negPf -> : Posz (nth 0%N s i) - Posz (nth 0%N r i) != 0.
      by move: rn; apply: contra => /eqP h; apply/eqP; lia.
    by rewrite /=; case: ifP => // _ [].
  rewrite eb.
  suff -> : match k with
    | Ryser => rbind (Ok b') (fun b0 => Ok (f_mul A prd b0))
    | ChinHuh =>
        rbind (rfoldl (fun d0 j => rbind (dict_get (dict_of f cols) j) (fun v =>
              rbind (mget M j i) (fun a => Ok (dict_set d0 j (f_sub A v a))))) [::] cols)
          (fun upd => rbind (Ok b')
          (fun b0 => rfoldl (fun acc j => rbind (dict_get upd j) (fun v =>
               rbind (py_get t (Posz j)) (fun e => Ok (f_mul A acc (f_pow A v e))))) (f_mul A mh b0) cols))
    end = Ok (w i).
    by rewrite /= (py_get_nth 0) ?sps //= (py_set_nth 0) ?sps // pi.
  rewrite /w qE; case kk: k; first by [].
  rewrite (@rfoldl_dict_build _ _ (fun j => f_sub A (f j) (ent M j i))) ?np_nonzero_uniq //=; last first.
    move=> d0 j jc nj; rewrite dict_get_of //= (mgetE sqM (cols_lt st_size sm jc) (leq_trans il sm)) /=.
    by rewrite dict_set_new.
  rewrite (@rfoldl_in_ok _ _ _ (fun acc j => f_mul A acc (f_pow A (f_sub A (f j) (ent M j i)) (nth 0%N t j)))) //.
  by move=> acc j jc; rewrite dict_get_of //= (py_get_nth 0%N) // np_nonzero_lt.
- by rewrite size_mkseq.
Qed.

Definition fstate r d idx last b mh f prd perms : subcalc F :=
  Subcalc M s t (gstate s r d idx last) b mh cols (dict_of f cols) prd perms.

Definition same_data (c : subcalc F) := [/\ sc_matrix c = M, sc_input c = s & sc_output c = t].

Lemma fl_loop_sub N r d l : run s r d l -> size d = size s -> substate r s ->
  forall idx last n b mh f prd perms V P fuel, (size l < fuel)%N -> (n + size l <= N)%N ->
  near_sums n r f -> near (2 * n) (binv s r) (binv s r) b -> near 1 (smult r) cs mh -> size perms = size s ->
  (forall i, (i < size s)%N -> near (kadd N + n.+1) (V i) (P i) perms`_i) ->
  exists c, [/\ fl_permanents_loop A fuel k (fstate r d idx last b mh f prd perms) = Ok c,
    same_data c, size (sc_perms c) = size s &
    forall i, (i < size s)%N -> near (kadd N + (n.+1 + size l)) (V i + \sum_(q <- l) addend i q)
      (P i + \sum_(q <- l) pbd (sbd N + mu) i q) (sc_perms c)`_i].
Proof.
have last_get (T : Type) (x0 : T) (q : seq T) : size q = size s ->
    py_get q (Negz 0) = Ok (nth x0 q (size s).-1).
  by move=> sq; rewrite /py_get /= sq lt0n size_eq0 s0 /= subn1 (drop_nth x0) //
     sq prednK // lt0n size_eq0 s0.
have spos : ((size s).-1 < size s)%N by rewrite prednK // lt0n size_eq0.
elim=> {r d l} [r d E|r d i r' d' l E ne R IH] sd rs idx last n b mh f prd perms V P [//|fuel] lf nN nf nb nm sp nP;
  have [sr le] := substateP _ _ rs.
all: rewrite [fl_permanents_loop _ _ _ _]/= !(last_get _ 0) ?size_map //= !(nth_map 0%N) ?sr //.
all: rewrite ifT; last by rewrite lez_nat.
all: rewrite update_guan_codeE //; have := gstep_size sr sd; have := gstep_move sr sd rs.
  case: (gstep s r d) E => -[i r'] d' /= ->; rewrite eqxx => -> [_ _ sd'].
  rewrite size_map sr eqxx; eexists; split; [by []|by []|by []|].
  by move=> i0 il; rewrite !big_nil !addr0 addn0; apply: nP.
rewrite E (negPf ne) => -[rs' il H] [_ sr' sd'] /=; rewrite size_map sr' (negPf ne).
have [b' -> nb'] := fl_update_binomialsE u0 accA sqM st_size sm s0 d' il rs H nb; rewrite [rbind (Ok _) _]/=.
rewrite /fl_update_sub_sums [sc_matrix _]/= [sc_guan _]/= [sc_sums _]/=.
have [f' -> nf'] := fl_update_sumsE u0 accA sqM st_size sm s0 mu_max d' il sr H nf.
have Em : - smult r = smult r'.
  rewrite /ProofPerm5.smult -mulrN -mulN1r -exprS.
  case: H => -[H ->]; first by rewrite sumn_incr // sr.
  rewrite sumn_decr //; have: (0 < sumn r)%N; last by case: (sumn r) => // h _; rewrite /= !exprS; ring.
  by rewrite -(incr_decr H) sumn_incr // size_decr ?sr.
have nm' : near 1 (smult r') cs (- mh) by rewrite -Em; apply: near_opp.
have [prd' E1 np'] : exists2 prd', (rbind (Ok (dict_of f' cols)) (fun d => match k with
  | Ryser => rbind (rfoldl (fun acc j => rbind (dict_get d j) (fun v =>
          rbind (py_get t (Posz j)) (fun e => Ok (f_mul A acc (f_pow A v e))))) 1 (map fst d))
       (fun p => Ok (d, f_mul A p (- mh)))
  | ChinHuh => Ok (d, prd) end)) = Ok (dict_of f' cols, prd') & near_prd n.+1 r' prd'.
  case kk: k; last by exists prd => //; rewrite /near_prd kk.
  have [p [ep np]] := fl_prdE nf' nm' kk erefl.
  by exists (f_mul A p (- mh)) => //; cbn [rbind]; rewrite ep.
rewrite [sc_output _]/= [sc_mult _]/= [sc_prod _]/= E1 [rbind (Ok _) _]/=.
have nN' : (n.+1 <= N)%N by move: nN => /=; lia.
have [ps [ep sps nps]] := @fl_update_permanentsE N n.+1 r' d' i (Posz (nth 0%N r i)) b' (- mh) f' prd' perms V P
  nN' rs' nf' nb' nm' np' sp nP.
rewrite ep [rbind (Ok _) _]/=.
have [|c [ec dc sc nc]] := IH sd' rs' i (Posz (nth 0%N r i)) n.+1 b' (- mh) f' prd' ps _ _ fuel lf _ nf' nb' nm' sps nps.
  by move: nN => /=; lia.
exists c; split=> // j jl; rewrite !big_cons !addrA /= addnS -addSn; exact: nc.
Qed.

Lemma sum_skip (G : seq nat -> F) i : (i < size s)%N ->
  \sum_(q <- subs s) (if skip i q then 0 else G q) =
  if nth 0%N s i == 0%N then 0 else \sum_(q <- subs (decr s i)) G q.
Proof.
move=> il; rewrite /skip; case: eqP => [_|/eqP sn] /=; first exact: big1.
have sp0 : (0 < nth 0%N s i)%N by rewrite lt0n.
rewrite (eq_bigr (fun q => if nth 0%N q i != nth 0%N s i then G q else 0));
  last by move=> q _; rewrite -if_neg.
rewrite -big_mkcond -big_filter; apply: perm_big; apply: uniq_perm; rewrite ?filter_uniq ?subs_uniq //.
move=> q; rewrite mem_filter !mem_subs; apply/andP/substateP => [[ne /substateP[sq le]]|[sq le]].
  split=> [|j]; first by rewrite size_decr.
  rewrite nth_decr; case: eqP => [->|_]; last exact: le.
  by rewrite -ltnS prednK // ltn_neqAle ne le.
rewrite size_decr // in sq; split; last first.
  apply/substateP; split=> // j; have := le j; rewrite nth_decr; case: eqP => [->|//].
  by move/leq_trans; apply; exact: leq_pred.
have := le i; rewrite nth_decr eqxx => h; rewrite neq_ltn; apply/orP; left.
by rewrite -ltnS prednK // in h.
Qed.

Lemma sum_pbd B i : (i < size s)%N -> 0 <= B ->
  \sum_(q <- subs s) pbd B i q <= cs * (2%:R * B) ^+ sumn t.
Proof.
move=> il B0; rewrite /pbd (sum_skip (fun q => cs * B ^+ sumn t * binv (decr s i) q)) //.
case: eqP => [_|/eqP sn]; first by rewrite mulr_ge0 ?normr_ge0 // exprn_ge0 // mulr_ge0 ?ler0n.
rewrite -mulr_sumr /ProofPerm2.binv sum_binp sumn_decr ?lt0n // st_sum /= exprMn mulrA le_eqVlt; apply/orP; left.
by apply/eqP; rewrite mulrAC.
Qed.

Definition sub_roundings_ : nat := kadd (\prod_(x <- s) x.+1) + \prod_(x <- s) x.+1.

Lemma fl_compute_subE c fuel : sc_matrix c = M -> sc_input c = s -> sc_output c = t ->
  (\prod_(x <- s) x.+1 <= fuel)%N ->
  exists ps c', [/\ fl_compute_permanents A fuel k c = Ok (ps, c'), same_data c', size ps = size s &
    forall i, (i < size s)%N -> near sub_roundings_
      (if nth 0%N s i == 0%N then 0 else bs_permanent M (decr s i) t)
      (cs * (2%:R * (sbd (\prod_(x <- s) x.+1) + mu)) ^+ sumn t) ps`_i].
Proof.
case: c => M' s' t' g b mh co su prd perms /= -> -> -> fu; rewrite /fl_compute_permanents /=.
rewrite st_sum eqSS eqn0Ngt t0 /= /fl_init_subcomputation /=.
set N := (\prod_(x <- s) x.+1)%N in fu *; set z := nseq (size s) 0%N.
have N0 : (0 < N)%N by rewrite prodn_gt0.
have [f ef nf] := fl_sums_initE u0 accA k sqM st_size sm s0 mu_max; rewrite ef [rbind (Ok _) _]/=.
have nb : near (2 * 0) (binv s z) (binv s z) 1 by rewrite /ProofPerm2.binv binp0; apply: near_exact => //; rewrite normr1.
have nm : near 1 (smult z) cs (fl_sub_multiplier A k s t).
  rewrite /ProofPerm5.smult sumn_nseq mul0n mulr1 /fl_sub_multiplier /cs st_sum; case: (k) => /=.
    exact: near_exact.
  have h2 : Posz 2 ^+ sumn t != 0 by rewrite expf_neq0.
  have := near_quot u0 accA 1 h2; by rewrite rmorphX.
have E0 : init_guan s g = gstate s z (nseq (size s) true) (g_idx g) (g_last g).
  by rewrite /init_guan /gstate !map_nseq.
have rs : substate z s.
  by apply/substateP; split=> [|i]; rewrite ?size_nseq // nth_nseq if_same.
have sz' : size (nseq (size s) true) = size s by rewrite size_nseq.
have sl : size (behead (codes s)) = N.-1 by rewrite size_behead size_codes.
have sc : (size (behead (codes s)) < fuel)%N by rewrite sl prednK.
have nl : (0 + size (behead (codes s)) <= N)%N by rewrite add0n sl leq_pred.
have Bp : 0 <= sbd N + mu by rewrite addr_ge0 ?sub_mu0 // (sbd_ge0 _ sm s0 mu_max).
have fin (V P : nat -> F) prd0 ps0 : size ps0 = size s ->
  (forall i, (i < size s)%N -> V i = addend i z) ->
  (forall i, (i < size s)%N -> P i <= pbd (sbd N + mu) i z) ->
  (forall i, (i < size s)%N -> near (kadd N + 1) (V i) (P i) ps0`_i) ->
  exists ps c', [/\ rbind (fl_permanents_loop A fuel k (fstate z (nseq (size s) true) (g_idx g) (g_last g) 1
      (fl_sub_multiplier A k s t) f prd0 ps0)) (fun c'' => Ok (sc_perms c'', c'')) = Ok (ps, c'),
    same_data c', size ps = size s &
    forall i, (i < size s)%N -> near sub_roundings_
      (if nth 0%N s i == 0%N then 0 else bs_permanent M (decr s i) t)
      (cs * (2%:R * (sbd N + mu)) ^+ sumn t) ps`_i].
  move=> sp VE PE nP.
  have [c [-> dc sc' nc]] := fl_loop_sub (run_codes s) sz' rs (g_idx g) (g_last g) prd0 sc nl nf nb nm sp nP.
  exists (sc_perms c), c; split=> // i il.
  have := nc i il; rewrite VE // sl add1n prednK //.
  have -> : addend i z + \sum_(q <- behead (codes s)) addend i q = \sum_(q <- subs s) addend i q.
    by rewrite -(perm_big _ (perm_codes s)) codes_head big_cons.
  rewrite (sum_addend M k st_sum il); apply: near_mono => //.
  apply: le_trans (sum_pbd il Bp).
  by rewrite -(perm_big _ (perm_codes s)) codes_head big_cons ler_add2r PE.
have nz (V : nat -> F) : (forall i, (i < size s)%N -> V i = 0) -> forall kk i, (i < size s)%N -> near kk (V i) 0 (nseq (size s) 0)`_i.
  by move=> V0 kk i il; rewrite V0 // nth_nseq if_same; apply: near_exact => //; rewrite normr0.
have pbd0 B i : 0 <= B -> 0 <= pbd B i z.
  by move=> B0; rewrite /pbd; case: ifP => // _; rewrite !mulr_ge0 ?normr_ge0 ?exprn_ge0 ?ler0n.
case kk: k.
  rewrite -kk E0; apply: (fin (addend^~ z) (fun=> 0)) => //; first by rewrite size_nseq.
    by move=> i il; apply: pbd0.
  move=> i il; apply: (nz (addend^~ z)) => // j jl; rewrite /ProofPerm5.addend; case: ifP => // _.
  rewrite /termv; have [a ap] : exists a, a \in particle_modes t.
    case E: (particle_modes t) => [|a l]; last by exists a; rewrite inE eqxx.
    by have := size_particle_modes t; rewrite E; move: t0; case: (sumn t).
  rewrite (big_rem a) //= /ProofPerm2.sumv kk /Lin big1 ?mul0r ?mulr0 // => x _.
  by rewrite nth_nseq if_same mul0r.
rewrite -kk E0.
have np : near_prd 0 z prd by rewrite /near_prd kk.
have sn : size (nseq (size s) (0 : F)) = size s by rewrite size_nseq.
have [ps [-> sps nps]] := @fl_update_permanentsE N 0 z (nseq (size s) true) (g_idx g) (g_last g) 1
  (fl_sub_multiplier A k s t) f prd (nseq (size s) 0) (fun=> 0) (fun=> 0) (leq0n _) rs nf nb nm np sn (nz (fun=> 0) (fun _ _ => erefl) _).
rewrite [rbind (Ok _) _]/=; apply: (fin _ _ _ _ sps _ _ nps) => i il; by rewrite add0r.
Qed.

End FloatSub.
