(* Sub-matrix permanent calculators. *)
From mathcomp Require Import all_ssreflect all_fingroup all_algebra zify ring.
From Verif Require Import Base SpecStates Combi SpecPerm PermMath ModelPerm
  ProofPerm1 ProofPerm2.
Set Implicit Arguments.
Unset Strict Implicit.
Unset Printing Implicit Defensive.
Import GRing.Theory Num.Theory.
Local Open Scope ring_scope.

Lemma rfoldl_pointwise (T : Type) (x0 : T) (upd : seq T -> nat -> res (seq T)) (p p' : nat -> T) m :
  (forall perms i, (i < m)%N -> size perms = m -> nth x0 perms i = p i ->
     upd perms i = Ok (set_nth x0 perms i (p' i))) ->
  rfoldl upd (mkseq p m) (iota 0 m) = Ok (mkseq p' m).
Proof.
move=> U.
suff H k : (k <= m)%N -> rfoldl upd (mkseq p m) (iota 0 k) =
    Ok (mkseq (fun i => if (i < k)%N then p' i else p i) m).
  rewrite H //; congr Ok; apply/eq_in_map => i; rewrite mem_iota add0n => /andP[_ ->] //.
elim: k => [|k IH] km; first by [].
rewrite -addn1 iotaD rfoldl_cat IH ?(ltnW km) // add0n.
rewrite [rbind _ _]/= U ?size_mkseq // ?nth_mkseq // ?ltnn //=; congr Ok.
apply: (@eq_from_nth _ x0); first by rewrite size_set_nth !size_mkseq; apply/maxn_idPr.
move=> i; rewrite size_set_nth size_mkseq (maxn_idPr km) => im.
rewrite nth_set_nth /= !nth_mkseq //; case: eqP => [->|ne]; first by rewrite addn1 ltnS leqnn.
by congr (if _ then _ else _); lia.
Qed.

Section Sub.
Variable F : numFieldType.
Variables (m : nat) (M : seq (seq F)) (s t : seq nat) (k : guan_kind).
Hypothesis sqM : is_square m M.
Hypothesis st_size : size t = size s.
Hypothesis sm : (size s <= m)%N.
Hypothesis st_sum : sumn s = (sumn t).+1.
Hypothesis t0 : (0 < sumn t)%N.

Notation cols := (np_nonzero t).
Notation u := (ent M).

Lemma sub_s0 : s != [::].
Proof. by case: (s) st_sum. Qed.

Definition smult (r : seq nat) : F := init_multiplier F k t * (-1) ^+ sumn r.

Definition addend (i : nat) (r : seq nat) : F :=
  if (nth 0%N s i == 0%N) || (nth 0%N r i == nth 0%N s i) then 0
  else termv M (decr s i) t k r.

Definition sstate r d idx last prd perms : subcalc F :=
  Subcalc M s t (gstate s r d idx last) (binv F s r) (smult r) cols
    (dict_of (sumv M s k r) cols) prd perms.

Lemma binp_decr i r : (i < size s)%N -> size r = size s -> (0 < nth 0%N s i)%N ->
  (nth 0 s i * binp (decr s i) r = (nth 0 s i - nth 0 r i) * binp s r)%N.
Proof.
elim: (s) i r => [//|x s' IH] [|i] [|a r] //= il [sr] p.
  rewrite decr0 /=; case: x p => // x _; rewrite mulnA.
  by rewrite [(x.+1 * _)%N]mul_bin_down mulnA.
by rewrite decr_cons /= mulnCA IH // mulnCA.
Qed.

Lemma updated_binomialE i r : (i < size s)%N -> substate r s -> nth 0%N s i != 0%N ->
  nth 0%N r i != nth 0%N s i ->
  updated_binomial (binv F s r) (nth 0%N s i) (Posz (nth 0%N r i)) = Ok (binv F (decr s i) r).
Proof.
move=> il /substateP[sr le] sn rn; have rl : (nth 0 r i < nth 0 s i)%N by rewrite ltn_neqAle rn le.
rewrite /updated_binomial subzn ?(ltnW rl) // /pydiv -!pmulrn.
have d0 : (nth 0%N s i - nth 0%N r i)%:R != 0 :> F by rewrite pnatr_eq0 subn_eq0 -ltnNge.
have s0' : (nth 0%N s i)%:R != 0 :> F by rewrite pnatr_eq0.
rewrite (negPf d0) /= mulf_eq0 invr_eq0 (negPf d0) (negPf s0') /=; congr Ok.
apply: (mulIf s0'); rewrite /binv -natrM mulnC binp_decr // ?lt0n // natrM.
by rewrite invfM invrK mulrA mulrAC mulfVK // mulrC.
Qed.

Lemma sums_decr i r j : (0 < nth 0%N s i)%N -> k = ChinHuh ->
  sumv M s k r j - u j i = sumv M (decr s i) k r j.
Proof. by move=> p kk; rewrite /sumv kk Lin_decr //; ring. Qed.

Lemma update_permanentsE r d idx last prd (p : nat -> F) : substate r s ->
  (k = Ryser -> prd = smult r * \prod_(a <- particle_modes t) sumv M s k r a) ->
  update_permanents k (sstate r d idx last prd (mkseq p (size s))) =
  Ok (mkseq (fun i => p i + addend i r) (size s)).
Proof.
move=> rs prdE; rewrite /update_permanents /=.
have -> : match k with Ryser => size (mkseq p (size s)) | ChinHuh => size s end = size s.
  by case: (k); rewrite ?size_mkseq.
have [sr le] := substateP _ _ rs.
apply: (@rfoldl_pointwise _ 0) => perms i il sp pi.
rewrite (py_get_nth 0%N) //= (py_get_nth 0) ?size_map ?sr //= (nth_map 0%N) ?sr //.
rewrite eqz_nat /addend; case: ifP => [_|/negbT].
  rewrite addr0; congr Ok; apply: (@eq_from_nth _ 0).
    by rewrite size_set_nth; apply/esym/maxn_idPr; rewrite sp.
  by move=> x _; rewrite nth_set_nth /=; case: eqP => [->|].
rewrite negb_or => /andP[sn rn]; have sp0 : (0 < nth 0%N s i)%N by rewrite lt0n.
suff E : match k with
    | Ryser => rbind (updated_binomial (binv F s r) (nth 0%N s i) (Posz (nth 0%N r i)))
                 (fun b => Ok (prd * b))
    | ChinHuh =>
        rbind (rfoldl (fun d0 j => rbind (dict_get (dict_of (sumv M s k r) cols) j) (fun v =>
              rbind (mget M j i) (fun a => Ok (dict_set d0 j (v - a))))) [::] cols)
          (fun upd => rbind (updated_binomial (binv F s r) (nth 0%N s i) (Posz (nth 0%N r i)))
          (fun b => rfoldl (fun acc j => rbind (dict_get upd j) (fun v =>
               rbind (py_get t (Posz j)) (fun e => Ok (acc * v ^+ e)))) (smult r * b) cols))
    end = Ok (termv M (decr s i) t k r).
  by rewrite E /= (py_get_nth 0) ?sp //= (py_set_nth 0) ?sp // pi.
have sd : sumn (decr s i) = sumn t by rewrite sumn_decr // st_sum.
have mE : multv F (decr s i) k r = smult r.
  by rewrite /multv /smult; case: (k); rewrite /= sd.
case kk: k.
  rewrite updated_binomialE //=; congr Ok; rewrite prdE // /termv -kk mE mulrAC; congr (_ * _).
  by apply: eq_bigr => a _; rewrite /sumv kk.
rewrite (@rfoldl_dict_build _ _ (sumv M (decr s i) k r)) ?np_nonzero_uniq //=; last first.
  move=> d0 j jc nj; rewrite -kk dict_get_of //= (mgetE sqM (cols_lt st_size sm jc) (leq_trans il sm)) /=.
  by rewrite sums_decr // dict_set_new.
rewrite updated_binomialE //= (@rfoldl_mul2 _ _ _ (sumv M (decr s i) k r) t).
- by rewrite (prod_cols (f := sumv M (decr s i) k r)) // /termv -kk mE.
- by move=> j jc; rewrite dict_get_of.
- by move=> j jc; rewrite (py_get_nth 0%N) // np_nonzero_lt.
Qed.

Lemma loop_sub r d l : run s r d l -> size d = size s -> substate r s ->
  forall idx last prd (p : nat -> F) fuel, (size l < fuel)%N ->
  exists d' r' idx' last' prd',
    permanents_loop fuel k (sstate r d idx last prd (mkseq p (size s))) =
    Ok (sstate r' d' idx' last' prd' (mkseq (fun i => p i + \sum_(q <- l) addend i q) (size s))).
Proof.
have s0 := sub_s0.
have last_get (A : Type) (x0 : A) (q : seq A) : size q = size s ->
    py_get q (Negz 0) = Ok (nth x0 q (size s).-1).
  by move=> sq; rewrite /py_get /= sq lt0n size_eq0 s0 /= subn1 (drop_nth x0) //
     sq prednK // lt0n size_eq0 s0.
have spos : ((size s).-1 < size s)%N by rewrite prednK // lt0n size_eq0.
elim=> {r d l} [r d E|r d i r' d' l E ne R IH] sd rs idx last prd p [//|fuel] lf;
  have [sr le] := substateP _ _ rs.
all: rewrite [permanents_loop _ _ _]/= !(last_get _ 0) ?size_map //= !(nth_map 0%N) ?sr //.
all: rewrite ifT; last by rewrite lez_nat.
all: rewrite update_guan_codeE //; have := gstep_size sr sd; have := gstep_move sr sd rs.
  case: (gstep s r d) E => -[i r'] d' /= ->; rewrite eqxx => -> [_ _ sd'].
  rewrite size_map sr eqxx; exists d', r, (size s), last, prd; congr (Ok (sstate _ _ _ _ _ _)).
  by apply: eq_map => j; rewrite big_nil addr0.
rewrite E (negPf ne) => -[rs' il H] [_ sr' sd'] /=; rewrite size_map sr' (negPf ne).
rewrite update_binomialsE //= /update_sub_sums /= (update_sumsE k sqM st_size sm sub_s0) //=.
have Em : - smult r = smult r'.
  rewrite /smult -mulrN -mulN1r -exprS.
  case: H => -[H ->]; first by rewrite sumn_incr // sr.
  rewrite sumn_decr //; have: (0 < sumn r)%N; last by case: (sumn r) => // n _; rewrite /= !exprS; ring.
  by rewrite -(incr_decr H) sumn_incr // size_decr ?sr.
rewrite Em.
have [prd' [E1 E2]] : exists prd', (if k is Ryser then
     rbind (rfoldl (fun acc j => rbind (dict_get (dict_of (sumv M s k r') cols) j) (fun v =>
            rbind (py_get t (Posz j)) (fun e => Ok (acc * v ^+ e)))) 1
          [seq i.1 | i <- dict_of (sumv M s k r') cols])
       (fun p0 => Ok (dict_of (sumv M s k r') cols, p0 * smult r'))
   else Ok (dict_of (sumv M s k r') cols, prd)) = Ok (dict_of (sumv M s k r') cols, prd') /\
  (k = Ryser -> prd' = smult r' * \prod_(a <- particle_modes t) sumv M s k r' a).
  case kk: k; last by exists prd; split.
  rewrite keys_dict_of (@rfoldl_mul2 _ _ _ (sumv M s k r') t).
  - exists (smult r' * \prod_(a <- particle_modes t) sumv M s k r' a); rewrite kk; split=> //=.
    congr (Ok (_, _)); rewrite mulrC (prod_cols (f := sumv M s k r')) ?kk //.
    by rewrite mul1r mulrC.
  - by move=> j jc; rewrite -kk dict_get_of.
  - by move=> j jc; rewrite (py_get_nth 0%N) // np_nonzero_lt.
rewrite E1 /= -/(gstate s r' d' i (Posz (nth 0%N r i))).
rewrite -/(sstate r' d' i (Posz (nth 0%N r i)) prd' (mkseq p (size s))) update_permanentsE //=.
have [d2 [r2 [i2 [l2 [p2 E3]]]]] := IH sd' rs' i (Posz (nth 0%N r i)) prd'
   (fun i => p i + addend i r') fuel lf.
exists d2, r2, i2, l2, p2; rewrite /sstate in E3 *; rewrite E3; congr (Ok (Subcalc _ _ _ _ _ _ _ _ _ _)).
by apply: eq_map => j; rewrite big_cons addrA.
Qed.


Lemma sum_addend i : (i < size s)%N ->
  \sum_(q <- subs s) addend i q =
  if nth 0%N s i == 0%N then 0 else bs_permanent M (decr s i) t.
Proof.
move=> il; rewrite /addend; case: eqP => [_|/eqP sn] /=; first exact: big1.
have sp0 : (0 < nth 0%N s i)%N by rewrite lt0n.
rewrite -(guan_sum M k) ?sumn_decr ?st_sum //.
rewrite (eq_bigr (fun q => if nth 0%N q i != nth 0%N s i then termv M (decr s i) t k q else 0));
  last by move=> q _; rewrite -if_neg.
rewrite -big_mkcond -big_filter; apply: perm_big; apply: uniq_perm; rewrite ?filter_uniq ?subs_uniq //.
move=> q; rewrite mem_filter !mem_subs; apply/andP/substateP => [[ne /substateP[sq le]]|[sq le]].
  split=> [|j]; first by rewrite size_decr.
  rewrite nth_decr; case: eqP => [->|_]; last exact: le.
  by rewrite -ltnS prednK // ltn_neqAle ne le.
rewrite size_decr // in sq; split; last first.
  apply/substateP; split=> // j; have := le j; rewrite nth_decr; case: eqP => [->|//].
  by move/leq_trans; apply; exact: leq_pred.
have := le i; rewrite nth_decr eqxx => h; rewrite neq_ltn; apply/orP; left.
by rewrite -ltnS prednK // in h.
Qed.

Lemma compute_subE c fuel : sc_matrix c = M -> sc_input c = s -> sc_output c = t ->
  (\prod_(x <- s) x.+1 <= fuel)%N ->
  exists c', [/\ compute_permanents fuel k c =
    Ok (mkseq (fun i => if nth 0%N s i == 0%N then 0 else bs_permanent M (decr s i) t) (size s), c'),
    sc_matrix c' = M, sc_input c' = s & sc_output c' = t].
Proof.
case: c => M' s' t' g b mu co su prd perms /= -> -> -> fu; rewrite /compute_permanents /=.
rewrite st_sum eqSS eqn0Ngt t0 /= /init_subcomputation /= (sums_initE k sqM) //=.
have z0 : nseq (size s) (0 : F) = mkseq (fun=> 0) (size s).
  by apply: (@eq_from_nth _ 0); rewrite size_nseq ?size_mkseq // => i il; rewrite nth_nseq nth_mkseq // if_same.
have E0 : init_guan s g = gstate s (nseq (size s) 0%N) (nseq (size s) true) (g_idx g) (g_last g).
  by rewrite /init_guan /gstate !map_nseq.
have b0 : 1 = binv F s (nseq (size s) 0%N) by rewrite /binv binp0.
have m0' : match k with
   | Ryser => (-1) ^+ sumn t | ChinHuh => 1 / 2%:R ^ (Posz (sumn s) - 1) end
   = smult (nseq (size s) 0%N).
  rewrite /smult sumn_nseq mul0n mulr1 /init_multiplier; case: (k) => //.
  by have -> : (Posz (sumn s) - 1)%R = Posz (sumn t) by rewrite st_sum; lia.
have rs : substate (nseq (size s) 0%N) s.
  by apply/substateP; split=> [|i]; rewrite ?size_nseq // nth_nseq if_same.
rewrite E0 z0 m0' b0.
rewrite -/(sstate (nseq (size s) 0%N) (nseq (size s) true) (g_idx g) (g_last g) prd (mkseq (fun=> 0) (size s))).
have sc : (size (behead (codes s)) < fuel)%N.
  by rewrite size_behead size_codes; apply: leq_trans fu; rewrite ltn_predL prodn_gt0.
have st' : size (nseq (size s) true) = size s by rewrite size_nseq.
have fin (p : nat -> F) prd0 : (forall i, (i < size s)%N -> p i = addend i (nseq (size s) 0%N)) ->
  exists c', [/\ rbind (permanents_loop fuel k (sstate (nseq (size s) 0%N) (nseq (size s) true)
       (g_idx g) (g_last g) prd0 (mkseq p (size s)))) (fun c'' => Ok (sc_perms c'', c'')) =
    Ok (mkseq (fun i => if nth 0%N s i == 0%N then 0 else bs_permanent M (decr s i) t) (size s), c'),
    sc_matrix c' = M, sc_input c' = s & sc_output c' = t].
  move=> pE; have [d2 [r2 [i2 [l2 [p2 ->]]]]] :=
    loop_sub (run_codes s) st' rs (g_idx g) (g_last g) prd0 p sc.
  set P := mkseq _ _; exists (sstate r2 d2 i2 l2 p2 P); split=> //=; congr (Ok (_, _)).
  apply/eq_in_map => i.
  rewrite mem_iota add0n => /andP[_ il]; rewrite pE // -sum_addend //.
  by rewrite -(perm_big _ (perm_codes s)) codes_head big_cons.
case kk: k.
  rewrite -kk; apply: (fin (fun=> 0)) => i il; rewrite /addend; case: ifP => // _.
  rewrite /termv; have [a ap] : exists a, a \in particle_modes t.
    case E: (particle_modes t) => [|a l]; last by exists a; rewrite inE eqxx.
    by have := size_particle_modes t; rewrite E; move: t0; case: (sumn t).
  rewrite (big_rem a) //= /sumv kk /Lin big1 ?mul0r ?mulr0 // => j _.
  by rewrite nth_nseq if_same mul0r.
rewrite -kk update_permanentsE //; last by rewrite kk.
by apply: fin => i il; rewrite add0r.
Qed.

End Sub.

Lemma compute_sub_one (F : numFieldType) (M : seq (seq F)) s t k c fuel :
  size t = size s -> sumn s = 1%N -> sumn t = 0%N ->
  sc_matrix c = M -> sc_input c = s -> sc_output c = t ->
  compute_permanents fuel k c =
  Ok (mkseq (fun i => if nth 0%N s i == 0%N then 0 else bs_permanent M (decr s i) t) (size s), c).
Proof.
move=> sz s1 t0; case: c => M' s' t' g b mu co su prd perms /= -> -> ->.
rewrite /compute_permanents /= s1 eqxx; congr (Ok (_, _)).
apply: (@eq_from_nth _ 0); rewrite size_map ?size_mkseq // => i il.
rewrite nth_mkseq // (nth_map 0%N) //; case: eqP => [->//|/eqP n0].
have sp : (0 < nth 0%N s i)%N by rewrite lt0n.
rewrite bs_permanent_PerO; last by rewrite sumn_decr // s1 t0.
have -> : particle_modes t = [::] by apply/size0nil; rewrite size_particle_modes.
have : (nth 0 s i <= 1)%N by rewrite -s1 sumn_nth (bigD1 (Ordinal il)) //= leq_addr.
by case: (nth 0%N s i) sp => [|[|]].
Qed.
