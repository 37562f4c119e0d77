(* Passes of the loops of the Guan code calculators. *)
From mathcomp Require Import all_ssreflect all_algebra zify ring.
From Verif Require Import Base SpecStates Combi SpecPerm PermMath ModelPerm ProofPerm1 ProofPerm2 ProofPerm5.
Set Implicit Arguments.
Unset Strict Implicit.
Unset Printing Implicit Defensive.
Import GRing.Theory Num.Theory.
Local Open Scope ring_scope.

Section Mono.
Variable F : numFieldType.

Lemma loop_mono fuel k (c c' : calc F) n : permanent_loop fuel k c = Ok c' -> permanent_loop (fuel + n) k c = Ok c'.
Proof.
elim: fuel c => [|fuel IH] c.
  rewrite add0n => /=; case: n => [|n] //=; case: (py_get _ _) => [r|e] //=; case: (py_get _ _) => [l|e] //=.
  by case: ifP.
rewrite addSn /=; case: (py_get _ _) => [r|e] //=; case: (py_get _ _) => [l|e] //=; case: ifP => // _.
case: (update_guan_code _) => [g|e] //=; case: ifP => // _.
case: (update_sums _ _ _ _) => [su|e] //=; case: (update_binomials _ _ _) => [b|e] //=.
by case: (update_permanent _) => [c1|e] //=; exact: IH.
Qed.

Lemma compute_mono fuel fuel' k (c c' : calc F) : (fuel <= fuel')%N ->
  compute_permanent fuel k c = Ok c' -> compute_permanent fuel' k c = Ok c'.
Proof.
move=> /subnKC <-; rewrite /compute_permanent; case: (can_calculate _ _ _) => [b|e] //=; case: ifP => // _.
by case: (init_computation _ _) => [c1|e] //=; exact: loop_mono.
Qed.

Lemma subloop_mono fuel k (c c' : subcalc F) n : permanents_loop fuel k c = Ok c' -> permanents_loop (fuel + n) k c = Ok c'.
Proof.
elim: fuel c => [|fuel IH] c.
  rewrite add0n => /=; case: n => [|n] //=; case: (py_get _ _) => [r|e] //=; case: (py_get _ _) => [l|e] //=.
  by case: ifP.
rewrite addSn /=; case: (py_get _ _) => [r|e] //=; case: (py_get _ _) => [l|e] //=; case: ifP => // _.
case: (update_guan_code _) => [g|e] //=; case: ifP => // _.
case: (update_binomials _ _ _) => [b|e] //=; case: (update_sub_sums _ _) => [su|e] //=.
by case: (update_permanents _ _) => [c1|e] //=; exact: IH.
Qed.

Lemma subs_mono fuel fuel' k (c : subcalc F) x : (fuel <= fuel')%N ->
  compute_permanents fuel k c = Ok x -> compute_permanents fuel' k c = Ok x.
Proof.
move=> /subnKC <-; rewrite /compute_permanents.
case: ifP => // _; case: (init_subcomputation _ _) => [c1|e] //=.
by case E: (permanents_loop fuel k c1) => [c3|e] //= [<-]; rewrite (subloop_mono _ E).
Qed.
End Mono.

Section Short.
Variable F : numFieldType.
Variables (m : nat) (M : seq (seq F)) (s t : seq nat) (k : guan_kind).
Hypothesis sqM : is_square m M.
Hypothesis st_size : size t = size s.
Hypothesis sm : (size s <= m)%N.
Hypothesis s0 : s != [::].
Notation cstate := (cstate M s t k).

Lemma loop_short r d l : run s r d l -> size d = size s -> substate r s ->
  forall idx last p fuel, (fuel <= size l)%N ->
  permanent_loop fuel k (cstate r d idx last p) = Err OutOfFuel.
Proof using sqM st_size sm s0.
have last_get (A : Type) (x0 : A) (q : seq A) : size q = size s ->
    py_get q (Negz 0) = Ok (nth x0 q (size s).-1).
  by move=> sq; rewrite /py_get /= sq lt0n size_eq0 s0 /= subn1 (drop_nth x0) //
     sq prednK // lt0n size_eq0 s0.
have spos : ((size s).-1 < size s)%N by rewrite prednK // lt0n size_eq0.
elim=> {r d l} [r d E|r d i r' d' l E ne R IH] sd rs idx last p fuel lf;
  have [sr le] := substateP _ _ rs.
  move: lf; rewrite leqn0 => /eqP -> /=.
  rewrite !(last_get _ 0) ?size_map //= !(nth_map 0%N) ?sr //.
  by rewrite ifT // lez_nat.
case: fuel lf => [|fuel] lf.
  by rewrite /= !(last_get _ 0) ?size_map //= !(nth_map 0%N) ?sr // ifT // lez_nat.
rewrite [permanent_loop _ _ _]/= !(last_get _ 0) ?size_map //= !(nth_map 0%N) ?sr //.
rewrite ifT; last by rewrite lez_nat.
rewrite update_guan_codeE //; have := gstep_size sr sd; have := gstep_move sr sd rs.
rewrite E (negPf ne) => -[rs' il H] [_ sr' sd'] /=; rewrite size_map sr' (negPf ne).
rewrite (update_sumsE k sqM) //= update_binomialsE //=.
rewrite update_permanentE //=.
have Em : - multv F s k r = multv F s k r'.
  rewrite /multv -mulrN -mulN1r -exprS.
  case: H => -[H ->]; first by rewrite sumn_incr // sr.
  rewrite sumn_decr //; have: (0 < sumn r)%N; last by case: (sumn r) => // n _; rewrite /= !exprS; ring.
  by rewrite -(incr_decr H) sumn_incr // size_decr ?sr.
by rewrite Em; exact: IH.
Qed.

Lemma compute_short c fuel : c_matrix c = M -> c_input c = s -> c_output c = t ->
  (fuel < \prod_(x <- s) x.+1)%N -> compute_permanent fuel k c = Err OutOfFuel.
Proof using sqM st_size sm s0.
case: c => M' s' t' g b mu co su pe /= -> -> -> fu; rewrite /compute_permanent /can_calculate /=.
have m0 : (0 < m)%N by apply: leq_trans sm; rewrite lt0n size_eq0.
have [-> sz] := mget0 sqM m0; rewrite /= sz.
case/andP: (sqM) => /eqP -> _; rewrite eqxx st_size eqxx sm /=.
rewrite /init_computation /= (sums_initE k sqM) //= update_permanentE //= add0r.
have E0 : init_guan s g = gstate s (nseq (size s) 0%N) (nseq (size s) true) (g_idx g) (g_last g).
  by rewrite /init_guan /gstate !map_nseq.
rewrite E0.
have b0 : binv F s (nseq (size s) 0%N) = 1 by rewrite /binv binp0.
have m0' : multv F s k (nseq (size s) 0%N) = init_multiplier F k s.
  by rewrite /multv sumn_nseq mul0n mulr1.
have := @loop_short _ _ _ (run_codes s) _ _ (g_idx g) (g_last g) (termv M s t k (nseq (size s) 0%N)) fuel.
rewrite /cstate /termv b0 m0'; apply.
- by rewrite size_nseq.
- by apply/substateP; split=> [|i]; rewrite ?size_nseq // nth_nseq if_same.
- by rewrite size_behead size_codes -ltnS prednK // prodn_gt0.
Qed.
End Short.

Section SubShort.
Variable F : numFieldType.
Variables (m : nat) (M : seq (seq F)) (s t : seq nat) (k : guan_kind).
Hypothesis sqM : is_square m M.
Hypothesis st_size : size t = size s.
Hypothesis sm : (size s <= m)%N.
Hypothesis st_sum : sumn s = (sumn t).+1.
Hypothesis t0 : (0 < sumn t)%N.
Notation cols := (np_nonzero t).
Notation sstate := (sstate M s t k).
Notation smult := (smult F t k).
Let s0 : s != [::] := sub_s0 st_sum.

Lemma subloop_short r d l : run s r d l -> size d = size s -> substate r s ->
  forall idx last prd (p : nat -> F) fuel, (fuel <= size l)%N ->
  permanents_loop fuel k (sstate r d idx last prd (mkseq p (size s))) = Err OutOfFuel.
Proof.
have last_get (A : Type) (x0 : A) (q : seq A) : size q = size s ->
    py_get q (Negz 0) = Ok (nth x0 q (size s).-1).
  by move=> sq; rewrite /py_get /= sq lt0n size_eq0 s0 /= subn1 (drop_nth x0) //
     sq prednK // lt0n size_eq0 s0.
have spos : ((size s).-1 < size s)%N by rewrite prednK // lt0n size_eq0.
elim=> {r d l} [r d E|r d i r' d' l E ne R IH] sd rs idx last prd p fuel lf;
  have [sr le] := substateP _ _ rs.
  move: lf; rewrite leqn0 => /eqP -> /=.
  rewrite !(last_get _ 0) ?size_map //= !(nth_map 0%N) ?sr //.
  by rewrite ifT // lez_nat.
case: fuel lf => [|fuel] lf.
  by rewrite /= !(last_get _ 0) ?size_map //= !(nth_map 0%N) ?sr // ifT // lez_nat.
rewrite [permanents_loop _ _ _]/= !(last_get _ 0) ?size_map //= !(nth_map 0%N) ?sr //.
rewrite ifT; last by rewrite lez_nat.
rewrite update_guan_codeE //; have := gstep_size sr sd; have := gstep_move sr sd rs.
rewrite E (negPf ne) => -[rs' il H] [_ sr' sd'] /=; rewrite size_map sr' (negPf ne).
rewrite update_binomialsE //= /update_sub_sums /= (update_sumsE k sqM st_size sm s0) //=.
have Em : - smult r = smult r'.
  rewrite /smult -mulrN -mulN1r -exprS.
  case: H => -[H ->]; first by rewrite sumn_incr // sr.
  rewrite sumn_decr //; have: (0 < sumn r)%N; last by case: (sumn r) => // n _; rewrite /= !exprS; ring.
  by rewrite -(incr_decr H) sumn_incr // size_decr ?sr.
rewrite Em.
have [prd' [E1 E2]] : exists prd', (if k is Ryser then
     rbind (rfoldl (fun acc j => rbind (dict_get (dict_of (sumv M s k r') cols) j) (fun v =>
            rbind (py_get t (Posz j)) (fun e => Ok (acc * v ^+ e)))) 1
          [seq i.1 | i <- dict_of (sumv M s k r') cols])
       (fun p0 => Ok (dict_of (sumv M s k r') cols, p0 * smult r'))
   else Ok (dict_of (sumv M s k r') cols, prd)) = Ok (dict_of (sumv M s k r') cols, prd') /\
  (k = Ryser -> prd' = smult r' * \prod_(a <- particle_modes t) sumv M s k r' a).
  case kk: k; last by exists prd; split.
  rewrite keys_dict_of (@rfoldl_mul2 _ _ _ (sumv M s k r') t).
  - exists (smult r' * \prod_(a <- particle_modes t) sumv M s k r' a); rewrite kk; split=> //=.
    congr (Ok (_, _)); rewrite mulrC (prod_cols (f := sumv M s k r')) ?kk //.
    by rewrite mul1r mulrC.
  - by move=> j jc; rewrite -kk dict_get_of.
  - by move=> j jc; rewrite (py_get_nth 0%N) // np_nonzero_lt.
rewrite E1 /= -/(gstate s r' d' i (Posz (nth 0%N r i))).
rewrite -/(sstate r' d' i (Posz (nth 0%N r i)) prd' (mkseq p (size s))) (update_permanentsE sqM) //=.
exact: (IH sd' rs' i (Posz (nth 0%N r i)) prd' (fun i => p i + addend M s t k i r') fuel lf).
Qed.

Lemma subs_short c fuel : sc_matrix c = M -> sc_input c = s -> sc_output c = t ->
  (fuel < \prod_(x <- s) x.+1)%N -> compute_permanents fuel k c = Err OutOfFuel.
Proof.
case: c => M' s' t' g b mu co su prd perms /= -> -> -> fu; rewrite /compute_permanents /=.
rewrite st_sum eqSS eqn0Ngt t0 /= /init_subcomputation /= (sums_initE k sqM) //=.
have z0 : nseq (size s) (0 : F) = mkseq (fun=> 0) (size s).
  by apply: (@eq_from_nth _ 0); rewrite size_nseq ?size_mkseq // => i il; rewrite nth_nseq nth_mkseq // if_same.
have E0 : init_guan s g = gstate s (nseq (size s) 0%N) (nseq (size s) true) (g_idx g) (g_last g).
  by rewrite /init_guan /gstate !map_nseq.
have b0 : 1 = binv F s (nseq (size s) 0%N) by rewrite /binv binp0.
have m0' : match k with
   | Ryser => (-1) ^+ sumn t | ChinHuh => 1 / 2%:R ^ (Posz (sumn s) - 1) end
   = smult (nseq (size s) 0%N).
  rewrite /smult sumn_nseq mul0n mulr1 /init_multiplier; case: (k) => //.
  by have -> : (Posz (sumn s) - 1)%R = Posz (sumn t) by rewrite st_sum; lia.
have rs : substate (nseq (size s) 0%N) s.
  by apply/substateP; split=> [|i]; rewrite ?size_nseq // nth_nseq if_same.
rewrite E0 z0 m0' b0.
rewrite -/(sstate (nseq (size s) 0%N) (nseq (size s) true) (g_idx g) (g_last g) prd (mkseq (fun=> 0) (size s))).
have sc : (fuel <= size (behead (codes s)))%N.
  by rewrite size_behead size_codes -ltnS prednK // prodn_gt0.
have st' : size (nseq (size s) true) = size s by rewrite size_nseq.
have fin (p : nat -> F) prd0 : rbind (permanents_loop fuel k (sstate (nseq (size s) 0%N) (nseq (size s) true)
       (g_idx g) (g_last g) prd0 (mkseq p (size s)))) (fun c'' => Ok (sc_perms c'', c'')) = Err OutOfFuel.
  by rewrite (subloop_short (run_codes s) st' rs _ _ prd0 p sc).
case kk: k; rewrite -kk; first exact: (fin (fun=> 0)).
rewrite (update_permanentsE sqM) //; last by rewrite kk.
exact: fin.
Qed.
End SubShort.
