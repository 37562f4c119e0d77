(* Ryser and Chin-Huh calculators. *)
From mathcomp Require Import all_ssreflect all_algebra zify ring.
From Verif Require Import Base SpecStates Combi SpecPerm PermMath ModelPerm ProofPerm1.
Set Implicit Arguments.
Unset Strict Implicit.
Unset Printing Implicit Defensive.
Import GRing.Theory Num.Theory.
Local Open Scope ring_scope.

(* ------------------------------------------------------------------ *)
(* binomial products *)
Fixpoint binp (s r : seq nat) : nat :=
  match s, r with
  | x :: s', a :: r' => ('C(x, a) * binp s' r')%N
  | _, _ => 1%N
  end.

Lemma binp0 s : binp s (nseq (size s) 0%N) = 1%N.
Proof. by elim: s => //= x s ->; rewrite bin0. Qed.

Lemma binp_incr s r i : (i < size s)%N -> size r = size s ->
  ((nth 0 r i).+1 * binp s (incr r i) = (nth 0 s i - nth 0 r i) * binp s r)%N.
Proof.
elim: s r i => [//|x s IH] [//|a r] [|i] /= il [sr].
  by rewrite incr0 /= mulnA mul_bin_left mulnA.
by rewrite incr_cons /= mulnCA IH // mulnCA.
Qed.

Section Dict.
Variable F : numFieldType.
Implicit Types (f g : nat -> F) (cols : seq nat) (d : dict F).

Definition dict_of f cols : dict F := [seq (j, f j) | j <- cols].

Lemma keys_dict_of f cols : map fst (dict_of f cols) = cols.
Proof. by rewrite -map_comp map_id_in. Qed.

Lemma dict_get_of f cols j : j \in cols -> dict_get (dict_of f cols) j = Ok (f j).
Proof.
elim: cols => [//|k cols IH] /=; rewrite inE; case: (eqVneq k j) => [->//|ne] /=.
exact: IH.
Qed.

Lemma dict_get_cat d1 d2 j : j \notin map fst d1 -> dict_get (d1 ++ d2) j = dict_get d2 j.
Proof.
elim: d1 => [//|[k v] d1 IH] /=; rewrite inE negb_or => /andP[ne nd].
by rewrite eq_sym (negPf ne) IH.
Qed.

Lemma dict_set_cat d1 d2 j v : j \notin map fst d1 ->
  dict_set (d1 ++ d2) j v = d1 ++ dict_set d2 j v.
Proof.
elim: d1 => [//|[k w] d1 IH] /=; rewrite inE negb_or => /andP[ne nd].
by rewrite eq_sym (negPf ne) IH.
Qed.

Lemma dict_set_new d j v : j \notin map fst d -> dict_set d j v = rcons d (j, v).
Proof. by move=> nj; rewrite -{1}[d]cats0 dict_set_cat //= cats1. Qed.

Lemma rfoldl_dict_update (upd : dict F -> nat -> res (dict F)) f g cols : uniq cols ->
  (forall d j, j \in cols -> dict_get d j = Ok (f j) -> upd d j = Ok (dict_set d j (g j))) ->
  rfoldl upd (dict_of f cols) cols = Ok (dict_of g cols).
Proof.
move=> uc U.
suff H p q : cols = p ++ q -> rfoldl upd (dict_of g p ++ dict_of f q) q = Ok (dict_of g cols).
  exact: (H [::] cols).
elim: q p => [|j q IH] p E; first by rewrite /= cats0 E cats0.
have nj : j \notin map fst (dict_of g p).
  rewrite keys_dict_of; move: uc; rewrite E cat_uniq => /and3P[_ /hasPn/(_ j) H _].
  by apply: H; rewrite inE eqxx.
rewrite [rfoldl _ _ _]/= U.
- rewrite /= dict_set_cat //= eqxx.
  have -> : dict_of g p ++ (j, g j) :: dict_of f q = dict_of g (rcons p j) ++ dict_of f q.
    by rewrite /dict_of map_rcons cat_rcons.
  by apply: IH; rewrite cat_rcons.
- by rewrite E mem_cat inE eqxx orbT.
- by rewrite dict_get_cat //= eqxx.
Qed.

Lemma rfoldl_dict_build (upd : dict F -> nat -> res (dict F)) f cols : uniq cols ->
  (forall d j, j \in cols -> j \notin map fst d -> upd d j = Ok (rcons d (j, f j))) ->
  rfoldl upd [::] cols = Ok (dict_of f cols).
Proof.
move=> uc U.
suff H p q : cols = p ++ q -> rfoldl upd (dict_of f p) q = Ok (dict_of f cols).
  exact: (H [::] cols).
elim: q p => [|j q IH] p E; first by rewrite /= E cats0.
rewrite [rfoldl _ _ _]/= U.
- have -> : rcons (dict_of f p) (j, f j) = dict_of f (rcons p j) by rewrite /dict_of map_rcons.
  by apply: IH; rewrite cat_rcons.
- by rewrite E mem_cat inE eqxx orbT.
- rewrite keys_dict_of; move: uc; rewrite E cat_uniq => /and3P[_ /hasPn/(_ j) H _].
  by apply: H; rewrite inE eqxx.
Qed.

Lemma foldl_dict_zero cols : uniq cols ->
  foldl (fun d j => dict_set d j 0) [::] cols = dict_of (fun=> 0) cols.
Proof.
move=> uc; have := @rfoldl_dict_build (fun d j => Ok (dict_set d j 0)) (fun=> 0) cols uc.
rewrite (@rfoldl_ok _ _ _ (fun d j => dict_set d j 0)) // => H.
by have [] := H (fun d j _ nj => congr1 Ok (dict_set_new _ nj)).
Qed.

(* the product over the considered columns *)
Lemma prod_cols (t : seq nat) f g (c : F) :
  {in np_nonzero t, forall j, g j = f j} ->
  c * \prod_(j <- np_nonzero t) g j ^+ nth 0%N t j = c * \prod_(a <- particle_modes t) f a.
Proof.
move=> fg; congr (_ * _); rewrite /np_nonzero big_filter /particle_modes big_flatten big_map.
rewrite [LHS]big_mkcond /=; apply: eq_big_seq => j jl.
case: (eqVneq (nth 0%N t j) 0%N) => [->|ne] /=; first by rewrite big_nil.
rewrite fg; last by rewrite mem_filter ne jl.
by elim: (nth 0%N t j) => [|k IH]; rewrite /= ?big_nil ?expr0 // big_cons exprS IH.
Qed.

Lemma np_nonzero_uniq t : uniq (np_nonzero t).
Proof. by rewrite filter_uniq // iota_uniq. Qed.

Lemma np_nonzero_lt t j : j \in np_nonzero t -> (j < size t)%N.
Proof. by rewrite mem_filter mem_iota add0n => /andP[_]. Qed.

Lemma rfoldl_mul (h : nat -> res F) f c cols : {in cols, forall j, h j = Ok (f j)} ->
  rfoldl (fun acc j => rbind (h j) (fun v => Ok (acc * v))) c cols = Ok (c * \prod_(j <- cols) f j).
Proof.
elim: cols c => [|j cols IH] c H /=; first by rewrite big_nil mulr1.
rewrite H ?inE ?eqxx //= IH; first by rewrite big_cons mulrA.
by move=> k kc; apply: H; rewrite inE kc orbT.
Qed.

Lemma rfoldl_mul2 (h : nat -> res F) (e : nat -> res nat) f (t : seq nat) c cols :
  {in cols, forall j, h j = Ok (f j)} -> {in cols, forall j, e j = Ok (nth 0%N t j)} ->
  rfoldl (fun acc j => rbind (h j) (fun v => rbind (e j) (fun k => Ok (acc * v ^+ k)))) c cols
  = Ok (c * \prod_(j <- cols) f j ^+ nth 0%N t j).
Proof.
elim: cols c => [|j cols IH] c H1 H2 /=; first by rewrite big_nil mulr1.
rewrite H1 ?inE ?eqxx //= H2 ?inE ?eqxx //= IH; first by rewrite big_cons mulrA.
  by move=> k kc; apply: H1; rewrite inE kc orbT.
by move=> k kc; apply: H2; rewrite inE kc orbT.
Qed.

End Dict.

Section Entries.
Variable F : numFieldType.
Variables (m : nat) (M : seq (seq F)).
Hypothesis sqM : is_square m M.

Lemma mgetE j i : (j < m)%N -> (i < m)%N -> mget M j i = Ok (ent M j i).
Proof.
move=> jm im; case/andP: sqM => /eqP sM /allP rM; rewrite /mget.
rewrite (py_get_nth [::]) ?sM //= (py_get_nth 0) //.
by rewrite (eqP (rM _ (mem_nth _ _))) // sM.
Qed.

Lemma mget0 : (0 < m)%N -> py_get M 0 = Ok (nth [::] M 0) /\ size (nth [::] M 0) = m.
Proof.
move=> m0; case/andP: sqM => /eqP sM /allP rM; split; first by apply: py_get_nth; rewrite sM.
by rewrite (eqP (rM _ (mem_nth _ _))) // sM.
Qed.

End Entries.

(* ------------------------------------------------------------------ *)
(* loop invariant *)
Section Loop.
Variable F : numFieldType.
Variables (m : nat) (M : seq (seq F)) (s t : seq nat) (k : guan_kind).
Hypothesis sqM : is_square m M.
Hypothesis st_size : size t = size s.
Hypothesis sm : (size s <= m)%N.
Hypothesis s0 : s != [::].

Notation u := (ent M).

(* the value of _sums[j] at code r *)
Definition sumv (r : seq nat) (j : nat) : F :=
  match k with
  | Ryser => Lin u r j
  | ChinHuh => Lin u s j - 2%:R * Lin u r j
  end.

Definition multv (r : seq nat) : F := init_multiplier F k s * (-1) ^+ sumn r.
Definition binv (r : seq nat) : F := (binp s r)%:R.
Definition termv (r : seq nat) : F := multv r * binv r * \prod_(a <- particle_modes t) sumv r a.

Notation cols := (np_nonzero t).

Definition cstate r d idx last p : calc F :=
  Calc M s t (gstate s r d idx last) (binv r) (multv r) cols (dict_of (sumv r) cols) p.

Lemma cols_lt j : j \in cols -> (j < m)%N.
Proof. by move/np_nonzero_lt => jl; apply: leq_trans jl _; rewrite st_size. Qed.

Lemma update_permanentE g b mu f p :
  update_permanent (Calc M s t g b mu cols (dict_of f cols) p) =
  Ok (Calc M s t g b mu cols (dict_of f cols) (p + mu * b * \prod_(a <- particle_modes t) f a)).
Proof.
rewrite /update_permanent /= (@rfoldl_mul2 _ _ _ f t).
- by rewrite /= (prod_cols (f := f)).
- by move=> j jc; rewrite dict_get_of.
- by move=> j jc; rewrite (py_get_nth 0%N) // np_nonzero_lt.
Qed.

Lemma update_sumsE r r' d i : (i < size s)%N -> size r = size s ->
  (nth 0%N r i < nth 0%N s i)%N /\ r' = incr r i \/ (0 < nth 0%N r i)%N /\ r' = decr r i ->
  update_sums k M (gstate s r' d i (nth 0%N r i)) (dict_of (sumv r) cols)
  = Ok (dict_of (sumv r') cols).
Proof.
move=> il sr H; rewrite /update_sums keys_dict_of; apply: rfoldl_dict_update.
  exact: np_nonzero_uniq.
move=> dd j jc -> /=; rewrite (py_get_nth 0) ?size_map; last first.
  by case: H => -[_ ->]; rewrite ?size_incr ?size_decr sr.
rewrite /= (mgetE sqM (cols_lt jc) (leq_trans il sm)) /=.
have il' : (i < size r)%N by rewrite sr.
rewrite (nth_map 0%N); last by case: H => -[_ ->]; rewrite ?size_incr ?size_decr.
suff E : Lin u r' j = Lin u r j + (Posz (nth 0%N r' i) - Posz (nth 0%N r i))%:~R * u j i.
  by congr (Ok (dict_set _ _ _)); rewrite /sumv; case: (k); rewrite E //; ring.
case: H => -[H ->].
  rewrite Lin_incr // nth_incr eqxx; congr (_ + _).
  by rewrite -[in X in (X - _)%R]addn1 PoszD addrAC subrr add0r mul1r.
rewrite Lin_decr // nth_decr eqxx; congr (_ + _).
have -> : (Posz (nth 0%N r i).-1 - Posz (nth 0%N r i))%R = -1 by lia.
by rewrite mulNr mul1r.
Qed.

Lemma update_binomialsE r r' d i : (i < size s)%N -> substate r s ->
  (nth 0%N r i < nth 0%N s i)%N /\ r' = incr r i \/ (0 < nth 0%N r i)%N /\ r' = decr r i ->
  update_binomials s (gstate s r' d i (nth 0%N r i)) (binv r) = Ok (binv r').
Proof using Type.
clear sqM st_size sm s0 k t.
move=> il /substateP[sr le] H; rewrite /update_binomials /=.
have il' : (i < size r)%N by rewrite sr.
rewrite (py_get_nth 0) ?size_map; last by case: H => -[_ ->]; rewrite ?size_incr ?size_decr.
rewrite /= (py_get_nth 0%N) //= (nth_map 0%N); last first.
  by case: H => -[_ ->]; rewrite ?size_incr ?size_decr.
have divE (x y b b' : nat) : (0 < y)%N -> (y * b' = x * b)%N ->
    rbind (pydiv x%:~R y%:~R) (fun q => Ok (b%:R * q)) = Ok (b'%:R : F).
  move=> y0 E; rewrite /pydiv !pmulrn -!pmulrn pnatr_eq0 eqn0Ngt y0 /=; congr Ok.
  have yn : y%:R != 0 :> F by rewrite pnatr_eq0 -lt0n.
  apply: (mulIf yn); rewrite -mulrA mulfVK // -!natrM [in RHS]mulnC E mulnC //.
case: H => -[H E]; rewrite E ?nth_incr ?nth_decr eqxx.
  rewrite ifT; last by lia.
  rewrite subzn ?(ltnW H) //; apply: divE => //; exact: binp_incr.
rewrite ifF; last by lia.
have H2 := le i; rewrite subzn; last by lia.
apply: divE; first by lia.
have := @binp_incr s (decr r i) i il; rewrite size_decr // nth_decr eqxx prednK // incr_decr //.
by move=> ->.
Qed.

Lemma loop_run r d l : run s r d l -> size d = size s -> substate r s ->
  forall idx last p fuel, (size l < fuel)%N ->
  exists d' r' idx' last', permanent_loop fuel k (cstate r d idx last p) =
    Ok (cstate r' d' idx' last' (p + \sum_(q <- l) termv q)).
Proof.
elim=> {r d l} [r d E|r d i r' d' l E ne R IH] sd rs idx last p [//|fuel] lf;
  have [sr le] := substateP _ _ rs.
all: have last_get (A : Type) (x0 : A) (q : seq A) : size q = size s ->
    py_get q (Negz 0) = Ok (nth x0 q (size s).-1).
  1, 3: by move=> sq; rewrite /py_get /= sq lt0n size_eq0 s0 /= subn1 (drop_nth x0) //
     sq prednK // lt0n size_eq0 s0.
all: rewrite [permanent_loop _ _ _]/= !(last_get _ 0) ?size_map //= !(nth_map 0%N) ?sr
     ?prednK ?lt0n ?size_eq0 //; try by [].
all: rewrite ifT; last by rewrite lez_nat.
all: rewrite update_guan_codeE //; have := gstep_size sr sd; have := gstep_move sr sd rs.
  case: (gstep s r d) E => -[i r'] d' /= ->; rewrite eqxx => -> [_ _ sd'].
  rewrite size_map sr eqxx big_nil addr0; by do 4!eexists; reflexivity.
rewrite E (negPf ne) => -[rs' il H] [_ sr' sd'] /=; rewrite size_map sr' (negPf ne).
rewrite update_sumsE //= update_binomialsE //=.
rewrite update_permanentE /=.
have Em : - multv r = multv r'.
  rewrite /multv -mulrN -mulN1r -exprS.
  case: H => -[H ->]; first by rewrite sumn_incr // sr.
  rewrite sumn_decr //; have: (0 < sumn r)%N; last by case: (sumn r) => // n _; rewrite /= !exprS; ring.
  by rewrite -(incr_decr H) sumn_incr // size_decr ?sr.
rewrite Em -/(termv r').
have [d2 [r2 [i2 [l2 E2]]]] := IH sd' rs' i (Posz (nth 0%N r i)) (p + termv r') fuel lf.
by exists d2, r2, i2, l2; rewrite big_cons addrA -E2.
Qed.


Lemma sums_initE : init_sums k M s cols = Ok (dict_of (sumv (nseq (size s) 0%N)) cols).
Proof.
have L0 j : Lin u (nseq (size s) 0%N) j = 0.
  by rewrite /Lin big1 // => i _; rewrite nth_nseq if_same mul0r.
have E0 f : (forall j, f j = sumv (nseq (size s) 0%N) j) ->
    dict_of f cols = dict_of (sumv (nseq (size s) 0%N)) cols.
  by move=> H; apply: eq_map => j; rewrite H.
rewrite /init_sums; case kk: k.
  by rewrite foldl_dict_zero ?np_nonzero_uniq // E0 // => j; rewrite /sumv kk L0.
rewrite (@rfoldl_dict_build _ _ (fun i => Lin u s i)) ?np_nonzero_uniq //.
  by rewrite E0 // => j; rewrite /sumv kk L0 mulr0 subr0.
move=> d i ic nd.
pose f n := \sum_(j < n) (nth 0%N s j)%:R * u i j.
have H n : (n <= size s)%N ->
  rfoldl (fun d j => rbind (dict_get d i) (fun v => rbind (py_get s (Posz j)) (fun x =>
    rbind (mget M i j) (fun a => Ok (dict_set d i (v + x%:R * a)))))) (dict_set d i 0) (iota 0 n)
  = Ok (rcons d (i, f n)).
  elim: n => [|n IH] ns; first by rewrite /f big_ord0 /= dict_set_new.
  rewrite -addn1 iotaD rfoldl_cat IH ?(ltnW ns) //= add0n -cats1 dict_get_cat //= eqxx /=.
  rewrite (py_get_nth 0%N) //= (mgetE sqM (cols_lt ic) (leq_trans ns sm)) /=.
  by rewrite dict_set_cat //= eqxx /f addn1 big_ord_recr /= cats1.
exact: (H (size s)).
Qed.

Lemma computeE c fuel : c_matrix c = M -> c_input c = s -> c_output c = t ->
  (\prod_(x <- s) x.+1 <= fuel)%N ->
  exists d' r' idx' last', compute_permanent fuel k c =
    Ok (cstate r' d' idx' last' (\sum_(q <- subs s) termv q)).
Proof.
case: c => M' s' t' g b mu co su pe /= -> -> -> fu; rewrite /compute_permanent /can_calculate /=.
have m0 : (0 < m)%N by apply: leq_trans sm; rewrite lt0n size_eq0.
have [-> sz] := mget0 sqM m0; rewrite /= sz.
case/andP: sqM => /eqP -> _; rewrite eqxx st_size eqxx sm /=.
rewrite /init_computation /= sums_initE /= update_permanentE /= add0r.
have E0 : init_guan s g = gstate s (nseq (size s) 0%N) (nseq (size s) true) (g_idx g) (g_last g).
  by rewrite /init_guan /gstate !map_nseq.
rewrite E0.
have [] := @loop_run _ _ _ (run_codes s) _ _ (g_idx g) (g_last g)
   (termv (nseq (size s) 0%N)) fuel.
- by rewrite size_nseq.
- by apply/substateP; split=> [|i]; rewrite ?size_nseq // nth_nseq if_same.
- by rewrite size_behead size_codes; apply: leq_trans fu; rewrite ltn_predL prodn_gt0.
move=> d' [r' [idx' [last' E]]]; exists d', r', idx', last'.
rewrite -(perm_big _ (perm_codes s)) codes_head big_cons -E; congr (permanent_loop _ _ _).
have b0 : binv (nseq (size s) 0%N) = 1 by rewrite /binv binp0.
have m0' : multv (nseq (size s) 0%N) = init_multiplier F k s.
  by rewrite /multv sumn_nseq mul0n mulr1.
by rewrite /cstate /termv b0 m0'.
Qed.

End Loop.

Lemma PerO_scale (R : comRingType) (u : nat -> nat -> R) (c : R) rows s :
  PerO (fun a b => c * u a b) rows s = c ^+ size rows * PerO u rows s.
Proof.
elim: rows s => [|a rows IH] s; first by rewrite /= expr0 mul1r.
rewrite !PerO_cons mulr_sumr; apply: eq_bigr => i _; rewrite IH /= exprS; ring.
Qed.

Lemma W_binp (R : comRingType) s r : substate r s ->
  W R s r = (-1) ^+ sumn s * (-1) ^+ sumn r * (binp s r)%:R.
Proof.
elim: s r => [|x s IH] [|a r] //; first by rewrite /= !mul1r.
rewrite substate_cons => /andP[ax rs] /=; rewrite IH // !exprD natrM.
have E0 : (-1) ^+ x = (-1) ^+ (x - a) * (-1) ^+ a :> R by rewrite -exprD subnK.
rewrite E0.
have E : (-1) ^+ a * (-1) ^+ a = 1 :> R by rewrite -exprMn mulrNN mulr1 expr1n.
transitivity ((-1) ^+ (x - a) * 'C(x, a)%:R * ((-1) ^+ sumn s * (-1) ^+ sumn r * (binp s r)%:R)
   * ((-1) ^+ a * (-1) ^+ a) : R); last by ring.
by rewrite E; ring.
Qed.

Lemma sum_termv_Ryser (F : numFieldType) (M : seq (seq F)) s t :
  \sum_(r <- subs s) termv M s t Ryser r = RS (ent M) (particle_modes t) s (fun=> 0).
Proof.
apply: eq_big_seq => r; rewrite mem_subs => rs.
rewrite /termv /multv /binv /= W_binp //; congr (_ * _).
by apply: eq_bigr => a _; rewrite add0r.
Qed.

Lemma Lin_scale (R : comRingType) (u : nat -> nat -> R) c r a :
  Lin (fun a b => c * u a b) r a = c * Lin u r a.
Proof. by rewrite /Lin mulr_sumr; apply: eq_bigr => i _; ring. Qed.

Lemma sum_termv_CH (F : numFieldType) (M : seq (seq F)) s t :
  \sum_(r <- subs s) termv M s t ChinHuh r =
  (-1) ^+ sumn s / 2%:R ^+ sumn s *
    RS (fun a b => - 2%:R * ent M a b) (particle_modes t) s (Lin (ent M) s).
Proof.
rewrite mulr_sumr; apply: eq_big_seq => r; rewrite mem_subs => rs.
rewrite /termv /multv /binv /= W_binp //.
rewrite [X in _ * X = _](eq_bigr (fun a => Lin (ent M) s a + Lin (fun a b => - 2%:R * ent M a b) r a)); last first.
  by move=> a _; rewrite Lin_scale mulNr.
have E : (-1) ^+ sumn s * (-1) ^+ sumn s = 1 :> F by rewrite -exprMn mulrNN mulr1 expr1n.
set P := \prod_(a <- _) _.
transitivity (((-1) ^+ sumn s * (-1) ^+ sumn s) / 2%:R ^+ sumn s * (-1) ^+ sumn r * (binp s r)%:R * P : F).
  by rewrite E.
by rewrite -!mulrA; congr (_ * _); rewrite [LHS]mulrCA.
Qed.

Lemma guan_sum (F : numFieldType) (M : seq (seq F)) s t k : sumn s = sumn t ->
  \sum_(r <- subs s) termv M s t k r = bs_permanent M s t.
Proof.
move=> st; rewrite bs_permanent_PerO //; case: k.
  by rewrite sum_termv_Ryser RS_PerO // size_particle_modes.
rewrite sum_termv_CH RS_PerO ?size_particle_modes // PerO_scale size_particle_modes -st.
have E : (-1) ^+ sumn s / 2%:R ^+ sumn s * (- 2%:R) ^+ sumn s = 1 :> F.
  rewrite mulrAC -exprMn mulrNN mul1r mulfV // expf_neq0 // pnatr_eq0 //.
by rewrite mulrA E mul1r.
Qed.

(* fewer particles at the output *)
Lemma guan_sum0 (F : numFieldType) (M : seq (seq F)) s t k : (sumn t < sumn s)%N ->
  \sum_(r <- subs s) termv M s t k r = 0.
Proof.
move=> st; case: k.
  by rewrite sum_termv_Ryser RS_small // size_particle_modes.
by rewrite sum_termv_CH RS_small ?mulr0 // size_particle_modes.
Qed.
