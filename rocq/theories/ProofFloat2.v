(* Rounding errors of the Ryser and Chin-Huh calculators. *)
From mathcomp Require Import all_ssreflect all_algebra zify ring.
From Verif Require Import Base SpecStates Combi SpecPerm PermMath ModelPerm ProofPerm1 ProofPerm2
  ModelFloat SpecFloat ProofFloat.
Set Implicit Arguments.
Unset Strict Implicit.
Unset Printing Implicit Defensive.
Import Order.Theory GRing.Theory Num.Theory.
Local Open Scope ring_scope.

Lemma sum_binp (R : comRingType) s : \sum_(r <- subs s) (binp s r)%:R = 2%:R ^+ sumn s :> R.
Proof.
elim: s => [|x s IH]; first by rewrite big_seq1.
rewrite big_subs_cons /= (eq_bigr (fun i : 'I_x.+1 => 'C(x, i)%:R * 2%:R ^+ sumn s)).
  rewrite -mulr_suml exprD; congr (_ * _); rewrite -natr_sum -natrX; congr _%:R.
  rewrite -[2%N]/(1 + 1)%N Pascal; apply: eq_bigr => i _; by rewrite !exp1n !muln1.
by move=> i _; rewrite -IH mulr_sumr; apply: eq_bigr => r _; rewrite natrM.
Qed.

Lemma rfoldl_in_ok (A : Type) (B : eqType) (f : A -> B -> res A) (g : A -> B -> A) acc l :
  (forall a x, x \in l -> f a x = Ok (g a x)) -> rfoldl f acc l = Ok (foldl g acc l).
Proof.
elim: l acc => [//|x l IH] acc H; rewrite rfoldl_cons H ?inE ?eqxx //=; apply: IH => a y yl.
by apply: H; rewrite inE yl orbT.
Qed.

Section FloatLoop.
Variable F : numFieldType.
Variables (u : F) (A : arith F).
Hypothesis u0 : 0 <= u.
Hypothesis accA : accurate u A.
Variables (m : nat) (M : seq (seq F)) (s t : seq nat) (k : guan_kind) (mu : F).
Hypothesis sqM : is_square m M.
Hypothesis st_size : size t = size s.
Hypothesis sm : (size s <= m)%N.
Hypothesis s0 : s != [::].
Hypothesis mu_max : forall j i, (j < m)%N -> (i < m)%N -> `|ent M j i| <= mu.

Notation near := (near u).
Notation cols := (np_nonzero t).
Notation sumv := (sumv M s k).
Notation binv := (binv F s).
Notation multv := (multv F s k).
Notation termv := (termv M s t k).

Lemma mu0 : 0 <= mu.
Proof.
have m0 : (0 < m)%N by apply: leq_trans sm; rewrite lt0n size_eq0.
exact: le_trans (mu_max m0 m0).
Qed.

Definition coef (i : nat) : nat := match k with Ryser => i | ChinHuh => sumn s + 2 * i end.
Definition sbd (i : nat) : F := (coef i)%:R * mu.

Lemma sbd_mono i j : (i <= j)%N -> sbd i <= sbd j.
Proof.
move=> ij; rewrite /sbd ler_wpmul2r ?mu0 // ler_nat /coef; case: k => //.
by rewrite leq_add2l leq_mul2l.
Qed.

Lemma sbd_ge0 i : 0 <= sbd i.
Proof. by rewrite mulr_ge0 ?ler0n ?mu0. Qed.

Definition near_sums i r (f : nat -> F) : Prop :=
  forall j, j \in cols -> near (3 * (size s + i)) (sumv r j) (sbd i) (f j).

Definition moved (r r' : seq nat) i :=
  (nth 0%N r i < nth 0%N s i)%N /\ r' = incr r i \/ (0 < nth 0%N r i)%N /\ r' = decr r i.

Lemma moved_size r r' i : (i < size s)%N -> size r = size s -> moved r r' i -> size r' = size s.
Proof. by move=> il sr [] [_ ->]; rewrite ?size_incr ?size_decr sr. Qed.

Lemma moved_Lin r r' i j : (i < size s)%N -> size r = size s -> moved r r' i ->
  Lin (ent M) r' j = Lin (ent M) r j
    + (Posz (nth 0%N r' i) - Posz (nth 0%N r i))%:~R * ent M j i.
Proof.
move=> il sr H; have il' : (i < size r)%N by rewrite sr.
case: H => -[H ->].
  rewrite Lin_incr // nth_incr eqxx; congr (_ + _).
  by rewrite -[in X in (X - _)%R]addn1 PoszD addrAC subrr add0r mul1r.
rewrite Lin_decr // nth_decr eqxx; congr (_ + _).
have -> : (Posz (nth 0%N r i).-1 - Posz (nth 0%N r i))%R = -1 by lia.
by rewrite mulNr mul1r.
Qed.

Lemma moved_norm r r' i : moved r r' i ->
  `|Posz (nth 0%N r' i) - Posz (nth 0%N r i)| = 1.
Proof. by case=> -[H ->]; rewrite ?nth_incr ?nth_decr eqxx; lia. Qed.

Lemma fl_update_sumsE r r' d i n f : (i < size s)%N -> size r = size s -> moved r r' i ->
  near_sums n r f ->
  exists2 f', fl_update_sums A k M (gstate s r' d i (nth 0%N r i)) (dict_of f cols)
    = Ok (dict_of f' cols) & near_sums n.+1 r' f'.
Proof.
move=> il sr mv nf.
pose z := Posz (nth 0%N r' i) - Posz (nth 0%N r i).
exists (fun j => match k with
   | Ryser => f_add A (f j) (f_mul A (f_int A z) (ent M j i))
   | ChinHuh => f_sub A (f j) (f_mul A (f_int A (Posz 2 * z)) (ent M j i)) end).
  rewrite /fl_update_sums keys_dict_of; apply: rfoldl_dict_update.
    exact: np_nonzero_uniq.
  move=> dd j jc -> /=; rewrite (py_get_nth 0) ?size_map ?(moved_size il sr mv) //.
  rewrite /= (mgetE sqM (cols_lt st_size sm jc) (leq_trans il sm)) /=.
  by rewrite (nth_map 0%N) ?(moved_size il sr mv).
move=> j jc; have := nf j jc; rewrite /near_sums /ProofPerm2.sumv (moved_Lin j il sr mv) -/z.
have z1 : `|z%:~R| = 1 :> F by rewrite -intr_norm moved_norm.
have aj : near 0 (ent M j i) mu (ent M j i).
  by apply: near_exact => //; apply: mu_max; [exact: (cols_lt st_size sm jc)|exact: (leq_trans il sm)].
have leK : (2 <= 3 * (size s + n))%N.
  by case: (s) s0 => // x s' _ /=; lia.
rewrite /sbd /coef; case: k => H.
  have nz := near_mul u0 accA (near_int u0 accA z) aj; rewrite z1 mul1r in nz.
  have -> : n.+1%:R * mu = n%:R * mu + mu :> F by rewrite -addn1 natrD mulrDl mul1r.
  apply: near_k (near_add u0 accA H (near_k u0 _ nz)) => //; lia.
have nz := near_mul u0 accA (near_int u0 accA (Posz 2 * z)) aj.
rewrite intrM normrM z1 mulr1 in nz.
have -> : Lin (ent M) s j - 2%:R * (Lin (ent M) r j + z%:~R * ent M j i)
  = Lin (ent M) s j - 2%:R * Lin (ent M) r j - (Posz 2)%:~R * z%:~R * ent M j i by ring.
have -> : (sumn s + 2 * n.+1)%:R * mu = (sumn s + 2 * n)%:R * mu + `|(Posz 2)%:~R| * mu :> F.
  by rewrite normr_nat -mulrDl -natrD; congr (_%:R * _); lia.
apply: near_k (near_sub u0 accA H (near_k u0 _ nz)) => //; lia.
Qed.

Lemma fl_update_binomialsE r r' d i n b : (i < size s)%N -> substate r s -> moved r r' i ->
  near (2 * n) (binv r) (binv r) b ->
  exists2 b', fl_update_binomials A s (gstate s r' d i (nth 0%N r i)) b = Ok b'
    & near (2 * n.+1) (binv r') (binv r') b'.
Proof.
move=> il rs mv nb; have [sr le] := substateP _ _ rs.
have il' : (i < size r)%N by rewrite sr.
have szr := moved_size il sr mv.
rewrite /fl_update_binomials /= (py_get_nth 0) ?size_map ?szr //=.
rewrite (py_get_nth 0%N) //= (nth_map 0%N) ?szr //.
have divE (x y p p' : nat) : (0 < y)%N -> (y * p' = x * p)%N -> near (2 * n) p%:R p%:R b ->
    exists2 b', rbind (fl_pydiv A x y) (fun q => Ok (f_mul A b q)) = Ok b'
      & near (2 * n.+1) p'%:R p'%:R b'.
  move=> y0 E np; have yz : Posz y != 0 by lia.
  rewrite /fl_pydiv (negPf yz) /=; eexists; first by [].
  have := near_mul u0 accA np (near_quot u0 accA x yz).
  rewrite normrM normfV !normr_nat !mulrA.
  have -> : p%:R * (Posz x)%:~R / (Posz y)%:~R = p'%:R :> F.
    have yn : y%:R != 0 :> F by rewrite pnatr_eq0 -lt0n.
    rewrite -!pmulrn; apply: (mulIf yn); rewrite mulfVK // -!natrM [in RHS]mulnC E mulnC //.
  apply: near_k => //; lia.
case: mv => -[H E]; rewrite E ?nth_incr ?nth_decr eqxx.
  rewrite ifT; last by lia.
  rewrite subzn ?(ltnW H) //; apply: divE nb => //; exact: binp_incr.
rewrite ifF; last by lia.
have H2 := le i; rewrite subzn; last by lia.
apply: divE nb; first by lia.
have := @binp_incr s (decr r i) i il; rewrite size_decr // nth_decr eqxx prednK // incr_decr //.
by move=> ->.
Qed.

(* the product over the considered columns *)
Lemma fl_product (f v : nat -> F) (e : nat -> nat) ks B k0 c a c' l :
  (forall j, j \in l -> near ks (v j) B (f j)) -> near k0 c a c' ->
  exists2 p, foldl (fun acc j => f_mul A acc (f_pow A (f j) (e j))) c' l = p &
   near (k0 + \sum_(j <- l) ((e j) * ks.+1 + 1))
     (c * \prod_(j <- l) v j ^+ e j) (a * B ^+ (\sum_(j <- l) e j)) p.
Proof.
elim: l k0 c a c' => [|j l IH] k0 c a c' H nc.
  by rewrite !big_nil /= addn0 !mulr1; exists c'.
rewrite !big_cons /=.
have Hj := near_mul u0 accA nc (near_pow u0 accA (e j) (H j _)).
have {}Hj := Hj (mem_head _ _).
have [|p ep np] := IH _ _ _ _ _ Hj; first by move=> i il; apply: H; rewrite inE il orbT.
exists p => //; rewrite mulrA exprD mulrA; apply: near_k np => //.
by rewrite addn1 addSn addnS !addnA.
Qed.

Lemma sum_cols : (\sum_(j <- cols) nth 0 t j = sumn t)%N.
Proof.
rewrite big_filter big_mkcond sumnE [RHS](big_nth 0%N) /index_iota subn0; apply: eq_bigr => j _ /=.
by case: eqP => [->|].
Qed.

Lemma size_cols : (size cols <= size s)%N.
Proof. by rewrite -st_size size_filter; apply: leq_trans (count_size _ _) _; rewrite size_iota. Qed.

(* number of roundings in a term *)
Definition kterm (n : nat) : nat := 2 * n + 2 + (sumn t * (3 * (size s + n) + 1) + size s).

Definition c0 : F := `|init_multiplier F k s|.

Lemma c0_ge0 : 0 <= c0.
Proof. exact: normr_ge0. Qed.

Lemma multv_norm r : `|multv r| = c0.
Proof. by rewrite /ProofPerm2.multv normrM normrX normrN1 expr1n mulr1. Qed.

Lemma fl_update_permanentE n r g b mh f p :
  near_sums n r f -> near (2 * n) (binv r) (binv r) b -> near 1 (multv r) c0 mh ->
  exists2 v, fl_update_permanent A (Calc M s t g b mh cols (dict_of f cols) p) =
    Ok (Calc M s t g b mh cols (dict_of f cols) (f_add A p v))
    & near (kterm n) (termv r) (c0 * sbd n ^+ sumn t * binv r) v.
Proof.
move=> nf nb nm; rewrite /fl_update_permanent /=.
have nc := near_mul u0 accA nm nb.
have [v ev nv] := fl_product (nth 0%N t) nf nc.
exists v.
  rewrite (@rfoldl_in_ok _ _ _ (fun acc j => f_mul A acc (f_pow A (f j) (nth 0%N t j)))) ?ev //.
  move=> acc j jc; rewrite dict_get_of //= (py_get_nth 0%N) // np_nonzero_lt //.
move: nv; rewrite (prod_cols (f := sumv r)) // sum_cols -/(termv r).
rewrite [c0 * _ * _]mulrAC; apply: near_k => //.
rewrite /kterm big_split /= sum1_size -big_distrl /= sum_cols; have := size_cols; nia.
Qed.

Definition fstate r d idx last b mh f p : calc F :=
  Calc M s t (gstate s r d idx last) b mh cols (dict_of f cols) p.

Lemma fl_loop_run N r d l : run s r d l -> size d = size s -> substate r s ->
  forall idx last n b mh f p v P fuel, (size l < fuel)%N -> (n + size l <= N)%N ->
  near_sums n r f -> near (2 * n) (binv r) (binv r) b -> near 1 (multv r) c0 mh ->
  near (kterm N + n.+1) v P p ->
  exists c, fl_permanent_loop A fuel k (fstate r d idx last b mh f p) = Ok c /\
    near (kterm N + (n.+1 + size l)) (v + \sum_(q <- l) termv q)
      (P + \sum_(q <- l) c0 * sbd N ^+ sumn t * binv q) (c_perm c).
Proof.
elim=> {r d l} [r d E|r d i r' d' l E ne R IH] sd rs idx last n b mh f p v P [//|fuel] lf nN nf nb nm np;
  have [sr le] := substateP _ _ rs.
all: have last_get (T : Type) (x0 : T) (q : seq T) : size q = size s ->
    py_get q (Negz 0) = Ok (nth x0 q (size s).-1).
  1, 3: by move=> sq; rewrite /py_get /= sq lt0n size_eq0 s0 /= subn1 (drop_nth x0) //
     sq prednK // lt0n size_eq0 s0.
all: rewrite [fl_permanent_loop _ _ _ _]/= !(last_get _ 0) ?size_map //= !(nth_map 0%N) ?sr
     ?prednK ?lt0n ?size_eq0 //; try by [].
all: rewrite ifT; last by rewrite lez_nat.
all: rewrite update_guan_codeE //; have := gstep_size sr sd; have := gstep_move sr sd rs.
  case: (gstep s r d) E => -[i r'] d' /= ->; rewrite eqxx => -> [_ _ sd'].
  rewrite size_map sr eqxx !big_nil !addr0 addn0; by eexists; split; first reflexivity.
rewrite E (negPf ne) => -[rs' il H] [_ sr' sd'] /=; rewrite size_map sr' (negPf ne).
have [f' -> nf'] := fl_update_sumsE d' il sr H nf.
have [b' /= -> nb'] := fl_update_binomialsE d' il rs H nb.
have Em : - multv r = multv r'.
  rewrite /ProofPerm2.multv -mulrN -mulN1r -exprS.
  case: H => -[H ->]; first by rewrite sumn_incr // sr.
  rewrite sumn_decr //; have: (0 < sumn r)%N; last by case: (sumn r) => // h _; rewrite /= !exprS; ring.
  by rewrite -(incr_decr H) sumn_incr // size_decr ?sr.
have nm' : near 1 (multv r') c0 (- mh) by rewrite -Em; apply: near_opp.
have [w /= -> nw] := fl_update_permanentE (gstate s r' d' i (Posz (nth 0%N r i))) p nf' nb' nm'.
have np' : near (kterm N + n.+2) (v + termv r') (P + c0 * sbd N ^+ sumn t * binv r') (f_add A p w).
  rewrite addnS; apply: near_add => //; apply: near_mono nw => //.
    rewrite -[kterm n.+1]addn0; apply: leq_add => //; move: nN; rewrite /kterm /=; nia.
  rewrite ler_wpmul2r ?ler0n // ler_wpmul2l ?c0_ge0 // ler_expn2r ?nnegrE ?sbd_ge0 //.
  by apply: sbd_mono; apply: leq_trans nN => /=; lia.
have [|c [ec nc]] := IH sd' rs' i (Posz (nth 0%N r i)) n.+1 b' (- mh) f' _ _ _ fuel lf _ nf' nb' nm' np'.
  by move: nN => /=; lia.
exists c; split; first by rewrite -ec.
by rewrite !big_cons !addrA /= addnS -addSn.
Qed.

Lemma fl_sums_initE : exists2 f, fl_init_sums A k M s cols = Ok (dict_of f cols)
  & near_sums 0 (nseq (size s) 0%N) f.
Proof.
have L0 j : Lin (ent M) (nseq (size s) 0%N) j = 0.
  by rewrite /Lin big1 // => i _; rewrite nth_nseq if_same mul0r.
rewrite /fl_init_sums /near_sums /ProofPerm2.sumv /sbd /coef; case kk: k.
  exists (fun=> 0); first by rewrite foldl_dict_zero ?np_nonzero_uniq.
  by move=> j jc; rewrite L0; apply: near_exact => //; rewrite normr0 mul0r.
pose g i n := foldl (fun acc j => f_add A acc (f_mul A (f_int A (nth 0%N s j)) (ent M i j))) 0 (iota 0 n).
have gS i n : g i n.+1 = f_add A (g i n) (f_mul A (f_int A (nth 0%N s n)) (ent M i n)).
  by rewrite /g -addn1 iotaD foldl_cat.
exists (fun i => g i (size s)).
  apply: rfoldl_dict_build; first exact: np_nonzero_uniq.
  move=> d i ic nd.
  have H n : (n <= size s)%N ->
    rfoldl (fun d j => rbind (dict_get d i) (fun v => rbind (py_get s (Posz j)) (fun x =>
      rbind (mget M i j) (fun a => Ok (dict_set d i
        (f_add A v (f_mul A (f_int A (Posz x)) a))))))) (dict_set d i 0) (iota 0 n)
    = Ok (rcons d (i, g i n)).
    elim: n => [|n IH] ns; first by rewrite /= dict_set_new.
    rewrite -addn1 iotaD rfoldl_cat IH ?(ltnW ns) //= add0n -cats1 dict_get_cat //= eqxx /=.
    rewrite (py_get_nth 0%N) //= (mgetE sqM (cols_lt st_size sm ic) (leq_trans ns sm)) /=.
    by rewrite dict_set_cat //= eqxx addn1 gS cats1.
  exact: (H (size s)).
move=> i ic; rewrite L0 mulr0 subr0 muln0 !addn0.
have H n : (n <= size s)%N -> near (3 * n) (\sum_(j < n) (nth 0%N s j)%:R * ent M i j)
    ((\sum_(j < n) nth 0 s j)%N%:R * mu) (g i n).
  elim: n => [|n IH] ns; first by rewrite !big_ord0 mul0r; apply: near_exact => //; rewrite normr0.
  rewrite !big_ord_recr /= natrD mulrDl gS.
  have aj : near 0 (ent M i n) mu (ent M i n).
    apply: near_exact => //; apply: mu_max; first exact: (cols_lt st_size sm ic).
    exact: leq_trans ns sm.
  have nz := near_mul u0 accA (near_int u0 accA (nth 0%N s n)) aj; rewrite normr_nat in nz.
  have nz' : near (3 * n + 2) ((nth 0%N s n)%:R * ent M i n) ((nth 0%N s n)%:R * mu)
     (f_mul A (f_int A (nth 0%N s n)) (ent M i n)) by apply: near_k nz => //; lia.
  have := near_add u0 accA (near_k u0 (leq_addr 2 _) (IH (ltnW ns))) nz'.
  by apply: near_k => //; lia.
have := H (size s) (leqnn _); rewrite /Lin; congr (near _ _ (_%:R * _) _).
by rewrite sumnE (big_nth 0%N) big_mkord.
Qed.

(* the permanent returned *)
Lemma fl_computeE c fuel : c_matrix c = M -> c_input c = s -> c_output c = t ->
  (\prod_(x <- s) x.+1 <= fuel)%N ->
  exists c', fl_compute_permanent A fuel k c = Ok c' /\
    near (kterm (\prod_(x <- s) x.+1) + \prod_(x <- s) x.+1) (\sum_(q <- subs s) termv q)
      (c0 * 2%:R ^+ sumn s * sbd (\prod_(x <- s) x.+1) ^+ sumn t) (c_perm c').
Proof.
case: c => M' s' t' g b mh co su pe /= -> -> -> fu; rewrite /fl_compute_permanent /can_calculate /=.
have m0 : (0 < m)%N by apply: leq_trans sm; rewrite lt0n size_eq0.
have [-> sz] := mget0 sqM m0; rewrite /= sz.
case/andP: sqM => /eqP -> _; rewrite eqxx st_size eqxx sm /=.
set N := (\prod_(x <- s) x.+1)%N in fu *; set z := nseq (size s) 0%N.
have N0 : (0 < N)%N by rewrite prodn_gt0.
rewrite /fl_init_computation /=; have [f -> nf] := fl_sums_initE; rewrite [rbind _ _]/=.
have nb : near (2 * 0) (binv z) (binv z) 1 by rewrite /ProofPerm2.binv binp0; apply: near_exact => //; rewrite normr1.
have nm : near 1 (multv z) c0 (fl_init_multiplier A k s).
  rewrite /ProofPerm2.multv sumn_nseq mul0n mulr1 /fl_init_multiplier /c0; case: (k) => /=.
    exact: near_exact.
  have h2 : Posz 2 ^+ sumn s != 0 by rewrite expf_neq0.
  have := near_quot u0 accA 1 h2; by rewrite rmorphX.
have E0 : init_guan s g = gstate s z (nseq (size s) true) (g_idx g) (g_last g).
  by rewrite /init_guan /gstate !map_nseq.
have [w -> nw] := fl_update_permanentE (init_guan s g) 0 nf nb nm.
rewrite [rbind _ _]/= E0.
have np : near (kterm N + 1) (0 + termv z) (0 + c0 * sbd N ^+ sumn t * binv z) (f_add A 0 w).
  rewrite addn1; apply: near_add => //; first by apply: near_exact => //; rewrite normr0.
  apply: near_mono nw => //; first by rewrite /kterm; nia.
  rewrite ler_wpmul2r ?ler0n // ler_wpmul2l ?c0_ge0 // ler_expn2r ?nnegrE ?sbd_ge0 //.
  exact: sbd_mono.
have sl : size (behead (codes s)) = N.-1 by rewrite size_behead size_codes.
have sz0 : substate z s.
  by apply/substateP; split=> [|i]; rewrite ?size_nseq // nth_nseq if_same.
have := @fl_loop_run N _ _ _ (run_codes s) _ sz0 (g_idx g) (g_last g) 0 1 _ f
  (f_add A 0 w) (0 + termv z) (0 + c0 * sbd N ^+ sumn t * binv z) fuel _ _ nf nb nm np.
case; [by rewrite size_nseq|by rewrite sl prednK|by rewrite add0n sl leq_pred|].
move=> c [ec nc]; exists c; split; first by rewrite -ec.
move: nc; rewrite sl -(perm_big _ (perm_codes s)) codes_head big_cons !add0r.
have -> : c0 * sbd N ^+ sumn t * binv z + \sum_(q <- behead (codes s)) c0 * sbd N ^+ sumn t * binv q
  = c0 * 2%:R ^+ sumn s * sbd N ^+ sumn t.
  rewrite -sum_binp -(perm_big _ (perm_codes s)) codes_head big_cons /= -/z -mulr_sumr /ProofPerm2.binv.
  by rewrite -mulrDr mulrAC.
by rewrite add1n prednK.
Qed.

End FloatLoop.
