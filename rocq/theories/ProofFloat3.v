(* Rounding errors of the classic and Glynn calculators. *)
From mathcomp Require Import all_ssreflect all_fingroup all_algebra zify ring.
From Verif Require Import Base SpecStates Combi SpecPerm PermMath ModelPerm ProofPerm1 ProofPerm2
  ProofPerm3 ProofPerm4 ModelFloat SpecFloat ProofFloat ProofFloat2.
Set Implicit Arguments.
Unset Strict Implicit.
Unset Printing Implicit Defensive.
Import Order.Theory GRing.Theory Num.Theory.
Local Open Scope ring_scope.

Section FloatClassic.
Variable F : numFieldType.
Variables (u : F) (A : arith F).
Hypothesis u0 : 0 <= u.
Hypothesis accA : accurate u A.
Notation near := (near u).

Lemma fl_classic_recE (mtx : seq (seq F)) (rr cc fuel col : nat) sel prod (mu : F) k p a :
  size mtx = rr -> all (fun row => size row == cc) mtx -> (0 < rr)%N ->
  (forall j i, (j < rr)%N -> (i < cc)%N -> `|ent mtx j i| <= mu) ->
  (col <= cc)%N -> (cc - col <= fuel)%N -> near k p a prod ->
  exists2 v, fl_classic_rec A fuel mtx col sel prod = Ok v &
    near (k + (cc - col) * rr.+1)
     (p * PerL (fun c r => ent mtx r c) (iota col (cc - col)) [seq row <- iota 0 rr | row \notin sel])
     (a * ((count [predC sel] (iota 0 rr)) ^_ (cc - col))%:R * mu ^+ (cc - col)) v.
Proof.
move=> sM rM r0 mub; elim: fuel col sel prod k p a => [|fuel IH] col sel prod k p a cl fu np.
all: have [row0 M0 hM] : exists2 row0, py_get mtx 0 = Ok row0 & size row0 = cc.
  1, 3: case: (mtx) sM rM r0 => [<-//|row M' _ /= /andP[/eqP <- _] _]; by exists row.
all: rewrite /= M0 /= hM.
  have -> : col = cc by lia.
  by rewrite eqxx subnn /= !mulr1 addn0; exists prod.
case: eqP => [->|ne]; first by rewrite subnn /= !mulr1 addn0; exists prod.
have cl' : (col < cc)%N by lia.
have -> : (cc - col = (cc - col.+1).+1)%N by lia.
set d := (cc - col.+1)%N.
rewrite [PerL _ _ _]/= big_filter sM -size_filter; set q := [seq _ <- _ | _].
set K := (k + 1 + d * rr.+1)%N; set B := a * mu * (((size q).-1) ^_ d)%:R * mu ^+ d.
have getE r : (r < rr)%N -> mget mtx r col = Ok (ent mtx r col).
  move=> rl; rewrite /mget (py_get_nth [::]) ?sM //= (py_get_nth 0) //.
  by rewrite (eqP (allP rM _ (mem_nth _ _))) ?sM.
have a0 := near_ge0 np.
have H l w v b n : {subset l <= iota 0 rr} -> near (K + n) v b w ->
  exists2 x, rfoldl (fun result row => if row \notin sel then
     rbind (mget mtx row col) (fun a =>
     rbind (fl_classic_rec A fuel mtx col.+1 (rcons sel row) (f_mul A prod a))
        (fun v => Ok (f_add A result v)))
   else Ok result) w l = Ok x &
  near (K + (n + size l)) (v + \sum_(i <- l | i \notin sel) p * (ent mtx i col *
    PerL (fun c r => ent mtx r c) (iota col.+1 d) (rem i q)))
    (b + (count [predC sel] l)%:R * B) x.
  elim: l w v b n => [|r l IHl] w v b n sub nw /=.
    by rewrite big_nil !addr0 mul0r addr0 addn0; exists w.
  have rl : (r < rr)%N by have := sub r; rewrite inE eqxx mem_iota => /(_ isT).
  have sub' : {subset l <= iota 0 rr} by move=> x xl; apply: sub; rewrite inE xl orbT.
  rewrite big_cons; case: ifP => rs /=; last first.
    have [|x -> nx] := IHl w v b n.+1 sub'; first by apply: near_k nw => //; lia.
    by exists x => //; rewrite add0n -addSnnS.
  rewrite getE //=.
  have nm := near_mul u0 accA np (near_exact u0 0 (mub r col rl cl')).
  have fu' : (cc - col.+1 <= fuel)%N by lia.
  have [x -> nx] := IH col.+1 (rcons sel r) _ _ _ _ cl' fu' nm.
  rewrite /=.
  have Eq : [seq row <- iota 0 rr | row \notin rcons sel r] = rem r q.
    rewrite rem_filter ?filter_uniq ?iota_uniq // -filter_predI; apply: eq_filter => y /=.
    by rewrite mem_rcons inE negb_or.
  have rq : r \in q by rewrite mem_filter rs mem_iota.
  rewrite Eq -size_filter Eq size_rem // -/d -/B addn0 -addn1 -/K in nx.
  have [|y -> ny] := IHl (f_add A w x) (v + p * ent mtx r col * PerL (fun c r0 => ent mtx r0 c) (iota col.+1 d) (rem r q)) (b + B) n.+1 sub'.
    by rewrite addnS; apply: near_add => //; apply: near_k nx => //; lia.
  exists y => //; rewrite -addSnnS -!mulrA in ny *.
  by rewrite addrA natrD mulrDl mul1r addrA.
have n0 : near (K + 0) 0 0 0 by apply: near_exact => //; rewrite normr0.
have [x -> nx] := H (iota 0 rr) 0 0 0 0%N (fun _ h => h) n0.
exists x => //; move: nx; rewrite !add0r size_iota add0n -mulr_sumr -size_filter -/q.
have -> : (size q)%:R * B = a * ((size q) ^_ d.+1)%:R * mu ^+ d.+1.
  rewrite /B ffactnS natrM exprS.
  by move: (mu ^+ d) ((_ ^_ d)%:R : F) ((size q)%:R : F) => x1 x2 x3; ring.
apply: near_k => //; rewrite /K; lia.
Qed.

Lemma fl_classicE (M : seq (seq F)) m s t fuel mu : is_square m M ->
  (size s <= m)%N -> (size t <= m)%N -> sumn s = sumn t -> (sumn s <= fuel)%N ->
  (forall j i, (j < m)%N -> (i < m)%N -> `|ent M j i| <= mu) ->
  exists2 v, fl_classic_permanent A fuel M s t = Ok v &
    near (sumn s * (sumn s).+1) (bs_permanent M s t) ((sumn s)`!%:R * mu ^+ sumn s) v.
Proof.
move=> /andP[/eqP sM rM] sm tm st fu mub; rewrite /fl_classic_permanent -st.
case: eqP => [s0|/eqP s0].
  exists 1 => //; rewrite bs_permanent_PerO //; have := size_particle_modes t; rewrite -st s0.
  by case: (particle_modes t) => // _; apply: near_exact => //=; rewrite normr1 mulr1.
have s0' : (0 < sumn s)%N by rewrite lt0n.
have m0 : (0 < m)%N by apply: leq_trans sm; case: (s) s0'.
rewrite (scattering_calculateE sM rM) ?sM ?sm ?tm -?st //=.
set sc := [seq _ | _ <- _].
have ssc : size sc = sumn s by rewrite size_map size_particle_modes.
have asc : all (fun row => size row == sumn s) sc.
  by rewrite all_map; apply/allP => j _ /=; rewrite size_map size_particle_modes.
have mub' j i : (j < sumn s)%N -> (i < sumn s)%N -> `|ent sc j i| <= mu.
  move=> jl il; rewrite ent_list ?size_particle_modes -?st //; apply: mub.
    by apply: leq_trans tm; apply: particle_modes_lt; rewrite mem_nth // size_particle_modes -st.
  by apply: leq_trans sm; apply: particle_modes_lt; rewrite mem_nth // size_particle_modes.
have n1 : near 0 1 1 1 by apply: near_exact => //; rewrite normr1.
have fu' : (sumn s - 0 <= fuel)%N by rewrite subn0.
have [v -> nv] := fl_classic_recE [::] ssc asc s0' mub' (leq0n _) fu' n1.
exists v => //; move: nv; rewrite subn0 add0n !mul1r.
have -> : [seq row <- iota 0 (sumn s) | row \notin [::]] = iota 0 (sumn s).
  by apply/all_filterP/allP.
have -> : count [predC [::]] (iota 0 (sumn s)) = sumn s.
  by rewrite -[RHS](size_iota 0); apply/eqP; rewrite -all_count; apply/allP.
by rewrite ffactnn permanent_list ?size_particle_modes // /bs_permanent /scattering -st.
Qed.

End FloatClassic.

Section FloatGlynn.
Variable F : numFieldType.
Variables (u : F) (A : arith F).
Hypothesis u0 : 0 <= u.
Hypothesis accA : accurate u A.
Notation near := (near u).
Variables (N : nat) (sc : seq (seq F)) (mu : F).
Hypothesis sqM : is_square N sc.
Hypothesis N0 : (0 < N)%N.
Hypothesis mu_max : forall j i, (j < N)%N -> (i < N)%N -> `|ent sc j i| <= mu.

Notation gS := (gS N (ent sc)).
Notation gT := (gT N (ent sc)).

Lemma gmu0 : 0 <= mu.
Proof. exact: le_trans (mu_max N0 N0). Qed.

Definition gbd (n : nat) : F := (N + 2 * n)%:R * mu.
Definition near_gsums n v (f : nat -> F) : Prop :=
  forall j, (j < N)%N -> near (3 * (N + n)) (gS v j) (gbd n) (f j).

Lemma near_entry (z : int) i j : (i < N)%N -> (j < N)%N ->
  near 2 (z%:~R * ent sc i j) (`|z%:~R| * mu) (f_mul A (f_int A z) (ent sc i j)).
Proof.
move=> il jl; have := near_mul u0 accA (near_int u0 accA z) (near_exact u0 0 (mu_max il jl)).
by rewrite addn0.
Qed.

Lemma fl_glynn_initE : exists2 f, fl_glynn_init_sums A sc (nseq N 1) = Ok [seq f j | j <- iota 0 N]
  & near_gsums 0 (nseq N false) f.
Proof.
rewrite /fl_glynn_init_sums; case/andP: (sqM) => /eqP sM _; rewrite sM size_nseq.
pose g j k := foldl (fun acc i => f_add A acc (f_mul A (f_int A 1) (ent sc i j))) 0 (iota 0 k).
have gSr j k : g j k.+1 = f_add A (g j k) (f_mul A (f_int A 1) (ent sc k j)).
  by rewrite /g -addn1 iotaD foldl_cat.
exists (fun j => g j N).
  apply: rmapM_ok => j; rewrite mem_iota add0n => /andP[_ jl].
  apply: rfoldl_in_ok => acc i; rewrite mem_iota add0n => /andP[_ il].
  by rewrite (py_get_nth 0) ?size_nseq // nth_nseq il /= (mgetE sqM il jl).
move=> j jl; rewrite /gbd muln0 !addn0.
suff H k : (k <= N)%N -> near (3 * k) (\sum_(i < k) 1%:~R * ent sc i j) (k%:R * mu) (g j k).
  have := H N (leqnn N); rewrite /ProofPerm4.gS.
  by under [in X in _ -> X]eq_bigr => i _ do rewrite nth_nseq if_same.
elim: k => [|k IH] kN; first by rewrite big_ord0 mul0r; apply: near_exact => //; rewrite normr0.
rewrite big_ord_recr /= gSr -[X in X%:R]addn1 natrD mulrDl.
have H1 := near_entry 1 kN jl; rewrite normr1 in H1.
have := near_add u0 accA (near_k u0 (leq_addr 2 _) (IH (ltnW kN))) (near_k u0 (leq_addl (3 * k) _) H1).
by apply: near_k => //; lia.
Qed.

(* product of the sums *)
Lemma fl_gproduct (f v : nat -> F) ks B k0 c a c' l :
  (forall j, j \in l -> near ks (v j) B (f j)) -> near k0 c a c' ->
  near (k0 + size l * ks.+1) (c * \prod_(j <- l) v j) (a * B ^+ size l)
    (foldl (f_mul A) c' [seq f j | j <- l]).
Proof.
elim: l k0 c a c' => [|j l IH] k0 c a c' H nc.
  by rewrite big_nil /= addn0 !mulr1.
rewrite big_cons /= exprS.
have Hj := near_mul u0 accA nc (H j (mem_head _ _)).
have Hl i : i \in l -> near ks (v i) B (f i) by move=> il; apply: H; rewrite inE il orbT.
have H1 := IH _ _ _ _ Hl Hj; rewrite !mulrA; apply: near_k H1 => //; by rewrite mulSn addnA addnS.
Qed.

Definition gkterm n : nat := (N * (3 * (N + n)).+1).+1.

Lemma gm_norm v : `|gm F v| = 1.
Proof. by rewrite /gm normrX normrN1 expr1n. Qed.

Lemma near_gterm n v f : near_gsums n v f ->
  near (gkterm n) (gT v) (gbd n ^+ N)
    (f_mul A (gm F v) (foldl (f_mul A) 1 [seq f j | j <- iota 0 N])).
Proof.
move=> nf.
have n1 : near 0 1 1 1 by apply: near_exact => //; rewrite normr1.
have Hf j : j \in iota 0 N -> near (3 * (N + n)) (gS v j) (gbd n) (f j).
  by rewrite mem_iota add0n => /andP[_]; apply: nf.
have H := fl_gproduct Hf n1; rewrite size_iota !mul1r add0n in H.
have nm : near 0 (gm F v) 1 (gm F v) by apply: near_exact => //; rewrite gm_norm.
have := near_mul u0 accA nm H; rewrite mul1r add0n.
have -> // : \prod_(j <- iota 0 N) gS v j = \prod_(j < N) gS v j.
by rewrite -{1}[N]subn0 -/(index_iota 0 N) big_mkord.
Qed.

Definition gfstate (v : seq bool) (f : nat -> F) (p : F) :=
  ([seq sgn (~~ b) | b <- v], gm F v, [seq f j | j <- iota 0 N], p).

Lemma fl_glynn_stepE v f p i n : (i < N)%N -> size v = N -> near_gsums n v f ->
  exists f', fl_glynn_step A sc (gfstate v f p) i =
    Ok (gfstate (flip v i) f' (f_add A p (f_mul A (gm F (flip v i))
          (foldl (f_mul A) 1 [seq f' j | j <- iota 0 N]))))
   /\ near_gsums n.+1 (flip v i) f'.
Proof.
move=> il sv nf; rewrite /fl_glynn_step /gfstate.
have iv : (i < size v)%N by rewrite sv.
rewrite (py_get_nth 0) ?size_map //= (py_set_nth 0) ?size_map //= (nth_map false) //.
rewrite sgnN negbK.
have -> : set_nth 0 [seq sgn (~~ b) | b <- v] i (sgn (nth false v i)) = [seq sgn (~~ b) | b <- flip v i].
  apply: (@eq_from_nth _ 0); first by rewrite size_set_nth !size_map flip_size // sv; apply/maxn_idPr.
  rewrite size_set_nth size_map sv => k; rewrite (maxn_idPr il) => kN.
  rewrite nth_set_nth /= [in RHS](nth_map false) ?flip_size ?sv // nth_set_nth /=.
  by case: eqP => _; rewrite ?negbK // (nth_map false) ?sv.
pose f' j := f_add A (f j) (f_mul A (f_int A (Posz 2 * sgn (nth false v i))) (ent sc i j)).
rewrite (@rmapM_ok _ _ _ f'); last first.
  rewrite size_iota => j; rewrite mem_iota add0n => /andP[_ jl].
  rewrite (py_get_nth 0) ?size_map ?size_iota //= (py_get_nth 0) ?size_map ?flip_size //=.
  rewrite (mgetE sqM il jl) /= (nth_map 0%N) ?size_iota // nth_iota // add0n.
  by rewrite (nth_map false) ?flip_size // nth_set_nth /= eqxx negbK.
exists f'; rewrite size_iota /= flip_gm //; split=> //.
move=> j jl; rewrite flip_gS //.
have H := near_entry (Posz 2 * sgn (nth false v i)) il jl.
have H1 : `|(Posz 2 * sgn (nth false v i))%:~R| = 2%:R :> F.
  by rewrite intrM normrM normr_nat /sgn; case: ifP => _; rewrite ?rmorphN ?normrN normr1 mulr1.
rewrite H1 intrM in H.
have -> : gbd n.+1 = gbd n + 2%:R * mu by rewrite /gbd -mulrDl -natrD; congr (_%:R * _); lia.
have H2 : (2 <= 3 * (N + n))%N by lia.
have := near_add u0 accA (nf j jl) (near_k u0 H2 H).
by apply: near_k => //; lia.
Qed.

Lemma gbd_mono n n' : (n <= n')%N -> gbd n ^+ N <= gbd n' ^+ N.
Proof.
move=> nn; have mu0 := gmu0.
rewrite ler_expn2r ?nnegrE ?mulr_ge0 ?ler0n // ler_wpmul2r // ler_nat.
by rewrite leq_add2l leq_mul2l.
Qed.

Lemma fl_glynn_loop I idx v f p q P n : all (fun i => (i < N)%N) idx -> size v = N ->
  (n + size idx <= I)%N -> near_gsums n v f -> near (gkterm I + n) q P p ->
  exists v' f' p', rfoldl (fl_glynn_step A sc) (gfstate v f p) idx = Ok (gfstate v' f' p') /\
    near (gkterm I + (n + size idx)) (q + \sum_(w <- scanl flip v idx) gT w)
      (P + (size idx)%:R * gbd I ^+ N) p'.
Proof.
elim: idx v f p q P n => [|i idx IH] v f p q P n.
  by move=> _ _ _ _ np; exists v, f, p; split=> //; rewrite /= big_nil mul0r !addr0 addn0.
case/andP => il al sv nI nf np; rewrite rfoldl_cons.
have [f' [-> nf']] := fl_glynn_stepE p il sv nf; rewrite [rbind _ _]/=.
have nt := near_gterm nf'; rewrite /= in nI.
have np' : near (gkterm I + n.+1) (q + gT (flip v i)) (P + gbd I ^+ N)
   (f_add A p (f_mul A (gm F (flip v i)) (foldl (f_mul A) 1 [seq f' j | j <- iota 0 N]))).
  rewrite addnS; apply: near_add => //; apply: near_mono nt => //.
    by rewrite /gkterm; nia.
  by apply: gbd_mono; lia.
have sv' : size (flip v i) = N by rewrite flip_size ?sv.
have nI' : (n.+1 + size idx <= I)%N by rewrite addSnnS.
have [v' [f2 [p' [-> nn]]]] := IH _ _ _ _ _ _ al sv' nI' nf' np'.
exists v', f2, p'; split=> //; rewrite big_cons addrA /= -addSnnS.
by rewrite -[(size idx).+1]add1n natrD mulrDl mul1r addrA.
Qed.

End FloatGlynn.

Lemma fl_glynnE (F : numFieldType) (u : F) (A : arith F) (M : seq (seq F)) m s t gray mu :
  0 <= u -> accurate u A ->
  is_square m M -> (size s <= m)%N -> (size t <= m)%N -> sumn s = sumn t ->
  ((0 < sumn s)%N -> is_gray_code (sumn s - 1) (gray (sumn s - 1)%N)) ->
  (forall j i, (j < m)%N -> (i < m)%N -> `|ent M j i| <= mu) ->
  exists2 v, fl_glynn_permanent A gray M s t = Ok v &
    near u (gkterm (sumn s) (2 ^ sumn s) + 2 ^ sumn s) (bs_permanent M s t)
      (gbd (sumn s) mu (2 ^ sumn s) ^+ sumn s) v.
Proof.
move=> u0 accA /andP[/eqP sM rM] sm tm st gr mub; rewrite /fl_glynn_permanent.
case: (posnP (sumn s)) => [s0|s0].
  rewrite scattering_empty; last by left.
  exists 1 => //; rewrite bs_permanent_PerO //; have := size_particle_modes t; rewrite -st s0.
  by case: (particle_modes t) => // _; apply: near_exact => //=; rewrite normr1.
have m0 : (0 < m)%N by apply: leq_trans sm; case: (s) s0.
rewrite (scattering_calculateE sM rM) ?sM ?sm ?tm -?st //=.
set sc := [seq _ | _ <- _].
have ssc : size sc = sumn s by rewrite size_map size_particle_modes.
have sq : is_square (sumn s) sc.
  rewrite /is_square ssc eqxx /=; apply/allP => row /mapP[j _ ->].
  by rewrite size_map size_particle_modes.
have mub' j i : (j < sumn s)%N -> (i < sumn s)%N -> `|ent sc j i| <= mu.
  move=> jl il; rewrite ent_list ?size_particle_modes -?st //; apply: mub.
    by apply: leq_trans tm; apply: particle_modes_lt; rewrite mem_nth // size_particle_modes -st.
  by apply: leq_trans sm; apply: particle_modes_lt; rewrite mem_nth // size_particle_modes.
rewrite ssc eqn0Ngt s0 /=; have {}gr := gr s0; have [n En] : exists n, sumn s = n.+1.
  by exists (sumn s).-1; rewrite prednK.
have [f -> nf] := fl_glynn_initE u0 accA sq s0 mub'; rewrite [rbind _ _]/=.
have -> : nseq (sumn s) (1 : int) = [seq sgn (~~ b) | b <- nseq (sumn s) false].
  by rewrite map_nseq.
have g0 : gm F (nseq (sumn s) false) = 1 by rewrite /gm count_nseq mul0n.
have al : all (fun i => (i < sumn s)%N) (gray (sumn s - 1)%N).
  case/and3P: (gr) => al _ _; apply/allP => i /(allP al); lia.
have nt := near_gterm u0 accA nf; rewrite g0 in nt.
set z := nseq _ false in nf nt g0 *; set idx := gray _ in gr al *.
have si : ((size idx).+1 = 2 ^ (sumn s - 1))%N by case/and3P: gr => _ _ /eqP.
have E2 : (2 ^ sumn s = 2 * 2 ^ (sumn s - 1))%N by rewrite En subn1 expnS.
set I := (2 ^ sumn s)%N in E2 *.
have np : near u (gkterm (sumn s) I + 0) (gT (sumn s) (ent sc) z) (gbd (sumn s) mu I ^+ sumn s)
   (f_mul A 1 (foldl (f_mul A) 1 [seq f j | j <- iota 0 (sumn s)])).
  apply: near_mono nt => //; first by rewrite /gkterm; nia.
  by apply: (gbd_mono s0 mub').
have sI : (0 + size idx <= I)%N by rewrite E2 -si; lia.
have [v' [f' [p' []]]] := fl_glynn_loop u0 accA sq s0 mub' al (size_nseq _ _) sI nf np.
rewrite /gfstate g0 => -> nn; rewrite [rbind _ _]/=; eexists; first by [].
have z2 : Posz 2 ^+ (sumn s - 1) != 0 by rewrite expf_neq0.
have := near_div u0 accA z2 nn.
rewrite rmorphX /= normrX normr_nat.
have -> (h : seq bool -> F) (x : seq bool) l : h x + \sum_(w <- l) h w = \sum_(w <- x :: l) h w.
  by rewrite big_cons.
have -> : z :: scanl flip z idx = [seq rcons w false | w <- gray_visits (nseq n false) idx].
  have -> : z = rcons (nseq n false) false by rewrite /z En; elim: (n) => //= k ->.
  rewrite /gray_visits /= (@scanl_flip_rcons n) ?size_nseq //.
  by case/and3P: gr; rewrite En subn1.
have gr' : is_gray_code n idx by move: gr; rewrite En subn1.
rewrite big_map (perm_big _ (gray_perm gr')) /=.
set B := gbd _ _ _ ^+ _.
have -> : (B + (size idx)%:R * B) / 2%:R ^+ (sumn s - 1) = B.
  rewrite -{1}[B]mul1r -mulrDl -[1]/(1%:R) -natrD add1n si natrX mulrC mulrA mulVf ?mul1r //.
  by rewrite expf_neq0 // pnatr_eq0.
have -> : (\sum_(v <- allb n) gT (sumn s) (ent sc) (rcons v false)) / 2%:R ^+ (sumn s - 1)
   = bs_permanent M s t.
  rewrite {1}En sum_gT_half En subn1 [_ * permanent _]mulrC mulfK ?expf_neq0 ?pnatr_eq0 //.
  rewrite bs_permanent_PerO // PerO_PerL -(@permanent_PerL _ _ n.+1) ?size_particle_modes -?st //.
  by congr permanent; apply/matrixP => a b; rewrite !mxE ent_list // size_particle_modes -?st En.
by apply: near_k => //; rewrite E2 -si; lia.
Qed.
