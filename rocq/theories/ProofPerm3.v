(* Effective scattering matrix, classic and Glynn calculators. *)
From mathcomp Require Import all_ssreflect all_fingroup all_algebra zify ring.
From Verif Require Import Base SpecStates Combi SpecPerm PermMath ModelPerm ProofPerm1 ProofPerm2.
Set Implicit Arguments.
Unset Strict Implicit.
Unset Printing Implicit Defensive.
Import GRing.Theory Num.Theory.
Local Open Scope ring_scope.

Section Scattering.
Variable F : numFieldType.

Lemma particle_modes_lt s i : i \in particle_modes s -> (i < size s)%N.
Proof.
by case/flattenP => l /mapP[j]; rewrite mem_iota add0n => jl ->; rewrite mem_nseq => /andP[_ /eqP ->].
Qed.

Lemma repeat_rowsE (rows : seq (seq F)) state :
  repeat_rows rows state = if (size state <= size rows)%N
   then Ok [seq nth [::] rows i | i <- particle_modes state] else Err IndexError.
Proof.
rewrite /repeat_rows.
have H n : (n <= size state)%N -> rfoldl (fun acc i =>
    rbind (py_get rows (Posz i)) (fun row => rbind (py_get state (Posz i)) (fun k =>
    Ok (acc ++ nseq k row)))) [::] (iota 0 n) =
  if (n <= size rows)%N
   then Ok [seq nth [::] rows i | i <- flatten [seq nseq (nth 0%N state i) i | i <- iota 0 n]]
   else Err IndexError.
  elim: n => [//|n IH] ns; rewrite -addn1 iotaD rfoldl_cat IH ?(ltnW ns) // add0n.
  rewrite addn1; case: (ltnP n (size rows)) => nr; last first.
    case: ifP => // le; rewrite /= /py_get /= ltnNge nr //.
  rewrite (ltnW nr) /= (py_get_nth [::]) //= (py_get_nth 0%N) //= map_cat flatten_cat map_cat.
  by rewrite /= cats0 map_nseq.
exact: H.
Qed.

Lemma scattering_calculateE (M : seq (seq F)) (rr cc : nat) s t :
  size M = rr -> all (fun row => size row == cc) M -> (0 < rr)%N ->
  (0 < sumn s)%N -> (0 < sumn t)%N ->
  scattering_calculate M s t =
   if (size s <= cc)%N && (size t <= rr)%N
   then Ok [seq [seq ent M j i | i <- particle_modes s] | j <- particle_modes t]
   else Err IndexError.
Proof.
move=> sM rM r0 s0 t0; rewrite /scattering_calculate !eqn0Ngt s0 t0 /=.
have hM : size (head [::] M) = cc.
  by case: (M) sM rM r0 => [<-//|row M' _ /= /andP[/eqP]].
rewrite repeat_rowsE size_map size_iota hM; case: (leqP (size s) cc) => sc //=.
rewrite repeat_rowsE.
have hs : size (head [::] [seq nth [::] (np_transpose M) i | i <- particle_modes s]) = rr.
  case E: (particle_modes s) => [|i l]; first by rewrite -size_particle_modes E in s0.
  rewrite /= (nth_map 0%N) ?size_map // size_iota hM.
  by apply: leq_trans sc; apply: particle_modes_lt; rewrite E inE eqxx.
rewrite size_map size_iota hs; case: ifP => // tr; congr Ok.
apply/eq_in_map => j /particle_modes_lt jt.
rewrite (nth_map 0%N) ?size_iota ?hs ?(leq_trans jt) // nth_iota ?hs ?(leq_trans jt) // add0n.
rewrite -map_comp; apply/eq_in_map => i /particle_modes_lt il /=.
rewrite (nth_map 0%N) ?size_iota ?hM ?(leq_trans il) // nth_iota ?hM ?(leq_trans il) // add0n.
by rewrite (nth_map [::]) ?sM ?(leq_trans jt).
Qed.

Lemma scattering_empty (M : seq (seq F)) s t : sumn s = 0%N \/ sumn t = 0%N ->
  scattering_calculate M s t = Ok [::].
Proof. by rewrite /scattering_calculate; case=> ->; rewrite ?orbT. Qed.

End Scattering.

(* ------------------------------------------------------------------ *)
Section Classic.
Variable F : numFieldType.

Lemma classic_recE (mtx : seq (seq F)) (rr cc fuel col : nat) sel prod :
  size mtx = rr -> all (fun row => size row == cc) mtx -> (0 < rr)%N ->
  (col <= cc)%N -> (cc - col <= fuel)%N ->
  classic_rec fuel mtx col sel prod =
  Ok (prod * PerL (fun c r => ent mtx r c) (iota col (cc - col))
              [seq row <- iota 0 rr | row \notin sel]).
Proof.
move=> sM rM r0; elim: fuel col sel prod => [|fuel IH] col sel prod cl fu.
all: have [row0 M0 hM] : exists2 row0, py_get mtx 0 = Ok row0 & size row0 = cc.
  1, 3: case: (mtx) sM rM r0 => [<-//|row M' _ /= /andP[/eqP <- _] _]; by exists row.
all: rewrite /= M0 /= hM.
  have -> : col = cc by lia.
  by rewrite eqxx subnn /= mulr1.
case: eqP => [->|ne]; first by rewrite subnn /= mulr1.
have cl' : (col < cc)%N by lia.
have -> : (cc - col = (cc - col.+1).+1)%N by lia.
rewrite [PerL _ _ _]/= big_filter sM.
have getE r : (r < rr)%N -> mget mtx r col = Ok (ent mtx r col).
  move=> rl; rewrite /mget (py_get_nth [::]) ?sM //= (py_get_nth 0) //.
  by rewrite (eqP (allP rM _ (mem_nth _ _))) ?sM.
have H l res0 : {subset l <= iota 0 rr} ->
  rfoldl (fun result row => if row \notin sel then
     rbind (mget mtx row col) (fun a =>
     rbind (classic_rec fuel mtx col.+1 (rcons sel row) (prod * a)) (fun v => Ok (result + v)))
   else Ok result) res0 l =
  Ok (res0 + \sum_(i <- l | i \notin sel) prod * (ent mtx i col *
    PerL (fun c r => ent mtx r c) (iota col.+1 (cc - col.+1))
              (rem i [seq row <- iota 0 rr | row \notin sel]))).
  elim: l res0 => [|r l IHl] res0 sub /=; first by rewrite big_nil addr0.
  have rl : (r < rr)%N by have := sub r; rewrite inE eqxx mem_iota => /(_ isT).
  have sub' : {subset l <= iota 0 rr} by move=> x xl; apply: sub; rewrite inE xl orbT.
  rewrite big_cons; case: ifP => rs; last by rewrite /= IHl.
  rewrite getE //= IH //; last by lia.
  rewrite /= IHl // -!addrA; congr (Ok (_ + (_ + _))); rewrite -mulrA; congr (_ * (_ * PerL _ _ _)).
  rewrite rem_filter ?filter_uniq ?iota_uniq // -filter_predI; apply: eq_filter => x /=.
  by rewrite mem_rcons inE negb_or.
by rewrite H // add0r mulr_sumr.
Qed.

Lemma ent_list (u : nat -> nat -> F) rows cols a b : (a < size rows)%N -> (b < size cols)%N ->
  ent [seq [seq u j i | i <- cols] | j <- rows] a b = u (nth 0%N rows a) (nth 0%N cols b).
Proof. by move=> al bl; rewrite /ent (nth_map 0%N) // (nth_map 0%N). Qed.

Lemma permanent_list (u : nat -> nat -> F) rows cols n : size rows = n -> size cols = n ->
  PerL (fun c r => ent [seq [seq u j i | i <- cols] | j <- rows] r c) (iota 0 n) (iota 0 n)
  = permanent (listmx u n rows cols).
Proof.
move=> sr sc; rewrite -(@permanent_PerL _ _ n) ?size_iota // -permanent_tr.
by congr permanent; apply/matrixP => a b; rewrite !mxE !nth_iota ?add0n ?ent_list ?sr ?sc.
Qed.

Lemma classicE (M : seq (seq F)) m s t fuel : is_square m M -> (size s <= m)%N -> (size t <= m)%N ->
  sumn s = sumn t -> (sumn s <= fuel)%N ->
  classic_permanent fuel M s t = Ok (bs_permanent M s t).
Proof.
move=> /andP[/eqP sM rM] sm tm st fu; rewrite /classic_permanent -st.
case: eqP => [s0|/eqP s0].
  rewrite bs_permanent_PerO //; have := size_particle_modes t; rewrite -st s0.
  by case: (particle_modes t).
have s0' : (0 < sumn s)%N by rewrite lt0n.
have m0 : (0 < m)%N by apply: leq_trans sm; case: (s) s0'.
rewrite (scattering_calculateE sM rM) ?sM ?sm ?tm -?st //=.
rewrite (@classic_recE _ (sumn t) (sumn s)) ?subn0 ?size_map ?size_particle_modes -?st //.
  rewrite mul1r; have -> : [seq row <- iota 0 (sumn s) | row \notin [::]] = iota 0 (sumn s).
    by apply/all_filterP/allP.
  by rewrite permanent_list ?size_particle_modes // /bs_permanent /scattering -st.
by rewrite all_map; apply/allP => j _ /=; rewrite size_map size_particle_modes.
Qed.

Lemma classic_edge (M : seq (seq F)) s t fuel :
  (sumn s = 0%N -> (0 < sumn t)%N -> classic_permanent fuel M s t = Ok 0) /\
  ((0 < sumn s)%N -> sumn t = 0%N -> classic_permanent fuel M s t = Err IndexError).
Proof.
rewrite /classic_permanent; split=> [-> /=|]; first by rewrite lt0n => /negPf ->.
rewrite lt0n => /negPf -> t0; rewrite scattering_empty //=; last by right.
by case: fuel.
Qed.

End Classic.
