(* The calculators with 64 bit integers. *)
From mathcomp Require Import all_ssreflect all_algebra.
From mathcomp Require Import ring zify.
From Verif Require Import Base ModelPerm ModelInt64.
Set Implicit Arguments.
Unset Strict Implicit.
Unset Printing Implicit Defensive.
Import Order.TTheory GRing.Theory Num.Theory.
Local Open Scope ring_scope.
Local Open Scope py_scope.

Lemma two63_gt0 : 0 < two63. Proof. exact: exprn_gt0. Qed.

Lemma wrap_id (z : int) : - two63 <= z < two63 -> wrap64 z = z.
Proof.
rewrite /wrap64; have := two63_gt0; generalize two63 => P P0 /andP[l h].
have [z0|z0] := boolP (0 <= z).
  by rewrite modz_small ?h // z0 /=; lia.
have -> : (z %% (P + P))%Z = z + (P + P).
  by rewrite -(modzDr z) modz_small //; apply/andP; split; lia.
by case: ifP => h2; lia.
Qed.

Lemma wrap_pow_lt n : (n < 63)%N -> wrap64 (2%:R ^+ n) = 2%:R ^+ n.
Proof.
move=> h; apply: wrap_id; apply/andP; split.
  by apply: (@le_trans _ _ 0); rewrite ?oppr_le0 ?exprn_ge0 // ltW ?two63_gt0.
by rewrite ltr_eexpn2l.
Qed.

Lemma wrap_pow63 : wrap64 (2%:R ^+ 63) = - two63.
Proof.
rewrite -/two63 /wrap64; have := two63_gt0; generalize two63 => P P0.
rewrite modz_small; last by apply/andP; split; lia.
by rewrite ltxx; lia.
Qed.

Lemma wrap_pow_ge n : (64 <= n)%N -> wrap64 (2%:R ^+ n) = 0.
Proof.
move=> h; rewrite /wrap64 -(subnK h) exprD.
have -> : 2%:R ^+ 64 = two63 + two63 by rewrite exprS mulr_natl mulr2n.
by rewrite modzMl two63_gt0.
Qed.

Lemma sum64E s : (Posz (sumn s) < two63)%R -> sum64 s = Posz (sumn s).
Proof.
have H acc : (Posz acc + Posz (sumn s) < two63)%R -> foldl (fun acc x => wrap64 (acc + Posz x)) (Posz acc) s = Posz (acc + sumn s).
  elim: s acc => [|x s IH] acc h /=; first by rewrite addn0.
  rewrite wrap_id; first by rewrite -PoszD IH ?addnA //; move: h => /=; rewrite !PoszD addrA.
  apply/andP; split; last by apply: le_lt_trans h; rewrite /= PoszD; lia.
  by apply: (@le_trans _ _ 0); rewrite ?oppr_le0 // ltW ?two63_gt0.
by move=> h; have := H 0%N; rewrite !add0n add0r; apply.
Qed.

Section Calculators.
Variable F : numFieldType.
Implicit Type c : calc F.

Lemma pow2F n : (2%:R ^+ n : int)%:~R = 2%:R ^+ n :> F.
Proof. by rewrite rmorphX /= -pmulrn. Qed.

Lemma pow2_neq0 n : (2%:R ^+ n == 0 :> int) = false.
Proof. by rewrite expf_eq0 /= andbF. Qed.

Lemma recip_pow_lt n : (n < 63)%N -> recip64 F (wrap64 (2%:R ^+ n)) = Some (1 / 2%:R ^+ n).
Proof. by move=> h; rewrite wrap_pow_lt // /recip64 pow2_neq0 pow2F. Qed.

Lemma recip_pow63 : recip64 F (wrap64 (2%:R ^+ 63)) = Some (- (1 / 2%:R ^+ 63)).
Proof. by rewrite wrap_pow63 /recip64 oppr_eq0 /two63 pow2_neq0 mulrNz pow2F invrN mulrN. Qed.

Lemma recip_pow_ge n : (64 <= n)%N -> recip64 F (wrap64 (2%:R ^+ n)) = None.
Proof. by move=> h; rewrite wrap_pow_ge. Qed.

Lemma init_withE k c : init_computation k c = init_with k (init_multiplier F k (c_input c)) c.
Proof. by []. Qed.

Lemma signpow n : ((-1) ^+ n : int)%:~R = (-1) ^+ n :> F.
Proof. by rewrite rmorphX /= rmorphN. Qed.

Lemma wrap_sign n : wrap64 ((-1) ^+ n) = (-1) ^+ n.
Proof.
apply: wrap_id; have : Posz 1 < two63 by apply: exprn_egt1.
generalize two63 => P P0.
have [->|->] : (-1) ^+ n = Posz 1 \/ (-1) ^+ n = Negz 0 by rewrite -signr_odd; case: (odd n); [right|left].
  by apply/andP; split; lia.
by apply/andP; split; lia.
Qed.

Definition small (s : seq nat) : Prop := (Posz (sumn s) < two63)%R.

Lemma small_le s n : (sumn s <= n)%N -> (n < 128)%N -> small s.
Proof.
move=> h n7; rewrite /small; apply: (@lt_le_trans _ _ (2%:R ^+ 7)); last by rewrite ler_eexpn2l.
by have -> : 2%:R ^+ 7 = Posz 128 by []; rewrite ltz_nat; lia.
Qed.

Lemma mult64_ryser s : small s -> init_multiplier64 F Ryser s = Ok (Some (init_multiplier F Ryser s)).
Proof. by move=> h; rewrite /= sum64E //= wrap_sign signpow. Qed.

Lemma mult64_lt s : (sumn s < 63)%N -> init_multiplier64 F ChinHuh s = Ok (Some (init_multiplier F ChinHuh s)).
Proof.
move=> h; rewrite /= sum64E /=; first by rewrite recip_pow_lt.
exact: (@small_le _ 62).
Qed.

Lemma mult64E s : small s -> init_multiplier64 F ChinHuh s = Ok (recip64 F (wrap64 (2%:R ^+ sumn s))).
Proof. by move=> h; rewrite /= sum64E. Qed.

Lemma mult64_63 s : sumn s = 63%N -> init_multiplier64 F ChinHuh s = Ok (Some (- init_multiplier F ChinHuh s)).
Proof.
move=> h; rewrite mult64E; last by apply: (@small_le _ 63); rewrite ?h.
by rewrite /init_multiplier h recip_pow63.
Qed.

Lemma mult64_ge s : (64 <= sumn s)%N -> small s -> init_multiplier64 F ChinHuh s = Ok None.
Proof. by move=> h sm; rewrite /= sum64E //= recip_pow_ge. Qed.

Lemma compute64_same fuel k c : init_multiplier64 F k (c_input c) = Ok (Some (init_multiplier F k (c_input c))) ->
  compute_permanent64 fuel k c = rmap Some (compute_permanent fuel k c).
Proof.
move=> h; rewrite /compute_permanent64 /compute_permanent h init_withE.
case: (can_calculate (c_matrix c) (c_input c) (c_output c)) => [[|]|e] //=.
by case: (init_with _ _ c).
Qed.

(* the sign of the multiplier *)
Definition negc c : calc F :=
  Calc (c_matrix c) (c_input c) (c_output c) (c_guan c) (c_binom c) (- c_mult c) (c_cols c) (c_sums c) (- c_perm c).

Lemma step_neg (sums : seq (nat * F)) (out : seq nat) (b : F) (l : seq nat) :
  let f := fun (acc : F) j =>
      let! s := dict_get sums j in
      let! e := py_get out (Posz j) in
      Ok (acc * s ^+ e) in
  rfoldl f (- b) l = rmap -%R (rfoldl f b l).
Proof.
move=> f; elim: l b => [|j l IH] b //=; rewrite /f.
case: (dict_get sums j) => [s|e] //=; case: (py_get out _) => [e|e] //=.
by rewrite mulNr IH.
Qed.

Lemma update_permanent_neg c : update_permanent (negc c) = rmap negc (update_permanent c).
Proof.
rewrite /update_permanent /= mulNr step_neg; case: (rfoldl _ _ _) => [v|e] //=.
by rewrite /negc /= opprD.
Qed.

Lemma permanent_loop_neg fuel k c : permanent_loop fuel k (negc c) = rmap negc (permanent_loop fuel k c).
Proof.
elim: fuel c => [|fuel IH] c; rewrite [LHS]/= [X in rmap _ X]/=.
  case: (py_get _ _) => [r|e] //=; case: (py_get _ _) => [lim|e] //=; by case: ifP.
case: (py_get _ _) => [r|e] //=; case: (py_get _ _) => [lim|e] //=; case: ifP => // _.
case: (update_guan_code _) => [g|e] //=; case: ifP => // _.
case: (update_sums _ _ _ _) => [sums|e] //=.
case: (update_binomials _ _ _) => [b|e] //=.
rewrite -[Calc _ _ _ _ _ (- - c_mult c) _ _ _]/(negc (Calc (c_matrix c) (c_input c) (c_output c) g b (- c_mult c) (c_cols c) sums (c_perm c))).
by rewrite update_permanent_neg; case: (update_permanent _) => [c'|e] //=; rewrite IH.
Qed.

Lemma init_with_neg k m c : init_with k (- m) c = rmap negc (init_with k m c).
Proof.
rewrite /init_with; case: (init_sums _ _ _ _) => [sums|e] //=.
by rewrite -update_permanent_neg /negc /= oppr0.
Qed.

Lemma compute64_neg fuel k c : init_multiplier64 F k (c_input c) = Ok (Some (- init_multiplier F k (c_input c))) ->
  compute_permanent64 fuel k c = rmap (fun x => Some (negc x)) (compute_permanent fuel k c).
Proof.
move=> h; rewrite /compute_permanent64 /compute_permanent h init_withE.
case: (can_calculate (c_matrix c) (c_input c) (c_output c)) => [[|]|e] //=; rewrite init_with_neg.
case: (init_with _ _ _) => [c'|e] //=; rewrite permanent_loop_neg.
by case: (permanent_loop _ _ _).
Qed.

(* errors do not depend on the multiplier *)
Definition withm (m p : F) c : calc F :=
  Calc (c_matrix c) (c_input c) (c_output c) (c_guan c) (c_binom c) m (c_cols c) (c_sums c) p.
Definition same_but (c c' : calc F) : Prop := c' = withm (c_mult c') (c_perm c') c.

Definition res_rel (A B : Type) (P : A -> B -> Prop) (x : res A) (y : res B) : Prop :=
  match x, y with Ok a, Ok b => P a b | Err e, Err e' => e = e' | _, _ => False end.

Lemma step_any (sums : seq (nat * F)) (out : seq nat) (b b' : F) (l : seq nat) :
  let f := fun (acc : F) j =>
      let! s := dict_get sums j in
      let! e := py_get out (Posz j) in
      Ok (acc * s ^+ e) in
  res_rel (fun _ _ => True) (rfoldl f b l) (rfoldl f b' l).
Proof.
move=> f; elim: l b b' => [|j l IH] b b' //=; rewrite /f.
by case: (dict_get sums j) => [s|e] //=; case: (py_get out _) => [e|e] //=; exact: IH.
Qed.

Lemma update_permanent_any c c' : same_but c c' -> res_rel same_but (update_permanent c) (update_permanent c').
Proof.
move=> ->; rewrite /update_permanent /=.
have := step_any (c_sums c) (c_output c) (c_mult c * c_binom c) (c_mult c' * c_binom c) (c_cols c).
rewrite /=; case: (rfoldl _ _ _) => [v|e]; case: (rfoldl _ _ _) => [v'|e'] //=.
Qed.

Lemma permanent_loop_any fuel k c c' : same_but c c' ->
  res_rel same_but (permanent_loop fuel k c) (permanent_loop fuel k c').
Proof.
elim: fuel c c' => [|fuel IH] c c' s; rewrite [permanent_loop _ _ c]/= [permanent_loop _ _ c']/=; rewrite s /=.
  case: (py_get _ _) => [r|e] //=; case: (py_get _ _) => [lim|e] //=; by case: ifP.
case: (py_get _ _) => [r|e] //=; case: (py_get _ _) => [lim|e] //=; case: ifP => // _.
case: (update_guan_code _) => [g|e] //=; case: ifP => // _.
case: (update_sums _ _ _ _) => [sums|e] //=.
case: (update_binomials _ _ _) => [b|e] //=.
set c1 := Calc _ _ _ g b (- c_mult c) _ _ _; set c2 := Calc _ _ _ g b (- c_mult c') _ _ _.
have s12 : same_but c1 c2 by [].
have := update_permanent_any s12.
by case: (update_permanent c1) => [d|e]; case: (update_permanent c2) => [d'|e'] //= h; apply: IH.
Qed.

Lemma compute64_none fuel k c : init_multiplier64 F k (c_input c) = Ok None ->
  compute_permanent64 fuel k c = rmap (fun=> None) (compute_permanent fuel k c).
Proof.
move=> h; rewrite /compute_permanent64 /compute_permanent h init_withE.
case: (can_calculate (c_matrix c) (c_input c) (c_output c)) => [[|]|e] //=.
have : res_rel same_but (init_with k 1 c) (init_with k (init_multiplier F k (c_input c)) c).
  rewrite /init_with; case: (init_sums _ _ _ _) => [sums|e] //=.
  exact: update_permanent_any.
case: (init_with k 1 c) => [d|e]; case: (init_with _ _ c) => [d'|e'] //= sd; last by rewrite sd.
have := permanent_loop_any fuel k sd.
by case: (permanent_loop fuel k d) => [x|e]; case: (permanent_loop fuel k d') => [x'|e'] //= ->.
Qed.

(* the sub-matrix calculators *)
Implicit Type x : subcalc F.

Definition sub_mult (k : guan_kind) (s t : seq nat) : F :=
  match k with
  | Ryser => (-1) ^+ sumn t
  | ChinHuh => 1 / (2%:R ^ (Posz (sumn s) - 1))
  end.

Lemma init_sub_withE k x : init_subcomputation k x = init_sub_with k (sub_mult k (sc_input x) (sc_output x)) x.
Proof. by case: k. Qed.

Lemma submult_ryser s t : small t -> init_submultiplier64 F Ryser s t = Ok (Some (sub_mult Ryser s t)).
Proof. by move=> h; rewrite /= sum64E //= wrap_sign signpow. Qed.

Lemma wrap_pred s n : small s -> sumn s = n.+1 -> wrap64 (sum64 s - 1) = Posz n.
Proof.
move=> sm sn; rewrite sum64E // sn (_ : Posz n.+1 - 1 = Posz n); last by lia.
apply: wrap_id; move: sm two63_gt0; rewrite /small sn; generalize two63 => P h P0.
by apply/andP; split; lia.
Qed.

Lemma sub_multS s t n : sumn s = n.+1 -> sub_mult ChinHuh s t = 1 / 2%:R ^+ n.
Proof. by move=> sn; rewrite /sub_mult sn (_ : Posz n.+1 - 1 = Posz n) //; lia. Qed.

Lemma submultE s t n : small s -> sumn s = n.+1 -> init_submultiplier64 F ChinHuh s t = Ok (recip64 F (wrap64 (2%:R ^+ n))).
Proof. by move=> h En; rewrite /= (wrap_pred h En). Qed.

Lemma submult_lt s t : (0 < sumn s < 64)%N -> init_submultiplier64 F ChinHuh s t = Ok (Some (sub_mult ChinHuh s t)).
Proof.
case En: (sumn s) => [|n] // h; rewrite (sub_multS _ En) (submultE _ _ En) ?recip_pow_lt //.
by apply: (@small_le _ 63); rewrite // En.
Qed.

Lemma submult_64 s t : sumn s = 64%N -> init_submultiplier64 F ChinHuh s t = Ok (Some (- sub_mult ChinHuh s t)).
Proof.
move=> En; rewrite (sub_multS _ En) (submultE _ _ En); last by apply: (@small_le _ 64); rewrite ?En.
by rewrite recip_pow63.
Qed.

Lemma submult_ge s t : (64 < sumn s)%N -> small s -> init_submultiplier64 F ChinHuh s t = Ok None.
Proof.
move=> h sm; case En: (sumn s) h => [|n] // h.
by rewrite (submultE _ sm En) recip_pow_ge.
Qed.

Lemma wrapN1 : wrap64 (-1) = -1.
Proof.
apply: wrap_id; have : Posz 1 < two63 by apply: exprn_egt1.
by generalize two63 => P h; apply/andP; split; lia.
Qed.

Lemma submult_0 s t : sumn s = 0%N -> init_submultiplier64 F ChinHuh s t = Err ValueError.
Proof.
move=> En; rewrite /init_submultiplier64 sum64E; last by apply: (@small_le _ 0); rewrite ?En.
by rewrite En sub0r wrapN1.
Qed.

Lemma sum64_eq1 s : small s -> (sum64 s == 1) = (sumn s == 1%N).
Proof. by move=> h; rewrite sum64E. Qed.

Lemma compute_subs_same fuel k x : small (sc_input x) -> sumn (sc_input x) != 1%N ->
  init_submultiplier64 F k (sc_input x) (sc_output x) = Ok (Some (sub_mult k (sc_input x) (sc_output x))) ->
  compute_permanents64 fuel k x = rmap (fun r => Some r.1) (compute_permanents fuel k x).
Proof.
move=> sm n1 h; rewrite /compute_permanents64 /compute_permanents sum64_eq1 // (negPf n1) h init_sub_withE /=.
case: (init_sub_with _ _ _) => [c'|e] //=.
by case: (permanents_loop _ _ _).
Qed.

Lemma compute_subs_one fuel k x : sumn (sc_input x) = 1%N ->
  compute_permanents64 fuel k x = rmap (fun r => Some r.1) (compute_permanents fuel k x).
Proof.
move=> n1; rewrite /compute_permanents64 /compute_permanents sum64_eq1 ?n1 //.
by apply: (@small_le _ 1); rewrite ?n1.
Qed.

(* the sign of the multiplier, Chin-Huh variant *)
Definition negs x : subcalc F :=
  Subcalc (sc_matrix x) (sc_input x) (sc_output x) (sc_guan x) (sc_binom x) (- sc_mult x) (sc_cols x)
    (sc_sums x) (sc_prod x) (map -%R (sc_perms x)).

Lemma rfoldl_map (S T U : Type) (f : S -> T -> res S) (g : U -> T -> res U) (h : S -> U) (s : S) (l : seq T) :
  (forall s y, g (h s) y = rmap h (f s y)) -> rfoldl g (h s) l = rmap h (rfoldl f s l).
Proof. by move=> fg; elim: l s => [|y l IH] s //=; rewrite fg; case: (f s y) => //=. Qed.

Lemma py_get_map (A B : Type) (f : A -> B) (l : seq A) i : py_get (map f l) i = rmap f (py_get l i).
Proof.
rewrite /py_get size_map; case: (py_index _ _) => [k|e] //=.
by rewrite -map_drop; case: (drop k l).
Qed.

Lemma py_set_map (A B : Type) (f : A -> B) (l : seq A) i v : py_set (map f l) i (f v) = rmap (map f) (py_set l i v).
Proof.
rewrite /py_set size_map; case: (py_index _ _) => [k|e] //=.
by rewrite -map_drop -map_take; case: (drop k l) => //= y r; rewrite map_cat.
Qed.

Lemma update_permanents_neg x : update_permanents ChinHuh (negs x) = rmap (map -%R) (update_permanents ChinHuh x).
Proof.
rewrite /update_permanents /=; apply: rfoldl_map => perms i.
case: (py_get _ _) => [s|e] //=; case: (py_get _ _) => [r|e] //=; case: ifP => // _.
case: (rfoldl _ _ _) => [upd|e] //=; case: (updated_binomial _ _ _) => [b|e] //=.
rewrite mulNr step_neg; case: (rfoldl _ _ _) => [v|e] //=.
rewrite py_get_map; case: (py_get _ _) => [q|e] //=.
by rewrite -opprD py_set_map.
Qed.

Lemma permanents_loop_neg fuel x : permanents_loop fuel ChinHuh (negs x) = rmap negs (permanents_loop fuel ChinHuh x).
Proof.
elim: fuel x => [|fuel IH] x; rewrite [LHS]/= [X in rmap _ X]/=.
  case: (py_get _ _) => [r|e] //=; case: (py_get _ _) => [lim|e] //=; by case: ifP.
case: (py_get _ _) => [r|e] //=; case: (py_get _ _) => [lim|e] //=; case: ifP => // _.
case: (update_guan_code _) => [g|e] //=; case: ifP => // _.
case: (update_binomials _ _ _) => [b|e] //=.
rewrite /update_sub_sums /=; case: (update_sums _ _ _ _) => [sums|e] //=.
set x1 := Subcalc _ _ _ g b (- sc_mult x) _ _ _ _.
rewrite -[Subcalc _ _ _ g b (- - sc_mult x) _ _ _ (map _ _)]/(negs x1) update_permanents_neg.
case: (update_permanents _ _) => [perms|e] //=.
by rewrite -IH.
Qed.

Lemma init_sub_with_neg m x : init_sub_with ChinHuh (- m) x = rmap negs (init_sub_with ChinHuh m x).
Proof.
rewrite /init_sub_with; case: (init_sums _ _ _ _) => [sums|e] //.
cbn [rbind].
set x1 := Subcalc _ _ _ _ 1 m _ _ _ _.
have -> : Subcalc (sc_matrix x) (sc_input x) (sc_output x) (init_guan (sc_input x) (sc_guan x)) 1
     (- m) (np_nonzero (sc_output x)) sums (sc_prod x) (nseq (size (sc_input x)) 0) = negs x1.
  by rewrite /negs /x1 /= map_nseq oppr0.
by rewrite update_permanents_neg; case: (update_permanents _ _).
Qed.

Lemma compute_subs_neg fuel x : small (sc_input x) -> sumn (sc_input x) != 1%N ->
  init_submultiplier64 F ChinHuh (sc_input x) (sc_output x) = Ok (Some (- sub_mult ChinHuh (sc_input x) (sc_output x))) ->
  compute_permanents64 fuel ChinHuh x = rmap (fun r => Some (map -%R r.1)) (compute_permanents fuel ChinHuh x).
Proof.
move=> sm n1 h; rewrite /compute_permanents64 /compute_permanents sum64_eq1 // (negPf n1) h init_sub_withE.
cbn [rbind odflt oapp].
rewrite init_sub_with_neg.
case: (init_sub_with _ _ _) => [c'|e] //=; rewrite permanents_loop_neg.
by case: (permanents_loop _ _ _).
Qed.

(* errors do not depend on the multiplier *)
Definition withms (m : F) (p : seq F) x : subcalc F :=
  Subcalc (sc_matrix x) (sc_input x) (sc_output x) (sc_guan x) (sc_binom x) m (sc_cols x) (sc_sums x) (sc_prod x) p.
Definition same_buts (x x' : subcalc F) : Prop :=
  x' = withms (sc_mult x') (sc_perms x') x /\ size (sc_perms x') = size (sc_perms x).

Lemma rfoldl_rel (S T U : Type) (P : S -> U -> Prop) (f : S -> T -> res S) (g : U -> T -> res U) s s' (l : seq T) :
  (forall s s' y, P s s' -> res_rel P (f s y) (g s' y)) -> P s s' -> res_rel P (rfoldl f s l) (rfoldl g s' l).
Proof.
move=> fg; elim: l s s' => [|y l IH] s s' h //=.
by have := fg _ _ y h; case: (f s y) => [a|e]; case: (g s' y) => [a'|e'] //= h2; exact: IH.
Qed.

Lemma py_get_any (A : Type) (l l' : seq A) i : size l' = size l -> res_rel (fun _ _ => True) (py_get l i) (py_get l' i).
Proof.
move=> sz; rewrite /py_get sz; case: (py_index _ _) => [k|e] //=.
have : size (drop k l') = size (drop k l) by rewrite !size_drop sz.
by case: (drop k l') => [|y r]; case: (drop k l) => [|y' r'].
Qed.

Lemma py_set_any (A : Type) (l l' : seq A) i v v' : size l' = size l ->
  res_rel (fun a b : seq A => size b = size a) (py_set l i v) (py_set l' i v').
Proof.
move=> sz; rewrite /py_set sz; case: (py_index _ _) => [k|e] //=.
have : size (drop k l') = size (drop k l) by rewrite !size_drop sz.
case: (drop k l') => [|y r]; case: (drop k l) => [|y' r'] //= [h].
by rewrite !size_cat /= h !size_take sz.
Qed.

Lemma update_permanents_any x x' : same_buts x x' ->
  res_rel (fun a b : seq F => size b = size a) (update_permanents ChinHuh x) (update_permanents ChinHuh x').
Proof.
move=> [-> sz]; rewrite /update_permanents /=; apply: rfoldl_rel => // perms perms' i szp.
case: (py_get _ _) => [s|e] //=; case: (py_get _ _) => [r|e] //=; case: ifP => // _.
case: (rfoldl _ _ _) => [upd|e] //=; case: (updated_binomial _ _ _) => [b|e] //=.
have := step_any upd (sc_output x) (sc_mult x * b) (sc_mult x' * b) (sc_cols x).
rewrite /=; case: (rfoldl _ _ _) => [v|e]; case: (rfoldl _ _ _) => [v'|e'] //= => _.
have := py_get_any (Posz i) szp.
case: (py_get _ _) => [q|e]; case: (py_get _ _) => [q'|e'] //= => _.
exact: py_set_any.
Qed.

Lemma permanents_loop_any fuel x x' : same_buts x x' ->
  res_rel same_buts (permanents_loop fuel ChinHuh x) (permanents_loop fuel ChinHuh x').
Proof.
elim: fuel x x' => [|fuel IH] x x' s; rewrite [permanents_loop _ _ x]/= [permanents_loop _ _ x']/=;
  case: (s) => -> sz /=.
  by case: (py_get _ _) => [r|e] //=; case: (py_get _ _) => [lim|e] //=; case: ifP.
case: (py_get _ _) => [r|e] //=; case: (py_get _ _) => [lim|e] //=; case: ifP => // _.
case: (update_guan_code _) => [g|e] //=; case: ifP => // _.
case: (update_binomials _ _ _) => [b|e] //=.
rewrite /update_sub_sums /=; case: (update_sums _ _ _ _) => [sums|e] //=.
set x1 := Subcalc _ _ _ g b (- sc_mult x) _ _ _ _; set x2 := Subcalc _ _ _ g b (- sc_mult x') _ _ _ _.
have s12 : same_buts x1 x2 by [].
have := update_permanents_any s12.
case: (update_permanents _ x1) => [d|e]; case: (update_permanents _ x2) => [d'|e'] //= h.
exact: IH.
Qed.

Lemma init_sub_with_any m m' x : res_rel same_buts (init_sub_with ChinHuh m x) (init_sub_with ChinHuh m' x).
Proof.
rewrite /init_sub_with; case: (init_sums _ _ _ _) => [sums|e] //=.
set x1 := Subcalc _ _ _ _ 1 m _ _ _ _; set x2 := Subcalc _ _ _ _ 1 m' _ _ _ _.
have s12 : same_buts x1 x2 by [].
have := update_permanents_any s12.
by case: (update_permanents _ x1) => [d|e]; case: (update_permanents _ x2) => [d'|e'] //= ->.
Qed.

Lemma compute_subs_none fuel x : small (sc_input x) -> sumn (sc_input x) != 1%N ->
  init_submultiplier64 F ChinHuh (sc_input x) (sc_output x) = Ok None ->
  compute_permanents64 fuel ChinHuh x = rmap (fun=> None) (compute_permanents fuel ChinHuh x).
Proof.
move=> sm n1 h; rewrite /compute_permanents64 /compute_permanents sum64_eq1 // (negPf n1) h init_sub_withE.
cbn [rbind odflt oapp].
have := init_sub_with_any 1 (sub_mult ChinHuh (sc_input x) (sc_output x)) x.
case: (init_sub_with _ 1 x) => [d|e]; case: (init_sub_with _ _ x) => [d'|e'] //= sd; last by rewrite sd.
have := permanents_loop_any fuel sd.
by case: (permanents_loop fuel _ d) => [a|e]; case: (permanents_loop fuel _ d') => [a'|e'] //= ->.
Qed.

End Calculators.
