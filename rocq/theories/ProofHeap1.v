(* Version A with arrays as objects. *)
From mathcomp Require Import all_ssreflect all_algebra complex zify.
From Verif Require Import Base ModelStates ModelPerm ModelDist SpecProb ProbMath SpecGcc ModelGcc ModelGccB ModelHeap SpecHeap ProofPerm6 ProofGcc4.
Set Implicit Arguments.
Unset Strict Implicit.
Unset Printing Implicit Defensive.
Import GRing.Theory Num.Theory.
Local Open Scope ring_scope.
Local Open Scope py_scope.

Lemma rfoldl_same (S T U V : Type) (P : S -> U -> Prop) (f : S -> T -> res S) (g : U -> V -> res U) (F : T -> V)
    (D : pred T) s s' (l : seq T) :
  (forall s s' y, P s s' -> D y -> same_res P (f s y) (g s' (F y))) -> P s s' -> all D l ->
  same_res P (rfoldl f s l) (rfoldl g s' (map F l)).
Proof.
move=> fg; elim: l s s' => [|y l IH] s s' h //= /andP[dy dl].
by have := fg _ _ y h dy; case: (f s y) => [a|e]; case: (g s' (F y)) => [a'|e'] //= h2; exact: IH.
Qed.

Lemma rfoldl_same_list (S T U : Type) (P : S -> U -> Prop) (f : S -> T -> res S) (g : U -> T -> res U) s s' (l : seq T) :
  (forall s s' y, P s s' -> same_res P (f s y) (g s' y)) -> P s s' -> same_res P (rfoldl f s l) (rfoldl g s' l).
Proof.
move=> fg h; rewrite -[X in rfoldl g s' X]map_id.
by apply: (@rfoldl_same _ _ _ _ P f g id predT) => //; [move=> a b y p _; exact: fg|exact: all_predT].
Qed.

Lemma py_get_mapv (A B : Type) (f : A -> B) (l : seq A) i : py_get (map f l) i = rmap f (py_get l i).
Proof.
rewrite /py_get size_map; case: (py_index _ _) => [k|e] //=.
by rewrite -map_drop; case: (drop k l).
Qed.

Lemma py_get_all (A : Type) (D : pred A) (l : seq A) i x : all D l -> py_get l i = Ok x -> D x.
Proof.
move=> al; rewrite /py_get; case: (py_index _ _) => [k|e] //=.
have : all D (drop k l) by move: al; rewrite -[X in all D X -> _](cat_take_drop k) all_cat => /andP[].
by case: (drop k l) => [|y r] //= /andP[dy _] [<-].
Qed.

Lemma dget_map (K : eqType) (V W : Type) (f : V -> W) (d : seq (K * V)) k :
  dget [seq (x.1, f x.2) | x <- d] k = omap f (dget d k).
Proof.
rewrite /dget; elim: d => [|[k' v] d IH] //=; by case: ifP.
Qed.

Lemma dgetl_map (K : eqType) (V W : Type) (f : V -> W) (d : seq (K * seq V)) k :
  dgetl [seq (x.1, map f x.2) | x <- d] k = map f (dgetl d k).
Proof. by rewrite /dgetl dget_map; case: (dget d k). Qed.

Lemma dget_all (K : eqType) (V : Type) (D : pred V) (d : seq (K * V)) k v :
  all (fun x => D x.2) d -> dget d k = Some v -> D v.
Proof. by rewrite /dget; elim: d => [|[k' w] d IH] //= /andP[dw al]; case: ifP => [_ /= [<-]|_ /IH] //; apply. Qed.

Lemma dgetl_all (K : eqType) (V : Type) (D : pred V) (d : seq (K * seq V)) k :
  all (fun x => all D x.2) d -> all D (dgetl d k).
Proof. by move=> al; rewrite /dgetl; case E: (dget d k) => [v|] //=; apply: (dget_all al E). Qed.

Section Heap.
Variable R : rcfType.
Notation CF := (ComplexField.complex_numFieldType R).
Variables (gray : nat -> seq nat) (fuel : nat).
Implicit Types (h : store R) (a p : nat) (g : hgcc R).

Lemma unchanged_refl a h : unchanged a h h.
Proof. by split=> //; exists [::]; rewrite cats0. Qed.

Lemma unchanged_trans a h h' h'' : unchanged a h h' -> unchanged a h' h'' -> unchanged a h h''.
Proof.
move=> [[t e1] e2 e3 e4] [[t' f1] f2 f3 f4]; split; last by move=> i ia; rewrite f4 ?e4.
- by exists (t ++ t'); rewrite f1 e1 catA.
- by rewrite f2.
- by rewrite f3.
Qed.

Lemma vec_un a h h' p : unchanged a h h' -> is_vec h p -> vec h' p = vec h p.
Proof. by move=> [[t e] _ _ _] hp; rewrite /vec e nth_cat -/(is_vec h p) hp. Qed.

Lemma is_vec_un a h h' p : unchanged a h h' -> is_vec h p -> is_vec h' p.
Proof. by move=> [[t e] _ _ _] hp; rewrite /is_vec e size_cat ltn_addr. Qed.

Lemma mat_un a h h' p : unchanged a h h' -> mat h' p = mat h p.
Proof. by move=> [_ e _ _]; rewrite /mat e. Qed.

Lemma calc_ok_un a h h' c : unchanged a h h' -> calc_ok h c -> calc_ok h' c.
Proof.
move=> u /and3P[o1 o2 o3]; rewrite /calc_ok (is_vec_un u o1) (is_vec_un u o2) /=.
by case: u => _ -> _ _.
Qed.

Lemma hc_view_un a h h' c : unchanged a h h' -> calc_ok h c -> hc_view h' c = hc_view h c.
Proof. by move=> u /and3P[o1 o2 o3]; rewrite /hc_view !(vec_un u) // (mat_un _ u). Qed.

Lemma cal_ok h a : store_ok h -> (a < size (st_calcs h))%N -> calc_ok h (cal h a).
Proof. by move=> /(all_nthP (no_calc R)) o al; exact: o. Qed.

Lemma all_un a h h' (l : seq nat) : unchanged a h h' -> all (is_vec h) l -> all (is_vec h') l.
Proof. by move=> u; apply: sub_all => p; exact: (is_vec_un u). Qed.

Lemma alld_un a h h' (K : Type) (d : seq (K * seq nat)) : unchanged a h h' ->
  all (fun x => all (is_vec h) x.2) d -> all (fun x => all (is_vec h') x.2) d.
Proof. by move=> u; apply: sub_all => x; exact: (all_un u). Qed.

Lemma map_un a h h' (l : seq nat) : unchanged a h h' -> all (is_vec h) l ->
  [seq vec h' p | p <- l] = [seq vec h p | p <- l].
Proof. by move=> u /allP al; apply/eq_in_map => p /al; exact: (vec_un u). Qed.

Lemma mapd_un a h h' (K : eqType) (d : seq (K * seq nat)) : unchanged a h h' ->
  all (fun x => all (is_vec h) x.2) d ->
  [seq (x.1, [seq vec h' p | p <- x.2]) | x <- d] = [seq (x.1, [seq vec h p | p <- x.2]) | x <- d].
Proof. by move=> u /allP al; apply/eq_in_map => x /al ax; rewrite (map_un u). Qed.

Lemma gcc_ok_un a h h' g : unchanged a h h' -> gcc_ok h g -> gcc_ok h' g.
Proof.
move=> u /and5P[o1 o2 o3 o4 o5]; rewrite /gcc_ok (is_vec_un u o1) (is_vec_un u o2) (alld_un u o4) (alld_un u o5).
by case: u => _ _ -> _; rewrite o3.
Qed.

Lemma store_ok_un a h h' : unchanged a h h' -> st_calcs h' = st_calcs h -> store_ok h -> store_ok h'.
Proof. by move=> u e; rewrite /store_ok e; apply: sub_all => c; exact: (calc_ok_un u). Qed.

Lemma gcc_view_un a h h' g : unchanged a h h' -> gcc_ok h g -> store_ok h ->
  cal h' (hg_calc g) = cal h (hg_calc g) -> gcc_view h' g = gcc_view h g.
Proof.
move=> u /and5P[o1 o2 o3 o4 o5] so e.
by rewrite /gcc_view !(vec_un u) // (mapd_un u) // (mapd_un u) // /calc_view e (hc_view_un u) ?cal_ok.
Qed.

(* new objects *)
Lemma push_un a h s : unchanged a h (push_vec h s).
Proof. by split=> //; exists [:: s]; rewrite /= cats1. Qed.

Lemma vec_push h s : vec (push_vec h s) (size (st_vecs h)) = s.
Proof. by rewrite /vec /= nth_rcons ltnn eqxx. Qed.

Lemma is_vec_push h s : is_vec (push_vec h s) (size (st_vecs h)).
Proof. by rewrite /is_vec /= size_rcons. Qed.

Lemma put_push h s s' : put_vec (push_vec h s) (size (st_vecs h)) s' = push_vec h s'.
Proof.
rewrite /put_vec /push_vec /=; congr Store.
by elim: (st_vecs h) => [|x l IH] //=; rewrite IH.
Qed.

(* the calculators *)
Lemma cal_put h a c : cal (put_cal h a c) a = c.
Proof. by rewrite /cal /= nth_set_nth /= eqxx. Qed.

Lemma put_un h a c : (a < size (st_calcs h))%N -> unchanged a h (put_cal h a c).
Proof.
move=> al; split=> //=; first by exists [::]; rewrite cats0.
- by rewrite size_set_nth; apply/maxn_idPr.
- by move=> i /eqP ia; rewrite /cal /= nth_set_nth /= (negPf ia).
Qed.

Lemma put_ok h a c : store_ok h -> (a < size (st_calcs h))%N -> calc_ok h c -> store_ok (put_cal h a c).
Proof.
move=> so al co; apply/(all_nthP (no_calc R)) => i; rewrite /= size_set_nth => il.
rewrite nth_set_nth /=; case: eqP => [_|ia] //.
have : (i < size (st_calcs h))%N by move: il; rewrite (maxn_idPr al).
exact: cal_ok.
Qed.

Lemma view_input h c p : hc_view h (HCalc (hc_own c) (hc_mat c) p (hc_out c)) = set_input (vec h p) (hc_view h c).
Proof. by case: c => -[? ? ?|? ? ?|k c]. Qed.

Lemma view_output h c p : hc_view h (HCalc (hc_own c) (hc_mat c) (hc_in c) p) = set_output (vec h p) (hc_view h c).
Proof. by case: c => -[? ? ?|? ? ?|k c]. Qed.

Lemma view_matrix h c p : hc_view h (HCalc (hc_own c) p (hc_in c) (hc_out c)) = set_matrix (mat h p) (hc_view h c).
Proof. by case: c => -[? ? ?|? ? ?|k c]. Qed.

Lemma view_own h c (v : any_calc CF) : same_public v (hc_view h c) ->
  hc_view h (HCalc v (hc_mat c) (hc_in c) (hc_out c)) = v.
Proof.
case: c => own m i o; case: v => [M s t|M s t|k v]; case: own => [? ? ?|? ? ?|k' c] //=.
- by rewrite /hc_view /= => -[-> -> ->].
- by rewrite /hc_view /= => -[-> -> ->].
by rewrite /hc_view /= => -[_ <- <- <-]; case: v.
Qed.

Definition calc_step a h h' := [/\ st_vecs h' = st_vecs h, unchanged a h h' & store_ok h'].

Lemma calc_step_trans a h h' h'' : calc_step a h h' -> calc_step a h' h'' -> calc_step a h h''.
Proof.
move=> [e1 e2 e3] [f1 f2 f3]; split=> //; first by rewrite f1.
exact: unchanged_trans f2.
Qed.

Lemma h_computeE h a : store_ok h -> (a < size (st_calcs h))%N ->
  same_res (fun x y => [/\ x.1 = y.1, calc_view x.2 a = y.2 & calc_step a h x.2])
    (h_compute gray fuel h a) (compute_any gray fuel (calc_view h a)).
Proof.
move=> so al; rewrite /h_compute -/(calc_view h a); case E: (compute_any _ _ _) => [va|e] //=; split=> //.
  rewrite /calc_view cal_put -[hc_view _ _]/(hc_view h _) view_own //.
  exact: compute_any_public E.
split=> //; first exact: put_un.
by apply: put_ok => //; exact: cal_ok so al.
Qed.

Lemma h_set_step h a T t : store_ok h -> (a < size (st_calcs h))%N -> is_vec h T -> is_vec h t ->
  let h' := h_set_output (h_set_input h a T) a t in
  calc_step a h h' /\ calc_view h' a = set_output (vec h t) (set_input (vec h T) (calc_view h a)).
Proof.
move=> so al hT ht h'.
have ok1 : calc_ok h (HCalc (hc_own (cal h a)) (hc_mat (cal h a)) T (hc_out (cal h a))).
  by have /and3P[_ o2 o3] := cal_ok so al; rewrite /calc_ok /= hT o2.
have u1 := put_un (HCalc (hc_own (cal h a)) (hc_mat (cal h a)) T (hc_out (cal h a))) al.
have al1 : (a < size (st_calcs (h_set_input h a T)))%N by rewrite /h_set_input; case: u1 => _ _ -> _.
split; last first.
  rewrite /calc_view /h' /h_set_output cal_put /h_set_input !cal_put /= -[hc_view _ _]/(hc_view h _).
  by rewrite -view_input -view_output.
apply: (@calc_step_trans _ _ (h_set_input h a T)).
  by split=> //; exact: put_ok.
split=> //; first exact: put_un.
apply: put_ok => //; first by apply: put_ok.
rewrite /h_set_input cal_put /calc_ok /=.
by have /and3P[_ o2 o3] := cal_ok so al; apply/and3P.
Qed.

Lemma h_probability h a T t : store_ok h -> (a < size (st_calcs h))%N -> is_vec h T -> is_vec h t ->
  same_res (fun x y => [/\ x.1 = y.1, calc_view x.2 a = y.2 & calc_step a h x.2])
    (h_outputs_probability gray fuel h a T t) (outputs_probability gray fuel (calc_view h a) (vec h T) (vec h t)).
Proof.
move=> so al hT ht; have [st cv] := h_set_step so al hT ht.
rewrite /h_outputs_probability /outputs_probability -cv.
set h' := h_set_output _ _ _ in st cv *.
have [e1 u1 so1] := st; have al1 : (a < size (st_calcs h'))%N by case: u1 => _ _ -> _.
have := h_computeE so1 al1.
case: (h_compute _ _ _ _) => [x|e]; case: (compute_any _ _ _) => [y|e'] //= [E1 E2 E3]; split=> //.
  by rewrite E1 /vec e1.
exact: calc_step_trans E3.
Qed.

Lemma h_pmf_entryE h a Ts (ws : seq R) t : store_ok h -> (a < size (st_calcs h))%N -> all (is_vec h) Ts -> is_vec h t ->
  same_res (fun x y => [/\ x.1 = y.1, calc_view x.2 a = y.2 & calc_step a h x.2])
    (h_pmf_entry gray fuel h a Ts ws t)
    (pmf_entry gray fuel (calc_view h a) [seq vec h T | T <- Ts] ws (vec h t)).
Proof.
move=> so al hT ht; rewrite /h_pmf_entry /pmf_entry size_map.
apply: rfoldl_same_list; last by split=> //; split=> //; exact: unchanged_refl.
move=> [x h1] [y c] i /= [-> <- st]; have [e1 u1 so1] := st.
rewrite py_get_mapv; case E: (py_get Ts _) => [T|e] //=.
have hT1 := is_vec_un u1 (py_get_all hT E); have ht1 := is_vec_un u1 ht.
have al1 : (a < size (st_calcs h1))%N by case: u1 => _ _ -> _.
have := h_probability so1 al1 hT1 ht1; rewrite (vec_un u1 ht) (vec_un u1 (py_get_all hT E)).
case: (h_outputs_probability _ _ _ _ _ _) => [v|e]; case: (outputs_probability _ _ _ _ _) => [v'|e'] //= [E1 E2 E3].
case: (py_get ws _) => [w|e] //=; rewrite E1; split=> //.
exact: calc_step_trans E3.
Qed.

Lemma h_possible h r a : is_vec h r ->
  same_res (fun x y => [/\ unchanged a h x.1, st_calcs x.1 = st_calcs h, [seq vec x.1 p | p <- x.2] = y & all (is_vec x.1) x.2])
    (h_possible_outputs h r) (possible_output_states (vec h r)).
Proof.
rewrite /h_possible_outputs /possible_output_states.
have H l h1 ps : is_vec h1 r -> all (is_vec h1) ps ->
  same_res (fun x y => [/\ unchanged a h1 x.1, st_calcs x.1 = st_calcs h1,
      [seq vec x.1 p | p <- x.2] = [seq vec h1 p | p <- ps] ++ y & all (is_vec x.1) x.2])
   (rfoldl (fun st i => let p := size (st_vecs st.1) in
      let! h := h_incr (push_vec st.1 (vec st.1 r)) p (Posz i) in Ok (h, rcons st.2 p)) (h1, ps) l)
   (rmapM (fun i => incr_at (vec h1 r) (Posz i)) l).
  elim: l h1 ps => [|i l IH] h1 ps r1 a1 /=.
    by split=> //; [exact: unchanged_refl|rewrite cats0].
  rewrite /h_incr vec_push; case: (incr_at _ _) => [s|e] //=; rewrite put_push.
  have u1 := push_un a h1 s.
  have := IH (push_vec h1 s) (rcons ps (size (st_vecs h1))) (is_vec_un u1 r1).
  rewrite all_rcons is_vec_push (all_un u1 a1) (vec_un u1 r1) => /(_ isT).
  case: (rfoldl _ _ _) => [x|e]; case: (rmapM _ _) => [y|e'] //= [E1 E2 E3 E4].
  split=> //; first exact: unchanged_trans E1.
  by rewrite E3 map_rcons vec_push (map_un u1 a1) cat_rcons.
by move=> hr; have := H (iota 0 (size (vec h r))) h [::] hr isT.
Qed.

Lemma h_label h s a :
  let x := h_label_states h s in
  [/\ unchanged a h x.1, st_calcs x.1 = st_calcs h,
      [seq (y.1, [seq vec x.1 p | p <- y.2]) | y <- x.2] = label_states s & all (fun y => all (is_vec x.1) y.2) x.2].
Proof.
rewrite /h_label_states /label_states.
have H l h1 d : all (fun y => all (is_vec h1) y.2) d ->
  let x := foldl (fun st t => (push_vec st.1 t, dset st.2 (sumn t) (rcons (dgetl st.2 (sumn t)) (size (st_vecs st.1))))) (h1, d) l in
  [/\ unchanged a h1 x.1, st_calcs x.1 = st_calcs h1,
      [seq (y.1, [seq vec x.1 p | p <- y.2]) | y <- x.2] =
        foldl (fun d t => dset d (sumn t) (rcons (dgetl d (sumn t)) t)) [seq (y.1, [seq vec h1 p | p <- y.2]) | y <- d] l
      & all (fun y => all (is_vec x.1) y.2) x.2].
  elim: l h1 d => [|t l IH] h1 d ad /=; first by split=> //; exact: unchanged_refl.
  have u1 := push_un a h1 t.
  have [] := IH (push_vec h1 t) (dset d (sumn t) (rcons (dgetl d (sumn t)) (size (st_vecs h1)))).
    by rewrite /= all_rcons is_vec_push (alld_un u1 ad) (all_un u1) ?dgetl_all.
  move=> E1 E2 E3 E4; split=> //; first exact: unchanged_trans E1.
  rewrite E3 /=; congr foldl; rewrite /dset map_rcons vec_push (mapd_un u1 ad) dgetl_map (map_un u1) //.
  exact: dgetl_all.
exact: H.
Qed.

Definition relA a h (x : store R * hgcc R) (y : gcc R) : Prop :=
  [/\ unchanged a h x.1, store_ok x.1, gcc_ok x.1 x.2, gcc_view x.1 x.2 = y & hg_calc x.2 = a].

Lemma h_new_layerE a h x y : relA a h x y -> same_res (relA a h) (h_new_layer gray fuel x) (new_layer gray fuel y).
Proof.
case: x => h1 g [/= u1 so1 go1 <- ga]; rewrite /h_new_layer /new_layer /=.
have /and5P[o1 o2 o3 o4 o5] := go1; rewrite ga in o3 *.
rewrite dgetl_map; set Ts := dgetl (hg_labeled g) _; have aTs : all (is_vec h1) Ts by exact: dgetl_all.
case: (layer_weights _ _ _) => [ws|e] //=.
have := h_possible a o1; case: (h_possible_outputs h1 _) => [[h2 ps]|e]; case: (possible_output_states _) => [outs|e'] //=.
move=> [u2 c2 <- ap].
have so2 := store_ok_un u2 c2 so1.
have cv2 : calc_view h2 a = calc_view h1 a.
  have e : cal h2 a = cal h1 a by rewrite /cal c2.
  by rewrite /calc_view e (hc_view_un u2) ?cal_ok.
have al2 : (a < size (st_calcs h2))%N by rewrite c2.
have T2 : [seq vec h1 T | T <- Ts] = [seq vec h2 T | T <- Ts] by rewrite (map_un u2).
set P := fun (x : seq R * store R) (y : seq R * any_calc CF) => [/\ x.1 = y.1, calc_view x.2 a = y.2 & calc_step a h2 x.2].
have : same_res P
   (rfoldl (fun st t => let! pa := h_pmf_entry gray fuel st.2 a Ts ws t in Ok (rcons st.1 pa.1, pa.2)) ([::], h2) ps)
   (rfoldl (fun st t => let! pa := pmf_entry gray fuel st.2 [seq vec h1 T | T <- Ts] ws t in Ok (rcons st.1 pa.1, pa.2))
      ([::], calc_view h1 a) [seq vec h2 p | p <- ps]).
  apply: (@rfoldl_same _ _ _ _ P _ _ (vec h2) (is_vec h2)) => //; last first.
    by split=> //=; split=> //; exact: unchanged_refl.
  move=> [v h3] [v' c] t [/= -> <- st] ht; have [e3 u3 so3] := st.
  have al3 : (a < size (st_calcs h3))%N by case: u3 => _ _ -> _.
  have := h_pmf_entryE ws so3 al3 (all_un u3 (all_un u2 aTs)) (is_vec_un u3 ht).
  rewrite (map_un u3 (all_un u2 aTs)) -T2 (vec_un u3 ht).
  case: (h_pmf_entry _ _ _ _ _ _ _) => [w|e]; case: (pmf_entry _ _ _ _ _ _) => [w'|e'] //= [E1 E2 E3].
  by rewrite E1; split=> //; exact: calc_step_trans E3.
case: (rfoldl _ _ ps) => [[v h3]|e]; case: (rfoldl _ _ _) => [[v' c]|e'] //= [/= E1 E2 [e3 u3 so3]].
have u13 := unchanged_trans u2 u3.
split=> //=; first exact: unchanged_trans u13.
  rewrite /gcc_ok /= (is_vec_un u13 o1) (is_vec_un u13 o2) (alld_un u13 o4) (alld_un u13 o5) (all_un u3 ap).
  by case: u13 => _ _ -> _; rewrite o3.
rewrite /gcc_view /= !(vec_un u13) // (mapd_un u13 o4) E1 E2.
congr Gcc; rewrite /dset (mapd_un u13 o5) (map_un u3 ap) //.
Qed.

Lemma h_ensureE a h x y : relA a h x y -> same_res (relA a h) (h_ensure_layer gray fuel x) (ensure_layer (new_layer gray fuel) y).
Proof.
move=> r; have := h_new_layerE r; case: r => u so go <- ga; rewrite /h_ensure_layer /ensure_layer /=.
by case: (dget _ _).
Qed.

Lemma h_sampleE a h x y u : relA a h x y -> same_res (relA a h) (h_sample_with x u) (sample_with y u).
Proof.
case: x => h1 g [/= u1 so1 go1 <- ga]; rewrite /h_sample_with /sample_with /=.
have /and5P[o1 o2 o3 o4 o5] := go1.
rewrite /dget_res; case: (dget (hg_pmfs g) _) => [pmf|] //=; case: (py_get pmf _) => [q|e] //=.
rewrite dget_map; case E: (dget (hg_outputs g) _) => [outs|] //=.
rewrite py_get_mapv; case E2: (py_get outs _) => [r|e] //=.
split=> //=; rewrite /gcc_ok /= o2 o3 o4 o5 !andbT.
exact: (py_get_all (dget_all o5 E) E2).
Qed.

Lemma h_fillE a h n x y : relA a h x y -> same_run (same_res (relA a h)) (h_fill_loop gray fuel n x) (fill_loop gray fuel n y).
Proof.
elim: n x y => [|n IH] x y r //=.
have -> : (sumn (vec x.1 (hg_r x.2)) < hg_n x.2)%N = (sumn (g_r y) < g_n y)%N by case: r => _ _ _ <- _.
case: ifP => _ //; apply: (@same_run_rbind _ _ _ _ _ (relA a h)) => [|x1 y1 r1]; first exact: h_ensureE.
by apply: (@same_run_rbind _ _ _ _ _ (relA a h)) => [v _|x2 y2 r2]; [exact: h_sampleE|exact: IH].
Qed.

Lemma h_resetE a h x y : relA a h x y ->
  relA a h (h_reset_sample x) (reset_sample (nseq (size (g_input y)) 0%N) y).
Proof.
case: x => h1 g [/= u1 so1 go1 <- ga]; have /and5P[o1 o2 o3 o4 o5] := go1.
set s := nseq _ _; have u2 := push_un a h1 s.
split=> //=; first exact: unchanged_trans u2.
- exact: store_ok_un u2 _ _.
- rewrite /gcc_ok /= is_vec_push (is_vec_un u2 o2) (alld_un u2 o4) (alld_un u2 o5) /= andbT.
  exact: o3.
rewrite /gcc_view /reset_sample /= vec_push (vec_un u2 o2) (mapd_un u2 o4) (mapd_un u2 o5).
by congr Gcc; rewrite /calc_view -[cal (push_vec h1 s) _]/(cal h1 _) (hc_view_un u2) ?cal_ok.
Qed.

Lemma h_startE a h p g : store_ok h -> gcc_ok h g -> is_vec h p -> hg_calc g = a ->
  relA a h (h_gcc_start p (h, g)) (gcc_start (vec h p) (gcc_view h g)).
Proof.
move=> so go hp ga; have /and5P[o1 o2 o3 o4 o5] := go.
have [u2 c2 d2 a2] := h_label h (vec h p) a; split=> //=.
- exact: store_ok_un u2 c2 so.
- rewrite /gcc_ok /= (is_vec_un u2 o1) (is_vec_un u2 hp) (alld_un u2 o5) a2 c2 o3.
  by [].
rewrite /gcc_view /gcc_start /= !(vec_un u2) // d2 (mapd_un u2 o5).
by congr Gcc; rewrite /calc_view /cal c2 -/(cal h _) (hc_view_un u2) ?cal_ok.
Qed.

Lemma sample_loop_same (G H X : Type) (P : G -> H -> Prop) (fill : G -> rprog R (res G)) (fill' : H -> rprog R (res H))
    (out : G -> res X) (out' : H -> res X) k x y :
  (forall x y, P x y -> same_run (same_res P) (fill x) (fill' y)) ->
  (forall x y, P x y -> out x = out' y) -> P x y ->
  same_run (same_res (fun v w => v.1 = w.1 /\ P v.2 w.2)) (sample_loop fill out k x) (sample_loop fill' out' k y).
Proof.
move=> hf ho; elim: k x y => [|k IH] x y r //=.
apply: same_run_rbind (hf _ _ r) _ => x1 y1 r1; rewrite (ho _ _ r1).
case: (out' y1) => [z|e] //=; apply: same_run_rbind (IH _ _ r1) _ => x2 y2 [e r2] /=.
by rewrite e.
Qed.

Lemma h_gccE h g p k : store_ok h -> gcc_ok h g -> is_vec h p ->
  same_run (same_res (same_call (@gcc_view R) (@gcc_ok R) (hg_calc g) h))
    (h_gcc_simulate gray fuel p k (h, g)) (gcc_simulate gray fuel (vec h p) k (gcc_view h g)).
Proof.
move=> so go hp; set a := hg_calc g.
apply: (@same_run_impl _ _ _ (same_res (fun x y => x.1 = y.1 /\ relA a h x.2 y.2))).
  by move=> [x|e] [y|e'] //= [E [u so' go' vw _]]; split.
apply: sample_loop_same (h_startE so go hp erefl).
  move=> x y r; have := h_resetE r; rewrite /h_fill_r_sample /fill_r_sample; exact: h_fillE.
by move=> x y [_ _ _ <- _].
Qed.

End Heap.
