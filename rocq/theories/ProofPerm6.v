(* Calculator objects: the guard and independence of history. *)
From mathcomp Require Import all_ssreflect all_algebra zify.
From Verif Require Import Base SpecPerm ModelPerm.
Set Implicit Arguments.
Unset Strict Implicit.
Unset Printing Implicit Defensive.
Import GRing.Theory.
Local Open Scope ring_scope.
Local Open Scope py_scope.

(* results that are not an AttributeError *)
Definition noattr (A : Type) (r : res A) : Prop := r <> Err AttributeError.

Lemma noattr_ok (A : Type) (a : A) : noattr (Ok a). Proof. by []. Qed.
Lemma noattr_bind (A B : Type) (x : res A) (f : A -> res B) :
  noattr x -> (forall a, noattr (f a)) -> noattr (rbind x f).
Proof. by case: x => [a _ nf|e nx _] /=; [exact: nf|move=> [E]; apply: nx; rewrite E]. Qed.
Lemma noattr_foldl (A B : Type) (f : A -> B -> res A) acc l :
  (forall a b, noattr (f a b)) -> noattr (rfoldl f acc l).
Proof. by move=> nf; elim: l acc => [|x l IH] acc //=; apply: noattr_bind. Qed.
Lemma noattr_index n i : noattr (py_index n i).
Proof. by rewrite /py_index; case: i => k; case: ifP. Qed.
Lemma noattr_get (A : Type) (l : seq A) i : noattr (py_get l i).
Proof. by apply: noattr_bind => [|k]; [exact: noattr_index|case: (drop k l)]. Qed.
Lemma noattr_set (A : Type) (l : seq A) i v : noattr (py_set l i v).
Proof. by apply: noattr_bind => [|k]; [exact: noattr_index|case: (drop k l)]. Qed.

Section Obj.
Variable F : numFieldType.
Implicit Types (M : seq (seq F)) (c : calc F).

Lemma noattr_mget M j i : noattr (mget M j i).
Proof. by apply: noattr_bind => [|r]; exact: noattr_get. Qed.
Lemma noattr_dict (d : dict F) j : noattr (dict_get d j).
Proof. by elim: d => [//|[k v] d IH] /=; case: ifP. Qed.
Lemma noattr_div (a b : F) : noattr (pydiv a b).
Proof. by rewrite /pydiv; case: ifP. Qed.

Ltac na := repeat first
  [ by [] | exact: noattr_ok | exact: noattr_get | exact: noattr_set | exact: noattr_mget
  | exact: noattr_dict | exact: noattr_div | (apply: noattr_bind => [|?]) | (apply: noattr_foldl => ? ?) ].

Lemma noattr_scan fuel g k : noattr (guan_scan fuel g k).
Proof.
elim: fuel g k => [|fuel IH] g k /=; na; case: ifP => _; na.
by case: ifP => _; na; exact: IH.
Qed.
Lemma noattr_update_guan g : noattr (update_guan_code g).
Proof. by rewrite /update_guan_code; na; exact: noattr_scan. Qed.
Lemma noattr_update_permanent c : noattr (update_permanent c).
Proof. by rewrite /update_permanent; na. Qed.
Lemma noattr_init_sums k M s cols : noattr (init_sums k M s cols).
Proof. by case: k => /=; na. Qed.
Lemma noattr_init k c : noattr (init_computation k c).
Proof.
by apply: noattr_bind => [|d]; [exact: noattr_init_sums|exact: noattr_update_permanent].
Qed.
Lemma noattr_binomials s g (b : F) : noattr (update_binomials s g b).
Proof. by rewrite /update_binomials; na; case: ifP => _; na. Qed.
Lemma noattr_sums k M g d : noattr (update_sums k M g d).
Proof. by rewrite /update_sums; na. Qed.
Lemma noattr_loop fuel k c : noattr (permanent_loop fuel k c).
Proof.
elim: fuel c => [|fuel IH] c /=; na; case: ifP => _ //.
apply: noattr_bind => [|g]; first exact: noattr_update_guan.
case: ifP => _ //; apply: noattr_bind => [|d]; first exact: noattr_sums.
apply: noattr_bind => [|b]; first exact: noattr_binomials.
by apply: noattr_bind => [|c']; first exact: noattr_update_permanent.
Qed.

Lemma guardE fuel k c :
  compute_permanent fuel k c = Err AttributeError <->
  exists row0 rows, c_matrix c = row0 :: rows /\
    ~~ [&& size (c_matrix c) == size row0, size (c_output c) == size (c_input c)
       & (size (c_output c) <= size row0)%N].
Proof.
rewrite /compute_permanent /can_calculate; case E: (c_matrix c) => [|row0 rows] /=.
  by split=> // -[? [? []]].
case: ifP => H; split=> //.
- move=> E'; have := E'; rewrite -/(rbind _ _) => E2; exfalso; move: E2.
  apply: noattr_bind => [|c']; [exact: noattr_init|exact: noattr_loop].
- by case=> r0 [rs [[<- _]]]; rewrite H.
- by move=> _; exists row0, rows; rewrite H.
Qed.

Lemma guard_empty fuel k c : c_matrix c = [::] -> compute_permanent fuel k c = Err IndexError.
Proof. by rewrite /compute_permanent /can_calculate => ->. Qed.

(* ---- history ---- *)
Definition gsim (g h : guan) := [/\ g_r g = g_r h, g_u g = g_u h & g_lim g = g_lim h].

Definition osim (x y : res guan) : Prop :=
  match x, y with
  | Ok g, Ok h => g = h \/ [/\ g_idx g = size (g_r g), g_idx h = size (g_r h) & gsim g h]
  | Err e, Err e' => e = e'
  | _, _ => False
  end.

Lemma osim_refl x : osim x x. Proof. by case: x => [g|e] //=; left. Qed.

Lemma osim_scan fuel r u l i a b k :
  osim (guan_scan fuel (Guan r u l i a) k) (guan_scan fuel (Guan r u l i b) k).
Proof.
elim: fuel u i k => [|fuel IH] u i k /=; case: (py_get l i) => [lim|e] //=; case: ifP => _ //=.
- by case: (py_get r i) => [x|e] //=; case: (py_set r i k) => [y|e] //=; left.
- case: (py_get u i) => [x|e] //=; case: (py_set u i _) => [u'|e] //=.
  case: ifP => [/eqP E|_] /=; first by right.
  by case: (py_get r _) => [ri|e] //=; case: (py_get u' _) => [ui|e] //=.
- by case: (py_get r i) => [x|e] //=; case: (py_set r i k) => [y|e] //=; left.
Qed.

Lemma osim_update g h : gsim g h -> osim (update_guan_code g) (update_guan_code h).
Proof.
case: g h => r u l i a [r' u' l' i' a'] [/= -> -> ->]; rewrite /update_guan_code /=.
by case: (py_get r' 0) => [x|e] //=; case: (py_get u' 0) => [y|e] //=; exact: osim_scan.
Qed.

Definition csim c c' := [/\ c_matrix c = c_matrix c', c_input c = c_input c', c_output c = c_output c',
  gsim (c_guan c) (c_guan c') & [/\ c_binom c = c_binom c', c_mult c = c_mult c', c_cols c = c_cols c',
  c_sums c = c_sums c' & c_perm c = c_perm c']].

Lemma loop_sim fuel k c c' : csim c c' ->
  rmap (@c_perm F) (permanent_loop fuel k c) = rmap (@c_perm F) (permanent_loop fuel k c').
Proof.
case: fuel => [|fuel]; case: c c' => M s t g b m cl sm p [M' s' t' g' b' m' cl' sm' p'];
  case=> /= -> -> -> G [/= -> -> -> -> ->]; case: (G) => -> _ ->;
  case: (py_get _ _) => [x|e] //=; case: (py_get _ _) => [y|e] //=; case: ifP => _ //=.
have := osim_update G; case: (update_guan_code g) => [g1|e] /=; case: (update_guan_code g') => [g2|e2] //=.
  case=> [->|[-> -> _]]; last by rewrite !eqxx.
  by [].
by move=> ->.
Qed.

Lemma loop_public fuel k c c' : permanent_loop fuel k c = Ok c' ->
  [/\ c_matrix c = c_matrix c', c_input c = c_input c' & c_output c = c_output c'].
Proof.
elim: fuel c => [|fuel IH] c /=; case: (py_get _ _) => [x|e] //=; case: (py_get _ _) => [y|e] //=;
  case: ifP => _ //; try by case=> <-.
case: (update_guan_code _) => [g|e] //=; case: ifP => _; first by case=> <-.
case: (update_sums _ _ _ _) => [d|e] //=; case: (update_binomials _ _ _) => [b|e] //=.
rewrite /update_permanent /=; case: (rfoldl _ _ _) => [v|e] //= /IH.
by [].
Qed.

Lemma compute_public fuel k c c' : compute_permanent fuel k c = Ok c' ->
  [/\ c_matrix c = c_matrix c', c_input c = c_input c' & c_output c = c_output c'].
Proof.
rewrite /compute_permanent; case: (can_calculate _ _ _) => [[]|e] //=.
rewrite /init_computation; case: (init_sums _ _ _ _) => [d|e] //=.
by rewrite /update_permanent /=; case: (rfoldl _ _ _) => [v|e] //= /loop_public.
Qed.

Lemma compute_sim fuel k c c' : c_matrix c = c_matrix c' -> c_input c = c_input c' ->
  c_output c = c_output c' ->
  rmap (@c_perm F) (compute_permanent fuel k c) = rmap (@c_perm F) (compute_permanent fuel k c').
Proof.
rewrite /compute_permanent /init_computation => -> -> ->; case: (can_calculate _ _ _) => [[]|e] //=.
case: (init_sums _ _ _ _) => [d|e] //=; rewrite /update_permanent /=.
by case: (rfoldl _ _ _) => [v|e] //=; apply: loop_sim.
Qed.

Lemma same_refl (a : any_calc F) : same_public a a.
Proof. by case: a => //=. Qed.
Lemma same_trans (a b c : any_calc F) : same_public a b -> same_public b c -> same_public a c.
Proof.
case: a b c => [? ? ?|? ? ?|? ?] [? ? ?|? ? ?|? ?] [? ? ?|? ? ?|? ?] //=; by case=> -> -> -> //= ->.
Qed.
Lemma same_sym (a b : any_calc F) : same_public a b -> same_public b a.
Proof.
case: a b => [? ? ?|? ? ?|? ?] [? ? ?|? ? ?|? ?] //=; by case=> -> -> -> //= ->.
Qed.

Lemma compute_any_sim gray fuel (a b : any_calc F) : same_public a b ->
  rmap fst (compute_any gray fuel a) = rmap fst (compute_any gray fuel b).
Proof.
case: a b => [? ? ?|? ? ?|k c] [? ? ?|? ? ?|k' c'] //=.
- by case=> -> -> ->; case: (classic_permanent _ _ _ _).
- by case=> -> -> ->; case: (glynn_permanent _ _ _ _).
case=> -> e1 e2 e3; have := compute_sim fuel k' e1 e2 e3.
by case: (compute_permanent _ _ c) => [?|?]; case: (compute_permanent _ _ c') => [?|?] //= [->].
Qed.

Lemma compute_any_public gray fuel (a : any_calc F) p :
  compute_any gray fuel a = Ok p -> same_public p.2 a.
Proof.
case: a => [? ? ?|? ? ?|k c] /=.
- by case: (classic_permanent _ _ _ _) => [v|e] //= [<-].
- by case: (glynn_permanent _ _ _ _) => [v|e] //= [<-].
case E: (compute_permanent fuel k c) => [c'|e] //= [<-] /=.
by case: (compute_public E) => -> -> ->.
Qed.

Lemma set_same (a b : any_calc F) M s t : same_public a b ->
  [/\ same_public (set_matrix M a) (set_matrix M b), same_public (set_input s a) (set_input s b)
   & same_public (set_output t a) (set_output t b)].
Proof.
by case: a b => [? ? ?|? ? ?|k c] [? ? ?|? ? ?|k' c'] //=; case=> [-> -> -> // ->].
Qed.

Lemma track_set (f : calc_factory F) M s t :
  [/\ same_public (generate_calculator (set_f_matrix M f)) (set_matrix M (generate_calculator f)),
      same_public (generate_calculator (set_f_input s f)) (set_input s (generate_calculator f))
    & same_public (generate_calculator (set_f_output t f)) (set_output t (generate_calculator f))].
Proof. by case: f => M0 s0 t0 [] //=. Qed.

Lemma history gray fuel broken (f : calc_factory F) (ops : seq (calc_op F)) :
  (forall a, same_public (broken a) a) ->
  same_public (foldl (run_op gray fuel broken) (generate_calculator f) ops)
              (generate_calculator (foldl (@track_op F) f ops)).
Proof.
move=> B; have: same_public (generate_calculator f) (generate_calculator f) by exact: same_refl.
move: {1 3}(generate_calculator f) => a; elim: ops a f => [//|o ops IH] a f sa /=; apply: IH.
case: o => [M|s|t|] /=.
- case: (set_same M [::] [::] sa) (track_set f M [::] [::]) => h1 _ _ [h2 _ _].
  exact: same_trans h1 (same_sym h2).
- case: (set_same [::] s [::] sa) (track_set f [::] s [::]) => _ h1 _ [_ h2 _].
  exact: same_trans h1 (same_sym h2).
- case: (set_same [::] [::] t sa) (track_set f [::] [::] t) => _ _ h1 [_ _ h2].
  exact: same_trans h1 (same_sym h2).
case E: (compute_any gray fuel a) => [p|e] /=; last exact: same_trans (B a) sa.
exact: same_trans (compute_any_public E) sa.
Qed.

End Obj.
