(* The law of the samples taken with R. *)
From mathcomp Require Import all_ssreflect all_fingroup all_algebra complex zify.
From Verif Require Import Base SpecStates Combi ModelStates SpecPerm SpecBS SpecProb ProbMath PermMath BsNorm LemStates ModelPerm ModelDist ModelGcc ModelGccB ModelNet ModelBobs ModelLState ModelR SpecGcc SpecR ProofGcc3 ProofGcc4 ProofBobs4 ProofR1.
Set Implicit Arguments.
Unset Strict Implicit.
Unset Printing Implicit Defensive.
Import Order.TTheory GRing.Theory Num.Theory.
Local Open Scope ring_scope.
Local Open Scope py_scope.

Lemma iid_exp_eqP (R : realFieldType) (T : eqType) (S : seq T) (P P' : T -> R) k g :
  {in S, P =1 P'} -> iid_exp S P k g = iid_exp S P' k g.
Proof. by move=> e; elim: k g => [|k IH] g //=; apply: eq_big_seq => t tS; rewrite e // IH. Qed.

Section Law.
Variable R : rcfType.
Notation CF := (ComplexField.complex_numFieldType R).
Notation mat := (seq (seq CF)).
Variables (m n : nat) (M : mat).
Hypotheses (n0 : (0 < n)%N) (nm : (n <= m)%N) (uM : unitary_on m M (first_modes m n)).
Notation A := (to_r_matrix [seq take n row | row <- M]).
Notation P := (bs_prob M (first_modes m n)).

Lemma m0 : (0 < m)%N. Proof. exact: leq_trans nm. Qed.
Lemma sqM : is_rect m m M. Proof. by case: uM. Qed.
Lemma rectA : is_rect m n [seq take n row | row <- M].
Proof.
have /andP [/eqP sM aM] := sqM; rewrite /is_rect size_map sM eqxx /= all_map.
by apply/allP => row /(allP aM) /eqP sr; rewrite /= size_take sr; case: ltngtP nm => // ->.
Qed.
Lemma first_ok : first_columns M n = Ok [seq take n row | row <- M].
Proof. by rewrite (first_columnsE _ m0 sqM) nm. Qed.
Lemma rowsA : rm_rows A = m. Proof. by case: (to_r_matrixE m0 rectA). Qed.
Lemma colsA : rm_cols A = n. Proof. by case: (to_r_matrixE m0 rectA). Qed.

Lemma ent_rows (i j : nat) : (i < m)%N -> (j < n)%N -> ent (r_rows A) i j = ent M i j.
Proof.
move=> il jl; have [_ _ _ e] := to_r_matrixE m0 rectA.
rewrite /ent /r_rows rowsA colsA (nth_map 0%N) ?size_iota // (nth_map 0%N) ?size_iota // !nth_iota // add0n.
have /andP [/eqP sM aM] := sqM.
by rewrite e // /ent (nth_map [::]) ?sM // nth_take.
Qed.

Lemma first_size : size (first_modes m n) = m.
Proof. by rewrite size_cat !size_nseq subnKC. Qed.
Lemma first_sum : sumn (first_modes m n) = n.
Proof. by rewrite sumn_cat !sumn_nseq mul1n mul0n addn0. Qed.
Lemma first_nth i : (0 < nth 0%N (first_modes m n) i)%N = (i < n)%N.
Proof. by rewrite /first_modes nth_cat size_nseq; case: (ltnP i n) => h; rewrite nth_nseq ?h //; case: ifP. Qed.

Lemma orthoA (j j' : nat) : (j < rm_cols A)%N -> (j' < rm_cols A)%N -> ortho_cols (rm_rows A) (r_rows A) j j'.
Proof.
rewrite colsA rowsA => jl jl'; have [_ o] := uM; rewrite /ortho_cols.
under eq_bigr => i _ do rewrite !ent_rows //.
by apply: o; rewrite first_nth.
Qed.

Lemma modes_ones k i : [seq x | x <- flatten [seq nseq (nth 0%N (nseq k 1%N) (l - i)) l | l <- iota i k]] = iota i k.
Proof.
rewrite map_id; elim: k i => [|k IH] i //=; rewrite subnn /=; congr cons; rewrite -[in RHS](IH i.+1).
congr flatten; apply/eq_in_map => l; rewrite mem_iota => /andP [il _].
by rewrite -{1}(subnSK il) /=.
Qed.
Lemma ones_modes k : particle_modes (nseq k 1%N) = iota 0 k.
Proof.
rewrite /particle_modes size_nseq -[RHS]modes_ones map_id; congr flatten.
by apply: eq_map => l; rewrite subn0.
Qed.
Lemma particle_modes_cat0 s k : particle_modes (s ++ nseq k 0%N) = particle_modes s.
Proof.
rewrite /particle_modes size_cat size_nseq iotaD map_cat flatten_cat add0n.
have -> : flatten [seq nseq (nth 0%N (s ++ nseq k 0%N) i) i | i <- iota (size s) k] = [::].
  rewrite (_ : map _ _ = [seq [::] | _ <- iota (size s) k]); first by elim: (iota _ _).
  by apply/eq_in_map => i; rewrite mem_iota => /andP [si _]; rewrite nth_cat ltnNge si /= nth_nseq; case: ifP.
rewrite cats0; congr flatten; apply/eq_in_map => i; rewrite mem_iota add0n => /andP [_ il].
by rewrite nth_cat il.
Qed.
Lemma first_particles : particle_modes (first_modes m n) = iota 0 n.
Proof. by rewrite particle_modes_cat0 ones_modes. Qed.

Lemma r_probE t : t \in comps m n -> r_prob A t = P t.
Proof.
rewrite mem_comps => /andP [/eqP st /eqP nt]; rewrite /r_prob colsA /bs_prob.
congr (nsq _ / _); last first.
  congr (_ * _)%:R; rewrite /factprod big_cat /= -[LHS]muln1; congr muln.
  by rewrite big_nseq iter_fix.
rewrite /bs_permanent /permanent; apply: eq_bigr => p _; apply: eq_bigr => i _.
rewrite !mxE ones_modes first_particles nth_iota ?add0n; last by rewrite -nt.
apply: ent_rows; last by rewrite -nt.
have : nth 0%N (particle_modes t) i \in particle_modes t by apply: mem_nth; rewrite size_particle_modes.
by case/flatten_mapP => j; rewrite mem_iota st add0n => /andP [_ jm]; rewrite mem_nseq => /andP [_ /eqP ->].
Qed.

Variable boson_sampler : rmatrix R -> nat -> bool -> rprog R (res (seq int * seq R * seq R)).
Hypothesis ok : r_sampler_ok boson_sampler.

Lemma samples_in k V : (0 < k)%N -> size V = (k * n)%N -> all (fun x : int => 1 <= x <= Posz m) V ->
  {subset r_samples m n k V <= comps m n}.
Proof.
move=> k0 sV aV t /mapP [pp ppV ->]; rewrite mem_comps /is_state (@size_occ m) eqxx /=.
have spp : size pp = n.
  elim: (k) V sV ppV {aV} => [|k' IH] V sV //=; rewrite inE => /orP [/eqP ->|].
    by rewrite size_take sV mulSn; case: ltnP => //; lia.
  by apply: IH; rewrite size_drop sV mulSn addKn.
have app : all (fun x : int => 1 <= x <= Posz m) pp by move: aV; rewrite -(@all_reshape _ _ k n) // => /allP /(_ _ ppV).
rewrite -[X in _ == X]spp -(size_map (fun x : int => `|x|%N.-1) pp); set a := map _ _.
have la : all (fun x => x < m)%N a by apply/allP => _ /mapP [x /(allP app) h1 ->]; lia.
by rewrite (@sumn_occ m).
Qed.

Lemma sampler_always k (perm : bool) : (0 < k)%N ->
  always (fun y => exists V p q, [/\ y = Ok (V, p, q), size V = (k * n)%N,
      all (fun x : int => 1 <= x <= Posz m) V
    & perm -> q = [seq P t | t <- r_samples m n k V]]) (boson_sampler A k perm).
Proof.
have c0 : (0 < rm_cols A)%N by rewrite colsA.
move=> k0; have [] := ok perm c0 k0 orthoA; rewrite rowsA colsA // => al _.
apply: always_impl al => _ [V [p [q [-> sV aV h]]]]; exists V, p, q; split=> // /h ->.
apply/eq_in_map => t /(samples_in k0 sV aV); exact: r_probE.
Qed.

Lemma sampler_exp k (perm : bool) f : (0 < k)%N ->
  has_exp (on_ok (fun r => f (r_samples m n k r.1.1))) (boson_sampler A k perm) (iid_exp (comps m n) P k f).
Proof.
have c0 : (0 < rm_cols A)%N by rewrite colsA.
move=> k0; have [_ /(_ f)] := ok perm c0 k0 orthoA; rewrite rowsA colsA.
by rewrite (iid_exp_eqP _ _ r_probE).
Qed.

Lemma convert_prog (B : Type) k V (g : seq (seq nat) -> rprog R (res B)) : (0 < k)%N -> size V = (k * n)%N ->
  all (fun x : int => 1 <= x <= Posz m) V ->
  (draw! parts := Ret (np_array_split [seq x - 1 | x <- V] k) in
   draw! L := Ret (rmapM (fun p => mode_assignment_to_mode_occupation p (Posz m)) parts) in g L) = g (r_samples m n k V).
Proof.
move=> k0 sV aV; have := r_convert_ok m0 k0 sV aV; rewrite /r_convert /rpbind /=.
by case: (np_array_split _ _) => //= parts ->.
Qed.

Lemma r_simulate_exp s k f : size s = m -> sumn s = n -> (0 < k)%N ->
  has_exp (on_ok (fun x => f x.1)) (r_simulate boson_sampler s k M) (iid_exp (comps m n) P k f).
Proof.
move=> sm ns k0; rewrite /r_simulate ns first_ok rpbind_ok.
apply: has_exp_rbind (sampler_exp false f k0) _; apply: always_impl (sampler_always false k0) => _ [V [p [q [-> sV aV _]]]].
by rewrite [(V, p, q).1.1]/= sm (convert_prog (fun L => Ret (Ok (L, M))) k0 sV aV); exact: (ExpRet (on_ok _) (Ok _)).
Qed.

Lemma r_simulate_always s k : size s = m -> sumn s = n -> (0 < k)%N ->
  always (fun y => exists L, [/\ y = Ok (L, M), size L = k & forall t, t \in L -> is_state m n t])
    (r_simulate boson_sampler s k M).
Proof.
move=> sm ns k0; rewrite /r_simulate ns first_ok rpbind_ok.
apply: always_rbind; apply: always_impl (sampler_always false k0) => _ [V [p [q [-> sV aV _]]]].
rewrite [(V, p, q).1.1]/= sm (convert_prog (fun L => Ret (Ok (L, M))) k0 sV aV); exists (r_samples m n k V); split=> //.
  by rewrite size_map; elim: (k) (V) => //= k' IH V'; rewrite IH.
by move=> t /(samples_in k0 sV aV); rewrite mem_comps.
Qed.

Lemma r_single_always s : size s = m ->
  always (fun y => exists2 t, y = Ok (t, [:: P t]) & t \in comps m n) (r_single boson_sampler s [seq take n row | row <- M]).
Proof.
move=> sm; apply: always_rbind; apply: always_impl (sampler_always true (ltn0Sn 0)) => _ [V [p [q [-> sV aV /(_ isT) eq]]]].
have e1 : np_array_split [seq x - 1 | x <- V] 1 = Ok [:: take n [seq x - 1 | x <- V]].
  by rewrite (@np_splitE _ _ 1 n) ?size_map.
have := r_convert_ok m0 (ltn0Sn 0) sV aV; have := @samples_in 1 V (ltn0Sn 0) sV aV; move: eq.
rewrite /r_convert e1 /r_samples [reshape _ _]/= [map _ [:: _]]/= => -> h e2.
rewrite ?e1 rpbind_ok rpbind_ok sm.
move: e2; rewrite /=; case: (mode_assignment_to_mode_occupation _ _) => //= t [->].
by eexists; first reflexivity; apply: h; rewrite inE.
Qed.

Lemma r_single_exp s f : size s = m ->
  has_exp (on_ok (fun y => f y.1)) (r_single boson_sampler s [seq take n row | row <- M]) (\sum_(t <- comps m n) P t * f t).
Proof.
move=> sm; apply: has_exp_rbind (sampler_exp true (fun L => f (head [::] L)) (ltn0Sn 0)) _.
apply: always_impl (sampler_always true (ltn0Sn 0)) => _ [V [p [q [-> sV aV _]]]].
have e1 : np_array_split [seq x - 1 | x <- V] 1 = Ok [:: take n [seq x - 1 | x <- V]].
  by rewrite (@np_splitE _ _ 1 n) ?size_map.
have := r_convert_ok m0 (ltn0Sn 0) sV aV.
rewrite /r_convert e1 /r_samples [reshape _ _]/= [map _ [:: _]]/= => e2.
rewrite ?e1 rpbind_ok rpbind_ok sm.
move: e2; rewrite /=; case: (mode_assignment_to_mode_occupation _ _) => //= t [->].
exact: (ExpRet (on_ok _) (Ok _)).
Qed.

End Law.
