(* Final forms of the lemmas behind the property theorems C10-C20. *)
From mathcomp Require Import all_ssreflect all_algebra zify.
From Verif Require Import Base SpecStates SpecPerm ModelPerm Combi PermMath ProofPerm1 ProofPerm2 ProofPerm3 ProofPerm4 ProofPerm5 ProofPerm6.
Set Implicit Arguments.
Unset Strict Implicit.
Unset Printing Implicit Defensive.
Import GRing.Theory.
Local Open Scope ring_scope.

Lemma prod_succ_gt0 (s : seq nat) : (0 < \prod_(x <- s) x.+1)%N.
Proof. by rewrite prodn_gt0. Qed.

Lemma C10_scattering_matrix_lemma :
  forall (F : numFieldType) (M : seq (seq F)) (rr cc : nat) (s t : seq nat),
  size M = rr -> all (fun row => size row == cc) M -> (0 < rr)%N ->
  scattering_calculate M s t =
  if (sumn s == 0%N) || (sumn t == 0%N) then Ok [::] else
  if (size s <= cc)%N && (size t <= rr)%N
  then Ok [seq [seq ent M j i | i <- particle_modes s] | j <- particle_modes t]
  else Err IndexError.
Proof.
move=> F M rr cc s t sM aM r0; case: ifP => [/orP[]/eqP ?|/negbT].
- by apply: scattering_empty; left.
- by apply: scattering_empty; right.
by rewrite negb_or -!lt0n => /andP[s0 t0]; apply: scattering_calculateE.
Qed.

Lemma C11_guan_codes_lemma :
  forall (s : seq nat) (g : guan) (fuel : nat), s != [::] -> (\prod_(x <- s) x.+1 <= fuel)%N ->
  exists L : seq (seq nat),
  [/\ guan_iterate fuel (init_guan s g) = Ok (map (map Posz) L),
      uniq (nseq (size s) 0%N :: L),
      (forall r, (r \in nseq (size s) 0%N :: L) = substate r s)
    & unit_steps (nseq (size s) 0%N :: L)].
Proof.
move=> s g fuel s0 fu; exists (behead (codes s)).
have z : substate (nseq (size s) 0%N) s.
  by rewrite /substate size_nseq eqxx; apply/allP=> i; rewrite nth_nseq; case: ifP.
have sz := size_nseq (size s).
have E : init_guan s g = gstate s (nseq (size s) 0%N) (nseq (size s) true) (g_idx g) (g_last g).
  by rewrite /init_guan /gstate !map_nseq.
rewrite -codes_head; split.
- rewrite E; apply: run_iterate; rewrite ?sz //; first exact: run_codes.
  by rewrite (leq_trans _ fu) // -size_codes (codes_head s) /=.
- by rewrite (perm_uniq (perm_codes s)) subs_uniq.
- by move=> r; rewrite (perm_mem (perm_codes s)) mem_subs.
- by rewrite codes_head; apply: run_unit (run_codes s); rewrite ?sz.
Qed.

Lemma C12_ryser_permanent_lemma :
  forall (F : numFieldType) (m : nat) (M : seq (seq F)) (s t : seq nat) (c : calc F) (fuel : nat),
  is_square m M -> size t = size s -> (size s <= m)%N -> s != [::] ->
  c_matrix c = M -> c_input c = s -> c_output c = t -> (\prod_(x <- s) x.+1 <= fuel)%N ->
  sumn s = sumn t ->
  exists c', [/\ compute_permanent fuel Ryser c = Ok c', c_perm c' = bs_permanent M s t,
    c_matrix c' = M, c_input c' = s & c_output c' = t].
Proof.
move=> F m M s t c fuel sq st sm s0 E1 E2 E3 fu eq.
have [d [r [i [l E]]]] := computeE Ryser sq st sm s0 E1 E2 E3 fu.
by eexists; split; [exact: E|rewrite /cstate /= guan_sum| | | ].
Qed.

Lemma C12_fewer_outputs_lemma :
  forall (F : numFieldType) (m : nat) (M : seq (seq F)) (s t : seq nat) (c : calc F) (fuel : nat),
  is_square m M -> size t = size s -> (size s <= m)%N -> s != [::] ->
  c_matrix c = M -> c_input c = s -> c_output c = t -> (\prod_(x <- s) x.+1 <= fuel)%N ->
  (sumn t < sumn s)%N ->
  exists c', [/\ compute_permanent fuel Ryser c = Ok c', c_perm c' = 0,
    c_matrix c' = M, c_input c' = s & c_output c' = t].
Proof.
move=> F m M s t c fuel sq st sm s0 E1 E2 E3 fu lt.
have [d [r [i [l E]]]] := computeE Ryser sq st sm s0 E1 E2 E3 fu.
by eexists; split; [exact: E|rewrite /cstate /= guan_sum0| | | ].
Qed.

Lemma C13_chin_huh_permanent_lemma :
  forall (F : numFieldType) (m : nat) (M : seq (seq F)) (s t : seq nat) (c : calc F) (fuel : nat),
  is_square m M -> size t = size s -> (size s <= m)%N -> s != [::] ->
  c_matrix c = M -> c_input c = s -> c_output c = t -> (\prod_(x <- s) x.+1 <= fuel)%N ->
  sumn s = sumn t ->
  exists c', [/\ compute_permanent fuel ChinHuh c = Ok c', c_perm c' = bs_permanent M s t,
    c_matrix c' = M, c_input c' = s & c_output c' = t].
Proof.
move=> F m M s t c fuel sq st sm s0 E1 E2 E3 fu eq.
have [d [r [i [l E]]]] := computeE ChinHuh sq st sm s0 E1 E2 E3 fu.
by eexists; split; [exact: E|rewrite /cstate /= guan_sum| | | ].
Qed.

Lemma C13_fewer_outputs_lemma :
  forall (F : numFieldType) (m : nat) (M : seq (seq F)) (s t : seq nat) (c : calc F) (fuel : nat),
  is_square m M -> size t = size s -> (size s <= m)%N -> s != [::] ->
  c_matrix c = M -> c_input c = s -> c_output c = t -> (\prod_(x <- s) x.+1 <= fuel)%N ->
  (sumn t < sumn s)%N ->
  exists c', [/\ compute_permanent fuel ChinHuh c = Ok c', c_perm c' = 0,
    c_matrix c' = M, c_input c' = s & c_output c' = t].
Proof.
move=> F m M s t c fuel sq st sm s0 E1 E2 E3 fu lt.
have [d [r [i [l E]]]] := computeE ChinHuh sq st sm s0 E1 E2 E3 fu.
by eexists; split; [exact: E|rewrite /cstate /= guan_sum0| | | ].
Qed.

Lemma C14_classic_permanent_lemma :
  forall (F : numFieldType) (m : nat) (M : seq (seq F)) (s t : seq nat) (fuel : nat),
  is_square m M -> (size s <= m)%N -> (size t <= m)%N -> sumn s = sumn t -> (sumn s <= fuel)%N ->
  classic_permanent fuel M s t = Ok (bs_permanent M s t).
Proof.
by move=> F m M s t fuel sq sm tm e fu; apply: (classicE (m := m)).
Qed.

Lemma C14_classic_edge_cases_lemma :
  forall (F : numFieldType) (M : seq (seq F)) (s t : seq nat) (fuel : nat),
  [/\ sumn s = 0%N -> sumn t = 0%N -> classic_permanent fuel M s t = Ok 1,
      sumn s = 0%N -> (0 < sumn t)%N -> classic_permanent fuel M s t = Ok 0
    & (0 < sumn s)%N -> sumn t = 0%N -> classic_permanent fuel M s t = Err IndexError].
Proof.
move=> F M s t fuel; case: (classic_edge M s t fuel) => h1 h2; split=> //.
by move=> e1 e2; rewrite /classic_permanent e1 e2.
Qed.

Lemma C15_glynn_permanent_lemma :
  forall (F : numFieldType) (m : nat) (M : seq (seq F)) (s t : seq nat) (gray : nat -> seq nat),
  is_square m M -> (size s <= m)%N -> (size t <= m)%N -> sumn s = sumn t ->
  ((0 < sumn s)%N -> is_gray_code (sumn s - 1) (gray (sumn s - 1)%N)) ->
  glynn_permanent gray M s t = Ok (bs_permanent M s t).
Proof.
by move=> F m M s t gray sq sm tm e g; apply: (glynnE (m := m)).
Qed.

Lemma C15_reflected_gray_code_lemma :
  forall n : nat, is_gray_code n (reflected_gray n).
Proof.
exact: reflected_is_gray.
Qed.

Lemma C15_glynn_vacuum_lemma :
  forall (F : numFieldType) (M : seq (seq F)) (s t : seq nat) (gray : nat -> seq nat),
  sumn s = 0%N \/ sumn t = 0%N -> glynn_permanent gray M s t = Ok 1.
Proof.
by move=> F M s t gray st; rewrite /glynn_permanent scattering_empty.
Qed.

Lemma C16_factory_calculators_agree_lemma :
  forall (F : numFieldType) (m : nat) (M : seq (seq F)) (s t : seq nat) (gray : nat -> seq nat)
    (fuel : nat) (k : calc_type),
  is_square m M -> size t = size s -> (size s <= m)%N -> s != [::] -> sumn s = sumn t ->
  ((0 < sumn s)%N -> is_gray_code (sumn s - 1) (gray (sumn s - 1)%N)) ->
  (\prod_(x <- s) x.+1 <= fuel)%N ->
  rmap fst (compute_any gray fuel (generate_calculator (CalcFactory M s t k)))
  = Ok (bs_permanent M s t).
Proof.
move=> F m M s t gray fuel k sq st sm s0 e g fu.
have fu' : (sumn s <= fuel)%N.
  apply: leq_trans fu; elim: (s) => [|x u IH] /=; first by rewrite big_nil.
  by rewrite big_cons; have := prod_succ_gt0 u; nia.
have G kk : rmap (@c_perm F) (compute_permanent fuel kk (new_calc M s t)) = Ok (bs_permanent M s t).
  have [d [r [i [l E]]]] := computeE kk sq st sm s0 (erefl : c_matrix (new_calc M s t) = M) erefl erefl fu.
  by rewrite E /= guan_sum.
have G' kk : rmap fst (compute_any gray fuel (GuanCalc kk (new_calc M s t))) = Ok (bs_permanent M s t).
  by rewrite /=; move: (G kk); case: (compute_permanent _ _ _).
by case: k => [||||z]; rewrite /= ?(classicE sq) ?(glynnE sq) ?st //; exact: G'.
Qed.

Lemma C16_unequal_numbers_refuted_lemma :
  forall (gray : nat -> seq nat) (fuel : nat), (2 <= fuel)%N ->
  let v k := rmap fst (compute_any gray fuel (generate_calculator (CalcFactory (F := rat_numFieldType) [:: [:: 1]] [:: 1]%N [:: 2]%N k))) in
  [/\ v RYSER = Ok 1, v CHIN_HUH = Ok 0 & v CLASSIC = Ok 2%:R].
Proof.
by move=> gray [|[|fuel]] // _; split; vm_compute.
Qed.

Lemma C16_factory_type_lemma :
  forall (F : numFieldType) (f : calc_factory F), let a := generate_calculator f in
  [/\ calc_matrix a = f_matrix f, calc_input a = f_input f, calc_output a = f_output f
    & match f_type f, a with
      | CLASSIC, ClassicCalc _ _ _ | GLYNN, GlynnCalc _ _ _ | RYSER, GuanCalc Ryser _
      | CHIN_HUH, GuanCalc ChinHuh _ | OTHER_TYPE _, GuanCalc ChinHuh _ => True
      | _, _ => False
      end].
Proof.
by move=> F [M s t []].
Qed.

Lemma C17_guard_lemma :
  forall (F : numFieldType) (fuel : nat) (k : guan_kind) (c : calc F),
  (compute_permanent fuel k c = Err AttributeError <->
   exists row0 rows, c_matrix c = row0 :: rows /\
    ~~ [&& size (c_matrix c) == size row0, size (c_output c) == size (c_input c)
         & (size (c_output c) <= size row0)%N]) /\
  (c_matrix c = [::] -> compute_permanent fuel k c = Err IndexError).
Proof.
by move=> F fuel k c; split; [exact: guardE|exact: guard_empty].
Qed.

Lemma C18_history_independence_lemma :
  forall (F : numFieldType) (gray : nat -> seq nat) (fuel fuel' : nat)
    (broken : any_calc F -> any_calc F) (f : calc_factory F) (ops : seq (calc_op F)),
  (forall a, same_public (broken a) a) ->
  rmap fst (compute_any gray fuel
    (foldl (run_op gray fuel' broken) (generate_calculator f) ops)) =
  rmap fst (compute_any gray fuel (generate_calculator (foldl (@track_op F) f ops))).
Proof.
by move=> F gray fuel fuel' broken f ops B; apply/compute_any_sim/history.
Qed.

Lemma C19_ryser_sub_permanents_lemma :
  forall (F : numFieldType) (m : nat) (M : seq (seq F)) (s t : seq nat) (c : subcalc F) (fuel : nat),
  is_square m M -> size t = size s -> (size s <= m)%N -> sumn s = (sumn t).+1 ->
  sc_matrix c = M -> sc_input c = s -> sc_output c = t -> (\prod_(x <- s) x.+1 <= fuel)%N ->
  exists c', [/\ compute_permanents fuel Ryser c = Ok (sub_permanents M s t, c'),
    sc_matrix c' = M, sc_input c' = s & sc_output c' = t].
Proof.
move=> F m M s t c fuel sq st sm e E1 E2 E3 fu.
have -> : sub_permanents M s t =
    mkseq (fun i => if nth 0%N s i == 0%N then 0 else bs_permanent M (decr s i) t) (size s).
  by apply: eq_map => i; rewrite /one_less decrE.
case: (posnP (sumn t)) => t0.
  exists c; split=> //; apply: compute_sub_one => //; by rewrite e t0.
exact: (compute_subE Ryser sq st sm e t0 E1 E2 E3 fu).
Qed.

Lemma C20_chin_huh_sub_permanents_lemma :
  forall (F : numFieldType) (m : nat) (M : seq (seq F)) (s t : seq nat) (c : subcalc F) (fuel : nat),
  is_square m M -> size t = size s -> (size s <= m)%N -> sumn s = (sumn t).+1 ->
  sc_matrix c = M -> sc_input c = s -> sc_output c = t -> (\prod_(x <- s) x.+1 <= fuel)%N ->
  exists c', [/\ compute_permanents fuel ChinHuh c = Ok (sub_permanents M s t, c'),
    sc_matrix c' = M, sc_input c' = s & sc_output c' = t].
Proof.
move=> F m M s t c fuel sq st sm e E1 E2 E3 fu.
have -> : sub_permanents M s t =
    mkseq (fun i => if nth 0%N s i == 0%N then 0 else bs_permanent M (decr s i) t) (size s).
  by apply: eq_map => i; rewrite /one_less decrE.
case: (posnP (sumn t)) => t0.
  exists c; split=> //; apply: compute_sub_one => //; by rewrite e t0.
exact: (compute_subE ChinHuh sq st sm e t0 E1 E2 E3 fu).
Qed.
