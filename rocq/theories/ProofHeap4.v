(* Laws of the samples, permanents and shared lists with arrays as objects. *)
From mathcomp Require Import all_ssreflect all_algebra complex zify.
From Verif Require Import Base ModelStates ModelPerm ModelDist SpecProb ProbMath SpecGcc ModelGcc ModelGccB ModelHeap SpecHeap ProofPerm6 ProofGcc4 ProofHeap1 ProofHeap2 ProofHeap3.
Set Implicit Arguments.
Unset Strict Implicit.
Unset Printing Implicit Defensive.
Import GRing.Theory Num.Theory.
Local Open Scope ring_scope.
Local Open Scope py_scope.

Section Heap.
Variable R : rcfType.
Notation CF := (ComplexField.complex_numFieldType R).
Variables (gray : nat -> seq nat) (fuel : nat).
Implicit Types (h : store R) (a p : nat) (g : hgcc R) (b : hgccb R).

Lemma same_run_flip (A B : Type) (P : A -> B -> Prop) (p : rprog R A) (q : rprog R B) :
  same_run P p q -> same_run (fun y x => P x y) q p.
Proof.
elim: p q => [x|k IH|n k IH] [y|k'|n' k'] //=.
- by move=> s u hu; apply: IH; exact: s.
- by move=> [<- s]; split=> // i il; apply: IH; exact: s.
Qed.

Lemma iid_same (G H : Type) (view : store R -> G -> H) ok a h
    (pr : rprog R (res (seq (seq nat) * (store R * G)))) (qr : rprog R (res (seq (seq nat) * H))) k S (P : seq nat -> R) :
  same_run (same_res (same_call view ok a h)) pr qr -> iid_samples qr k S P -> iid_samples pr k S P.
Proof.
move=> /same_run_flip s e L; apply: (same_run_exp s _ (e L)).
by move=> [x|e1] [y|e2] //= [-> _ _ _ _].
Qed.

Lemma view_matrixE h a : calc_matrix (calc_view h a) = mat h (hc_mat (cal h a)).
Proof. exact: matrix_view. Qed.

Lemma any_class h c : exists k, same_public (hc_view h c)
  (generate_calculator (CalcFactory (mat h (hc_mat c)) (vec h (hc_in c)) (vec h (hc_out c)) k)).
Proof.
case: c => -[M s t|M s t|k c] m i o.
- by exists CLASSIC.
- by exists GLYNN.
- by case: k; [exists RYSER|exists CHIN_HUH].
Qed.

(* the calculator holds the list of the sampler *)
Definition alias (x : store R * hgccb R) : Prop := hc_in (cal x.1 (hb_calc x.2)) = hb_current x.2.

Definition kept (N n : nat) (x : store R * hgccb R) : Prop :=
  [/\ hb_n x.2 = n, (N <= size (st_vecs x.1))%N & (N <= hb_current x.2)%N].

Lemma put_kept N h p s : (N <= size (st_vecs h))%N -> (N <= size (st_vecs (put_vec h p s)))%N.
Proof. by move=> hN; rewrite /= size_set_nth (leq_trans hN) // leq_maxr. Qed.

Lemma loop_alias N n0 n target (x : store R * hgccb R) : kept N n0 x ->
  alias x \/ (sumn (vec x.1 (hb_r x.2)) < target)%N ->
  always (if_ok (fun y => alias y /\ kept N n0 y)) (h_b_fill_loop fuel n target x).
Proof.
elim: n x => [//|n IH] x kx /= al; case: ifP => [_|lt]; last by case: al => // al; rewrite lt in al.
apply: always_rbind.
have : always (if_ok (kept N n0)) (h_update_current x).
  case: x kx {al} => h b [k1 k2 k3].
  rewrite /h_update_current; case: (hb_working b) => [//|w0 ws] /= i il.
  case: (py_pop _ _) => [xw|e] //=; rewrite /h_incr; case: (incr_at _ _) => [s|e] //=.
  by split=> //; exact: put_kept.
apply: always_impl => -[x1|e] //= n1; apply: always_rbind => /=.
case E: (h_compute_pmf fuel x1) => [x2|e] //=.
have [al2 n2] : alias x2 /\ kept N n0 x2.
  move: E n1; case: (x1) => h1 b1; rewrite /h_compute_pmf; case: (compute_permanents _ _ _) => [pc|e] //=.
  by case: (rmapM _ _) => [pmf|e] //= [<-] [k1 k2 k3]; split; [rewrite /alias /= cal_put|].
apply: always_rbind.
have : always (if_ok (fun y => alias y /\ kept N n0 y)) (h_sample_from_pmf x2).
  case: x2 al2 n2 {E} => h2 b2 al2 [k1 k2 k3]; rewrite /h_sample_from_pmf; case: ifP => // _; apply: always_rbind.
  rewrite /np_choice; case: ifP => //= _ u hu.
  rewrite /h_incr; case: (incr_at _ _) => [s|e] //=.
  by split=> //; split=> //; exact: put_kept.
apply: always_impl => -[x3|e] //= [al3 n3].
by apply: IH => //; left.
Qed.

Lemma sample_alias N n k x : (0 < n)%N -> hb_n x.2 = n -> (N <= size (st_vecs x.1))%N ->
  (0 < k)%N \/ (alias x /\ kept N n x) ->
  always (if_ok (fun y => alias y.2 /\ kept N n y.2)) (sample_loop (h_b_fill fuel) (fun x => Ok (vec x.1 (hb_r x.2))) k x).
Proof.
move=> n0; elim: k x => [|k IH] x en hN /=; first by case.
move=> _; apply: always_rbind.
have : always (if_ok (fun y => alias y /\ kept N n y)) (h_b_fill fuel x).
  rewrite /h_b_fill; apply: loop_alias.
    by case: x en hN => h b /= en hN; split=> //=; rewrite !size_rcons; apply: (leq_trans hN); lia.
  by right; case: x en hN => h b /= en hN; rewrite vec_push sumn_nseq en.
apply: always_impl => -[x1|e] //= [al k1]; apply: always_rbind => /=; apply: always_rbind.
have [e1 e2 _] := k1.
by apply: always_impl (IH x1 e1 e2 (or_intror (conj al k1))) => -[y|e].
Qed.

Lemma gccb_alias h b p k : (0 < sumn (vec h p))%N -> (0 < k)%N ->
  always (if_ok (fun y => hc_in (cal y.2.1 (hb_calc y.2.2)) = hb_current y.2.2 /\ (size (st_vecs h) <= hb_current y.2.2)%N))
    (h_gccb_simulate fuel p k (h, b)).
Proof.
move=> n0 k0; rewrite /h_gccb_simulate.
have := @sample_alias (size (st_vecs h)) (sumn (vec h p)) k (h_b_start p (h, b)) n0 (erefl _) (leqnn _) (or_introl k0).
by apply: always_impl => -[y|e] //= [al [_ _ k3]]; split.
Qed.

End Heap.

Lemma all_In (T : Type) (P : pred T) (l : seq T) x : all P l -> List.In x l -> P x.
Proof. by elim: l => [|y l IH] //= /andP[py al] [<-//|]; exact: IH. Qed.
