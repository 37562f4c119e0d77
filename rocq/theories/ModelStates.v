(* Model of the state-related functions of
   theboss/boson_sampling_utilities/boson_sampling_utilities.py.
   Line numbers refer to that file. *)
From mathcomp Require Import all_ssreflect all_algebra.
From Verif Require Import Base.
Set Implicit Arguments.
Unset Strict Implicit.
Unset Printing Implicit Defensive.
Local Open Scope nat_scope.
Local Open Scope py_scope.

(* ------------------------------------------------------------------ *)
(* lines 34-58, mode_assignment_to_mode_occupation.  Modes are Python ints
   (possibly negative), the occupation numbers start at 0 and only grow. *)

(* Python's max of a list of ints; ValueError on an empty sequence. *)
Definition py_max (l : seq int) : res int :=
  if l is x :: l' then Ok (foldl Num.max x l') else Err ValueError.

Definition incr_at (occ : seq nat) (i : int) : res (seq nat) :=
  let! x := py_get occ i in py_set occ i x.+1.

Definition mode_assignment_to_mode_occupation
    (a : seq int) (observed : int) : res (seq nat) :=
  let! m := (if observed == 0%R then let! mx := py_max a in Ok (mx + 1)%R
        else Ok observed) in
  rfoldl incr_at [seq 0 | _ <- py_range m] a.

(* lines 61-78, mode_occupation_to_mode_assignment.  [range(s[i])] is empty
   for a negative occupation number. *)
Definition mode_occupation_to_mode_assignment (s : seq int) : seq nat :=
  foldl (fun acc (i : nat) =>
           foldl (fun acc' (_ : nat) => acc' ++ [:: i])
                 acc (py_range (nth 0%R s i)))
        [::] (iota 0 (size s)).

(* ------------------------------------------------------------------ *)
(* lines 117-155, _generate_possible_n_particle_states.  Called only with
   n >= 0 and modes_number >= 1 (guard in lines 97-100), so entries are nat;
   the theorem shows that all generated states have sum n, in particular that
   [n - sum(state)] never truncates. *)

(* inner while, lines 139-141 *)
Fixpoint gen_find_k (fuel : nat) (last : seq nat) (k : int) : res int :=
  if fuel is f.+1 then
    let! x := py_get last (k - 1)%R in
    if x == 0 then gen_find_k f last (k - 1)%R else Ok k
  else Err OutOfFuel.

(* lines 143-149 *)
Definition gen_next (fuel n m : nat) (last : seq nat) : res (seq nat) :=
  let! k := gen_find_k fuel last (Posz m - 1)%R in
  let! x := py_get last (k - 1)%R in
  let! st := py_set last (k - 1)%R x.-1 in
  let! st' := rfoldl (fun s i => py_set s i 0) st (py_range2 k (Posz (size st))) in
  py_set st' k (n - sumn st').

(* outer while, lines 137-151 *)
Fixpoint gen_loop (fuel n m : nat) (states : seq (seq nat)) : res (seq (seq nat)) :=
  if fuel is f.+1 then
    let lst := last [::] states in
    let! x := py_get lst (Posz m - 1)%R in
    if x < n then
      let! st := gen_next fuel n m lst in
      gen_loop f n m (rcons states st)
    else Ok states
  else Err OutOfFuel.

(* Python's tuple comparison [a >= b] *)
Fixpoint lexge (a b : seq nat) : bool :=
  match a, b with
  | _, [::] => true
  | [::], _ :: _ => false
  | x :: a', y :: b' => (y < x) || ((x == y) && lexge a' b')
  end.

Definition generate_n_particle_states (fuel n m : nat) : res (seq (seq nat)) :=
  let! st := py_set (nseq m 0) 0%R n in
  let! states := gen_loop fuel n m [:: st] in
  Ok (sort lexge states).

(* lines 81-114, generate_possible_states *)
Definition generate_possible_states
    (fuel : nat) (n m : int) (losses : bool) : res (seq (seq nat)) :=
  if ((n < 0) || (m < 1))%R then Ok [::]
  else if n == 0%R then Ok [:: [seq 0 | _ <- py_range m]]
  else
    let start := if losses then 0 else `|n|%N in
    rfoldl (fun states k =>
              let! more := generate_n_particle_states fuel k `|m|%N in
              Ok (states ++ more))
           [::] (iota start (`|n|%N.+1 - start)).

(* ------------------------------------------------------------------ *)
(* lines 158-203, generate_lossy_n_particle_input_states *)

(* itertools.combinations(l, k), in its lexicographic order *)
Fixpoint combinations (A : Type) (l : seq A) (k : nat) : seq (seq A) :=
  match l, k with
  | _, 0 => [:: [::]]
  | [::], _.+1 => [::]
  | x :: l', k'.+1 => [seq x :: c | c <- combinations l' k'] ++ combinations l' k
  end.

Section LossyInputs.
(* Python's hash of a tuple of ints *)
Variables (H : eqType) (hash : seq nat -> H).

Definition lossy_inputs_step (m : nat) (x0 : seq nat)
    (acc : seq (seq nat) * seq H) (comb : seq nat) :
    res (seq (seq nat) * seq H) :=
  let! pb := rmapM (fun el => py_get x0 (Posz el)) comb in
  let! t := mode_assignment_to_mode_occupation (map Posz pb) (Posz m) in
  let h := hash t in
  if h \notin acc.2 then Ok (rcons acc.1 t, rcons acc.2 h) else Ok acc.

Definition generate_lossy_n_particle_input_states
    (s : seq nat) (k : int) : res (seq (seq nat)) :=
  let x0 := foldl (fun acc i => acc ++ nseq (nth 0 s i) i) [::] (iota 0 (size s)) in
  if sumn s == 0 then Ok [:: s]
  else match k with
    | Negz _ => Err ValueError     (* combinations: r must be non-negative *)
    | Posz k' =>
      let! r := rfoldl (lossy_inputs_step (size s) x0) ([::], [::])
                  (combinations (iota 0 (sumn s)) k') in
      Ok r.1
    end.
End LossyInputs.

(* ------------------------------------------------------------------ *)
(* lines 206-237, bosonic_space_dimension; scipy's binom on integers.
   Arguments n >= 0, m >= 1, so n + m - 1 does not truncate. *)
Definition bosonic_space_dimension (n m : nat) (losses : bool) : nat :=
  let dimension := 'C(n + m - 1, n) in
  if ~~ losses then dimension
  else foldl (fun d k => d + 'C(k + m - 1, k)) dimension (iota 0 n).

(* ------------------------------------------------------------------ *)
(* lines 345-400, generate_state_types *)

(* the generator _partitions, lines 363-380; fuel bounds the recursion depth *)
Fixpoint partitions_gen (fuel n I : nat) : res (seq (seq nat)) :=
  if fuel is f.+1 then
    rfoldl (fun acc i =>
              let! ps := partitions_gen f (n - i) i in
              Ok (acc ++ [seq i :: p | p <- ps]))
           [:: [:: n]] (iota I (n./2.+1 - I))
  else Err OutOfFuel.

Definition pad_zeros (m : nat) (l : seq nat) : seq nat := l ++ nseq (m - size l) 0.

Definition generate_state_types (fuel m n : nat) (losses : bool) : res (seq (seq nat)) :=
  let! all0 := partitions_gen fuel n 1 in
  let! all_partitions :=
    (if losses then
       rfoldl (fun acc i => let! ps := partitions_gen fuel i 1 in Ok (acc ++ ps)) all0 (iota 0 n)
     else Ok all0) in
  let state_types :=
    foldl (fun acc p => if m < size p then acc else rcons acc (sort geq p))
          [::] all_partitions in
  Ok (map (pad_zeros m) state_types).

(* ------------------------------------------------------------------ *)
(* lines 478-502, compute_number_of_k_element_integer_partitions_of_n *)
Fixpoint number_of_k_partitions (fuel : nat) (k n : nat) : res nat :=
  if fuel is f.+1 then
    if k == 1 then Ok 1
    else if (n < k) || (n == 0) || (k < 1) then Ok 0
    else
      let! a := number_of_k_partitions f k (n - k) in
      let! b := number_of_k_partitions f k.-1 n.-1 in
      Ok (a + b)
  else Err OutOfFuel.

(* lines 403-441, compute_number_of_state_types *)
Definition compute_number_of_state_types (fuel m n : nat) (losses : bool) : res nat :=
  let count acc p :=
    rfoldl (fun acc k => let! x := number_of_k_partitions fuel k p in Ok (acc + x))
           acc (iota 1 m) in
  let! r := count 0 n in
  if ~~ losses then Ok r else rfoldl count r (iota 0 n).

(* lines 444-475, compute_number_of_states_of_given_type.  [vals] is the list
   of distinct values in the (unspecified) iteration order of Python's set.
   The float variable type_count (lines 463-466) is dead code. *)
Definition compute_number_of_states_of_given_type (vals t : seq nat) : nat :=
  let counts := [seq count_mem v t | v <- vals] in
  foldl (fun x c => x %/ c`!) (size t)`! counts.
