(* Python run-time notions shared by all models: exceptions as values, list
   indexing with negative indices, item assignment. *)
From mathcomp Require Import all_ssreflect all_algebra.
Set Implicit Arguments.
Unset Strict Implicit.
Unset Printing Implicit Defensive.

(* Exceptions raised by the modelled code; [OutOfFuel] is not a Python
   exception, it marks a loop cut short by the fuel of the model. *)
Inductive pyerr :=
  | IndexError | ValueError | AttributeError | TypeError | AssertionError
  | ZeroDivisionError | UnboundLocalError | KeyError | ImportError | OutOfFuel.

Inductive res (A : Type) := Ok of A | Err of pyerr.
Arguments Ok {A} a.
Arguments Err {A} e.

Definition rbind (A B : Type) (x : res A) (f : A -> res B) : res B :=
  match x with Ok a => f a | Err e => Err e end.
Definition rmap (A B : Type) (f : A -> B) (x : res A) : res B :=
  match x with Ok a => Ok (f a) | Err e => Err e end.

Declare Scope py_scope.
Delimit Scope py_scope with py.
Notation "'let!' x := e1 'in' e2" := (rbind e1 (fun x => e2))
  (at level 200, x name, e1 at level 100, e2 at level 200) : py_scope.

(* [for x in l: acc = f acc x] where the body may raise. *)
Fixpoint rfoldl (A B : Type) (f : A -> B -> res A) (acc : A) (l : seq B) : res A :=
  if l is x :: l' then rbind (f acc x) (fun acc' => rfoldl f acc' l') else Ok acc.

(* List comprehension whose element expression may raise. *)
Fixpoint rmapM (A B : Type) (f : A -> res B) (l : seq A) : res (seq B) :=
  if l is x :: l' then
    rbind (f x) (fun y => rbind (rmapM f l') (fun ys => Ok (y :: ys)))
  else Ok [::].

(* Python's index normalisation: -1 is the last position, out of range raises. *)
Definition py_index (n : nat) (i : int) : res nat :=
  match i with
  | Posz k => if k < n then Ok k else Err IndexError
  | Negz k => if k < n then Ok (n - k.+1) else Err IndexError
  end.

Definition py_get (A : Type) (l : seq A) (i : int) : res A :=
  rbind (py_index (size l) i)
        (fun k => if drop k l is x :: _ then Ok x else Err IndexError).

Definition py_set (A : Type) (l : seq A) (i : int) (v : A) : res (seq A) :=
  rbind (py_index (size l) i)
        (fun k => if drop k l is _ :: r then Ok (take k l ++ v :: r)
                  else Err IndexError).

(* [range(n)] for a possibly negative bound. *)
Definition py_range (n : int) : seq nat :=
  match n with Posz k => iota 0 k | Negz _ => [::] end.

(* [range(a, b)] on ints. *)
Definition py_range2 (a b : int) : seq int :=
  if (a <= b)%R then [seq (a + Posz i)%R | i <- iota 0 `|b - a|%N] else [::].

(* res is an eqType, for computing examples *)
Definition pyerr_eqb (a b : pyerr) : bool :=
  match a, b with
  | IndexError, IndexError | ValueError, ValueError
  | AttributeError, AttributeError | TypeError, TypeError
  | AssertionError, AssertionError | ZeroDivisionError, ZeroDivisionError
  | UnboundLocalError, UnboundLocalError | KeyError, KeyError
  | ImportError, ImportError
  | OutOfFuel, OutOfFuel => true
  | _, _ => false
  end.

Lemma py_get_nth (A : Type) (x0 : A) (l : seq A) (k : nat) :
  k < size l -> py_get l (Posz k) = Ok (nth x0 l k).
Proof.
by move=> lk; rewrite /py_get /= lk /= (drop_nth x0 lk).
Qed.

Lemma py_set_nth (A : Type) (x0 : A) (l : seq A) (k : nat) (v : A) :
  k < size l -> py_set l (Posz k) v = Ok (set_nth x0 l k v).
Proof.
move=> lk; rewrite /py_set /= lk /= (drop_nth x0 lk); congr Ok.
elim: l k lk => [//|a l IH] [|k] //= lk.
  by rewrite drop0.
by rewrite IH.
Qed.

Lemma py_get_cat (A : Type) (p r : seq A) (v : A) (i : int) :
  i = Posz (size p) -> py_get (p ++ v :: r) i = Ok v.
Proof.
move=> ->; rewrite (py_get_nth v) ?size_cat ?addnS ?ltnS ?leq_addr //.
by rewrite nth_cat ltnn subnn.
Qed.

Lemma py_set_cat (A : Type) (p r : seq A) (v w : A) (i : int) :
  i = Posz (size p) -> py_set (p ++ v :: r) i w = Ok (p ++ w :: r).
Proof.
move=> ->; rewrite /py_set /= size_cat /= addnS ltnS leq_addr /=.
by rewrite drop_size_cat // take_size_cat.
Qed.

Lemma rfoldl_cons (A B : Type) (f : A -> B -> res A) acc x l :
  rfoldl f acc (x :: l) = rbind (f acc x) (fun acc' => rfoldl f acc' l).
Proof. by []. Qed.

Lemma rfoldl_cat (A B : Type) (f : A -> B -> res A) acc l1 l2 :
  rfoldl f acc (l1 ++ l2) = rbind (rfoldl f acc l1) (fun acc' => rfoldl f acc' l2).
Proof. by elim: l1 acc => [|x l IH] acc //=; case: (f acc x). Qed.

Lemma rfoldl_ok (A B : Type) (f : A -> B -> res A) (g : A -> B -> A) acc l :
  (forall a b, f a b = Ok (g a b)) -> rfoldl f acc l = Ok (foldl g acc l).
Proof. by move=> fg; elim: l acc => [|x l IH] acc //=; rewrite fg /= IH. Qed.

Lemma rmapM_ok (A : eqType) (B : Type) (f : A -> res B) (g : A -> B) l :
  {in l, forall a, f a = Ok (g a)} -> rmapM f l = Ok (map g l).
Proof.
elim: l => [|x l IH] fg //=; rewrite fg ?inE ?eqxx //= IH //.
by move=> a al; apply: fg; rewrite inE al orbT.
Qed.
