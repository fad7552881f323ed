(** Common vocabulary of the model: exceptions as values, list helpers. *)
From Coq Require Export List Arith ZArith Lia Bool.
From Coq Require Export Permutation Sorted.
Export ListNotations.
Open Scope Z_scope.

(** Python exceptions that the modelled code can raise.  [OutOfFuel] is not a
    Python exception: it marks a fuelled loop of the model that was not given
    enough fuel; every theorem excludes it. *)
Inductive exn :=
| ValueError | IndexError | TypeError | ZeroDivisionError | AssertionError
| KeyError | AttributeError | SystemExit | OutOfFuel.

Inductive res (A : Type) := Ok (a : A) | Err (e : exn).
Arguments Ok {A} a.
Arguments Err {A} e.

Definition bind {A B} (r : res A) (k : A -> res B) : res B :=
  match r with Ok a => k a | Err e => Err e end.
Notation "'do' x <- r ; k" := (bind r (fun x => k))
  (at level 200, x pattern, r at level 100, k at level 200).

(** sum(values) *)
Definition zsum (l : list Z) : Z := fold_right Z.add 0 l.

(** list(range(lo, hi)) *)
Definition zrange (lo hi : Z) : list Z :=
  map (fun i => lo + Z.of_nat i) (seq 0 (Z.to_nat (hi - lo))).

(** v in values *)
Definition zmem (v : Z) (l : list Z) : bool := existsb (Z.eqb v) l.

(** values.count(v) *)
Definition zcount (v : Z) (l : list Z) : Z :=
  Z.of_nat (length (filter (Z.eqb v) l)).

(** max(values), min(values) of a non-empty list *)
Definition zmax (l : list Z) : option Z :=
  match l with [] => None | x :: r => Some (fold_left Z.max r x) end.
Definition zmin (l : list Z) : option Z :=
  match l with [] => None | x :: r => Some (fold_left Z.min r x) end.

(** bisect.insort with a key: insert to the right of every element whose key is
    <= the key of [x].  Simplification: linear scan instead of binary search;
    the two agree on sorted lists and every list the program insorts into is
    sorted. *)
Fixpoint insort_by {A} (le : A -> A -> bool) (x : A) (l : list A) : list A :=
  match l with
  | [] => [x]
  | y :: r => if le y x then y :: insort_by le x r else x :: l
  end.
Definition insort (x : Z) (l : list Z) : list Z := insort_by Z.leb x l.

(** sorted(values): stable insertion sort *)
Definition sorted_by {A} (le : A -> A -> bool) (l : list A) : list A :=
  fold_left (fun acc x => insort_by le x acc) l [].
Definition zsorted (l : list Z) : list Z := sorted_by Z.leb l.

(** list.remove(v): drops the first occurrence, ValueError if absent *)
Fixpoint py_remove (v : Z) (l : list Z) : res (list Z) :=
  match l with
  | [] => Err ValueError
  | x :: r => if x =? v then Ok r else do r' <- py_remove v r; Ok (x :: r')
  end.

(** l[i] = f l[i] *)
Fixpoint upd {A} (i : nat) (f : A -> A) (l : list A) : list A :=
  match l, i with
  | [], _ => []
  | x :: r, O => f x :: r
  | x :: r, S j => x :: upd j f r
  end.
