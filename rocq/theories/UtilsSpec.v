(** Small specification vocabulary for the utility functions. *)
From Verif Require Import Base Utils.
Open Scope Z_scope.

(** [eqb] decides equality *)
Definition eq_decides {A} (eqb : A -> A -> bool) : Prop := forall x y, eqb x y = true <-> x = y.

(** multiplicity of [v] in [l] *)
Definition cnt {A} (eqb : A -> A -> bool) (v : A) (l : list A) : nat :=
  length (filter (eqb v) l).

(** distinct elements in order of first occurrence *)
Fixpoint nub {A} (eqb : A -> A -> bool) (l : list A) : list A :=
  match l with
  | [] => []
  | x :: r => x :: filter (fun y => negb (eqb x y)) (nub eqb r)
  end.

(** equal values gathered at the place of the first one *)
Definition gather {A} (eqb : A -> A -> bool) (l : list A) : list A :=
  flat_map (fun x => repeat x (cnt eqb x l)) (nub eqb l).

(** [s] is obtained from [l] by dropping elements: a sub-multiset of positions *)
Inductive subseq {A} : list A -> list A -> Prop :=
| sub_nil : subseq [] []
| sub_skip x s l : subseq s l -> subseq s (x :: l)
| sub_take x s l : subseq s l -> subseq (x :: s) (x :: l).

(** the reference list behind a FastList: a plain list without duplicates *)
Inductive flop (A : Type) := FAppend (x : A) | FExtend (xs : list A) | FRemove (x : A)
                | FPop (i : Z) | FClear.
Arguments FAppend {A}. Arguments FExtend {A}. Arguments FRemove {A}.
Arguments FPop {A}. Arguments FClear {A}.

(** one operation of the modelled FastList (src/utils/fastlist.py): the list
    afterwards and the exception raised, if any *)
Definition fl_step {A} (eqb : A -> A -> bool) (o : flop A) (l : fastlist A) : fastlist A * option exn :=
  match o with
  | FAppend x => (fl_append eqb x l, None)
  | FExtend xs => (fl_extend eqb xs l, None)
  | FRemove x => let (r, l') := fl_remove eqb x l in
                 (l', match r with Ok _ => None | Err e => Some e end)
  | FPop i => let (r, l') := fl_pop eqb i l in
              (l', match r with Ok _ => None | Err e => Some e end)
  | FClear => (fl_clear l, None)
  end.

Definition ref_append {A} (eqb : A -> A -> bool) (x : A) (l : list A) : list A :=
  if existsb (eqb x) l then l else l ++ [x].
(** position of the first occurrence *)
Fixpoint position {A} (eqb : A -> A -> bool) (x : A) (l : list A) : option nat :=
  match l with
  | [] => None
  | y :: r => if eqb x y then Some O else option_map S (position eqb x r)
  end.
Definition drop_at {A} (k : nat) (l : list A) : list A := firstn k l ++ skipn (S k) l.
(** list afterwards, and whether the call raises *)
Definition ref_step {A} (eqb : A -> A -> bool) (o : flop A) (l : list A) : list A * bool :=
  match o with
  | FAppend x => (ref_append eqb x l, false)
  | FExtend xs => (fold_left (fun l x => ref_append eqb x l) xs l, false)
  | FRemove x => match position eqb x l with
                 | Some k => (drop_at k l, false)
                 | None => (l, true)
                 end
  | FPop i => if (- Z.of_nat (length l) <=? i) && (i <? Z.of_nat (length l))
              then (drop_at (Z.to_nat (if i <? 0 then i + Z.of_nat (length l) else i)) l, false)
              else (l, true)
  | FClear => ([], false)
  end.

(** dot product *)
Fixpoint dot (c x : list Z) : Z :=
  match c, x with
  | a :: c', b :: x' => a * b + dot c' x'
  | _, _ => 0
  end.

Definition norm (s : str) : str := replace_char big_solidus slash s.

Inductive hop := HAppend (s : str) | HLoad.

Definition hstep (h : history) (o : hop) : history :=
  match o with HAppend s => history_append h s | HLoad => history_load h end.

(** the appended strings, oldest first *)
Definition appended (ops : list hop) : list str :=
  flat_map (fun o => match o with HAppend s => [norm s] | HLoad => [] end) ops.

Definition nonneg_solution (x : list Z) (y : Z) (c : list Z) : Prop :=
  length c = length x /\ Forall (fun a => 0 <= a) c /\ dot c x = y.

(** [o] agrees with [s] up to position [k] and [s] is zero from there on *)
Definition agrees_up_to_zeros (o s : list Z) : Prop :=
  length o = length s /\
  exists k, (k <= length s)%nat /\ firstn k o = firstn k s /\ skipn k s = repeat 0 (length s - k).

