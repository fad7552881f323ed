(** Model of src/utils/other.py, src/utils/fastlist.py, src/utils/math.py and of
    the history class of src/utils/cli.py. *)
From Verif Require Import Base.
Open Scope Z_scope.

(** ** collections.Counter / dict used as counters: insertion ordered
    association lists.  [eqb] is Python's ==/hash on the keys. *)

(** counts[x] += 1, inserting 1 at the end when absent
    (Counter in src/utils/other.py:3-4; counts in src/utils/fractions.py:25-31;
    source_counts in src/utils/solver.py:76-81) *)
Fixpoint counter_add {A} (eqb : A -> A -> bool) (x : A) (c : list (A * nat)) : list (A * nat) :=
  match c with
  | [] => [(x, 1%nat)]
  | (y, k) :: r => if eqb y x then (y, S k) :: r else (y, k) :: counter_add eqb x r
  end.
(** Counter(values) *)
Definition counter {A} (eqb : A -> A -> bool) (l : list A) : list (A * nat) :=
  fold_left (fun c x => counter_add eqb x c) l [].
(** count.get(x) *)
Fixpoint counter_get {A} (eqb : A -> A -> bool) (x : A) (c : list (A * nat)) : option nat :=
  match c with
  | [] => None
  | (y, k) :: r => if eqb y x then Some k else counter_get eqb x r
  end.
(** count[x] = k for an existing key *)
Fixpoint counter_set {A} (eqb : A -> A -> bool) (x : A) (k : nat) (c : list (A * nat)) :=
  match c with
  | [] => []
  | (y, j) :: r => if eqb y x then (y, k) :: r else (y, j) :: counter_set eqb x k r
  end.
(** the loops "for item, count in c.items(): out.extend([item] * count)" *)
Definition counter_expand {A} (c : list (A * nat)) : list A :=
  flat_map (fun p => repeat (fst p) (snd p)) c.

(** src/utils/other.py:1-13 remove_pairs.  The keys of count_a do not change
    during the loop, so they are read once. *)
Definition remove_pairs_step {A} (eqb : A -> A -> bool)
    (st : list (A * nat) * list (A * nat)) (x : A) :=
  let (ca, cb) := st in
  match counter_get eqb x cb with
  | None => (ca, cb)
  | Some kb =>
      let ka := match counter_get eqb x ca with Some k => k | None => 0%nat end in
      let p := Nat.min ka kb in
      (counter_set eqb x (ka - p) ca, counter_set eqb x (kb - p) cb)
  end.
Definition remove_pairs {A} (eqb : A -> A -> bool) (a b : list A) : list A * list A :=
  let ca := counter eqb a in
  let (ca', cb') := fold_left (remove_pairs_step eqb) (map fst ca) (ca, counter eqb b) in
  (counter_expand ca', counter_expand cb').

(** ** src/utils/fastlist.py:1-28 FastList: a list plus a set.  The set is a
    list of members of which only membership is observed. *)
Record fastlist (A : Type) := FL { fl_items : list A; fl_set : list A }.
Arguments FL {A}.
Arguments fl_items {A}.
Arguments fl_set {A}.

Definition fl_new {A} : fastlist A := FL [] [].
(** contains (17-18): item in self._set *)
Definition fl_contains {A} (eqb : A -> A -> bool) (x : A) (l : fastlist A) : bool :=
  existsb (eqb x) (fl_set l).
(** append (7-10) *)
Definition fl_append {A} (eqb : A -> A -> bool) (x : A) (l : fastlist A) : fastlist A :=
  if fl_contains eqb x l then l else FL (fl_items l ++ [x]) (x :: fl_set l).
(** extend (20-21) *)
Definition fl_extend {A} (eqb : A -> A -> bool) (xs : list A) (l : fastlist A) : fastlist A :=
  fold_left (fun l x => fl_append eqb x l) xs l.
(** list.remove *)
Fixpoint list_remove {A} (eqb : A -> A -> bool) (x : A) (l : list A) : res (list A) :=
  match l with
  | [] => Err ValueError
  | y :: r => if eqb y x then Ok r else do r' <- list_remove eqb x r; Ok (y :: r')
  end.
(** set.remove: KeyError if absent *)
Definition set_remove {A} (eqb : A -> A -> bool) (x : A) (s : list A) : res (list A) :=
  if existsb (eqb x) s then Ok (filter (fun y => negb (eqb x y)) s) else Err KeyError.
(** remove (12-14).  The state after a raise is returned beside the exception. *)
Definition fl_remove {A} (eqb : A -> A -> bool) (x : A) (l : fastlist A)
  : res unit * fastlist A :=
  match list_remove eqb x (fl_items l) with
  | Err e => (Err e, l)
  | Ok items =>
      match set_remove eqb x (fl_set l) with
      | Err e => (Err e, FL items (fl_set l))
      | Ok s => (Ok tt, FL items s)
      end
  end.
(** clear (23-25) *)
Definition fl_clear {A} (l : fastlist A) : fastlist A := FL [] [].
(** position of a Python index *)
Definition py_index (i : Z) (n : nat) : option nat :=
  let k := if i <? 0 then i + Z.of_nat n else i in
  if (0 <=? k) && (k <? Z.of_nat n) then Some (Z.to_nat k) else None.
(** list.pop(index) *)
Definition list_pop {A} (i : Z) (l : list A) : res (A * list A) :=
  match py_index i (length l) with
  | None => Err IndexError
  | Some k =>
      match nth_error l k with
      | Some x => Ok (x, firstn k l ++ skipn (S k) l)
      | None => Err IndexError
      end
  end.
(** pop (27-30) *)
Definition fl_pop {A} (eqb : A -> A -> bool) (i : Z) (l : fastlist A)
  : res A * fastlist A :=
  match list_pop i (fl_items l) with
  | Err e => (Err e, l)
  | Ok (x, items) =>
      match set_remove eqb x (fl_set l) with
      | Err e => (Err e, FL items (fl_set l))
      | Ok s => (Ok x, FL items s)
      end
  end.

(** ** src/utils/cli.py:4-10 UniqueInMemoryHistory.  prompt_toolkit's
    InMemoryHistory keeps [_storage] (oldest first) and the base class History
    keeps [_loaded_strings] (newest first) and [_loaded]; History.load()
    replaces [_loaded_strings] by reversed(_storage) the first time. *)
Definition str := list Z.
Fixpoint str_eqb (a b : str) : bool :=
  match a, b with
  | [], [] => true
  | x :: a', y :: b' => (x =? y) && str_eqb a' b'
  | _, _ => false
  end.
(** U+29F8 BIG SOLIDUS, which can be used in file names, and '/' *)
Definition big_solidus : Z := 10744.
Definition slash : Z := 47.
(** string.replace(old, new) for one-character strings *)
Definition replace_char (a b : Z) (s : str) : str := map (fun c => if c =? a then b else c) s.

Record history := Hist { h_storage : list str; h_loaded_strings : list str; h_loaded : bool }.
Definition history_new : history := Hist [] [] false.
(** list.remove guarded by "in" *)
Definition remove_if_in (s : str) (l : list str) : list str :=
  match list_remove str_eqb s l with Ok l' => l' | Err _ => l end.
(** append_string (5-10) *)
Definition history_append (h : history) (s : str) : history :=
  let s := replace_char big_solidus slash s in
  let storage := if existsb (str_eqb s) (h_storage h) then remove_if_in s (h_storage h)
                 else h_storage h in
  let loaded := if existsb (str_eqb s) (h_loaded_strings h)
                then remove_if_in s (h_loaded_strings h) else h_loaded_strings h in
  Hist (storage ++ [s]) (s :: loaded) (h_loaded h).
(** prompt_toolkit History.load, as described above *)
Definition history_load (h : history) : history :=
  if h_loaded h then h else Hist (h_storage h) (rev (h_storage h)) true.

(** ** src/utils/math.py *)

(** dict[k] = v: overwrites in place or appends *)
Fixpoint dict_set (k v : Z) (d : list (Z * Z)) : list (Z * Z) :=
  match d with
  | [] => [(k, v)]
  | (k', v') :: r => if k' =? k then (k', v) :: r else (k', v') :: dict_set k v r
  end.
Fixpoint dict_get (k : Z) (d : list (Z * Z)) : option Z :=
  match d with
  | [] => None
  | (k', v) :: r => if k' =? k then Some v else dict_get k r
  end.
(** src/utils/math.py:25-31 all_sums.  The comprehension may meet the same key
    twice only if [sums] did, which it does not (its keys are distinct); the
    fold writes pair after pair, exactly as the comprehension and update do. *)
Definition all_sums_step (sums : list (Z * Z)) (num : Z) : list (Z * Z) :=
  fold_left (fun d kv => dict_set (fst kv) (snd kv) d)
    (map (fun p => (fst p + num, snd p + 1)) sums) sums.
Definition all_sums (numbers : list Z) : list (Z * Z) :=
  filter (fun p => negb (fst p =? 0)) (fold_left all_sums_step numbers [(0, 0)]).

(** src/utils/math.py:9-18 _find_linear_combinations.  [cur] is the shared
    mutable list current_solution; the model returns the yielded snapshots and
    the final contents of [cur].  The generator only touches its own list, so
    running it to the end instead of lazily is unobservable. *)
Fixpoint flc (xs : list Z) (y : Z) (idx : nat) (cur : list Z)
  : res (list (list Z) * list Z) :=
  if y =? 0 then Ok ([cur], cur)
  else match xs with
       | [] => Ok ([], cur)
       | x :: r =>
           if x =? 0 then Err ZeroDivisionError
           else
             fold_left (fun acc c =>
               do (out, cur) <- acc;
               do (out', cur') <- flc r (y - c * x) (S idx) (upd idx (fun _ => c) cur);
               Ok (out ++ out', cur'))
             (zrange 0 (y / x + 1)) (Ok ([], cur))
       end.
(** src/utils/math.py:20-23 find_linear_combinations *)
Definition find_linear_combinations (x : list Z) (y : Z) : res (list (list Z)) :=
  match x with
  | [] => Ok []
  | _ => if y <? 0 then Ok []
         else do (out, _) <- flc x y 0 (repeat 0 (length x)); Ok out
  end.

(** src/utils/math.py:4-7 compute_gcd: reduce(math.gcd, values); reduce raises
    TypeError on an empty sequence and returns a single value unchanged *)
Definition compute_gcd (l : list Z) : res Z :=
  match l with
  | [] => Err TypeError
  | x :: r => Ok (fold_left Z.gcd r x)
  end.
