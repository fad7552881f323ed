(** Model of src/cost.py and of the constants of config.py. *)
From Verif Require Import Base.
From Coq Require Import QArith.
Open Scope Z_scope.

(** config.py:33 (already sorted, config.py:16) *)
Definition conveyor_speeds : list Z := [60; 120; 270; 480; 780; 1200].
(** config.py:25 *)
Definition conveyor_speed_limit : Z := last conveyor_speeds 0.

(** src/cost.py:4-6, the loop over n *)
Fixpoint count_splits_bin (n : nat) (nodes result : Z) : Z * Z :=
  match n with
  | O => (nodes, result)
  | S k => let nodes := nodes * 2 in count_splits_bin k nodes (result + nodes / 2)
  end.
(** src/cost.py:7-9, the loop over m *)
Fixpoint count_splits_ter (m : nat) (nodes result : Z) : Z * Z :=
  match m with
  | O => (nodes, result)
  | S k => let nodes := nodes * 3 in count_splits_ter k nodes (result + nodes / 3)
  end.
(** src/cost.py:1-10 *)
Definition count_splits (n m : nat) : Z :=
  let '(nodes, result) := count_splits_bin n 1 0 in
  snd (count_splits_ter m nodes result).

(** src/cost.py:19, 20: while b ** e <= X: e += 1 *)
Fixpoint exp_above (fuel : nat) (b X : Z) (e : nat) : res nat :=
  match fuel with
  | O => Err OutOfFuel
  | S f => if b ^ Z.of_nat e <=? X then exp_above f b X (S e) else Ok e
  end.

(** state of the two nested loops, src/cost.py:21-22:
    (best_n, best_m, l, min_splits), [None] standing for float('inf') *)
Definition nml_state : Type := nat * nat * Z * option Z.

(** src/cost.py:25-32, loop body *)
Definition nml_body (X : Z) (m : nat) (st : nml_state) (n : nat) : nml_state :=
  let '(best_n, best_m, l, min_splits) := st in
  let product := 2 ^ Z.of_nat n * 3 ^ Z.of_nat m in
  if product <? X then st
  else
    let splits := count_splits n m in
    if match min_splits with None => false | Some k => splits >=? k end then st
    else (n, m, product - X, Some splits).

(** src/cost.py:12-33.  The result (best_n, best_m, l, min_splits); min_splits
    could only stay infinite if no product reached X. *)
Definition find_n_m_l (X : Z) : res (nat * nat * Z * Z) :=
  if X =? 0 then Err ValueError
  else
    let fuel := (3 + Z.to_nat (Z.log2 X))%nat in
    do max_n <- exp_above fuel 2 X 0;
    do max_m <- exp_above fuel 3 X 0;
    let st := fold_left (fun st m => fold_left (nml_body X m) (seq 0 (S max_n)) st)
                        (seq 0 (S max_m)) (0%nat, 0%nat, 0, None) in
    match st with
    | (n, m, l, Some s) => Ok (n, m, l, s)
    | (_, _, _, None) => Err TypeError (* float('inf') would flow into integer code *)
    end.

(** src/cost.py:35-39; the Python list grows at the end and is reversed, here
    the list is kept reversed: new entries are consed on the front. *)
Definition compute_splitters_count (n m : nat) : list Z :=
  let step k l := match l with x :: _ => (x * k + 1) :: l | [] => l end in
  Nat.iter n (step 2) (Nat.iter m (step 3) [0]).

(** src/cost.py:41-45 *)
Definition compute_branches_count (n m : nat) : list Z :=
  let step k l := l ++ [last l 0 / k] in
  Nat.iter m (step 3) (Nat.iter n (step 2) [2 ^ Z.of_nat n * 3 ^ Z.of_nat m]).

(** src/cost.py:47-48 *)
Definition compute_tree_info (n m : nat) : list Z * list Z :=
  (compute_splitters_count n m, compute_branches_count n m).

(** src/cost.py:53-55: i = 0; while branches_count[i] > l: i += 1;
    returns (splitters_count[i], branches_count[i]), [None] = IndexError *)
Fixpoint first_fit (l : Z) (sc bc : list Z) : option (Z * Z) :=
  match bc, sc with
  | b :: bc', s :: sc' => if b >? l then first_fit l sc' bc' else Some (s, b)
  | _, _ => None
  end.

(** src/cost.py:52-58 *)
Fixpoint n_looping_loop (fuel : nat) (l : Z) (sc bc : list Z) (nb ns : Z)
  : res (Z * Z) :=
  if l =? 0 then Ok (nb, ns)
  else
    match fuel with
    | O => Err OutOfFuel
    | S f =>
      match first_fit l sc bc with
      | None => Err IndexError
      | Some (s, b) => n_looping_loop f (l - b) sc bc (nb + 1) (ns + s)
      end
    end.

(** src/cost.py:50-59 *)
Definition compute_n_looping_branches (l : Z) (sc bc : list Z) : res (Z * Z) :=
  n_looping_loop (Z.to_nat l) l sc bc 0 0.

(** src/cost.py:148-155 *)
Fixpoint merge_cost_loop (fuel : nat) (n t r : Z) : Z :=
  match fuel with
  | O => r
  | S f => if n >? t then merge_cost_loop f (n - 2) t (r + 1) else r
  end.
(** The loop runs at most n - t times, so this fuel is never exhausted with n > t. *)
Definition merge_cost (n t : Z) : Z :=
  if n <=? t then 0 else merge_cost_loop (Z.to_nat (n - t)) n t 0.

(** src/cost.py:157-158 *)
Definition split_cost : Z := 3.

Definition Qgt_bool (a b : Q) : bool := negb (Qle_bool a b).

(** src/cost.py:113-117 and 142-145: price of the looped branches *)
Definition loop_merge_cost (n : nat) (new_x : Q) (n_branches_loop : Z) : Z :=
  if Qgt_bool new_x (inject_Z conveyor_speed_limit)
  then merge_cost n_branches_loop 1 + 1 + (if (0 <? n)%nat then 2 else 3)
  else merge_cost (n_branches_loop + 1) 1.

(** src/cost.py:88-119.  [c // Fraction(x, d)] is floor (c * d / x). *)
Definition extract_cost (x c : Z) : res Z :=
  if x <=? 2 then Err ValueError
  else if (c =? 0) || (c =? x) then Ok 0
  else if zmem c conveyor_speeds then Ok 1
  else
    let d := x / Z.gcd x (x - c) in
    do (n, m, l, n_splitters) <- find_n_m_l d;
    let n_divided_value := 2 ^ Z.of_nat n * 3 ^ Z.of_nat m in
    let divided_value := (inject_Z x / inject_Z n_divided_value)%Q in
    let to_loop_value := (inject_Z l * divided_value)%Q in
    let new_x := (inject_Z x + to_loop_value)%Q in
    let n_extract := (c * d) / x in
    let '(splitters_count, branches_count) := compute_tree_info n m in
    do (n_branches_loop, n_saved_loop) <-
      compute_n_looping_branches l splitters_count branches_count;
    do (n_branches_overflow, n_saved_overflow) <-
      compute_n_looping_branches (d - n_extract) splitters_count branches_count;
    do (n_branches_extract, n_saved_extract) <-
      compute_n_looping_branches n_extract splitters_count branches_count;
    Ok (n_splitters - n_saved_loop - n_saved_overflow - n_saved_extract
        + loop_merge_cost n new_x n_branches_loop
        + (merge_cost n_branches_overflow 1 + merge_cost n_branches_extract 1)).

(** src/cost.py:121-146 *)
Definition divide_cost (x d : Z) : res Z :=
  if x <=? 1 then Err ValueError
  else if d =? 0 then Err ValueError
  else if d =? 1 then Ok 0
  else if (d =? 2) || (d =? 3) then Ok 1
  else
    do (n, m, l, n_splitters) <- find_n_m_l d;
    if l =? 0 then Ok n_splitters
    else if l =? x then Ok 0
    else if l <? 3 then Ok (n_splitters + 1)
    else
      let new_x := (inject_Z x + inject_Z (l * x)
                    / inject_Z (2 ^ Z.of_nat n * 3 ^ Z.of_nat m))%Q in
      let '(splitters_count, branches_count) := compute_tree_info n m in
      do (n_branches_loop, n_saved_loop) <-
        compute_n_looping_branches l splitters_count branches_count;
      Ok (n_splitters - n_saved_loop + loop_merge_cost n new_x n_branches_loop).

(** key of the dictionary of src/cost.py:61-86 *)
Definition lb_entry : Type := (nat * nat) * (Z * Z).
Definition lb_dict : Type := list lb_entry.

Definition key_eqb (a b : nat * nat) : bool :=
  (fst a =? fst b)%nat && (snd a =? snd b)%nat.

(** dict.get(key, (0, 0)) *)
Definition lb_get (d : lb_dict) (k : nat * nat) : Z * Z :=
  match find (fun e => key_eqb k (fst e)) d with
  | Some e => snd e
  | None => (0, 0)
  end.

(** dict[key] = v *)
Fixpoint lb_set (d : lb_dict) (k : nat * nat) (v : Z * Z) : lb_dict :=
  match d with
  | [] => [(k, v)]
  | e :: r => if key_eqb k (fst e) then (k, v) :: r else e :: lb_set r k v
  end.

(** src/cost.py:64-71: walk down to the first level whose subtrees fit;
    returns (cur_n, cur_m, branches_count[i]) *)
Fixpoint lb_descend (n : nat) (l : Z) (bc : list Z) (cur_n cur_m : nat)
  : option (nat * nat * Z) :=
  match bc with
  | [] => None
  | b :: r =>
    if b >? l then
      if (cur_n <? n)%nat then lb_descend n l r (S cur_n) cur_m
      else lb_descend n l r cur_n (S cur_m)
    else Some (cur_n, cur_m, b)
  end.

(** src/cost.py:75-79 *)
Fixpoint lb_ignore_bin (k : nat) (cur_n : nat) (to_add : Z) (d : lb_dict)
  : Z * lb_dict :=
  match k with
  | O => (to_add, d)
  | S k' =>
    let cur_n := S cur_n in
    let to_add := to_add * 2 in
    let old := lb_get d (cur_n, 0%nat) in
    lb_ignore_bin k' cur_n to_add (lb_set d (cur_n, 0%nat) (fst old, snd old + to_add))
  end.

(** src/cost.py:80-84 *)
Fixpoint lb_ignore_ter (k : nat) (n cur_m : nat) (to_add : Z) (d : lb_dict)
  : lb_dict :=
  match k with
  | O => d
  | S k' =>
    let cur_m := S cur_m in
    let to_add := to_add * 3 in
    let old := lb_get d (n, cur_m) in
    lb_ignore_ter k' n cur_m to_add (lb_set d (n, cur_m) (fst old, snd old + to_add))
  end.

(** src/cost.py:63-85 *)
Fixpoint looping_branches_loop (fuel n m : nat) (l : Z) (bc : list Z) (d : lb_dict)
  : res lb_dict :=
  if l =? 0 then Ok d
  else
    match fuel with
    | O => Err OutOfFuel
    | S f =>
      match lb_descend n l bc 0 0 with
      | None => Err IndexError
      | Some (cur_n, cur_m, b) =>
        let old := lb_get d (cur_n, cur_m) in
        let d := lb_set d (cur_n, cur_m) (fst old + 1, snd old) in
        let '(to_add, d) := lb_ignore_bin (n - cur_n) cur_n 1 d in
        let d := lb_ignore_ter (m - cur_m) n cur_m to_add d in
        looping_branches_loop f n m (l - b) bc d
      end
    end.

(** src/cost.py:61-86 *)
Definition compute_looping_branches (n m : nat) (l : Z) (bc : list Z) : res lb_dict :=
  looping_branches_loop (Z.to_nat l) n m l bc [].
