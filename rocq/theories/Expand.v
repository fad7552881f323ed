(** Model of the expansion of operations into splitters and mergers,
    src/node.py:173-189, 204-537.

    Node values are ints or Fractions in Python and [Qc] here; the two behave
    alike except in math.gcd, see [as_int].  Objects are addresses of one heap,
    as in Tree.v.  Not modelled: the past of a new merger (it is never read after
    the search), and Python's recursion limit. *)
From Verif Require Import Base Cost Utils Fractions Load Tree.
From Coq Require Import QArith Qcanon.
Open Scope Z_scope.

(** Fraction(x, k), k <> 0 *)
Definition over (x : Qc) (k : Z) : Qc := (x / frac_of_Z k)%Qc.
(** x > config.conveyor_speed_limit *)
Definition above_limit (x : Qc) : bool := Qgt_bool (this x) (inject_Z conveyor_speed_limit).
(** x < 0 *)
Definition negative (x : Qc) : bool := numer x <? 0.
(** an int value, as math.gcd requires.  (Python also rejects a Fraction with
    denominator 1; a node with an extract tag was made by the search or by
    group_values and its value is an int.) *)
Definition as_int (x : Qc) : res Z := if denom x =? 1 then Ok (numer x) else Err TypeError.

(** l[i] for 0 <= i *)
Definition at_index {A} (l : list A) (i : Z) : res A :=
  match nth_error l (Z.to_nat i) with Some a => Ok a | None => Err IndexError end.

(** Node(value, level=level), src/node.py:15-29, with levels_to_add set afterwards *)
Definition new_node (h : heap Qc) (v : Qc) (lvl : option Z) (lta : Z) : res (heap Qc * nat) :=
  if negative v then Err ValueError
  else Ok (h ++ [MkNode v (length h) lvl (fl_append frac_eqb v fl_new) [] [] [] lta], length h).

(** x.level, which must not be None when it is used in arithmetic *)
Definition level_of (h : heap Qc) (a : nat) : res Z :=
  match n_level (get h a) with Some l => Ok l | None => Err TypeError end.

(** ** Building the splitter tree, shared by expand_divide and expand_extract *)

(** src/node.py:289-295, 325-331, 397-403, 423-429: [count] new nodes under the
    nodes [cur], starting at slot [off]; [r] is 2 or 3 *)
Definition grow_step (r off : Z) (cur : list nat) (v : Qc) (lvl lta : Z) (st : heap Qc * list nat) (j : Z)
  : res (heap Qc * list nat) :=
  let (h, new) := st in
  do (h, a) <- new_node h v (Some lvl) lta;
  do p <- at_index cur ((off + j) / r);
  Ok (upd a (set_parents [p]) (upd p (add_child a) h), new ++ [a]).
Definition grow (r off : Z) (cur : list nat) (v : Qc) (lvl lta count : Z) (h : heap Qc)
  : res (heap Qc * list nat) :=
  fold_res (grow_step r off cur v lvl lta) (zrange 0 count) (h, []).

(** src/node.py:406-409, 432-435: the original children under the nodes [cur] *)
Definition relink_step (r off : Z) (cur : list nat) (h : heap Qc) (jc : Z * nat) : res (heap Qc) :=
  do p <- at_index cur ((off + fst jc) / r);
  Ok (upd (snd jc) (set_parents [p]) (upd p (add_child (snd jc)) h)).
Definition relink (r off : Z) (cur : list nat) (orig : list nat) (h : heap Qc) : res (heap Qc) :=
  fold_res (relink_step r off cur) (combine (zrange 0 (Z.of_nat (length orig))) orig) h.

(** src/node.py:299-312, 335-348, 411-414, 439-442: [count] links from the nodes
    [cur] to one node *)
Definition reroute_step (r off : Z) (cur : list nat) (target : nat) (h : heap Qc) (j : Z) : res (heap Qc) :=
  do p <- at_index cur ((off + j) / r);
  Ok (upd target (add_parent p) (upd p (add_child target) h)).
Definition reroute (r off : Z) (cur : list nat) (target : nat) (count : Z) (h : heap Qc) : res (heap Qc) :=
  fold_res (reroute_step r off cur target) (zrange 0 count) h.

(** src/node.py:260-262, 382-384 *)
Definition level_values (x : Qc) (n m : nat) : list Qc :=
  let step := fun k l => l ++ [over (last l x) k] in
  Nat.iter m (step 3) (Nat.iter n (step 2) [x]).

(** src/node.py:352-355, 446-449: the children of [a] also become children of
    [loop_node] *)
Definition share_children (h : heap Qc) (a loop_node : nat) : heap Qc :=
  fold_left (fun h c => upd c (add_parent loop_node) (upd loop_node (add_child c) h)) (n_children (get h a)) h.

(** "if len(x.parents) > threshold: x.tag_expand_merge(threshold)" *)
Definition tag_merge (threshold : Z) (h : heap Qc) (a : nat) : heap Qc :=
  if threshold <? Z.of_nat (length (n_parents (get h a))) then upd a (add_tag (TMerge threshold)) h else h.

(** ** expand_divide, src/node.py:372-455 *)

(** one iteration of the loops of lines 392-416 (r = 2) and 418-444 (r = 3) *)
Definition divide_level (r width cut ign : Z) (last_level : bool) (v : Qc) (lvl lta : Z) (target : nat)
    (orig cur : list nat) (h : heap Qc) : res (heap Qc * list nat) :=
  do (h, new) <- (if last_level then do h <- relink r cut cur orig h; Ok (h, orig)
                  else grow r cut cur v lvl lta (width - (cut + ign)) h);
  do h <- reroute r 0 cur target cut h;
  Ok (h, new).
Definition divide_bin (n m : nat) (lb : lb_dict) (values : list Qc) (lvl : Z) (loop_node : nat) (orig : list nat)
    (st : heap Qc * list nat) (i : nat) : res (heap Qc * list nat) :=
  let (h, cur) := st in
  let (cut, ign) := lb_get lb (i, 0%nat) in
  do v <- at_index values (Z.of_nat i);
  divide_level 2 (2 ^ Z.of_nat i) cut ign (negb ((i <? n)%nat || negb (m =? 0)%nat)) v
    (lvl + 1 + Z.of_nat i) (- Z.of_nat (n + m)) loop_node orig cur h.
(** lines 441-442 append [node], not loop_node *)
Definition divide_ter (n m : nat) (lb : lb_dict) (values : list Qc) (lvl : Z) (a : nat) (orig : list nat)
    (st : heap Qc * list nat) (i : nat) : res (heap Qc * list nat) :=
  let (h, cur) := st in
  let (cut, ign) := lb_get lb (n, i) in
  do v <- at_index values (Z.of_nat (n + i));
  divide_level 3 (2 ^ Z.of_nat n * 3 ^ Z.of_nat i) cut ign (negb (i <? m)%nat) v
    (lvl + 1 + Z.of_nat (n + i)) (- Z.of_nat (n + m)) a orig cur h.
Definition expand_divide (h : heap Qc) (a : nat) (divisor : Z) : res (heap Qc * (Z * Z)) :=
  do (n, m, l, _) <- find_n_m_l divisor;
  let value := n_value (get h a) in
  let to_loop_value := over (frac_of_Z l * value)%Qc divisor in
  let new_node_value := (value + to_loop_value)%Qc in
  let big := above_limit new_node_value in
  do (h, loop_node) <- (if big then new_node h to_loop_value None 0 else Ok (h, a));
  let is_loop_node_root := (length (n_parents (get h loop_node)) =? 0)%nat in
  do lb <- compute_looping_branches n m l (compute_branches_count n m);
  let values := level_values new_node_value n m in
  do lvl <- level_of h a;
  let orig := n_children (get h a) in
  let h := upd a (set_children []) h in
  do st <- fold_res (divide_bin n m lb values lvl loop_node orig) (seq 1 n) (h, [a]);
  do (h, _) <- fold_res (divide_ter n m lb values lvl a orig) (seq 1 m) st;
  let h := if big then share_children h a loop_node else h in
  let h := tag_merge (if is_loop_node_root then 2 else 3) h loop_node in
  Ok (h, (lvl + 1, Z.of_nat (n + m))).

(** ** expand_extract, src/node.py:241-367 *)

(** one iteration of the loops of lines 279-314 (r = 2) and 316-350 (r = 3); the
    triples are for the loop, extract and overflow node.  On the last level
    new_nodes is bound to the original children (lines 297, 333), which no later
    iteration reads. *)
Definition extract_level (r width : Z) (cl il ce ie co io : Z) (last_level : bool) (v : Qc) (lvl lta : Z)
    (loop_node extract_node overflow_node : nat) (orig cur : list nat) (h : heap Qc) : res (heap Qc * list nat) :=
  let n_reroute := cl + ce + co in
  do (h, new) <- (if last_level then Ok (h, orig)
                  else grow r n_reroute cur v lvl lta (width - (n_reroute + (il + ie + io))) h);
  do h <- reroute r 0 cur loop_node cl h;
  do h <- reroute r cl cur extract_node ce h;
  do h <- reroute r (cl + ce) cur overflow_node co h;
  Ok (h, new).
Definition extract_bin (n m : nat) (lbl lbe lbo : lb_dict) (values : list Qc) (lvl : Z)
    (loop_node extract_node overflow_node : nat) (orig : list nat)
    (st : heap Qc * list nat) (i : nat) : res (heap Qc * list nat) :=
  let (h, cur) := st in
  let (cl, il) := lb_get lbl (i, 0%nat) in
  let (ce, ie) := lb_get lbe (i, 0%nat) in
  let (co, io) := lb_get lbo (i, 0%nat) in
  do v <- at_index values (Z.of_nat i);
  extract_level 2 (2 ^ Z.of_nat i) cl il ce ie co io (negb ((i <? n)%nat || negb (m =? 0)%nat)) v
    (lvl + 1 + Z.of_nat i) (- Z.of_nat (n + m)) loop_node extract_node overflow_node orig cur h.
Definition extract_ter (n m : nat) (lbl lbe lbo : lb_dict) (values : list Qc) (lvl : Z)
    (loop_node extract_node overflow_node : nat) (orig : list nat)
    (st : heap Qc * list nat) (i : nat) : res (heap Qc * list nat) :=
  let (h, cur) := st in
  let (cl, il) := lb_get lbl (n, i) in
  let (ce, ie) := lb_get lbe (n, i) in
  let (co, io) := lb_get lbo (n, i) in
  do v <- at_index values (Z.of_nat (n + i));
  extract_level 3 (2 ^ Z.of_nat n * 3 ^ Z.of_nat i) cl il ce ie co io (negb (i <? m)%nat) v
    (lvl + 1 + Z.of_nat (n + i)) (- Z.of_nat (n + m)) loop_node extract_node overflow_node orig cur h.
(** conveyor_speed // Fraction(node.value, d) is (conveyor_speed * d) // value *)
Definition expand_extract (h : heap Qc) (a : nat) (conveyor_speed : Z) : res (heap Qc * (Z * Z)) :=
  do value <- as_int (n_value (get h a));
  let divided_value := Z.gcd value (value - conveyor_speed) in
  if divided_value =? 0 then Err ZeroDivisionError else
  let d := value / divided_value in
  do (n, m, l, _) <- find_n_m_l d;
  let to_loop_value := l * divided_value in
  let new_node_value := value + to_loop_value in
  let big := conveyor_speed_limit <? new_node_value in
  do (h, loop_node) <- (if big then new_node h (frac_of_Z to_loop_value) None 0 else Ok (h, a));
  let is_loop_node_root := (length (n_parents (get h loop_node)) =? 0)%nat in
  let n_extract := (conveyor_speed * d) / value in
  let bc := compute_branches_count n m in
  do lbl <- compute_looping_branches n m l bc;
  do lbe <- compute_looping_branches n m n_extract bc;
  do lbo <- compute_looping_branches n m (d - n_extract) bc;
  let values := level_values (frac_of_Z new_node_value) n m in
  do lvl <- level_of h a;
  let orig := n_children (get h a) in
  do c0 <- at_index orig 0;
  do c1 <- at_index orig 1;
  let (extract_node, overflow_node) :=
    if frac_eqb (n_value (get h c0)) (frac_of_Z conveyor_speed) then (c0, c1) else (c1, c0) in
  let h := upd overflow_node (set_parents []) (upd extract_node (set_parents []) h) in
  let h := upd a (set_children []) h in
  do st <- fold_res (extract_bin n m lbl lbe lbo values lvl loop_node extract_node overflow_node orig)
             (seq 1 n) (h, [a]);
  do (h, _) <- fold_res (extract_ter n m lbl lbe lbo values lvl loop_node extract_node overflow_node orig)
             (seq 1 m) st;
  let h := if big then share_children h a loop_node else h in
  let h := tag_merge (if is_loop_node_root then 2 else 3) h loop_node in
  let h := tag_merge 3 h extract_node in
  let h := tag_merge 3 h overflow_node in
  Ok (h, (lvl + 1, Z.of_nat (n + m))).

(** ** expand_merge, src/node.py:460-478 *)

(** Node.merge, src/node.py:173-189, during expansion (always of three nodes):
    a node with children only sends its share along one link *)
Definition share (h : heap Qc) (a : nat) : Qc :=
  match n_children (get h a) with
  | [] => n_value (get h a)
  | cs => over (n_value (get h a)) (Z.of_nat (length cs))
  end.
Definition merge_nodes (h : heap Qc) (nodes : list nat) : res (heap Qc * nat) :=
  let summed_value := fold_left (fun s a => (s + share h a)%Qc) nodes (frac_of_Z 0) in
  do ls <- map_res (level_of h) nodes;
  match zmax ls with
  | None => Err ValueError
  | Some l =>
    do (h, c) <- new_node h summed_value (Some (l + 1)) 0;
    if (length nodes <=? 1)%nat then Err SystemExit else
    let h := if (3 <? length nodes)%nat then upd c (add_tag (TMerge 3)) h else h in
    Ok (fold_left (fun h a => upd c (add_parent a) (upd a (add_child c) h)) nodes h, c)
  end.
(** lines 468-472: every link to [a] is removed *)
Definition drop_child (a : nat) (n : node Qc) : node Qc :=
  set_children (filter (fun c => negb (c =? a)%nat) (n_children n)) n.
(** lines 465-475; [nodes_to_merge] is node.parents itself, so the loop works on
    the parents of [a] in the heap *)
Definition merge_three (h : heap Qc) (a : nat) : res (heap Qc) :=
  match rev (n_parents (get h a)) with
  | x :: y :: z :: rest =>
    let h := upd a (set_parents (rev rest)) h in
    do (h, c) <- merge_nodes h [x; y; z];
    let h := upd z (drop_child a) (upd y (drop_child a) (upd x (drop_child a) h)) in
    let h := upd c (set_level (n_level (get h a))) h in
    let h := upd c (add_child a) h in
    Ok (upd a (add_parent c) h)
  | _ => Err IndexError
  end.
Fixpoint merge_loop (fuel : nat) (threshold : Z) (h : heap Qc) (a : nat) : res (heap Qc) :=
  if Z.of_nat (length (n_parents (get h a))) <=? threshold then Ok h else
  match fuel with
  | O => Err OutOfFuel
  | S fuel => do h <- merge_three h a; merge_loop fuel threshold h a
  end.
Definition expand_merge (h : heap Qc) (a : nat) (threshold : Z) : res (heap Qc * (Z * Z)) :=
  do h <- merge_loop (length (n_parents (get h a))) threshold h a;
  Ok (h, (0, 0)).

(** ** expand_split, src/node.py:483-499 *)
Definition expand_split (h : heap Qc) (a : nat) (conveyor_speed : Z) : res (heap Qc * (Z * Z)) :=
  let new_value := over (frac_of_Z conveyor_speed) 3 in
  do lvl <- level_of h a;
  do (h, c) <- new_node h (new_value * frac_of_Z 2)%Qc (Some (lvl + 1)) (-1);
  let h := upd c (set_parents [a]) (upd c (set_children [c]) h) in
  let orig := n_children (get h a) in
  let h := upd a (set_children [c]) h in
  let h := fold_left (fun h x =>
             if frac_eqb (n_value (get h x)) new_value
             then upd x (set_parents [c]) (upd c (add_child x) h)
             else upd a (add_child x) h) orig h in
  Ok (h, (lvl + 1, 1)).

(** ** Traversals, src/node.py:204-236, 501-537 *)

Definition nat_in (a : nat) (l : list nat) : bool := existsb (Nat.eqb a) l.

(** Node.expand_from_code and the call of line 509 *)
Definition expand_tag (h : heap Qc) (a : nat) (t : tag) : res (heap Qc * (Z * Z)) :=
  match t with
  | TExtract c => expand_extract h a c
  | TDivide d => expand_divide h a d
  | TMerge k => expand_merge h a k
  | TSplit c => expand_split h a c
  end.
(** lines 506-509 *)
Fixpoint expand_tags (fuel : nat) (h : heap Qc) (a : nat) (updates : list (Z * Z))
  : res (heap Qc * list (Z * Z)) :=
  match n_expands (get h a) with
  | [] => Ok (h, updates)
  | t :: rest =>
    match fuel with
    | O => Err OutOfFuel
    | S fuel =>
      do (h, u) <- expand_tag (upd a (set_expands rest) h) a t;
      expand_tags fuel h a (updates ++ [u])
    end
  end.
(** Node.expand, src/node.py:501-515.  [i] is the position of the iterator over
    self.children: the list may change while it is iterated. *)
Fixpoint expand_node (fuel : nat) (h : heap Qc) (seen : list nat) (a : nat) {struct fuel}
  : res (heap Qc * list nat * list (Z * Z)) :=
  match fuel with
  | O => Err OutOfFuel
  | S fuel =>
    if nat_in a seen then Ok (h, seen, []) else
    let seen := a :: seen in
    do (h, updates) <- expand_tags fuel h a [];
    (fix iterate (k : nat) (i : nat) (h : heap Qc) (seen : list nat) (updates : list (Z * Z)) :=
       match nth_error (n_children (get h a)) i with
       | None => Ok (h, seen, updates)
       | Some c =>
         match k with
         | O => Err OutOfFuel
         | S k =>
           if nat_in c seen then iterate k (S i) h seen updates else
           do (h, seen, us) <- expand_node fuel h seen c;
           iterate k (S i) h seen (updates ++ us)
         end
       end) fuel 0%nat h seen updates
  end.
(** src/node.py:527-528 *)
Fixpoint expand_all (fuel : nat) (h : heap Qc) (seen : list nat) (roots : list nat) (updates : list (Z * Z))
  : res (heap Qc * list (Z * Z)) :=
  match roots with
  | [] => Ok (h, updates)
  | r :: roots =>
    do (h, seen, us) <- expand_node fuel h seen r;
    expand_all fuel h seen roots (updates ++ us)
  end.

(** The three other traversals visit every node reachable from the roots once,
    children in order; [f] is applied when a node is first met and does not
    change children. *)
Fixpoint visit {S} (fuel : nat) (f : heap Qc -> nat -> S -> res (heap Qc * S)) (h : heap Qc) (seen : list nat) (s : S) (a : nat)
  {struct fuel} : res (heap Qc * list nat * S) :=
  match fuel with
  | O => Err OutOfFuel
  | S fuel =>
    if nat_in a seen then Ok (h, seen, s) else
    do (h, s) <- f h a s;
    fold_res (fun st c => let '(h, seen, s) := st in
                if nat_in c seen then Ok st else visit fuel f h seen s c)
             (n_children (get h a)) (h, a :: seen, s)
  end.
Definition visit_all {S} (fuel : nat) (f : heap Qc -> nat -> S -> res (heap Qc * S)) (h : heap Qc) (s : S) (roots : list nat)
  : res (heap Qc * S) :=
  do (h, _, s) <- fold_res (fun st r => let '(h, seen, s) := st in visit fuel f h seen s r) roots (h, [], s);
  Ok (h, s).

(** Node.min_level, src/node.py:204-214: the minimum of the levels of the nodes
    met.  (A seen node returns its own level, which was already taken into
    account.) *)
Definition min_level_step (h : heap Qc) (a : nat) (r : Z) : res (heap Qc * Z) :=
  do l <- level_of h a; Ok (h, Z.min r l).
(** Node.tag_levels_update, src/node.py:216-225 *)
Definition tag_levels_step (threshold amount : Z) (h : heap Qc) (a : nat) (s : unit) : res (heap Qc * unit) :=
  do l <- level_of h a;
  Ok (if threshold <=? l then upd a (set_levels_to_add (n_levels_to_add (get h a) + amount)) h else h, s).
(** Node.apply_levels_update, src/node.py:227-236 *)
Definition apply_levels_step (h : heap Qc) (a : nat) (s : unit) : res (heap Qc * unit) :=
  do l <- level_of h a;
  Ok (upd a (fun n => set_levels_to_add 0 (set_level (Some (l + n_levels_to_add n)) n)) h, s).

(** Node.expand_roots, src/node.py:517-537 *)
Definition expand_roots (fuel : nat) (h : heap Qc) (roots : list nat) : res (heap Qc) :=
  do (_, min_level) <- visit_all fuel min_level_step h (2 ^ 32) (flat_map (fun r => n_children (get h r)) roots);
  do (h, updates) <- expand_all fuel h [] roots [(1, 1 - min_level)];
  do h <- fold_res (fun h u => do (h, _) <- visit_all fuel (tag_levels_step (fst u) (snd u)) h tt roots; Ok h) updates h;
  do (h, _) <- visit_all fuel apply_levels_step h tt roots;
  Ok h.
