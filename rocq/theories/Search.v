(** Model of the search of src/solver.py (the generators of candidate operations
    and solve) and of compute_cant_use, gcd_incompatible, get_sim_without of
    src/utils/solver.py.

    Three things the program does not determine are oracles: the instant at which
    stop() arrives from the signal handler (as the number of reads of
    self.solving that still see True), the score of a tree (a float, hence a
    rational) and random.  Tree.__eq__, used to drop a repeated solution, is an
    oracle here as well.  Theorems quantify over all of them; Real.v gives the
    scores and the comparisons of the program. *)
From Verif Require Import Base Cost Utils Fractions Load Tree.
Open Scope Z_scope.

Record oracle := {
  o_stop : option nat;        (* reads of self.solving before stop(); None: never *)
  o_score : nat -> list Z -> Q; (* the k-th scoring, of these source_values *)
  o_pick : nat -> option nat; (* k-th random choice: None = pop(-1), Some i = randrange gave i *)
  o_same : nat -> heap Z -> tree Z -> tree Z -> bool (* the k-th comparison, t == tree *)
}.

(** Which operation was applied to which open sources, src/solver.py:344-358 *)
Inductive op :=
| OExtract (i : nat) (conveyor_speed : Z)
| ODivide (i : nat) (divisor : Z)
| OSplit (i : nat) (conveyor_speed : Z)
| OMerge (is : list nat).

(** Ghost record of one application in try_op (src/solver.py:335-342): the
    explored tree, the operation, the tuple predicted by the generator, the cost
    and the resulting tree.  Only read by the theorems. *)
Record event := MkEvent {
  ev_from : tree Z; ev_op : op; ev_sim : list Z; ev_cost : Z; ev_to : tree Z
}.

Record state := MkState {
  s_heap : heap Z;
  s_queue : list (tree Z * Q);
  s_best_size : Z;
  s_solutions : list (tree Z);
  s_solutions_count : Z;
  s_forced_stop : bool;   (* stop() was called by the "impossible case" *)
  s_reads : nat;          (* reads of self.solving so far *)
  s_scores : nat;
  s_picks : nat;
  s_sames : nat;
  s_log : list event      (* ghost, newest first *)
}.

(** A computation either returns or raises, and leaves a state in both cases. *)
Definition M (A : Type) : Type := state -> res A * state.
Definition ret {A} (a : A) : M A := fun s => (Ok a, s).
Definition raise {A} (e : exn) : M A := fun s => (Err e, s).
Definition mbind {A B} (m : M A) (k : A -> M B) : M B :=
  fun s => match m s with
           | (Ok a, s) => k a s
           | (Err e, s) => (Err e, s)
           end.
Notation "'let!' x := m 'in' k" := (mbind m (fun x => k))
  (at level 200, x pattern, m at level 100, k at level 200).
(** run a pure computation that may raise *)
Definition lift {A} (r : res A) : M A := fun s => (r, s).
Definition gets {A} (f : state -> A) : M A := fun s => (Ok (f s), s).

Definition with_heap (h : heap Z) (s : state) : state :=
  MkState h (s_queue s) (s_best_size s) (s_solutions s) (s_solutions_count s) (s_forced_stop s)
    (s_reads s) (s_scores s) (s_picks s) (s_sames s) (s_log s).
Definition with_queue (q : list (tree Z * Q)) (s : state) : state :=
  MkState (s_heap s) q (s_best_size s) (s_solutions s) (s_solutions_count s) (s_forced_stop s)
    (s_reads s) (s_scores s) (s_picks s) (s_sames s) (s_log s).
Definition with_solutions (l : list (tree Z)) (count best : Z) (s : state) : state :=
  MkState (s_heap s) (s_queue s) best l count (s_forced_stop s)
    (s_reads s) (s_scores s) (s_picks s) (s_sames s) (s_log s).
Definition with_forced_stop (s : state) : state :=
  MkState (s_heap s) (s_queue s) (s_best_size s) (s_solutions s) (s_solutions_count s) true
    (s_reads s) (s_scores s) (s_picks s) (s_sames s) (s_log s).
Definition with_counters (reads scores picks sames : nat) (s : state) : state :=
  MkState (s_heap s) (s_queue s) (s_best_size s) (s_solutions s) (s_solutions_count s)
    (s_forced_stop s) reads scores picks sames (s_log s).
Definition with_log (l : list event) (s : state) : state :=
  MkState (s_heap s) (s_queue s) (s_best_size s) (s_solutions s) (s_solutions_count s)
    (s_forced_stop s) (s_reads s) (s_scores s) (s_picks s) (s_sames s) l.
Definition modify (f : state -> state) : M unit := fun s => (Ok tt, f s).

(** gcd_incompatible, src/utils/solver.py:1-2 *)
Definition gcd_incompatible (gcd value : Z) : bool := value <? gcd.

(** compute_cant_use, src/utils/solver.py:75-89, on the values of the sources; a
    count of 0 or None is falsy *)
Definition compute_cant_use (target_counts : list (Z * Z)) (sources : list Z) : list Z :=
  let source_counts := counter Z.eqb sources in
  filter (fun v =>
      match counter_get Z.eqb v source_counts, dict_get v target_counts with
      | Some sc, Some tc =>
          negb (sc =? 0)%nat && negb (tc =? 0) && (Z.max 0 (Z.of_nat sc - tc) =? 0)
      | _, _ => false
      end) sources.

(** get_sim_without, src/utils/solver.py:95-98 *)
Definition get_sim_without (value : Z) (values : list Z) : res (list Z) := py_remove value values.

(** itertools.combinations(l, k), in its order *)
Fixpoint combinations {A} (k : nat) (l : list A) : list (list A) :=
  match k with
  | O => [[]]
  | S k' =>
    match l with
    | [] => []
    | x :: r => map (cons x) (combinations k' r) ++ combinations k r
    end
  end.

(** A for loop whose body may end the function ("return"): [None].  [S] is the
    local state of the loop. *)
Fixpoint for_each {A S} (body : A -> S -> M (option S)) (l : list A) (x : S) : M (option S) :=
  match l with
  | [] => ret (Some x)
  | a :: r =>
    let! o := body a x in
    match o with
    | None => ret None
    | Some x => for_each body r x
    end
  end.

(** enumerate(values) *)
Definition enumerate {A} (l : list A) : list (nat * A) := combine (seq 0 (length l)) l.

Section Solver.
Variable R : oracle.
Variable p : problem.

(** a read of self.solving *)
Definition read_solving : M bool := fun s =>
  (Ok (negb (s_forced_stop s) &&
       match o_stop R with None => true | Some k => (s_reads s <? k)%nat end),
   with_counters (S (s_reads s)) (s_scores s) (s_picks s) (s_sames s) s).

(** "tree.past.contains(sim) or any(t.past.contains(sim) for t in self.solutions)" *)
Definition already_seen (t : tree Z) (sim : list Z) : M bool :=
  gets (fun s => fl_contains tuple_eqb sim (t_past t)
                 || existsb (fun u => fl_contains tuple_eqb sim (t_past u)) (s_solutions s)).

Definition pair_mem (a b : Z) (l : list (Z * Z)) : bool :=
  existsb (fun q => (fst q =? a) && (snd q =? b)) l.

(** A generator of candidates is written in continuation style: [yield_] runs the
    body of the consumer's for loop and tells whether the consumer continues
    (false: it executed "return", which abandons the generator).  This keeps the
    interleaving of a lazy generator: best_size, solutions and solving are read
    when the generator is resumed. *)

(** extract_sims, src/solver.py:119-153.  The two nested loops run over the list
    of pairs (source, conveyor_speed) in the same order. *)
Definition extract_candidates (h : heap Z) (t : tree Z) : list (nat * nat * Z) :=
  flat_map (fun e => map (fun c => (fst e, snd e, c))
                       (zrange 1 ((n_value (get h (snd e)) - 1) / 2 + 1)))
    (enumerate (t_sources t)).
Definition extract_sims (t : tree Z) (cant_use : list Z)
    (yield_ : list Z -> op -> Z -> M bool) : M unit :=
  let! h := gets s_heap in
  let! _ := for_each (fun cand seen =>
    let '(i, src, conveyor_speed) := cand in
    let! solving := read_solving in
    if negb solving then ret None else
    let value := n_value (get h src) in
    if pair_mem value conveyor_speed seen then ret (Some seen) else
    let seen := (value, conveyor_speed) :: seen in
    if zmem value cant_use then ret (Some seen) else
    if gcd_incompatible (p_gcd p) conveyor_speed then ret (Some seen) else
    let! cost := lift (extract_cost value conveyor_speed) in
    let! best_size := gets s_best_size in
    if t_size t + cost >? best_size then ret (Some seen) else
    let overflow_value := value - conveyor_speed in
    if overflow_value =? conveyor_speed then ret (Some seen) else
    if gcd_incompatible (p_gcd p) overflow_value then ret (Some seen) else
    let past := n_past (get h src) in
    if fl_contains Z.eqb conveyor_speed past || fl_contains Z.eqb overflow_value past
    then ret (Some seen) else
    let! sim := lift (get_sim_without value (t_source_values t)) in
    let sim := insort overflow_value (insort conveyor_speed sim) in
    let! skip := already_seen t sim in
    if skip : bool then ret (Some seen) else
    let! go_on := yield_ sim (OExtract i conveyor_speed) cost in
    ret (if go_on : bool then Some seen else None))
    (extract_candidates h t) [] in
  ret tt.

(** divide_sims, src/solver.py:155-182 *)
Definition divide_candidates (h : heap Z) (t : tree Z) : list (nat * nat * Z) :=
  flat_map (fun e => let value := n_value (get h (snd e)) in
                     map (fun d => (fst e, snd e, d))
                       (filter (fun d => value mod d =? 0) (zrange 2 (value + 1))))
    (enumerate (t_sources t)).
Definition divide_sims (t : tree Z) (cant_use : list Z)
    (yield_ : list Z -> op -> Z -> M bool) : M unit :=
  let! h := gets s_heap in
  let! _ := for_each (fun cand seen =>
    let '(i, src, divisor) := cand in
    let! solving := read_solving in
    if negb solving then ret None else
    let value := n_value (get h src) in
    if pair_mem value divisor seen then ret (Some seen) else
    let seen := (value, divisor) :: seen in
    if zmem value cant_use then ret (Some seen) else
    let! cost := lift (divide_cost value divisor) in
    let! best_size := gets s_best_size in
    if t_size t + cost >? best_size then ret (Some seen) else
    let divided_value := value / divisor in
    if fl_contains Z.eqb divided_value (n_past (get h src)) || gcd_incompatible (p_gcd p) divided_value
    then ret (Some seen) else
    let! sim := lift (get_sim_without value (t_source_values t)) in
    let sim := Nat.iter (Z.to_nat divisor) (insort divided_value) sim in
    let! skip := already_seen t sim in
    if skip : bool then ret (Some seen) else
    let! go_on := yield_ sim (ODivide i divisor) cost in
    ret (if go_on : bool then Some seen else None))
    (divide_candidates h t) [] in
  ret tt.

(** merge_sims, src/solver.py:184-221.  The indices come from
    range(tree.n_sources) and never miss (n_sources is the number of sources). *)
Definition merge_sims (t : tree Z) (cant_use : list Z)
    (yield_ : list Z -> op -> Z -> M bool) : M unit :=
  let! h := gets s_heap in
  let! _ := for_each (fun to_sum_count (_ : unit) =>
    let cost := merge_cost to_sum_count 1 in
    let! best_size := gets s_best_size in
    if t_size t + cost >? best_size then ret (Some tt) else
    let! o := for_each (fun to_sum_indices seen =>
      let! solving := read_solving in
      if negb solving then ret None else
      let to_sum_values := map (fun i => nth i (t_source_values t) 0) to_sum_indices in
      if existsb (tuple_eqb to_sum_values) seen then ret (Some seen) else
      let seen := to_sum_values :: seen in
      if existsb (fun v => zmem v cant_use) to_sum_values then ret (Some seen) else
      let summed_value := zsum to_sum_values in
      if gcd_incompatible (p_gcd p) summed_value then ret (Some seen) else
      let to_sum_nodes := map (fun i => nth i (t_sources t) O) to_sum_indices in
      if (summed_value >? conveyor_speed_limit)
         || existsb (fun a => fl_contains Z.eqb summed_value (n_past (get h a))) to_sum_nodes
      then ret (Some seen) else
      let! sim := lift (fold_res (fun l v => py_remove v l) to_sum_values (t_source_values t)) in
      let sim := insort summed_value sim in
      let! skip := already_seen t sim in
      if skip : bool then ret (Some seen) else
      let! go_on := yield_ sim (OMerge to_sum_indices) cost in
      ret (if go_on : bool then Some seen else None))
      (combinations (Z.to_nat to_sum_count) (seq 0 (Z.to_nat (t_n_sources t)))) [] in
    ret (match o with Some _ => Some tt | None => None end))
    (zrange 2 (t_n_sources t + 1)) tt in
  ret tt.

(** split_sims, src/solver.py:223-260; [None] and 0 are falsy *)
Definition split_sims (t : tree Z) (cant_use : list Z)
    (yield_ : list Z -> op -> Z -> M bool) : M unit :=
  let! h := gets s_heap in
  let cost := split_cost in
  let! best_size := gets s_best_size in
  if t_size t + cost >? best_size then ret tt else
  let! _ := for_each (fun cand seen =>
    let '(i, src) := cand in
    let! solving := read_solving in
    if negb solving then ret None else
    let value := n_value (get h src) in
    if zmem value seen then ret (Some seen) else
    let seen := value :: seen in
    if zmem value cant_use then ret (Some seen) else
    match find (fun c => c >? value) conveyor_speeds with
    | None => ret (Some seen)
    | Some conveyor_speed =>
      if conveyor_speed =? 0 then ret (Some seen) else
      let new_value := conveyor_speed / 3 in
      let tmp := Z.shiftl new_value 1 in
      if value <? tmp then ret (Some seen) else
      let overflow_value := value - tmp in
      if gcd_incompatible (p_gcd p) new_value || gcd_incompatible (p_gcd p) overflow_value
      then ret (Some seen) else
      let past := n_past (get h src) in
      if fl_contains Z.eqb new_value past || fl_contains Z.eqb overflow_value past
      then ret (Some seen) else
      let! sim := lift (get_sim_without value (t_source_values t)) in
      let sim := insort overflow_value (insort new_value (insort new_value sim)) in
      let! skip := already_seen t sim in
      if skip : bool then ret (Some seen) else
      let! go_on := yield_ sim (OSplit i conveyor_speed) cost in
      ret (if go_on : bool then Some seen else None)
    end)
    (enumerate (t_sources t)) [] in
  ret tt.

(** is_solution, src/solver.py:262-269 *)
Definition is_solution (h : heap Z) (sources : list nat) : bool :=
  (length sources =? length (p_targets p))%nat
  && forallb (fun q => fst q =? snd q) (combine (node_values h sources) (p_targets p)).

(** purge_queue, src/solver.py:274-279: i runs down from len(queue) - 1 *)
Fixpoint purge_loop (i : nat) : M unit :=
  match i with
  | O => ret tt
  | S i =>
    let! solving := read_solving in
    if negb solving then ret tt else
    let! queue := gets s_queue in
    let! best_size := gets s_best_size in
    match nth_error queue i with
    | None => raise IndexError
    | Some (t, _) =>
      let! _ := (if t_size t >=? best_size
                 then modify (with_queue (firstn i queue ++ skipn (S i) queue)) else ret tt) in
      purge_loop i
    end
  end.
Definition purge_queue : M unit :=
  let! queue := gets s_queue in purge_loop (length queue).

(** any(t == tree for t in self.solutions) *)
Fixpoint any_same (new : tree Z) (solutions : list (tree Z)) : M bool :=
  match solutions with
  | [] => ret false
  | t :: r =>
    let! h := gets s_heap in
    let! k := gets s_sames in
    let! _ := modify (fun s => with_counters (s_reads s) (s_scores s) (s_picks s) (S (s_sames s)) s) in
    if o_same R k h t new then ret true else any_same new r
  end.

(** solution_found, src/solver.py:281-298; the final None is falsy *)
Definition solution_found (t : tree Z) : M bool :=
  let! count := gets s_solutions_count in
  let! best_size := gets s_best_size in
  let! solutions := gets s_solutions in
  if (count =? 0) || (t_size t <? best_size) then
    let! _ := modify (with_solutions [t] 1 (t_size t)) in
    ret true
  else if t_size t =? best_size then
    let! known := any_same t solutions in
    if known : bool then ret false else
    let! _ := modify (with_solutions (solutions ++ [t]) (count + 1) best_size) in
    ret false
  else
    let! _ := modify with_forced_stop in
    ret false.

(** key=lambda x: (x[1], -x[0].size): is the key of [a] <= the key of [b] *)
Definition entry_le (a b : tree Z * Q) : bool :=
  if Qeq_bool (snd a) (snd b) then - t_size (fst a) <=? - t_size (fst b)
  else Qle_bool (snd a) (snd b).

(** enqueue, src/solver.py:300-310 *)
Definition enqueue (t : tree Z) : M unit :=
  let! solving := read_solving in
  if negb solving then ret tt else
  let! h := gets s_heap in
  if is_solution h (t_sources t) then
    let! better := solution_found t in
    if better : bool then purge_queue else ret tt
  else
    let! k := gets s_scores in
    let! _ := modify (fun s => with_counters (s_reads s) (S (s_scores s)) (s_picks s) (s_sames s) s) in
    modify (fun s => with_queue (insort_by entry_le (t, o_score R k (t_source_values t)) (s_queue s)) s).

(** queue.pop(i) *)
Definition pop_at (i : Z) : M (tree Z * Q) :=
  let! queue := gets s_queue in
  let! (x, rest) := lift (list_pop i queue) in
  let! _ := modify (with_queue rest) in
  ret x.
(** dequeue, src/solver.py:312-323.  randrange(n-1) returns some i < n-1. *)
Definition dequeue : M (option (tree Z * Q)) :=
  let! solving := read_solving in
  if negb solving then ret None else
  let! n := gets (fun s => length (s_queue s)) in
  let! count := gets s_solutions_count in
  if (n <? 3)%nat || (count >? 0) then let! x := pop_at (-1) in ret (Some x) else
  let! k := gets s_picks in
  let! _ := modify (fun s => with_counters (s_reads s) (s_scores s) (S (s_picks s)) (s_sames s) s) in
  let! x := pop_at (match o_pick R k with
                    | None => -1
                    | Some i => Z.of_nat (Nat.modulo i (n - 1))
                    end) in
  ret (Some x).

(** the functions extract, divide, split, merge of src/solver.py:344-358 on the
    copied sources; an index out of range raises *)
Definition source_at (t : tree Z) (i : nat) : res nat :=
  match nth_error (t_sources t) i with Some a => Ok a | None => Err IndexError end.
Definition perform (h : heap Z) (t : tree Z) (o : op) : res (heap Z * list nat) :=
  match o with
  | OExtract i c => do a <- source_at t i; node_extract h a c
  | ODivide i d => do a <- source_at t i; node_divide h a d
  | OSplit i c => do a <- source_at t i; node_split h a c
  | OMerge is =>
      do nodes <- map_res (source_at t) is;
      do (h, m) <- node_merge h nodes;
      Ok (h, [m])
  end.
(** lines 338-340: copy, operate, add *)
Definition apply_op (h : heap Z) (t : tree Z) (o : op) (cost : Z) : res (heap Z * tree Z) :=
  do (h, copy) <- tree_deepcopy h t;
  do (h, nodes) <- perform h copy o;
  tree_add h copy nodes cost.

(** body of the loop of try_op, src/solver.py:336-342 *)
Definition try_body (t : tree Z) (sim : list Z) (o : op) (cost : Z) : M bool :=
  let! solving := read_solving in
  if negb solving then ret false else
  let! h := gets s_heap in
  let! (h, new) := lift (apply_op h t o cost) in
  let! _ := modify (with_heap h) in
  let! _ := modify (fun s => with_log (MkEvent t o sim cost new :: s_log s) s) in
  let! _ := enqueue new in
  ret true.

(** a try_op call followed by "if not self.solving: return" *)
Definition try_op (sims : tree Z -> list Z -> (list Z -> op -> Z -> M bool) -> M unit)
    (t : tree Z) (cant_use : list Z) : M bool :=
  let! _ := sims t cant_use (try_body t) in
  read_solving.

(** src/solver.py:333-378: one iteration after dequeue; false = return *)
Definition explore (t : tree Z) : M bool :=
  let! h := gets s_heap in
  let cant_use := compute_cant_use (p_target_counts p) (node_values h (t_sources t)) in
  match zmax (t_source_values t) with
  | None => raise ValueError
  | Some top =>
    if top <=? p_min_target p then try_op merge_sims t cant_use
    else
      let! go_on := try_op extract_sims t cant_use in
      if negb go_on then ret false else
      let! go_on := try_op divide_sims t cant_use in
      if negb go_on then ret false else
      let! go_on := try_op split_sims t cant_use in
      if negb go_on then ret false else
      if t_n_sources t =? 1 then ret true else try_op merge_sims t cant_use
  end.

(** src/solver.py:327-378: the main loop; unpacking None raises TypeError *)
Fixpoint solve_loop (fuel : nat) : M unit :=
  match fuel with
  | O => raise OutOfFuel
  | S fuel =>
    let! solving := read_solving in
    if negb solving then ret tt else
    let! queue := gets s_queue in
    match queue with
    | [] => ret tt
    | _ =>
      let! x := dequeue in
      match x with
      | None => raise TypeError
      | Some (t, _) =>
        let! go_on := explore t in
        if go_on : bool then solve_loop fuel else ret tt
      end
    end
  end.
End Solver.

(** tree_source, src/solver.py:85: Tree([Node(value) for value in source_values]) *)
Definition source_nodes (values : list Z) : heap Z :=
  map (fun e => MkNode (snd e) (fst e) None (fl_append Z.eqb (snd e) fl_new) [] [] [] 0)
    (enumerate values).
Definition initial_tree (p : problem) : heap Z * tree Z :=
  let h := source_nodes (p_sources p) in
  tree_new h (seq 0 (length h)).
Definition initial_state (p : problem) : state :=
  MkState (fst (initial_tree p)) [] (p_initial_best_size p) [] 0 false O O O O [].

(** solve, src/solver.py:271-378, from the state left by load and run *)
Definition solve (R : oracle) (fuel : nat) (p : problem) : res unit * state :=
  (let! _ := enqueue R p (snd (initial_tree p)) in solve_loop R p fuel) (initial_state p).
