(** Model of Node.group_values (src/node.py) and of SatisSolver.load
    (src/solver.py). *)
From Verif Require Import Base Cost Utils Fractions.
Open Scope Z_scope.

(** The tags of Node._expands: (0, extract, c), (1, divide, d), (2, merge, t),
    (3, split, c); src/node.py:238-239, 369-370, 457-458, 480-481 *)
Inductive tag := TExtract (c : Z) | TDivide (d : Z) | TMerge (t : Z) | TSplit (c : Z).

(** A node of the forest built by group_values: value, _expands, children.
    Simplification: the parent links of src/node.py:621 are implied by the
    nesting. *)
Inductive gnode := GNode (v : Z) (tags : list tag) (cs : list gnode).
Definition gvalue (g : gnode) : Z := match g with GNode v _ _ => v end.
Definition gtags (g : gnode) : list tag := match g with GNode _ t _ => t end.
Definition gchildren (g : gnode) : list gnode := match g with GNode _ _ cs => cs end.

(** src/node.py:15-16: Node(v) raises on a negative value *)
Definition new_leaf (v : Z) : res gnode := if v <? 0 then Err ValueError else Ok (GNode v [] []).

(** src/node.py:612: groups.setdefault(node.value, []).append(node) *)
Fixpoint groups_add (g : gnode) (groups : list (Z * list gnode)) : list (Z * list gnode) :=
  match groups with
  | [] => [(gvalue g, [g])]
  | (v, gs) :: r => if v =? gvalue g then (v, gs ++ [g]) :: r else (v, gs) :: groups_add g r
  end.
(** src/node.py:610-612 *)
Definition make_groups (level : list gnode) : list (Z * list gnode) :=
  fold_left (fun groups g => groups_add g groups) level [].

Definition gnode_le (a b : gnode) : bool := gvalue a <=? gvalue b.

(** src/node.py:614-628, body of the loop over the groups; the state is
    (next_level, total_cost) *)
Definition group_step (st : list gnode * Z) (g : Z * list gnode) : res (list gnode * Z) :=
  let (next_level, total_cost) := st in
  let (v, nodes) := g in
  let count := Z.of_nat (length nodes) in
  if count >? 1 then
    let parent_value := v * count in
    if parent_value <? 0 then Err ValueError else
    do cost <- divide_cost parent_value count;
    let parent := GNode parent_value (if count >? 3 then [TDivide count] else []) nodes in
    Ok (insort_by gnode_le parent next_level, total_cost + cost)
  else
    match nodes with
    | n0 :: _ => Ok (insort_by gnode_le n0 next_level, total_cost)
    | [] => Err IndexError
    end.
Fixpoint fold_res {A B} (f : A -> B -> res A) (l : list B) (a : A) : res A :=
  match l with
  | [] => Ok a
  | x :: r => do a' <- f a x; fold_res f r a'
  end.
(** src/node.py:606-635; only the last level is kept *)
Fixpoint group_loop (fuel : nat) (current : list gnode) (total_cost : Z) : res (list gnode * Z) :=
  match fuel with
  | O => Err OutOfFuel
  | S fuel =>
    do (next, cost) <- fold_res group_step (make_groups current) ([], total_cost);
    if (length next =? length current)%nat then Ok (current, cost)
    else group_loop fuel next cost
  end.
(** src/node.py:598-635 *)
Definition group_values (values : list Z) : res (list gnode * Z) :=
  do level <- map_res new_leaf (zsorted values);
  group_loop (S (length values)) level 0.

(** src/solver.py:94-103: the loop over the targets *)
Fixpoint upper_loop (targets : list Z) (summed r : Z) : res Z :=
  match targets with
  | [] => Ok r
  | t :: ts => do c <- extract_cost summed t; upper_loop ts (summed - t) (r + c)
  end.
(** src/solver.py:94-103 best_size_upper_bond *)
Definition best_size_upper_bond (sources targets : list Z) : res Z :=
  upper_loop targets (zsum sources) (merge_cost (Z.of_nat (length sources)) 1).

(** What load leaves in the solver.  [p_sources] are the values of the roots of
    tree_source; compute_cant_use and gcd_incompatible are kept through the data
    they close over (target_counts, gcd). *)
Record problem := {
  p_problem_str : str;
  p_unit_flow_ratio : Z;
  p_sources : list Z;
  p_target_integers : list Z;      (* self.target_values before grouping *)
  p_leaves : list gnode;
  p_size_offset : Z;
  p_targets : list Z;              (* self.target_values after grouping *)
  p_min_target : Z;
  p_target_counts : list (Z * Z);
  p_initial_best_size : Z;
  p_gcd : Z
}.

Definition frac_leb (a b : Qc) : bool := Qle_bool a b.
Definition frac_sum (l : list Qc) : Qc := fold_left Qcplus l (frac_of_Z 0).

(** src/solver.py:79-81; a dict comprehension over set(values), in the order of
    first occurrence (the order is not observable) *)
Definition count_values (l : list Z) : list (Z * Z) :=
  map (fun p => (fst p, Z.of_nat (snd p))) (counter Z.eqb l).

(** src/solver.py:41-53: sort and balance the two sides *)
Definition balance (ss ts : list Qc) : list Qc * list Qc :=
  let ss := sorted_by frac_leb ss in
  let ts := sorted_by frac_leb ts in
  let sources_total := frac_sum ss in
  let targets_total := frac_sum ts in
  if negb (frac_leb targets_total sources_total)
  then (insort_by frac_leb (targets_total - sources_total)%Qc ss, ts)
  else if negb (frac_leb sources_total targets_total)
  then (ss, insort_by frac_leb (sources_total - targets_total)%Qc ts)
  else (ss, ts).

(** src/solver.py:30-92, from the parsed values on; [Ok None] is "return False".
    min(()) is a ValueError; Tree([Node(v) ...]) raises on negative values.
    Simplification: the prints are dropped. *)
Definition load_values (ss ts : list Qc) : res (option problem) :=
  match ss, ts with
  | [], _ | _, [] => Ok None
  | _, _ =>
    let (ss, ts) := balance ss ts in
    let (ss, ts) := remove_pairs frac_eqb ss ts in
    match ss with
    | [] => match ts with [] => Ok None | _ => Err AssertionError end
    | _ =>
      do a <- format_fractions ss;
      do b <- format_fractions ts;
      let (r, unit) := fractions_to_integers (ss ++ ts) in
      let source_values := firstn (length ss) r in
      let target_integers := skipn (length ss) r in
      do (leaves, size_offset) <- group_values target_integers;
      let targets := map gvalue leaves in
      match zmin targets with
      | None => Err ValueError
      | Some min_target =>
        do _ <- map_res new_leaf source_values;
        do upper <- best_size_upper_bond source_values targets;
        do gcd <- compute_gcd (source_values ++ targets);
        Ok (Some {| p_problem_str := a ++ [space; letter_t; letter_o; space] ++ b;
                    p_unit_flow_ratio := unit;
                    p_sources := source_values;
                    p_target_integers := target_integers;
                    p_leaves := leaves;
                    p_size_offset := size_offset;
                    p_targets := targets;
                    p_min_target := min_target;
                    p_target_counts := count_values targets;
                    p_initial_best_size := upper + size_offset;
                    p_gcd := gcd |})
      end
    end
  end.

(** src/solver.py:21-92: parse errors are caught and reported *)
Definition load (user_input : str) : res (option problem) :=
  match parse_user_input user_input with
  | Err _ => Ok None
  | Ok None => Ok None
  | Ok (Some (ss, ts)) => load_values ss ts
  end.
