(** Property theorem C64: shapes of the recorded solutions. *)
From Verif Require Import Base Cost Utils Load LoadSpec Tree TreeSpec Search SearchSpec RealSpec TreeEq TreeEqProofs ShapeProofs SearchWitness.
From Coq Require Import QArith.
Open Scope Z_scope.

(** C64: Tree.__eq__ answers whether two trees of a run have the same shape. *)
Theorem C64_equality_is_same_shape : forall p R fuel t u, loaded p ->
  let s := snd (solve R fuel p) in
  In t (explored p (s_log s)) -> In u (explored p (s_log s)) ->
  (tree_eq (s_heap s) t u = true <-> isomorphic (s_heap s) t u).
Proof. exact equality_lemma. Qed.
Print Assumptions C64_equality_is_same_shape.

(** C64: no two recorded solutions have the same shape. *)
Theorem C64_recorded_shapes_differ : forall p R fuel, loaded p -> compares R ->
  let s := snd (solve R fuel p) in ForallOrdPairs (fun t u => ~ isomorphic (s_heap s) t u) (s_solutions s).
Proof. exact shapes_apart_lemma. Qed.
Print Assumptions C64_recorded_shapes_differ.

(** C64: in a run that is not stopped, each solution built so far that has the best
    size has the shape of a recorded one, and none is smaller. *)
Theorem C64_every_shape_recorded : forall p R fuel t, loaded p -> compares R -> o_stop R = None ->
  let s := snd (solve R fuel p) in In t (explored p (s_log s)) -> t_source_values t = p_targets p ->
  s_best_size s <= t_size t /\ (t_size t = s_best_size s -> exists u, In u (s_solutions s) /\ isomorphic (s_heap s) u t).
Proof. exact shapes_kept_lemma. Qed.
Print Assumptions C64_every_shape_recorded.

(** "7 to 1 2 4": four solutions of the best size in two shapes *)
Example C64_witness : loaded p_124 /\ compares (real p_124) /\ o_stop (real p_124) = None /\
  let s := snd (solve (real p_124) 60 p_124) in
  length (s_solutions s) = 2%nat /\
  length (filter (fun t => tuple_eqb (t_source_values t) (p_targets p_124) && (t_size t =? s_best_size s)) (explored p_124 (s_log s))) = 4%nat.
Proof. split; [exact p_124_loaded|]. split; [apply real_ok|]. vm_compute. auto. Qed.
