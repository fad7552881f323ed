(** Specification vocabulary for the search: what an operation takes and gives,
    and when it is possible.  Nothing here runs the model. *)
From Verif Require Import Base Cost Load Tree TreeSpec Search.
From Coq Require Import QArith Qcanon.
Open Scope Z_scope.

(** the open sources an operation is applied to *)
Definition op_nodes (t : tree Z) (o : op) : list nat :=
  match o with
  | OExtract i _ | ODivide i _ | OSplit i _ => [nth i (t_sources t) O]
  | OMerge is => map (fun i => nth i (t_sources t) O) is
  end.
(** the flows it takes *)
Definition taken (h : heap Z) (t : tree Z) (o : op) : list Z := map (value h) (op_nodes t o).
(** the flows it gives *)
Definition given (h : heap Z) (t : tree Z) (o : op) : list Z :=
  let v := zsum (taken h t o) in
  match o with
  | OExtract _ c => [c; v - c]
  | ODivide _ d => repeat (v / d) (Z.to_nat d)
  | OSplit _ c => [c / 3; c / 3; v - 2 * (c / 3)]
  | OMerge _ => [v]
  end.

(** the operation makes sense on the tree *)
Definition sensible (h : heap Z) (t : tree Z) (o : op) : Prop :=
  let v := zsum (taken h t o) in
  let m := length (t_sources t) in
  match o with
  | OExtract i c => (i < m)%nat /\ 0 < c < v /\ c <> v - c
  | ODivide i d => (i < m)%nat /\ 2 <= d /\ (d | v)
  | OSplit i c => (i < m)%nat /\ In c [60; 120; 270; 480; 780; 1200] /\ 2 * (c / 3) < v < c
  | OMerge is => (2 <= length is)%nat /\ NoDup is /\ (forall i, In i is -> (i < m)%nat)
  end.

(** what the operation should cost *)
Definition priced (h : heap Z) (t : tree Z) (o : op) (cost : Z) : Prop :=
  let v := zsum (taken h t o) in
  match o with
  | OExtract _ c => extract_cost v c = Ok cost
  | ODivide _ d => divide_cost v d = Ok cost
  | OSplit _ _ => cost = 3
  | OMerge is => cost = merge_cost (Z.of_nat (length is)) 1
  end.

(** a problem the solver works on: loaded from positive rational flows *)
Definition loaded (p : problem) : Prop := exists ss ts,
  Forall (fun f => (0 < f)%Qc) ss /\ Forall (fun f => (0 < f)%Qc) ts /\ load_values ss ts = Ok (Some p).

(** number of occurrences *)
Definition occurrences (v : Z) (l : list Z) : nat := count_occ Z.eq_dec l v.

(** every tree the search has built, newest first *)
Definition explored (p : problem) (log : list event) : list (tree Z) :=
  map ev_to log ++ [snd (initial_tree p)].

(** how a tree was built: the successive tuples of open values and the costs of
    the operations, oldest first *)
Inductive history (p : problem) (log : list event) : tree Z -> list (list Z) -> list Z -> Prop :=
| hist_start : history p log (snd (initial_tree p)) [t_source_values (snd (initial_tree p))] []
| hist_step e configs costs : In e log -> history p log (ev_from e) configs costs ->
    history p log (ev_to e) (configs ++ [t_source_values (ev_to e)]) (costs ++ [ev_cost e]).

(** continuations of a tree by operations on positive flows *)
Inductive leads (h : heap Z) (t : tree Z) : heap Z -> tree Z -> Prop :=
| leads_here : leads h t h t
| leads_op h1 t1 o cost h2 t2 : leads h t h1 t1 ->
    sensible h1 t1 o -> priced h1 t1 o cost -> Forall (fun v => 0 < v) (taken h1 t1 o) ->
    apply_op h1 t1 o cost = Ok (h2, t2) -> leads h t h2 t2.

(** the order of the queue: by score, then the larger trees first; C47 *)
Definition queue_order (a b : tree Z * Q) : Prop :=
  (snd a < snd b)%Q \/ ((snd a == snd b)%Q /\ t_size (fst b) <= t_size (fst a)).

(** the same oracle with another instant of the stop *)
Definition stop_at (R : oracle) (k : option nat) : oracle :=
  {| o_stop := k; o_score := o_score R; o_pick := o_pick R; o_same := o_same R |}.
(** not before [k] *)
Definition not_before (k : nat) (k' : option nat) : Prop :=
  match k' with None => True | Some j => (k <= j)%nat end.
