(** Specification vocabulary for what the search must not miss: the operations it
    offers and the rules that may speak against one of them.  Nothing here runs
    the model. *)
From Verif Require Import Base Cost Utils Load Tree TreeSpec Search SearchSpec.
Open Scope Z_scope.

(** The operations considered: of the two ways to extract only the one that names
    the smaller part; of the belts only the slowest one that is faster than the
    flow. *)
Definition offered (h : heap Z) (t : tree Z) (o : op) : Prop :=
  sensible h t o /\
  match o with
  | OExtract _ c => 2 * c < zsum (taken h t o)
  | OSplit _ c => forall c', In c' [60; 120; 270; 480; 780; 1200] -> zsum (taken h t o) < c' -> c <= c'
  | ODivide _ _ | OMerge _ => True
  end.

(** the same operation on flows of the same sizes *)
Definition same_op (h : heap Z) (t : tree Z) (o o' : op) : Prop :=
  Permutation (taken h t o) (taken h t o') /\
  match o, o' with
  | OExtract _ c, OExtract _ c' => c = c'
  | ODivide _ d, ODivide _ d' => d = d'
  | OSplit _ c, OSplit _ c' => c = c'
  | OMerge _, OMerge _ => True
  | _, _ => False
  end.

(** the sources an operation is applied to, and all those that are as large as one of them *)
Definition used (t : tree Z) (o : op) (a : nat) : Prop := In a (op_nodes t o).
Definition as_large (h : heap Z) (t : tree Z) (o : op) (a : nat) : Prop := In a (t_sources t) /\ In (value h a) (taken h t o).

(** No rule of the search speaks against the operation.  [log]: what the search
    has done, [best]: the size of the best solution (the initial bound if there is
    none), [near]: the sources to which no flow may come back. *)
Record passes (p : problem) (h : heap Z) (log : list event) (best : Z) (t : tree Z) (o : op) (near : nat -> Prop) : Prop := {
  (* it does not use up a flow that is wanted as it is *)
  ps_spare : forall v, In v (taken h t o) -> (occurrences v (p_targets p) < occurrences v (t_source_values t))%nat;
  (* no flow is smaller than the common divisor *)
  ps_gcd : forall v, In v (given h t o) -> p_gcd p <= v;
  (* it is not too expensive *)
  ps_cost : exists cost, priced h t o cost /\ t_size t + cost <= best;
  (* no belt is overloaded *)
  ps_limit : forall is, o = OMerge is -> zsum (taken h t o) <= 1200;
  (* flows are only divided while one is larger than some target *)
  ps_top : (exists is, o = OMerge is) \/ exists v w, In v (t_source_values t) /\ In w (p_targets p) /\ w < v;
  (* no flow comes back *)
  ps_past : forall a v, near a -> In v (given h t o) -> ~ In v (fl_items (n_past (get h a)));
  (* the flows are new to the tree and to all trees that have reached the targets *)
  ps_new : forall sim, StronglySorted Z.le sim -> Permutation (sim ++ taken h t o) (t_source_values t ++ given h t o) ->
    ~ In sim (fl_items (t_past t)) /\
    forall u, In u (explored p log) -> t_source_values u = p_targets p -> ~ In sim (fl_items (t_past u))
}.
