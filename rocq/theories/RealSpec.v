(** An oracle that answers as the program does. *)
From Verif Require Import Base Cost Load Tree Search ScoreSpec TreeEq.
From Coq Require Import QArith.
Open Scope Z_scope.

(** comparisons are those of Tree.__eq__ *)
Definition compares (R : oracle) : Prop := forall k h t u, o_same R k h t u = tree_eq h t u.
(** and scores those of the score calculator *)
Definition realistic (p : problem) (R : oracle) : Prop := compares R /\
  forall k vs, Forall (fun v => 0 < v) vs -> score_is (p_targets p) vs (o_score R k vs).
