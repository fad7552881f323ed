(** The oracle of Search.v as the program answers it: the scores of src/score.py
    and the comparisons of Tree.__eq__.  Only random and the instant of a stop
    remain open. *)
From Verif Require Import Base Cost Utils Fractions Load Tree Search Score TreeEq.
From Coq Require Import QArith.
Open Scope Z_scope.

(** ScoreCalculator.compute, src/score.py:58-75, with empty caches: what they hold
    does not change a score (C46).  The fraction is reduced to keep it small. *)
Definition real_score (targets values : list Z) : Q :=
  match compute (fun _ => true) targets values (MkScorer 0 []) with Ok (q, _) => Qred q | Err _ => 0%Q end.

(** scoreCalculator is made of target_values (src/solver.py:76); a score asked for
    after stop() may differ, but nothing is taken from the queue then *)
Definition real_oracle (p : problem) (stop : option nat) (pick : nat -> option nat) : oracle :=
  {| o_stop := stop; o_score := fun _ => real_score (p_targets p); o_pick := pick; o_same := fun _ => tree_eq |}.
