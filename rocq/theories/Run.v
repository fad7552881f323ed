(** Model of SatisSolver.run, src/solver.py:417-428, as catching_run calls it
    (src/utils/cli.py:41-46), without the flags; those are in Cli.v. *)
From Verif Require Import Base Load Tree Search Expand Conclude.
From Coq Require Import Qcanon.

(** solve, then conclude with the solutions it left; an exception of solve skips
    conclude.  The files written, and the heap or exception. *)
Definition run (R : oracle) (fuel n : nat) (concluding : nat -> bool) (p : problem) : list saved * res (heap Qc) :=
  match solve R fuel p with
  | (Ok _, s) => conclude n concluding p s
  | (Err e, _) => ([], Err e)
  end.
