(** What the properties of the command line say. *)
From Verif Require Import Base Cli.

Definition reachable (c : conf) : Prop := exists ls, steps initial_conf ls c.
Definition alive (b : back_pc) : Prop := b <> BNone /\ b <> BEnd.
Definition idle (f : flags) : Prop :=
  solving f = false /\ done_solving f = false /\ concluding f = false /\ done_concluding f = false.
(** the main thread is in CLI.main after the start of the backend thread *)
Definition waiting (m : main_pc) : Prop := m = MLoop \/ m = MSleep \/ m = MJoin.

(** [P] comes to hold whatever the threads do, when at most [n] further signals arrive *)
Inductive inevitable (P : conf -> Prop) : nat -> conf -> Prop :=
| inevitable_now n c : P c -> inevitable P n c
| inevitable_later n c :
    (exists l c', l <> Signal /\ step c l c') ->
    (forall l c', l <> Signal -> step c l c' -> inevitable P n c') ->
    (forall c' n', n = S n' -> step c Signal c' -> inevitable P n' c') ->
    inevitable P n c.

(** no command is entered and no thread started: within one run *)
Definition same_run (ls : list label) : Prop := ~ In Started ls.

(** every configuration on the way satisfies [P] *)
Inductive steps_through (P : conf -> Prop) : conf -> conf -> Prop :=
| through_nil c : P c -> steps_through P c c
| through_cons c l c1 c2 : P c -> step c l c1 -> steps_through P c1 c2 -> steps_through P c c2.
