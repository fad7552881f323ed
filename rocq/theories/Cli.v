(** Model of the command line (CLI of src/utils/cli.py) and of the life of the
    backend (run, stop and reset of src/solver.py): two threads and signals.

    One step is one read or write of a shared flag (CPython executes each of them
    atomically); the steps of the threads interleave in any way.  A signal handler
    runs on the main thread, which waits for it; another signal may interrupt it.
    solve and conclude are abstract here: they read their flag whenever they like,
    and return or raise at any time.  What they do is in Search.v and Conclude.v. *)
From Verif Require Import Base.

(** self.backend.running, the flags of the solver, self.running of the CLI *)
Record flags := MkFlags {
  running : bool; solving : bool; done_solving : bool; concluding : bool; done_concluding : bool;
  cli_running : bool
}.
Definition set_running (b : bool) (f : flags) : flags :=
  MkFlags b (solving f) (done_solving f) (concluding f) (done_concluding f) (cli_running f).
Definition set_solving (b : bool) (f : flags) : flags :=
  MkFlags (running f) b (done_solving f) (concluding f) (done_concluding f) (cli_running f).
Definition set_done_solving (b : bool) (f : flags) : flags :=
  MkFlags (running f) (solving f) b (concluding f) (done_concluding f) (cli_running f).
Definition set_concluding (b : bool) (f : flags) : flags :=
  MkFlags (running f) (solving f) (done_solving f) b (done_concluding f) (cli_running f).
Definition set_done_concluding (b : bool) (f : flags) : flags :=
  MkFlags (running f) (solving f) (done_solving f) (concluding f) b (cli_running f).
Definition set_cli_running (b : bool) (f : flags) : flags :=
  MkFlags (running f) (solving f) (done_solving f) (concluding f) (done_concluding f) b.
(** reset, src/solver.py:105-118 *)
Definition reset (f : flags) : flags := MkFlags (running f) false false false false (cli_running f).

(** What the main thread does next: CLI.run (src/utils/cli.py:67-86) and CLI.main (31-59) *)
Inductive main_pc :=
| MStart        (* self.running.set(), 69 *)
| MTest         (* while self.running.is_set(), 70 *)
| MPrompt       (* prompt, 73 *)
| MLoad         (* self.backend.load(self.user_input), 35 *)
| MSetRunning   (* self.backend.running = True, 50 *)
| MStartThread  (* backend_thread.start(), 51 *)
| MLoop         (* while self.backend.running, 55 *)
| MSleep        (* time.sleep(0.25), 55 *)
| MJoin         (* backend_thread.join(), 59 *)
| MClose        (* self.backend.close(); self.running.clear(), 85-86 *)
| MEnd.

(** What a signal handler does next: CLI.exit (61-65), SatisSolver.stop (src/solver.py:411-415) *)
Inductive handler_pc :=
| HRunning      (* if self.backend.running *)
| HSolving      (* if self.solving *)
| HStopSolving  (* self.solving = False *)
| HDone         (* elif self.done_solving *)
| HConcluding   (* and self.concluding *)
| HStopConcluding (* self.concluding = False *)
| HClear.       (* self.running.clear() *)

(** What the backend thread does next: catching_run (src/utils/cli.py:41-46) and
    SatisSolver.run (src/solver.py:417-428) *)
Inductive back_pc :=
| BNone            (* no thread yet *)
| BStart           (* self.solving = True *)
| BSolve           (* in self.solve() *)
| BSolved          (* self.solving = False *)
| BDoneSolving     (* self.done_solving = True *)
| BSetConcluding   (* self.concluding = True *)
| BConclude        (* in self.conclude() *)
| BConcluded       (* self.concluding = False *)
| BDoneConcluding  (* self.done_concluding = True *)
| BFinish          (* self.running = False *)
| BCatch           (* except: self.backend.running = False *)
| BEnd.            (* the thread has ended *)

(** [handlers]: the handlers in progress, the innermost first *)
Record conf := MkConf { fl : flags; main : main_pc; handlers : list handler_pc; back : back_pc }.
Definition initial_flags : flags := MkFlags false false false false false false.
Definition initial_conf : conf := MkConf initial_flags MStart [] BNone.

Inductive label :=
| Quiet
| Signal                     (* a SIGINT arrives *)
| Started                    (* the backend thread is started *)
| SolveRead (b : bool)       (* solve reads self.solving *)
| ConcludeRead (b : bool)    (* conclude reads self.concluding *)
| Command.                   (* a command is entered *)

(** What the handlers do; the flags, and what is left to do *)
Inductive handle : flags -> handler_pc -> flags -> option handler_pc -> Prop :=
| handle_running f : running f = true -> handle f HRunning f (Some HSolving)
| handle_not_running f : running f = false -> handle f HRunning f (Some HClear)
| handle_solving f : solving f = true -> handle f HSolving f (Some HStopSolving)
| handle_not_solving f : solving f = false -> handle f HSolving f (Some HDone)
| handle_stop_solving f : handle f HStopSolving (set_solving false f) None
| handle_done f : done_solving f = true -> handle f HDone f (Some HConcluding)
| handle_not_done f : done_solving f = false -> handle f HDone f None
| handle_concluding f : concluding f = true -> handle f HConcluding f (Some HStopConcluding)
| handle_not_concluding f : concluding f = false -> handle f HConcluding f None
| handle_stop_concluding f : handle f HStopConcluding (set_concluding false f) None
| handle_clear f : handle f HClear (set_cli_running false f) None.

(** The backend thread.  Every exception of run is caught by catching_run. *)
Inductive work : flags -> back_pc -> label -> flags -> back_pc -> Prop :=
| work_start f : work f BStart Quiet (set_solving true f) BSolve
| work_read_solving f : work f BSolve (SolveRead (solving f)) f BSolve
| work_solve_returns f : work f BSolve Quiet f BSolved
| work_solve_raises f : work f BSolve Quiet f BCatch
| work_solved f : work f BSolved Quiet (set_solving false f) BDoneSolving
| work_done_solving f : work f BDoneSolving Quiet (set_done_solving true f) BSetConcluding
| work_set_concluding f : work f BSetConcluding Quiet (set_concluding true f) BConclude
| work_read_concluding f : work f BConclude (ConcludeRead (concluding f)) f BConclude
| work_conclude_returns f : work f BConclude Quiet f BConcluded
| work_conclude_raises f : work f BConclude Quiet f BCatch
| work_concluded f : work f BConcluded Quiet (set_concluding false f) BDoneConcluding
| work_done_concluding f : work f BDoneConcluding Quiet (set_done_concluding true f) BFinish
| work_finish f : work f BFinish Quiet (set_running false f) BEnd
| work_catch f : work f BCatch Quiet (set_running false f) BEnd.

(** The main thread.  load resets the flags before it returns True; when it
    returns False or raises it may or may not have done so.  Simplification: it
    is one step, which no handler can see (see the invariant: running is false).
    prompt turns Ctrl+C into a KeyboardInterrupt, "exit" and EOF end the loop as
    well. *)
Inductive move : flags -> main_pc -> back_pc -> label -> flags -> main_pc -> back_pc -> Prop :=
| move_start f b : move f MStart b Quiet (set_cli_running true f) MTest b
| move_test f b : cli_running f = true -> move f MTest b Quiet f MPrompt b
| move_leave f b : cli_running f = false -> move f MTest b Quiet f MClose b
| move_command f b : move f MPrompt b Command f MLoad b
| move_exit f b : move f MPrompt b Quiet f MClose b
| move_load f b : move f MLoad b Quiet (reset f) MSetRunning b
| move_load_failed f b : move f MLoad b Quiet f MTest b
| move_load_failed_reset f b : move f MLoad b Quiet (reset f) MTest b
| move_set_running f b : move f MSetRunning b Quiet (set_running true f) MStartThread b
| move_start_thread f b : move f MStartThread b Started f MLoop BStart
| move_loop f b : running f = true -> move f MLoop b Quiet f MSleep b
| move_loop_ends f b : running f = false -> move f MLoop b Quiet f MJoin b
| move_sleep f b : move f MSleep b Quiet f MLoop b
| move_join f : move f MJoin BEnd Quiet f MTest BEnd
| move_close f b : move f MClose b Quiet (set_cli_running false f) MEnd b.

(** at the prompt Ctrl+C reaches prompt_toolkit, not the handler *)
Definition takes_signals (m : main_pc) : bool := match m with MPrompt | MEnd => false | _ => true end.

Inductive step : conf -> label -> conf -> Prop :=
| step_signal f m hs b : takes_signals m = true -> step (MkConf f m hs b) Signal (MkConf f m (HRunning :: hs) b)
| step_handle f m h hs b f' o : handle f h f' o ->
    step (MkConf f m (h :: hs) b) Quiet (MkConf f' m (match o with Some h' => h' :: hs | None => hs end) b)
| step_work f m hs b l f' b' : work f b l f' b' -> step (MkConf f m hs b) l (MkConf f' m hs b')
| step_move f m b l f' m' b' : move f m b l f' m' b' -> step (MkConf f m [] b) l (MkConf f' m' [] b').

Inductive steps : conf -> list label -> conf -> Prop :=
| steps_nil c : steps c [] c
| steps_cons c l c1 ls c2 : step c l c1 -> steps c1 ls c2 -> steps c (l :: ls) c2.
