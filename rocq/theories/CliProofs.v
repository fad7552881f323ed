(** Proofs about the command line. *)
From Verif Require Import Base Cli CliSpec.

Definition stopping (h : handler_pc) : Prop := h <> HRunning /\ h <> HClear.

(** What holds in every reachable configuration *)
Record inv (c : conf) : Prop := MkInv {
  inv_alive : alive (back c) -> waiting (main c) /\ running (fl c) = true;
  inv_dead : ~ alive (back c) -> main c <> MStartThread -> running (fl c) = false;
  inv_starting : main c = MStartThread -> running (fl c) = true /\ idle (fl c);
  inv_set_running : main c = MSetRunning -> idle (fl c);
  inv_waiting : waiting (main c) -> back c <> BNone;
  inv_handlers : forall h, In h (handlers c) -> stopping h -> waiting (main c) \/ main c = MStartThread;
  inv_prompt : main c = MPrompt \/ main c = MEnd -> handlers c = [];
  inv_starting_handlers : main c = MStartThread -> ~ In HStopSolving (handlers c) /\ ~ In HStopConcluding (handlers c);
  inv_started : back c = BStart -> idle (fl c)
}.

Lemma alive_dec b : alive b \/ ~ alive b.
Proof. unfold alive. destruct b; ((left; split; discriminate) || (right; intros [? ?]; congruence)). Qed.

Ltac cli := unfold alive, waiting, idle, stopping in *; cbn in *; intuition (try congruence).

Lemma initial_inv : inv initial_conf.
Proof. split; cli. Qed.

Lemma handle_effect f h f' o : handle f h f' o ->
  running f' = running f /\ done_solving f' = done_solving f /\ done_concluding f' = done_concluding f /\
  (solving f' = solving f \/ (h = HStopSolving /\ solving f' = false)) /\
  (concluding f' = concluding f \/ (h = HStopConcluding /\ concluding f' = false)) /\
  (forall h', o = Some h' -> (h' = HClear -> running f = false) /\ (stopping h' -> stopping h \/ running f = true) /\
     (h' = HStopSolving -> solving f = true) /\ (h' = HStopConcluding -> concluding f = true)).
Proof. intros H. inversion H; subst; cbn; repeat split; auto; intros; try congruence; unfold stopping in *;
  repeat match goal with H : Some _ = Some _ |- _ => injection H as <- end; try congruence; cli. Qed.

Lemma step_inv c l c' : inv c -> step c l c' -> inv c'.
Proof.
  intros [I1 I2 I3 I4 I5 I6 I7 I8 I9] S. inversion S; subst; cbn in *.
  - split; cbn in *; auto.
    + intros h [<-|Hin] Hs; [destruct Hs; congruence|exact (I6 h Hin Hs)].
    + intros [E|E]; subst; discriminate.
    + intros E. destruct (I8 E). split; intros [?|?]; try discriminate; tauto.
  - match goal with H : handle _ _ _ _ |- _ => apply handle_effect in H; destruct H as (E1 & E2 & E3 & E4 & E5 & E6) end.
    split; cbn.
    + intros A. destruct (I1 A). rewrite E1. auto.
    + rewrite E1. auto.
    + intros E. destruct (I3 E) as [A B], (I8 E) as [C D]. rewrite E1. split; [exact A|]. unfold idle in *. rewrite E2, E3. cbn in C, D. cli.
    + intros E. specialize (I4 E). unfold idle in *. rewrite E2, E3. cli.
    + auto.
    + intros h' Hin Hs. assert (D : In h' hs \/ o = Some h') by (destruct o as [h''|]; [destruct Hin as [->|]|]; auto).
      destruct D as [D|D]; [apply (I6 h'); auto|]. destruct (E6 _ D) as (_ & F & _). destruct (F Hs) as [G|G]; [apply (I6 h); auto|].
      destruct (alive_dec b) as [A|A]; [left; apply I1, A|]. destruct m; try (right; reflexivity); rewrite I2 in G by (auto; discriminate); discriminate.
    + intros E. specialize (I7 E). discriminate.
    + intros E. destruct (I3 E) as [A B], (I8 E) as [C D].
      split; intros Hin.
      * assert (F : In HStopSolving hs \/ o = Some HStopSolving) by (destruct o as [h''|]; [destruct Hin as [->|]|]; auto).
        destruct F as [F|F]; [tauto|]. apply E6 in F. cli.
      * assert (F : In HStopConcluding hs \/ o = Some HStopConcluding) by (destruct o as [h''|]; [destruct Hin as [->|]|]; auto).
        destruct F as [F|F]; [tauto|]. apply E6 in F. cli.
    + intros E. specialize (I9 E). unfold idle in *. rewrite E2, E3. cli.
  - match goal with H : work _ _ _ _ _ |- _ => inversion H; subst; clear H end;
    (destruct I1 as [A A2]; [split; discriminate|]); split; cbn in *; auto; try solve [cli];
    try (intros ->; destruct A as [|[|]]; discriminate).
  - match goal with H : move _ _ _ _ _ _ _ |- _ => inversion H; subst; clear H end; split; cbn in *; auto; try solve [cli];
    try (intros; destruct (alive_dec b'); [|apply I2; auto; discriminate]; cli).
Qed.

Lemma steps_inv c ls c' : inv c -> steps c ls c' -> inv c'.
Proof. intros I S. induction S; eauto using step_inv. Qed.
Lemma reachable_inv c : reachable c -> inv c.
Proof. intros [ls S]. exact (steps_inv _ _ _ initial_inv S). Qed.

(** ** C34 *)
Lemma thread_end_lemma : forall c l c', reachable c -> step c l c' -> back c <> BEnd -> back c' = BEnd -> running (fl c') = false.
Proof.
  intros c l c' _ S N E. inversion S; subst; cbn in *; try congruence.
  - match goal with H : work _ _ _ _ _ |- _ => inversion H; subst; clear H end; try congruence; reflexivity.
  - match goal with H : move _ _ _ _ _ _ _ |- _ => inversion H; subst; clear H end; congruence.
Qed.
Lemma prompt_lemma : forall c, reachable c -> main c = MPrompt \/ main c = MTest ->
  running (fl c) = false /\ ~ alive (back c) /\ (main c = MPrompt -> handlers c = []).
Proof.
  intros c R M. destruct (reachable_inv c R) as [I1 I2 _ _ _ _ I7 _ _].
  assert (A : ~ alive (back c)) by (intros A; destruct (I1 A) as [[W|[W|W]] _], M; congruence).
  split; [apply I2; [exact A|destruct M; congruence]|]. split; [exact A|]. intros E. apply I7. auto.
Qed.
Lemma started_lemma : forall c c', reachable c -> step c Started c' ->
  ~ alive (back c) /\ back c' = BStart /\ idle (fl c') /\ running (fl c') = true.
Proof.
  intros c c' R S. destruct (reachable_inv c R) as [I1 I2 I3 _ _ _ I7 _ _]. inversion S; subst; cbn in *.
  - match goal with H : work _ _ _ _ _ |- _ => inversion H end.
  - match goal with H : move _ _ _ _ _ _ _ |- _ => inversion H; subst; clear H end. destruct (I3 eq_refl) as [A B].
    split; [intros C; destruct (I1 C) as [[W|[W|W]] _]; congruence|]. auto.
Qed.

Definition handler_weight (h : handler_pc) : nat :=
  match h with HRunning => 5 | HSolving => 4 | HDone => 3 | HConcluding => 2 | _ => 1 end.
Definition main_weight (m : main_pc) : nat := match m with MSleep => 3 | MLoop => 2 | MJoin => 1 | _ => 0 end.
Definition weight (c : conf) : nat := list_sum (map handler_weight (handlers c)) + main_weight (main c).
Definition returned (c : conf) : Prop := main c = MTest /\ running (fl c) = false /\ back c = BEnd.

Lemma handle_total f h : exists f' o, handle f h f' o.
Proof.
  destruct h; [destruct (running f) eqn:E|destruct (solving f) eqn:E| |destruct (done_solving f) eqn:E|destruct (concluding f) eqn:E| |];
    eexists; eexists; (econstructor; eassumption) || econstructor.
Qed.
Lemma handle_weight f h f' o : handle f h f' o -> (list_sum (map handler_weight (match o with Some h' => [h'] | None => [] end)) < handler_weight h)%nat.
Proof. intros H. inversion H; subst; cbn; lia. Qed.

Lemma returns_lemma0 n : forall w c, (weight c <= w)%nat -> inv c -> back c = BEnd -> waiting (main c) -> inevitable returned n c.
Proof.
  induction n as [n IHn] using lt_wf_ind. induction w as [|w IH]; intros c W I B Wm.
  { destruct Wm as [E|[E|E]]; unfold weight in W; rewrite E in W; cbn in W; lia. }
  assert (Run : running (fl c) = false).
  { apply (inv_dead c I); [intros [_ A]; congruence|destruct Wm as [E|[E|E]]; congruence]. }
  apply inevitable_later.
  - destruct c as [f m hs b]. cbn in *. subst b. destruct hs as [|h hs].
    + destruct Wm as [E|[E|E]]; subst m; exists Quiet; eexists; (split; [discriminate|]); apply step_move.
      * apply move_loop_ends, Run.
      * apply move_sleep.
      * apply move_join.
    + destruct (handle_total f h) as (f' & o & H). exists Quiet. eexists. split; [discriminate|]. eapply step_handle, H.
  - intros l c' NS S. pose proof (step_inv _ _ _ I S) as I'. inversion S; subst; cbn in *.
    + congruence.
    + apply IH; cbn; auto. match goal with H : handle _ _ _ _ |- _ => apply handle_weight in H end.
      unfold weight in *. cbn in *. destruct o; cbn in *; lia.
    + match goal with H : work _ _ _ _ _ |- _ => inversion H; subst; clear H end; try congruence.
    + match goal with H : move _ _ _ _ _ _ _ |- _ => inversion H; subst; clear H end; try solve [destruct Wm as [E|[E|E]]; discriminate].
      * cbn in Run. congruence.
      * apply IH; cbn; auto; [unfold weight in *; cbn in *; lia|unfold waiting; auto].
      * apply IH; cbn; auto; [unfold weight in *; cbn in *; lia|unfold waiting; auto].
      * apply inevitable_now. split; [reflexivity|]. split; [exact Run|reflexivity].
  - intros c' n' E S. pose proof (step_inv _ _ _ I S) as I'. apply (IHn n' ltac:(lia) (weight c') c' (le_n _) I').
    + inversion S; subst; auto.
      * match goal with H : work _ _ _ _ _ |- _ => inversion H end.
      * match goal with H : move _ _ _ _ _ _ _ |- _ => inversion H end.
    + inversion S; subst; auto.
      match goal with H : move _ _ _ _ _ _ _ |- _ => inversion H end.
Qed.
Lemma returns_lemma : forall c n, reachable c -> back c = BEnd -> waiting (main c) ->
  inevitable (fun c => main c = MTest /\ running (fl c) = false /\ back c = BEnd) n c.
Proof. intros c n R B W. exact (returns_lemma0 n (weight c) c (le_n _) (reachable_inv c R) B W). Qed.

(** ** C33 *)
Lemma reads_solving_true c l c' : (back c = BSolve -> solving (fl c) = false) -> step c l c' -> l <> SolveRead true.
Proof.
  intros Q S E. inversion S; subst; try discriminate.
  - match goal with H : work _ _ _ _ _ |- _ => inversion H; subst; clear H end. cbn in Q. rewrite Q in * by reflexivity. congruence.
  - match goal with H : move _ _ _ _ _ _ _ |- _ => inversion H end.
Qed.
Lemma stopped_solving_step c l c' : back c <> BStart -> (back c = BSolve -> solving (fl c) = false) -> l <> Started -> step c l c' ->
  back c' <> BStart /\ (back c' = BSolve -> solving (fl c') = false).
Proof.
  intros B Q N S. inversion S; subst; cbn in *; auto.
  - split; [exact B|]. intros E. match goal with H : handle _ _ _ _ |- _ => apply handle_effect in H; destruct H as (_ & _ & _ & D & _) end.
    destruct D as [D|[_ D]]; [rewrite D; auto|exact D].
  - match goal with H : work _ _ _ _ _ |- _ => inversion H; subst; clear H end; cbn in *; split; intros; try congruence; auto.
  - match goal with H : move _ _ _ _ _ _ _ |- _ => inversion H; subst; clear H end; cbn in *; try congruence; auto.
Qed.
Lemma stopped_solving_steps c ls c' : back c <> BStart -> (back c = BSolve -> solving (fl c) = false) -> steps c ls c' -> same_run ls ->
  ~ In (SolveRead true) ls.
Proof.
  intros B Q S. induction S as [|c l c1 ls c2 S1 S2 IH]; intros N; [auto|].
  assert (Nl : l <> Started) by (intros ->; apply N; left; reflexivity).
  destruct (stopped_solving_step _ _ _ B Q Nl S1) as [B1 Q1].
  intros [E|E]; [exact (reads_solving_true _ _ _ Q S1 E)|]. apply (IH B1 Q1); [|exact E]. intros X. apply N. right. exact X.
Qed.
Lemma solving_once_lemma : forall c ls1 ls2 c', reachable c -> steps c (ls1 ++ SolveRead false :: ls2) c' -> same_run ls2 -> ~ In (SolveRead true) ls2.
Proof.
  intros c ls1 ls2 c' _ S N. remember (ls1 ++ SolveRead false :: ls2) as ls eqn:E. revert ls1 E. induction S as [|c l c1 ls c2 S1 S2 IH]; intros ls1 E; [destruct ls1; discriminate|].
  destruct ls1 as [|x ls1]; injection E as -> ->; [|exact (IH ls1 eq_refl)].
  apply (stopped_solving_steps c1 ls2 c2); auto; inversion S1; subst; cbn;
    match goal with H : work _ _ _ _ _ |- _ => inversion H; subst; clear H | H : move _ _ _ _ _ _ _ |- _ => inversion H end; congruence.
Qed.

Definition past_set_concluding (b : back_pc) : Prop :=
  b = BConclude \/ b = BConcluded \/ b = BDoneConcluding \/ b = BFinish \/ b = BCatch \/ b = BEnd.
Lemma stopped_concluding_step c l c' : past_set_concluding (back c) -> (back c = BConclude -> concluding (fl c) = false) -> l <> Started -> step c l c' ->
  past_set_concluding (back c') /\ (back c' = BConclude -> concluding (fl c') = false).
Proof.
  intros B Q N S. inversion S; subst; cbn in *; auto.
  - split; [exact B|]. intros E. match goal with H : handle _ _ _ _ |- _ => apply handle_effect in H; destruct H as (_ & _ & _ & _ & D & _) end.
    destruct D as [D|[_ D]]; [rewrite D; auto|exact D].
  - match goal with H : work _ _ _ _ _ |- _ => inversion H; subst; clear H end; cbn in *; unfold past_set_concluding in *; split; intros; try (intuition congruence); auto.
  - match goal with H : move _ _ _ _ _ _ _ |- _ => inversion H; subst; clear H end; cbn in *; try congruence; auto.
Qed.
Lemma stopped_concluding_steps c ls c' : past_set_concluding (back c) -> (back c = BConclude -> concluding (fl c) = false) -> steps c ls c' -> same_run ls ->
  ~ In (ConcludeRead true) ls.
Proof.
  intros B Q S. induction S as [|c l c1 ls c2 S1 S2 IH]; intros N; [auto|].
  assert (Nl : l <> Started) by (intros ->; apply N; left; reflexivity).
  destruct (stopped_concluding_step _ _ _ B Q Nl S1) as [B1 Q1].
  intros [E|E]; [|apply (IH B1 Q1); [|exact E]; intros X; apply N; right; exact X].
  subst l. inversion S1; subst.
  - match goal with H : work _ _ _ _ _ |- _ => inversion H; subst; clear H end. cbn in Q. rewrite Q in * by reflexivity. congruence.
  - match goal with H : move _ _ _ _ _ _ _ |- _ => inversion H end.
Qed.
Lemma concluding_once_lemma : forall c ls1 ls2 c', reachable c -> steps c (ls1 ++ ConcludeRead false :: ls2) c' -> same_run ls2 -> ~ In (ConcludeRead true) ls2.
Proof.
  intros c ls1 ls2 c' _ S N. remember (ls1 ++ ConcludeRead false :: ls2) as ls eqn:E. revert ls1 E. induction S as [|c l c1 ls c2 S1 S2 IH]; intros ls1 E; [destruct ls1; discriminate|].
  destruct ls1 as [|x ls1]; injection E as -> ->; [|exact (IH ls1 eq_refl)].
  apply (stopped_concluding_steps c1 ls2 c2); auto; inversion S1; subst; cbn;
    match goal with H : work _ _ _ _ _ |- _ => inversion H; subst; clear H | H : move _ _ _ _ _ _ _ |- _ => inversion H end; unfold past_set_concluding; auto; congruence.
Qed.

(** a stop handled within one phase *)
Definition will_stop_solving (c : conf) : Prop :=
  back c <> BStart /\
  (back c = BSolve -> solving (fl c) = false \/ In HRunning (handlers c) \/ In HSolving (handlers c) \/ In HStopSolving (handlers c)).
Lemma will_stop_solving_step c l c' : inv c -> will_stop_solving c -> l <> Started -> step c l c' -> will_stop_solving c'.
Proof.
  intros I [B Q] N S. inversion S; subst; cbn in *.
  - split; cbn; [exact B|]. intros E. destruct (Q E) as [D|[D|[D|D]]]; auto.
  - split; cbn; [exact B|]. intros E. specialize (Q E).
    assert (Run : running f = true) by (apply (inv_alive _ I); cbn; rewrite E; split; discriminate).
    match goal with H : handle _ _ _ _ |- _ => inversion H; subst; clear H end; cbn in *; try congruence; intuition (try congruence).
  - match goal with H : work _ _ _ _ _ |- _ => inversion H; subst; clear H end; split; cbn in *; intros; try congruence; auto.
  - match goal with H : move _ _ _ _ _ _ _ |- _ => inversion H; subst; clear H end; split; cbn in *; try congruence; auto;
    intros E; destruct (Q E) as [D|[[]|[[]|[]]]]; auto.
Qed.
Lemma will_stop_solving_steps c ls c' : inv c -> will_stop_solving c -> steps c ls c' -> same_run ls -> will_stop_solving c' /\ inv c'.
Proof.
  intros I W S. induction S as [|c l c1 ls c2 S1 S2 IH]; intros N; [auto|].
  apply IH; [exact (step_inv _ _ _ I S1)|apply (will_stop_solving_step c l); auto|]; intros X; apply N; [left; auto|right; exact X].
Qed.
Lemma stop_solving_lemma : forall c c1 ls c2 ls' c3, reachable c -> back c = BSolve -> step c Signal c1 ->
  steps c1 ls c2 -> same_run ls -> handlers c2 = [] -> steps c2 ls' c3 -> same_run ls' -> ~ In (SolveRead true) ls'.
Proof.
  intros c c1 ls c2 ls' c3 R B S1 S2 N H S3 N3. pose proof (step_inv _ _ _ (reachable_inv c R) S1) as I1.
  assert (W : will_stop_solving c1).
  { inversion S1; subst; cbn in *; [|match goal with H : work _ _ _ _ _ |- _ => inversion H end|match goal with H : move _ _ _ _ _ _ _ |- _ => inversion H end].
    split; cbn; [congruence|auto]. }
  destruct (will_stop_solving_steps _ _ _ I1 W S2 N) as [[B2 Q2] I2]. apply (stopped_solving_steps c2 ls' c3); auto.
  intros E. rewrite H in Q2. destruct (Q2 E) as [D|[[]|[[]|[]]]]; exact D.
Qed.

Definition after_solving (c : conf) : Prop :=
  (back c = BDoneSolving \/ back c = BSetConcluding \/ back c = BConclude -> solving (fl c) = false) /\
  (back c = BSetConcluding \/ back c = BConclude -> done_solving (fl c) = true).
Lemma after_solving_step c l c' : inv c -> after_solving c -> step c l c' -> after_solving c'.
Proof.
  unfold after_solving. intros I [A B] S. inversion S; subst; cbn in *; auto.
  - match goal with H : handle _ _ _ _ |- _ => apply handle_effect in H; destruct H as (_ & E2 & _ & D & _) end.
    rewrite E2. split; [|exact B]. intros E. destruct D as [D|[_ D]]; [rewrite D; auto|exact D].
  - match goal with H : work _ _ _ _ _ |- _ => inversion H; subst; clear H end; cbn in *; intuition congruence.
  - match goal with H : move _ _ _ _ _ _ _ |- _ => inversion H; subst; clear H end; cbn in *; auto; split; intros E; auto;
    try (repeat destruct E as [E|E]; discriminate);
    destruct (inv_alive _ I) as [[W|[W|W]] _]; cbn in *; try discriminate W; repeat destruct E as [E|E]; subst; split; discriminate.
Qed.
Lemma reachable_after_solving c : reachable c -> after_solving c.
Proof.
  intros [ls S]. assert (A : after_solving initial_conf) by (split; reflexivity || cbn; intuition congruence).
  generalize initial_inv as I. induction S; eauto using after_solving_step, step_inv.
Qed.
Definition will_stop_concluding (c : conf) : Prop :=
  past_set_concluding (back c) /\
  (back c = BConclude -> concluding (fl c) = false \/ In HRunning (handlers c) \/ In HSolving (handlers c) \/ In HDone (handlers c) \/
     In HConcluding (handlers c) \/ In HStopConcluding (handlers c)).
Lemma will_stop_concluding_step c l c' : inv c -> after_solving c -> will_stop_concluding c -> l <> Started -> step c l c' -> will_stop_concluding c'.
Proof.
  intros I [A1 A2] [B Q] N S. inversion S; subst; cbn in *.
  - split; cbn; [exact B|]. intros E. destruct (Q E) as [D|[D|[D|[D|[D|D]]]]]; auto 10.
  - split; cbn; [exact B|]. intros E. specialize (Q E).
    assert (Run : running f = true) by (apply (inv_alive _ I); cbn; rewrite E; split; discriminate).
    assert (So : solving f = false) by auto. assert (Do : done_solving f = true) by auto.
    match goal with H : handle _ _ _ _ |- _ => inversion H; subst; clear H end; cbn in *; try congruence; intuition (try congruence).
  - match goal with H : work _ _ _ _ _ |- _ => inversion H; subst; clear H end; split; cbn in *; unfold past_set_concluding in *; intros; try (intuition congruence); auto.
  - match goal with H : move _ _ _ _ _ _ _ |- _ => inversion H; subst; clear H end; split; cbn in *; try congruence; auto;
    intros E; destruct (Q E) as [D|[[]|[[]|[[]|[[]|[]]]]]]; auto.
Qed.
Lemma will_stop_concluding_steps c ls c' : inv c -> after_solving c -> will_stop_concluding c -> steps c ls c' -> same_run ls -> will_stop_concluding c'.
Proof.
  intros I A W S. induction S as [|c l c1 ls c2 S1 S2 IH]; intros N; [auto|].
  apply IH; [exact (step_inv _ _ _ I S1)|exact (after_solving_step _ _ _ I A S1)|apply (will_stop_concluding_step c l); auto|]; intros X; apply N; [left; auto|right; exact X].
Qed.
Lemma stop_concluding_lemma : forall c c1 ls c2 ls' c3, reachable c -> back c = BConclude -> step c Signal c1 ->
  steps c1 ls c2 -> same_run ls -> handlers c2 = [] -> steps c2 ls' c3 -> same_run ls' -> ~ In (ConcludeRead true) ls'.
Proof.
  intros c c1 ls c2 ls' c3 R B S1 S2 N H S3 N3. pose proof (step_inv _ _ _ (reachable_inv c R) S1) as I1.
  pose proof (after_solving_step _ _ _ (reachable_inv c R) (reachable_after_solving c R) S1) as A1.
  assert (W : will_stop_concluding c1).
  { inversion S1; subst; cbn in *; [|match goal with H : work _ _ _ _ _ |- _ => inversion H end|match goal with H : move _ _ _ _ _ _ _ |- _ => inversion H end].
    split; cbn; [left; exact B|auto]. }
  destruct (will_stop_concluding_steps _ _ _ I1 A1 W S2 N) as [B2 Q2]. apply (stopped_concluding_steps c2 ls' c3); auto.
  intros E. rewrite H in Q2. destruct (Q2 E) as [D|[[]|[[]|[[]|[[]|[]]]]]]; exact D.
Qed.

(** ** Lost stops *)
Lemma steps_app c ls c1 : steps c ls c1 -> forall ls' c2, steps c1 ls' c2 -> steps c (ls ++ ls') c2.
Proof. intros S. induction S; intros ls' c3 S'; [exact S'|]. cbn. eapply steps_cons; eauto. Qed.
Lemma steps_one c l c' : step c l c' -> steps c [l] c'.
Proof. intros S. eapply steps_cons; [exact S|apply steps_nil]. Qed.

Definition fl1 : flags := MkFlags true false false false false true.
(** the backend thread has just been started *)
Definition just_started : conf := MkConf fl1 MLoop [] BStart.
Lemma just_started_reachable : reachable just_started.
Proof.
  exists [Quiet; Quiet; Command; Quiet; Quiet; Started].
  eapply steps_cons; [apply step_move, move_start|]. eapply steps_cons; [apply step_move, move_test; reflexivity|].
  eapply steps_cons; [apply step_move, move_command|]. eapply steps_cons; [apply step_move, move_load|].
  eapply steps_cons; [apply step_move, move_set_running|]. eapply steps_cons; [apply step_move, move_start_thread|]. apply steps_nil.
Qed.
(** the search has ended, the saving has not begun *)
Definition between : conf := MkConf fl1 MLoop [] BDoneSolving.
Lemma between_reachable : reachable between.
Proof.
  destruct just_started_reachable as [ls S]. exists (ls ++ [Quiet; Quiet; Quiet]). eapply steps_app; [exact S|].
  eapply steps_cons; [apply step_work, work_start|]. eapply steps_cons; [apply step_work, work_solve_returns|]. eapply steps_cons; [apply step_work, work_solved|]. apply steps_nil.
Qed.

(** a stop is handled before anything is to be stopped *)
Lemma lost_signal b : steps (MkConf fl1 MLoop [HRunning] b) [Quiet; Quiet; Quiet] (MkConf fl1 MLoop [] b).
Proof.
  eapply steps_cons; [eapply step_handle, handle_running; reflexivity|]. cbn. eapply steps_cons; [eapply step_handle, handle_not_solving; reflexivity|]. cbn.
  eapply steps_cons; [eapply step_handle, handle_not_done; reflexivity|]. apply steps_nil.
Qed.
Lemma same_run_quiet n : same_run (repeat Quiet n).
Proof. intros H. apply repeat_spec in H. discriminate. Qed.
Lemma lost_before_solving : exists c c1 ls c2 ls' c3, reachable c /\ running (fl c) = true /\ step c Signal c1 /\
  steps c1 ls c2 /\ same_run ls /\ handlers c2 = [] /\ steps c2 ls' c3 /\ same_run ls' /\ In (SolveRead true) ls'.
Proof.
  exists just_started, (MkConf fl1 MLoop [HRunning] BStart), [Quiet; Quiet; Quiet], just_started, [Quiet; SolveRead true], (MkConf (set_solving true fl1) MLoop [] BSolve).
  split; [exact just_started_reachable|]. split; [reflexivity|]. split; [apply step_signal; reflexivity|]. split; [apply lost_signal|].
  split; [exact (same_run_quiet 3)|]. split; [reflexivity|]. split; [|split; [intros [E|[E|[]]]; discriminate|right; left; reflexivity]].
  eapply steps_cons; [apply step_work, work_start|]. eapply steps_cons; [apply step_work, (work_read_solving (set_solving true fl1))|]. apply steps_nil.
Qed.
Lemma lost_between : exists c c1 ls c2 ls' c3, reachable c /\ running (fl c) = true /\ step c Signal c1 /\
  steps c1 ls c2 /\ same_run ls /\ handlers c2 = [] /\ steps c2 ls' c3 /\ same_run ls' /\ In (ConcludeRead true) ls'.
Proof.
  exists between, (MkConf fl1 MLoop [HRunning] BDoneSolving), [Quiet; Quiet; Quiet], between, [Quiet; Quiet; ConcludeRead true],
    (MkConf (set_concluding true (set_done_solving true fl1)) MLoop [] BConclude).
  split; [exact between_reachable|]. split; [reflexivity|]. split; [apply step_signal; reflexivity|]. split; [apply lost_signal|].
  split; [exact (same_run_quiet 3)|]. split; [reflexivity|]. split; [|split; [intros [E|[E|[E|[]]]]; discriminate|right; right; left; reflexivity]].
  eapply steps_cons; [apply step_work, work_done_solving|]. eapply steps_cons; [apply step_work, work_set_concluding|].
  eapply steps_cons; [apply step_work, (work_read_concluding (set_concluding true (set_done_solving true fl1)))|]. apply steps_nil.
Qed.
Lemma stop_never_lost_refuted_lemma : ~ (forall c c1 ls c2 ls' c3, reachable c -> running (fl c) = true -> step c Signal c1 ->
  steps c1 ls c2 -> same_run ls -> handlers c2 = [] -> steps c2 ls' c3 -> same_run ls' -> ~ In (SolveRead true) ls' /\ ~ In (ConcludeRead true) ls').
Proof.
  intros H. destruct lost_between as (c & c1 & ls & c2 & ls' & c3 & A & B & C & D & E & F & G & I & J).
  destruct (H c c1 ls c2 ls' c3 A B C D E F G I) as [_ X]. exact (X J).
Qed.

(** ** Leaving the CLI *)
Lemma stays_open_refuted_lemma : ~ (forall c, reachable c -> main c = MTest -> cli_running (fl c) = true).
Proof.
  intros H. specialize (H (MkConf initial_flags MTest [] BNone)). cbn in H. enough (false = true) by discriminate. apply H; [|reflexivity].
  exists [Quiet; Quiet; Command; Signal; Quiet; Quiet; Quiet].
  eapply steps_cons; [apply step_move, move_start|]. eapply steps_cons; [apply step_move, move_test; reflexivity|].
  eapply steps_cons; [apply step_move, move_command|]. eapply steps_cons; [apply step_signal; reflexivity|].
  eapply steps_cons; [eapply step_handle, handle_not_running; reflexivity|]. cbn. eapply steps_cons; [eapply step_handle, handle_clear|]. cbn.
  eapply steps_cons; [apply step_move, move_load_failed|]. apply steps_nil.
Qed.
Definition open (c : conf) : Prop := main c <> MStart -> main c <> MClose -> main c <> MEnd -> cli_running (fl c) = true.
Lemma open_step c l c' : ~ In HClear (handlers c) -> open c -> step c l c' -> open c'.
Proof.
  unfold open. intros N O S. inversion S; subst; cbn in *; auto.
  - match goal with H : handle _ _ _ _ |- _ => inversion H; subst; clear H end; auto; exfalso; apply N; auto.
  - match goal with H : work _ _ _ _ _ |- _ => inversion H; subst; clear H end; cbn in *; auto.
  - match goal with H : move _ _ _ _ _ _ _ |- _ => inversion H; subst; clear H end; cbn in *; auto; intros; try congruence; apply O; discriminate.
Qed.
Lemma stays_open_lemma : forall c, steps_through (fun c => ~ In HClear (handlers c)) initial_conf c -> main c = MTest -> cli_running (fl c) = true.
Proof.
  intros c T M. assert (O : open initial_conf) by (intros A; cbn in A; congruence).
  assert (O' : open c) by (induction T; eauto using open_step). apply O'; congruence.
Qed.
(** a handler leaves only when the backend does not run *)
Lemma clear_lemma : forall c l c', reachable c -> step c l c' -> ~ In HClear (handlers c) -> In HClear (handlers c') -> running (fl c) = false.
Proof.
  intros c l c' _ S N I. inversion S; subst; cbn in *.
  - destruct I as [I|I]; [discriminate|tauto].
  - match goal with H : handle _ _ _ _ |- _ => inversion H; subst; clear H end; cbn in *; auto; try (destruct I as [I|I]; [discriminate|]); exfalso; apply N; auto.
  - tauto.
  - destruct I.
Qed.

(** ** C59, C60: what a run does without further signals *)
Definition untouched (c : conf) : Prop :=
  handlers c = [] /\ (back c = BSolve -> solving (fl c) = true) /\ (back c = BConclude -> concluding (fl c) = true).
(** a step without a signal; what a move of the main thread changes *)
Lemma calm_step c l c' : inv c -> handlers c = [] -> l <> Signal -> l <> Started -> step c l c' ->
  handlers c' = [] /\ (fl c' = fl c /\ back c' = back c \/ ~ alive (back c') \/ work (fl c) (back c) l (fl c') (back c')).
Proof.
  intros I H N1 N2 S. pose proof (inv_alive c I) as IA. inversion S; subst; cbn in *; try congruence.
  - split; [exact H|]. auto.
  - split; [reflexivity|]. match goal with M : move _ _ _ _ _ _ _ |- _ => inversion M; subst; clear M end; auto; right; left; intros A; destruct (IA A) as [[W|[W|W]] _]; discriminate.
Qed.
Lemma calm_steps (J : conf -> Prop) c ls c' :
  (forall c l c', inv c -> J c -> l <> Signal -> l <> Started -> step c l c' -> J c' /\ l <> SolveRead false /\ l <> ConcludeRead false) ->
  inv c -> J c -> steps c ls c' -> same_run ls -> ~ In Signal ls -> ~ In (SolveRead false) ls /\ ~ In (ConcludeRead false) ls.
Proof.
  intros K I Jc S. induction S as [|c l c1 ls c2 S1 S2 IH]; intros N1 N2; [cbn; auto|].
  destruct (K c l c1 I Jc) as (J1 & A & B); [intros ->; apply N2; left; reflexivity|intros ->; apply N1; left; reflexivity|exact S1|].
  destruct IH as [IH1 IH2]; [exact (step_inv _ _ _ I S1)|exact J1|intros X; apply N1; right; exact X|intros X; apply N2; right; exact X|].
  split; (intros [X|X]; [congruence|auto]).
Qed.
Lemma untouched_step c l c' : inv c -> untouched c -> l <> Signal -> l <> Started -> step c l c' ->
  untouched c' /\ l <> SolveRead false /\ l <> ConcludeRead false.
Proof.
  intros I (H & A & B) N1 N2 S. destruct (calm_step _ _ _ I H N1 N2 S) as (H' & K). unfold untouched.
  assert (R : l <> SolveRead false /\ l <> ConcludeRead false).
  { inversion S; subst; try (split; discriminate); cbn in *.
    - match goal with W : work _ _ _ _ _ |- _ => inversion W; subst; clear W end; split; try discriminate; [rewrite A by reflexivity|rewrite B by reflexivity]; discriminate.
    - match goal with M : move _ _ _ _ _ _ _ |- _ => inversion M; subst; clear M end; split; discriminate. }
  split; [|exact R]. split; [exact H'|]. destruct K as [[-> ->]|[K|K]]; [auto| |].
  - unfold alive in K. split; intros E; rewrite E in K; exfalso; apply K; split; discriminate.
  - inversion K; split; intros; try congruence; auto.
Qed.
Lemma only_signals_lemma : forall c c1 ls c2, reachable c -> step c Started c1 -> steps c1 ls c2 -> same_run ls -> ~ In Signal ls ->
  ~ In (SolveRead false) ls /\ ~ In (ConcludeRead false) ls.
Proof.
  intros c c1 ls c2 R S1 S2 N1 N2. destruct (started_lemma c c1 R S1) as (_ & B & _). pose proof (step_inv _ _ _ (reachable_inv c R) S1) as I.
  apply (calm_steps untouched c1 ls c2 untouched_step I); try assumption.
  split; [|split; intros E; congruence]. inversion S1; subst; [match goal with W : work _ _ _ _ _ |- _ => inversion W end|reflexivity].
Qed.

(** once every handler at work during the search has looked at self.solving *)
Definition saving_untouched (c : conf) : Prop :=
  Forall (fun h => h = HStopSolving \/ h = HClear) (handlers c) /\ (back c = BConclude -> concluding (fl c) = true).
Lemma saving_untouched_step c l c' : inv c -> saving_untouched c -> l <> Signal -> l <> Started -> step c l c' -> saving_untouched c'.
Proof.
  intros I [H A] L1 L2 S. inversion S as [| f m h hs b f' o W | f m hs b l' f' b' W | f m b l' f' m' b' W]; subst; cbn in *; [congruence| | |].
  - inversion H as [|? ? H1 H2]; subst. destruct H1 as [-> | ->]; inversion W; subst; split; cbn; auto.
  - split; [exact H|]. inversion W; subst; cbn in *; intros; try discriminate; auto.
  - destruct (calm_step _ _ _ I eq_refl L1 L2 S) as (H' & K). split; [rewrite H'; constructor|]. destruct K as [[E1 E2]|[K|K]]; cbn in *; [rewrite E1, E2; exact A| |].
    + unfold alive in K. intros E. rewrite E in K. exfalso. apply K. split; discriminate.
    + inversion K; subst; cbn in *; intros; try discriminate; auto.
Qed.
Lemma stop_spares_saving_lemma : forall c ls c', reachable c -> back c = BSolve -> Forall (fun h => h = HStopSolving \/ h = HClear) (handlers c) ->
  steps c ls c' -> same_run ls -> ~ In Signal ls -> ~ In (ConcludeRead false) ls.
Proof.
  intros c ls c' R B H S N1 N2. pose proof (reachable_inv c R) as I. assert (J : saving_untouched c) by (split; [exact H|congruence]). clear R B H.
  revert I J N1 N2. induction S as [|c l c1 ls c2 S1 S2 IH]; intros I J N1 N2; [auto|].
  assert (L1 : l <> Signal) by (intros ->; apply N2; left; reflexivity). assert (L2 : l <> Started) by (intros ->; apply N1; left; reflexivity).
  intros [X|X].
  - destruct J as [_ A]. subst l. inversion S1; subst; cbn in *; [match goal with W : work _ _ _ _ _ |- _ => inversion W; subst; clear W end|match goal with M : move _ _ _ _ _ _ _ |- _ => inversion M end].
    rewrite A in * by reflexivity. discriminate.
  - revert X. apply IH; [exact (step_inv _ _ _ I S1)|exact (saving_untouched_step _ _ _ I J L1 L2 S1)|intros Y; apply N1; right; exact Y|intros Y; apply N2; right; exact Y].
Qed.
(** a handler that is about to clear self.solving *)
Definition about_to_stop : conf := MkConf (set_solving true fl1) MLoop [HStopSolving] BSolve.
Lemma about_to_stop_reachable : reachable about_to_stop.
Proof.
  destruct just_started_reachable as [ls S]. exists (ls ++ [Quiet; Signal; Quiet; Quiet]). eapply steps_app; [exact S|].
  eapply steps_cons; [apply step_work, work_start|]. eapply steps_cons; [apply step_signal; reflexivity|].
  eapply steps_cons; [eapply step_handle, handle_running; reflexivity|]. apply steps_one. eapply (step_handle _ _ _ [] _ _ (Some HStopSolving)), handle_solving. reflexivity.
Qed.
(** the search ends by itself while the handler is at work *)
Definition searching : conf := MkConf (set_solving true fl1) MLoop [] BSolve.
Lemma searching_reachable : reachable searching.
Proof. destruct just_started_reachable as [ls S]. exists (ls ++ [Quiet]). eapply steps_app; [exact S|]. apply steps_one, step_work, work_start. Qed.
Lemma stop_spares_saving_refuted_lemma : ~ (forall c c1 ls c2, reachable c -> back c = BSolve -> handlers c = [] -> step c Signal c1 -> steps c1 ls c2 -> same_run ls -> ~ In Signal ls ->
  ~ In (ConcludeRead false) ls).
Proof.
  intros H. set (f := set_concluding true (set_done_solving true (set_solving false (set_solving true fl1)))).
  refine (H searching (MkConf (set_solving true fl1) MLoop [HRunning] BSolve) (repeat Quiet 9 ++ [ConcludeRead false]) (MkConf (set_concluding false f) MLoop [] BConclude) searching_reachable eq_refl eq_refl _ _ _ _ _).
  - apply step_signal. reflexivity.
  - cbn. eapply steps_cons; [eapply step_handle, handle_running; reflexivity|]. cbn.
    eapply steps_cons; [apply step_work, work_solve_returns|]. eapply steps_cons; [apply step_work, work_solved|]. eapply steps_cons; [apply step_work, work_done_solving|].
    eapply steps_cons; [apply step_work, work_set_concluding|]. fold f.
    eapply steps_cons; [eapply step_handle, handle_not_solving; reflexivity|]. cbn. eapply steps_cons; [eapply step_handle, handle_done; reflexivity|]. cbn.
    eapply steps_cons; [eapply step_handle, handle_concluding; reflexivity|]. cbn. eapply steps_cons; [eapply step_handle, handle_stop_concluding|]. cbn.
    eapply steps_cons; [apply step_work, (work_read_concluding (set_concluding false f))|]. apply steps_nil.
  - intros I. cbn in I. repeat (destruct I as [I|I]; [discriminate|]). exact I.
  - intros I. cbn in I. repeat (destruct I as [I|I]; [discriminate|]). exact I.
  - cbn. auto 12.
Qed.
