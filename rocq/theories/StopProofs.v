(** What a stop of the search does: an operation is only applied after a read of
    self.solving that gave True, and a search stopped later has done the same
    things and more. *)
From Verif Require Import Base Cost Utils Fractions Load LoadSpec LoadProofs Tree TreeSpec
  Search SearchSpec SearchGen SearchInit SearchInv SearchProofs.
From Coq Require Import QArith.
Open Scope Z_scope.

(** ** Functions that keep a property of the state *)
Section Keeps.
Variable P : state -> Prop.
Definition keeps {A} (m : M A) : Prop := forall s, P s -> P (snd (m s)).
Lemma keeps_ret {A} (a : A) : keeps (ret a).
Proof. intros s H. exact H. Qed.
Lemma keeps_raise {A} e : keeps (@raise A e).
Proof. intros s H. exact H. Qed.
Lemma keeps_lift {A} (r : res A) : keeps (lift r).
Proof. intros s H. exact H. Qed.
Lemma keeps_gets {A} (f : state -> A) : keeps (gets f).
Proof. intros s H. exact H. Qed.
Lemma keeps_bind {A B} (m : M A) (k : A -> M B) : keeps m -> (forall a, keeps (k a)) -> keeps (mbind m k).
Proof. intros Hm Hk s H. unfold mbind. specialize (Hm s H). destruct (m s) as [[a|e] s']; [apply Hk, Hm|exact Hm]. Qed.
Lemma keeps_for_each {A S} (body : A -> S -> M (option S)) l : (forall a x, keeps (body a x)) -> forall x, keeps (for_each body l x).
Proof.
  intros Hb. induction l as [|a l IH]; intros x; [apply keeps_ret|]. cbn [for_each]. apply keeps_bind; [apply Hb|].
  intros [y|]; [apply IH|apply keeps_ret].
Qed.
End Keeps.

Ltac keep1 := match goal with
  | |- keeps _ (mbind _ _) => apply keeps_bind; [|intros ?]
  | |- keeps _ (ret _) => apply keeps_ret
  | |- keeps _ (raise _) => apply keeps_raise
  | |- keeps _ (lift _) => apply keeps_lift
  | |- keeps _ (gets _) => apply keeps_gets
  | |- keeps _ (already_seen _ _) => apply keeps_gets
  | |- keeps _ (for_each _ _ _) => apply keeps_for_each; intros ? ?
  | |- keeps _ (match ?x with _ => _ end) => destruct x
  | H : forall _ _ _, keeps _ _ |- _ => apply H
  | |- _ => assumption
  end.

Section Generators.
Variables (R : oracle) (p : problem) (P : state -> Prop).
Hypothesis read : keeps P (read_solving R).
Lemma extract_sims_keeps t cu y : (forall sim o c, keeps P (y sim o c)) -> keeps P (extract_sims R p t cu y).
Proof. intros Y. unfold extract_sims. repeat keep1. Qed.
Lemma divide_sims_keeps t cu y : (forall sim o c, keeps P (y sim o c)) -> keeps P (divide_sims R p t cu y).
Proof. intros Y. unfold divide_sims. repeat keep1. Qed.
Lemma merge_sims_keeps t cu y : (forall sim o c, keeps P (y sim o c)) -> keeps P (merge_sims R p t cu y).
Proof. intros Y. unfold merge_sims. repeat keep1. Qed.
Lemma split_sims_keeps t cu y : (forall sim o c, keeps P (y sim o c)) -> keeps P (split_sims R p t cu y).
Proof. intros Y. unfold split_sims. repeat keep1. Qed.
Hypothesis step : forall t sim o c, keeps P (try_body R p t sim o c).
Lemma explore_keeps t : keeps P (explore R p t).
Proof.
  assert (E := fun cu => extract_sims_keeps t cu _ (step t)). assert (D := fun cu => divide_sims_keeps t cu _ (step t)).
  assert (S := fun cu => split_sims_keeps t cu _ (step t)). assert (Me := fun cu => merge_sims_keeps t cu _ (step t)).
  unfold explore, try_op. repeat (keep1 || apply E || apply D || apply S || apply Me).
Qed.
End Generators.

(** ** Reads *)
Section Reads.
Variables (R : oracle) (p : problem) (n : nat).
Definition since (s : state) : Prop := (n <= s_reads s)%nat.
Lemma since_modify f : (forall s, (s_reads s <= s_reads (f s))%nat) -> keeps since (modify f).
Proof. intros H s L. unfold since in *. cbn. specialize (H s). lia. Qed.
Lemma since_read : keeps since (read_solving R).
Proof. intros s L. unfold since in *. cbn. lia. Qed.
Ltac since1 := keep1 || apply since_read || (apply since_modify; intros ?; cbn; lia).
Lemma since_purge_loop i : keeps since (purge_loop R i).
Proof. induction i as [|i IH]; cbn [purge_loop]; repeat since1; exact IH. Qed.
Lemma since_any_same u l : keeps since (any_same R u l).
Proof. induction l as [|x l IH]; cbn [any_same]; repeat since1; exact IH. Qed.
Lemma since_enqueue t : keeps since (enqueue R p t).
Proof. unfold enqueue, solution_found, purge_queue. repeat (since1 || apply since_any_same || apply since_purge_loop). Qed.
Lemma since_try_body t sim o c : keeps since (try_body R p t sim o c).
Proof. unfold try_body. repeat (since1 || apply since_enqueue). Qed.
Lemma since_explore t : keeps since (explore R p t).
Proof. apply explore_keeps; [exact since_read|exact since_try_body]. Qed.
Lemma since_dequeue : keeps since (dequeue R).
Proof. unfold dequeue, pop_at. repeat since1. Qed.
End Reads.

(** ** A stopped search ends *)
Lemma dequeue_none R s s' : dequeue R s = (Ok None, s') -> s_reads s' = S (s_reads s) /\
  (s_forced_stop s = false -> forall k, o_stop R = Some k -> (k <= s_reads s)%nat).
Proof.
  unfold dequeue, pop_at, mbind, read_solving, gets, lift, modify, ret. cbn [fst snd]. set (s1 := with_counters (S (s_reads s)) _ _ _ s).
  destruct (negb (s_forced_stop s) && _) eqn:EB; cbn [negb].
  - intros E. exfalso. destruct ((length (s_queue s1) <? 3)%nat || _) eqn:EC; match type of E with context [list_pop ?a ?b] => destruct (list_pop a b) as [[? ?]|] end; discriminate.
  - intros E. injection E as <-. split; [reflexivity|]. intros E1 k Ek. rewrite E1, Ek in EB. cbn in EB. apply Nat.ltb_ge in EB. exact EB.
Qed.
Lemma solve_loop_stopped p (F : loaded_facts p) R k : o_stop R = Some k -> forall fuel s, Inv p s -> (0 < fuel)%nat -> (k < fuel + s_reads s)%nat ->
  match solve_loop R p fuel s with
  | (Ok _, _) => True
  | (Err e, s') => e = TypeError /\ s_reads s' = S k
  end.
Proof.
  intros ES. set (K := (3 * total p + 2 ^ total p * total p)%nat). assert (HK : (3 * total p + 2 ^ total p * total p <= K)%nat) by apply le_n.
  induction fuel as [|fuel IH]; intros s I L0 L; [lia|].
  cbn [solve_loop]. unfold mbind at 1, read_solving at 1, gets, ret. set (s1 := with_counters _ _ _ _ s). assert (I1 : Inv p s1) by exact I.
  rewrite ES. destruct (negb (s_forced_stop s)) eqn:EF; cbn [andb negb]; [|exact Logic.I].
  destruct (s_reads s <? k)%nat eqn:ER; cbn [negb]; [|exact Logic.I]. apply Nat.ltb_lt in ER.
  unfold mbind at 1. destruct (s_queue s1) as [|e0 q0] eqn:EQ; [exact Logic.I|]. assert (NE : s_queue s1 <> []) by congruence.
  unfold mbind at 1. destruct (dequeue_cases R s1 NE) as [(r & E & NN)|(r & c & n & x & E & EN & _)].
  - apply dequeue_none in E as D. rewrite E. unfold raise. split; [reflexivity|]. destruct D as [D1 D2]. rewrite D1. f_equal.
    specialize (D2 (iv_forced _ _ _ _ _ _ _ _ I1) k ES). cbn [s1 with_counters s_reads] in *. lia.
  - assert (R2 : since (S (s_reads s)) (snd (dequeue R s1))) by (apply since_dequeue; unfold since; cbn; lia).
    rewrite E in *. cbn [snd] in R2. set (s2 := with_counters r _ c _ _) in *. destruct x as [t sc].
    assert (I2 : Inv p s2).
    { unfold Inv. cbn [s2 with_counters with_queue s_heap s_queue s_best_size s_solutions s_solutions_count s_forced_stop s_log].
      apply (queue_sub p _ (s_queue s1)); [|apply (sorted_pop _ n _ _ EN), (iv_sorted _ _ _ _ _ _ _ _ I1)|exact I1].
      intros e. rewrite (pop_split _ _ _ EN) at 3. rewrite !in_app_iff. cbn [In]. tauto. }
    assert (It : In t (explored p (s_log s2))).
    { pose proof (iv_queue _ _ _ _ _ _ _ _ I1) as QU. rewrite Forall_forall in QU. apply (QU (t, sc)). apply (nth_error_In _ _ EN). }
    pose proof (explore_ok p F K R t HK s2 I2 It) as EX. unfold wp in EX.
    pose proof (since_explore R p _ t s2 R2) as R3. unfold mbind at 1.
    destruct (explore R p t s2) as [[go|e] s3]; [|contradiction]. destruct EX as (I3 & _ & _). cbn [snd] in R3. unfold since in R3.
    destruct go; [|exact Logic.I]. apply IH; [exact I3|lia|lia].
Qed.
Lemma stopped_search_ends_lemma : forall p R k fuel, loaded p -> o_stop R = Some k -> (k < fuel)%nat ->
  match solve R fuel p with
  | (Ok _, _) => True
  | (Err e, s) => e = TypeError /\ s_reads s = S k
  end.
Proof.
  intros p R k fuel LD ES L. pose proof (loaded_ok p LD) as F. unfold solve, mbind.
  pose proof (enqueue_ok p O R (snd (initial_tree p)) (initial_state p) (initial_inv p F)) as EN. unfold wp in EN.
  destruct (enqueue R p (snd (initial_tree p)) (initial_state p)) as [[u|e] s1].
  - destruct EN as (I1 & _); [left; reflexivity|constructor|apply (lf_initial p F)|]. apply (solve_loop_stopped p F R k ES); [exact I1|lia|lia].
  - exfalso. apply EN; [left; reflexivity|constructor|apply (lf_initial p F)].
Qed.

(** ** An operation follows a read that gave True *)
Section Bounded.
Variables (R : oracle) (p : problem) (k : nat).
Hypothesis stop : o_stop R = Some k.
Definition bounded (s : state) : Prop := (length (s_log s) <= Nat.min k (s_reads s))%nat.
Lemma bounded_modify f : (forall s, s_reads (f s) = s_reads s /\ s_log (f s) = s_log s) -> keeps bounded (modify f).
Proof. intros H s B. unfold bounded in *. cbn. destruct (H s) as [-> ->]. exact B. Qed.
Lemma bounded_read : keeps bounded (read_solving R).
Proof. intros s B. unfold bounded in *. cbn [read_solving snd with_counters s_log s_reads]. lia. Qed.
Ltac bounded1 := keep1 || apply bounded_read || (apply bounded_modify; intros ?; split; reflexivity).
Lemma bounded_purge_loop i : keeps bounded (purge_loop R i).
Proof. induction i as [|i IH]; cbn [purge_loop]; repeat bounded1; exact IH. Qed.
Lemma bounded_any_same u l : keeps bounded (any_same R u l).
Proof. induction l as [|x l IH]; cbn [any_same]; repeat bounded1; exact IH. Qed.
Lemma bounded_enqueue t : keeps bounded (enqueue R p t).
Proof. unfold enqueue, solution_found, purge_queue. repeat (bounded1 || apply bounded_any_same || apply bounded_purge_loop). Qed.
Lemma bounded_try_body t sim o c : keeps bounded (try_body R p t sim o c).
Proof.
  intros s B. unfold try_body, mbind at 1, read_solving. set (s1 := with_counters _ _ _ _ s).
  assert (B1 : bounded s1) by (apply (bounded_read s B)). rewrite stop. destruct (negb (s_forced_stop s)); cbn [andb negb]; [|exact B1].
  destruct (s_reads s <? k)%nat eqn:E; cbn [negb]; [|exact B1]. apply Nat.ltb_lt in E.
  unfold mbind, gets, lift, modify, ret. destruct (apply_op (s_heap s1) t o c) as [[h' new]|e]; [|exact B1].
  set (s2 := with_log _ _). assert (B2 : bounded s2) by (unfold bounded in *; cbn in *; lia).
  pose proof (bounded_enqueue new s2 B2) as B3. destruct (enqueue R p new s2) as [[[]|e] s3]; exact B3.
Qed.
Lemma bounded_explore t : keeps bounded (explore R p t).
Proof. apply explore_keeps; [exact bounded_read|exact bounded_try_body]. Qed.
Lemma bounded_dequeue : keeps bounded (dequeue R).
Proof. unfold dequeue, pop_at. repeat bounded1. Qed.
Lemma bounded_solve_loop fuel : keeps bounded (solve_loop R p fuel).
Proof. induction fuel as [|fuel IH]; cbn [solve_loop]; repeat (bounded1 || apply bounded_dequeue || apply bounded_explore); exact IH. Qed.
End Bounded.
Lemma stop_bounds_work_lemma : forall p R k fuel, o_stop R = Some k -> (length (s_log (snd (solve R fuel p))) <= k)%nat.
Proof.
  intros p R k fuel ES. assert (B : bounded k (snd (solve R fuel p))); [|unfold bounded in B; lia].
  unfold solve. apply (keeps_bind (bounded k)); [apply bounded_enqueue|intros _; apply (bounded_solve_loop R p k ES)|].
  unfold bounded. cbn. lia.
Qed.

(** ** Stopping later *)

(** what can happen to the log and the solutions during a search *)
Inductive evolves : state -> state -> Prop :=
| evolves_same s s' : s_log s' = s_log s -> s_solutions s' = s_solutions s -> s_solutions_count s' = s_solutions_count s ->
    s_best_size s' = s_best_size s -> evolves s s'
| evolves_log e s : evolves s (with_log (e :: s_log s) s)
| evolves_better t s : s_solutions_count s = 0 \/ t_size t < s_best_size s -> evolves s (with_solutions [t] 1 (t_size t) s)
| evolves_equal t s : s_solutions_count s <> 0 -> evolves s (with_solutions (s_solutions s ++ [t]) (s_solutions_count s + 1) (s_best_size s) s)
| evolves_trans a b c : evolves a b -> evolves b c -> evolves a c.

Lemma evolves_refl s : evolves s s.
Proof. apply evolves_same; reflexivity. Qed.
Lemma evolves_facts s s' : evolves s s' -> (exists l, s_log s' = l ++ s_log s) /\
  (0 < s_solutions_count s -> 0 < s_solutions_count s' /\
     (s_best_size s' < s_best_size s \/ (s_best_size s' = s_best_size s /\ exists l, s_solutions s' = s_solutions s ++ l))) /\
  (s_solutions_count s = 0 -> (s_solutions_count s' = 0 /\ s_best_size s' = s_best_size s) \/ 0 < s_solutions_count s').
Proof.
  induction 1 as [s s' E1 E2 E3 E4|e s|t s D|t s D|a b c _ IH1 _ IH2].
  - split; [exists []; exact E1|]. split; [|rewrite E3, E4; auto]. intros P. rewrite E3. split; [exact P|]. right. split; [exact E4|]. exists []. rewrite app_nil_r. exact E2.
  - cbn. split; [exists [e]; reflexivity|]. split; [|auto]. intros P. split; [exact P|]. right. split; [reflexivity|]. exists []. symmetry. apply app_nil_r.
  - cbn. split; [exists []; reflexivity|]. split; [|right; lia]. intros P. split; [lia|]. left. lia.
  - cbn. split; [exists []; reflexivity|]. split; [|intros; lia]. intros P. split; [lia|]. right. split; [reflexivity|]. exists [t]. reflexivity.
  - destruct IH1 as ((l1 & L1) & B1 & C1), IH2 as ((l2 & L2) & B2 & C2).
    split; [exists (l2 ++ l1); rewrite L2, L1; apply app_assoc|]. split.
    + intros P. destruct (B1 P) as (P1 & D1). destruct (B2 P1) as (P2 & D2). split; [exact P2|].
      destruct D1 as [D1|[D1 (m1 & M1)]], D2 as [D2|[D2 (m2 & M2)]]; try (left; lia). right. split; [lia|]. exists (m1 ++ m2). rewrite M2, M1, app_assoc. reflexivity.
    + intros Z. destruct (C1 Z) as [[Z1 E1]|P1].
      * destruct (C2 Z1) as [[Z2 E2]|P2]; [left; split; [exact Z2|congruence]|right; exact P2].
      * right. apply B2, P1.
Qed.

Section Evolves.
Variables (R : oracle) (p : problem) (s0 : state).
Definition since_s0 (s : state) : Prop := evolves s0 s.
Lemma ev_modify f : (forall s, evolves s (f s)) -> keeps since_s0 (modify f).
Proof. intros H s E. cbn. eapply evolves_trans; [exact E|apply H]. Qed.
Ltac ev1 := keep1 || (apply ev_modify; intros ?; apply evolves_same; reflexivity).
Lemma ev_read : keeps since_s0 (read_solving R).
Proof. intros s E. cbn. eapply evolves_trans; [exact E|apply evolves_same; reflexivity]. Qed.
Lemma ev_purge_loop i : keeps since_s0 (purge_loop R i).
Proof. induction i as [|i IH]; cbn [purge_loop]; repeat (ev1 || apply ev_read); exact IH. Qed.
Lemma ev_any_same u l : keeps since_s0 (any_same R u l).
Proof. induction l as [|x l IH]; cbn [any_same]; repeat ev1; exact IH. Qed.
Lemma ev_solution_found t : keeps since_s0 (solution_found R t).
Proof.
  intros s E. unfold solution_found, mbind, gets, modify, ret. destruct ((s_solutions_count s =? 0) || (t_size t <? s_best_size s)) eqn:EC.
  - cbn [snd]. eapply evolves_trans; [exact E|]. apply evolves_better. apply orb_true_iff in EC. rewrite Z.eqb_eq, Z.ltb_lt in EC. exact EC.
  - destruct (t_size t =? s_best_size s).
    + destruct (any_same_ok R t (s_solutions s) s) as (b & n & ->). set (s1 := with_counters _ _ _ _ s).
      assert (E1 : evolves s0 s1) by (eapply evolves_trans; [exact E|apply evolves_same; reflexivity]).
      destruct b; [exact E1|]. cbn [snd]. eapply evolves_trans; [exact E1|]. apply (evolves_equal t s1). cbn. apply orb_false_iff in EC. lia.
    + cbn [snd]. eapply evolves_trans; [exact E|apply evolves_same; reflexivity].
Qed.
Lemma ev_enqueue t : keeps since_s0 (enqueue R p t).
Proof. unfold enqueue, purge_queue. repeat (ev1 || apply ev_read || apply ev_solution_found || apply ev_purge_loop). Qed.
Lemma ev_try_body t sim o c : keeps since_s0 (try_body R p t sim o c).
Proof. unfold try_body. repeat (ev1 || apply ev_read || apply ev_enqueue || (apply ev_modify; intros ?; apply evolves_log)). Qed.
Lemma ev_explore t : keeps since_s0 (explore R p t).
Proof. apply explore_keeps; [exact ev_read|exact ev_try_body]. Qed.
Lemma ev_dequeue : keeps since_s0 (dequeue R).
Proof. unfold dequeue, pop_at. repeat (ev1 || apply ev_read). Qed.
Lemma ev_solve_loop fuel : keeps since_s0 (solve_loop R p fuel).
Proof. induction fuel as [|fuel IH]; cbn [solve_loop]; repeat (ev1 || apply ev_read || apply ev_dequeue || apply ev_explore); exact IH. Qed.
End Evolves.
(** the functions of the search as they are with an oracle *)
Definition raw {A} (m : M A) : Prop := forall s, evolves s (snd (m s)).
Lemma raw_keeps {A} (m : M A) : (forall s0, keeps (since_s0 s0) m) -> raw m.
Proof. intros H s. apply (H s s), evolves_refl. Qed.

Section Quiet.
Variables (R : oracle) (p : problem) (k : nat) (s0 : state).
Hypothesis stop : o_stop R = Some k.
(** self.solving has been read as False, and nothing has happened since [s0] *)
Definition halted (s : state) : Prop := (k < s_reads s)%nat /\ s_log s = s_log s0 /\ s_solutions s = s_solutions s0 /\
  s_solutions_count s = s_solutions_count s0 /\ s_best_size s = s_best_size s0.
Lemma halted_read s : halted s -> exists s', read_solving R s = (Ok false, s') /\ halted s'.
Proof.
  intros (L & H). eexists. unfold read_solving. rewrite stop. replace (s_reads s <? k)%nat with false by (symmetry; apply Nat.ltb_ge; lia). rewrite andb_false_r.
  split; [reflexivity|]. split; [cbn; lia|]. exact H.
Qed.
Lemma halted_keep_read : keeps halted (read_solving R).
Proof. intros s H. destruct (halted_read s H) as (s' & E & H'). rewrite E. exact H'. Qed.
Lemma halted_guard {A} (d r : M A) : keeps halted d -> keeps halted (mbind (read_solving R) (fun b => if negb b then d else r)).
Proof. intros D s H. unfold mbind. destruct (halted_read s H) as (s' & -> & H'). apply D, H'. Qed.
Lemma halted_try_body t sim o c : keeps halted (try_body R p t sim o c).
Proof. apply halted_guard, keeps_ret. Qed.
Lemma halted_enqueue t : keeps halted (enqueue R p t).
Proof. apply halted_guard, keeps_ret. Qed.
Lemma halted_purge_loop i : keeps halted (purge_loop R i).
Proof. destruct i; cbn [purge_loop]; [apply keeps_ret|]. apply halted_guard, keeps_ret. Qed.
Lemma halted_explore t : keeps halted (explore R p t).
Proof. apply explore_keeps; [exact halted_keep_read|exact halted_try_body]. Qed.
Lemma halted_solve_loop fuel : keeps halted (solve_loop R p fuel).
Proof. destruct fuel; cbn [solve_loop]; [apply keeps_raise|]. apply halted_guard, keeps_ret. Qed.
End Quiet.

Section Sim.
Variables (R : oracle) (p : problem) (k : nat) (k' : option nat).
Hypothesis NB : not_before k k'.
Notation R1 := (stop_at R (Some k)).
Notation R2 := (stop_at R k').
Definition quiet {A} (m : M A) : Prop := forall s0, keeps (halted k s0) m.
(** both do the same, or the first has been stopped and the second has gone on *)
Definition sim {A} (m1 m2 : M A) : Prop := forall s, (s_reads s <= k)%nat ->
  (m1 s = m2 s /\ (s_reads (snd (m1 s)) <= k)%nat) \/
  ((k < s_reads (snd (m1 s)))%nat /\ evolves (snd (m1 s)) (snd (m2 s))).

Lemma quiet_evolves {A} (m : M A) s : quiet m -> (k < s_reads s)%nat -> (k < s_reads (snd (m s)))%nat /\ evolves (snd (m s)) s.
Proof.
  intros Q L. destruct (Q s s) as (L' & E1 & E2 & E3 & E4); [repeat split; auto|]. split; [exact L'|]. apply evolves_same; congruence.
Qed.
Lemma quiet_bind {A B} (m : M A) (f : A -> M B) : quiet m -> (forall a, quiet (f a)) -> quiet (mbind m f).
Proof. intros Qm Qf s0. apply keeps_bind; [apply Qm|intros a; apply Qf]. Qed.
Lemma raw_bind {A B} (m : M A) (f : A -> M B) : raw m -> (forall a, raw (f a)) -> raw (mbind m f).
Proof.
  intros Hm Hf s. unfold mbind. specialize (Hm s). destruct (m s) as [[a|e] s']; [|exact Hm]. eapply evolves_trans; [exact Hm|apply Hf].
Qed.
Lemma sim_bind {A B} (m1 m2 : M A) (f1 f2 : A -> M B) : sim m1 m2 -> (forall a, sim (f1 a) (f2 a)) -> (forall a, quiet (f1 a)) -> (forall a, raw (f2 a)) ->
  sim (mbind m1 f1) (mbind m2 f2).
Proof.
  intros Hm Hf Q W s L. unfold mbind. destruct (Hm s L) as [[E L1]|[L1 E]].
  - rewrite <- E. destruct (m1 s) as [[a|e] s1]; [apply Hf, L1|left; auto].
  - right. destruct (m1 s) as [r1 s1], (m2 s) as [r2 s2]. cbn [snd] in *.
    assert (X : evolves s1 (snd (match r2 with Ok a => f2 a s2 | Err e => (Err e, s2) end))) by (destruct r2; [eapply evolves_trans; [exact E|apply W]|exact E]).
    destruct r1 as [a|e]; [|split; [exact L1|exact X]].
    destruct (quiet_evolves (f1 a) s1 (Q a) L1) as [L2 E2]. split; [exact L2|]. eapply evolves_trans; [exact E2|exact X].
Qed.
(** the first part does not read self.solving *)
Lemma sim_pure {A B} (m1 m2 : M A) (f1 f2 : A -> M B) : (forall s, m1 s = m2 s) -> (forall s, s_reads (snd (m1 s)) = s_reads s) -> (forall a, sim (f1 a) (f2 a)) ->
  sim (mbind m1 f1) (mbind m2 f2).
Proof.
  intros E L Hf s Ls. unfold mbind. rewrite <- E. specialize (L s). destruct (m1 s) as [[a|e] s1]; cbn [snd] in *.
  - apply Hf. lia.
  - left. split; [reflexivity|]. cbn. lia.
Qed.
Lemma sim_same {A} (m : M A) : (forall s, s_reads (snd (m s)) = s_reads s) -> sim m m.
Proof. intros H s L. left. split; [reflexivity|]. rewrite H. exact L. Qed.
Lemma read_cases s : (s_reads s <= k)%nat -> exists s', s_reads s' = S (s_reads s) /\ evolves s s' /\
  ((exists b, read_solving R1 s = (Ok b, s') /\ read_solving R2 s = (Ok b, s') /\ (s_reads s' <= k)%nat) \/
   ((k < s_reads s')%nat /\ read_solving R1 s = (Ok false, s') /\ exists b, read_solving R2 s = (Ok b, s'))).
Proof.
  intros L. exists (with_counters (S (s_reads s)) (s_scores s) (s_picks s) (s_sames s) s). split; [reflexivity|]. split; [apply evolves_same; reflexivity|].
  unfold read_solving. cbn [stop_at o_stop with_counters s_reads]. destruct (le_lt_dec k (s_reads s)) as [Lk|Lk].
  - right. split; [lia|]. replace (s_reads s <? k)%nat with false by (symmetry; apply Nat.ltb_ge; lia). rewrite andb_false_r. split; [reflexivity|]. eexists. reflexivity.
  - left. replace (s_reads s <? k)%nat with true by (symmetry; apply Nat.ltb_lt; lia). eexists. split; [reflexivity|]. split; [|lia].
    destruct k' as [j|]; [|reflexivity]. cbn in NB. replace (s_reads s <? j)%nat with true by (symmetry; apply Nat.ltb_lt; lia). reflexivity.
Qed.
Lemma sim_read : sim (read_solving R1) (read_solving R2).
Proof.
  intros s L. destruct (read_cases s L) as (s' & E & V & [(b & E1 & E2 & L')|(L' & E1 & b & E2)]); rewrite E1, E2; cbn [snd]; [left; auto|].
  right. split; [exact L'|apply evolves_refl].
Qed.
Lemma sim_guard {A} (d : A) (r1 r2 : M A) : sim r1 r2 -> raw r2 ->
  sim (mbind (read_solving R1) (fun b => if negb b then ret d else r1)) (mbind (read_solving R2) (fun b => if negb b then ret d else r2)).
Proof.
  intros Hr W s L. unfold mbind. destruct (read_cases s L) as (s' & E & V & [(b & E1 & E2 & L')|(L' & E1 & b & E2)]); rewrite E1, E2.
  - destruct b; cbn [negb]; [apply Hr, L'|left; auto].
  - right. cbn [negb ret snd]. split; [exact L'|]. destruct b; cbn [negb ret snd]; [apply W|apply evolves_refl].
Qed.
Lemma sim_for_each {A S} (b1 b2 : A -> S -> M (option S)) l : (forall a x, sim (b1 a x) (b2 a x)) -> (forall a x, quiet (b1 a x)) -> (forall a x, raw (b2 a x)) ->
  forall x, sim (for_each b1 l x) (for_each b2 l x).
Proof.
  intros Hs Q W. induction l as [|a l IH]; intros x; [apply sim_same; reflexivity|]. cbn [for_each]. apply sim_bind; [apply Hs| | |].
  - intros [y|]; [apply IH|apply sim_same; reflexivity].
  - intros [y|] s0; [|apply keeps_ret]. apply keeps_for_each. intros b z. apply Q.
  - intros [y|]; [|intros s; apply evolves_refl]. apply raw_keeps. intros s0. apply keeps_for_each. intros b z s E. eapply evolves_trans; [exact E|apply W].
Qed.
Lemma raw_ret {A} (a : A) : raw (ret a).
Proof. intros s. apply evolves_refl. Qed.
Lemma raw_gets {A} (f : state -> A) : raw (gets f).
Proof. intros s. apply evolves_refl. Qed.
Lemma raw_lift {A} (r : res A) : raw (lift r).
Proof. intros s. apply evolves_refl. Qed.
Lemma raw_read : raw (read_solving R2).
Proof. intros s. apply evolves_same; reflexivity. Qed.
Lemma raw_for_each {A S} (b : A -> S -> M (option S)) l : (forall a x, raw (b a x)) -> forall x, raw (for_each b l x).
Proof. intros H x. apply raw_keeps. intros s0. apply keeps_for_each. intros a y s E. eapply evolves_trans; [exact E|apply H]. Qed.

Ltac raw1 := match goal with
  | |- raw (mbind _ _) => apply raw_bind; [|intros ?]
  | |- raw (ret _) => apply raw_ret
  | |- raw (gets _) => apply raw_gets
  | |- raw (already_seen _ _) => apply raw_gets
  | |- raw (lift _) => apply raw_lift
  | |- raw (read_solving _) => apply raw_read
  | |- raw (for_each _ _ _) => apply raw_for_each; intros ? ?
  | |- raw (match ?x with _ => _ end) => destruct x
  | H : forall _ _ _, raw _ |- _ => apply H
  end.
Ltac quiet1 := match goal with
  | |- quiet _ => intros ?
  | |- keeps _ (mbind (read_solving _) (fun b => if negb b then _ else _)) => apply halted_guard; [reflexivity|apply keeps_ret]
  | H : forall _ _ _, quiet _ |- keeps _ _ => apply H
  | |- _ => keep1
  end.
Ltac sim1 := match goal with
  | |- sim (mbind (read_solving _) (fun b => if negb b then _ else _)) _ => apply sim_guard; [|solve [repeat raw1]]
  | |- sim (mbind (gets _) _) _ => apply sim_pure; [reflexivity|reflexivity|intros ?]
  | |- sim (mbind (lift _) _) _ => apply sim_pure; [reflexivity|reflexivity|intros ?]
  | |- sim (mbind (already_seen _ _) _) _ => apply sim_pure; [reflexivity|reflexivity|intros ?]
  | |- sim (mbind _ _) _ => apply sim_bind; [| |intros ?; solve [repeat quiet1]|intros ?; solve [repeat raw1]]; [|intros ?]
  | |- sim (ret _) _ => apply sim_same; reflexivity
  | |- sim (for_each _ _ _) _ => apply sim_for_each; intros ? ?; [|solve [repeat quiet1]|solve [repeat raw1]]
  | |- sim (match ?x with _ => _ end) _ => destruct x
  | H : forall _ _ _, sim _ _ |- _ => apply H
  end.
Section Sims.
Variables (t : tree Z) (cu : list Z) (y1 y2 : list Z -> op -> Z -> M bool).
Hypothesis Ys : forall sim0 o c, sim (y1 sim0 o c) (y2 sim0 o c).

Hypothesis Yr : forall sim0 o c, raw (y2 sim0 o c).
Lemma extract_sims_sim : sim (extract_sims R1 p t cu y1) (extract_sims R2 p t cu y2).
Proof. unfold extract_sims. repeat sim1. Qed.
Lemma divide_sims_sim : sim (divide_sims R1 p t cu y1) (divide_sims R2 p t cu y2).
Proof. unfold divide_sims. repeat sim1. Qed.
Lemma split_sims_sim : sim (split_sims R1 p t cu y1) (split_sims R2 p t cu y2).
Proof. unfold split_sims. repeat sim1. Qed.
Lemma merge_sims_sim : sim (merge_sims R1 p t cu y1) (merge_sims R2 p t cu y2).
Proof. unfold merge_sims. repeat sim1. Qed.
End Sims.

Lemma raw_purge_loop i : raw (purge_loop R2 i).
Proof. apply raw_keeps. intros s0. apply ev_purge_loop. Qed.
Lemma raw_enqueue t : raw (enqueue R2 p t).
Proof. apply raw_keeps. intros s0. apply ev_enqueue. Qed.
Lemma raw_try_body t sim0 o c : raw (try_body R2 p t sim0 o c).
Proof. apply raw_keeps. intros s0. apply ev_try_body. Qed.
Lemma raw_explore t : raw (explore R2 p t).
Proof. apply raw_keeps. intros s0. apply ev_explore. Qed.
Lemma raw_dequeue : raw (dequeue R2).
Proof. apply raw_keeps. intros s0. apply ev_dequeue. Qed.
Lemma raw_solve_loop fuel : raw (solve_loop R2 p fuel).
Proof. apply raw_keeps. intros s0. apply ev_solve_loop. Qed.
Lemma raw_modify f : (forall s, evolves s (f s)) -> raw (modify f).
Proof. intros H s. apply H. Qed.
Lemma raw_modify_same f : (forall s, s_log (f s) = s_log s /\ s_solutions (f s) = s_solutions s /\ s_solutions_count (f s) = s_solutions_count s /\ s_best_size (f s) = s_best_size s) ->
  raw (modify f).
Proof. intros H s. destruct (H s) as (A & B & C & D). apply evolves_same; assumption. Qed.

Ltac raw2 := raw1 || apply raw_purge_loop || apply raw_enqueue || apply raw_explore || apply raw_dequeue || apply raw_solve_loop ||
  (apply raw_keeps; intros ?; solve [apply ev_solution_found]) || (apply raw_modify_same; intros ?; repeat split; reflexivity) || (apply raw_modify; intros ?; apply evolves_log).

Lemma purge_loop_sim i : sim (purge_loop R1 i) (purge_loop R2 i).
Proof.
  induction i as [|i IH]; cbn [purge_loop]; [apply sim_same; reflexivity|]. apply sim_guard; [|solve [repeat raw2; intros s; apply evolves_refl]].
  sim1. sim1. destruct (nth_error a i) as [[t q]|]; [|apply sim_same; reflexivity].
  apply sim_pure; [reflexivity| |intros _; exact IH]. intros s. destruct (t_size t >=? a0); reflexivity.
Qed.
Lemma any_same_eq u l : forall s, any_same R1 u l s = any_same R2 u l s.
Proof. induction l as [|x l IH]; intros s; [reflexivity|]. cbn [any_same]. unfold mbind, gets, modify. cbn. destruct (o_same R (s_sames s) (s_heap s) x u); [reflexivity|apply IH]. Qed.
Lemma solution_found_eq t s : solution_found R1 t s = solution_found R2 t s.
Proof.
  unfold solution_found, mbind, gets. destruct ((s_solutions_count s =? 0) || _); [reflexivity|]. destruct (t_size t =? s_best_size s); [|reflexivity].
  rewrite any_same_eq. reflexivity.
Qed.
Lemma solution_found_reads t s : s_reads (snd (solution_found R1 t s)) = s_reads s.
Proof.
  unfold solution_found, mbind, gets, modify, ret. destruct ((s_solutions_count s =? 0) || _); [reflexivity|]. destruct (t_size t =? s_best_size s); [|reflexivity].
  destruct (any_same_ok R1 t (s_solutions s) s) as (b & n & ->). destruct b; reflexivity.
Qed.
Lemma enqueue_sim t : sim (enqueue R1 p t) (enqueue R2 p t).
Proof.
  unfold enqueue, purge_queue. apply sim_guard; [|solve [repeat raw2]]. sim1. destruct (is_solution p a (t_sources t)).
  - apply sim_pure; [apply solution_found_eq|apply solution_found_reads|]. intros [|]; [|sim1]. sim1. apply purge_loop_sim.
  - sim1. apply sim_pure; [reflexivity|reflexivity|]. intros _. apply sim_same. reflexivity.
Qed.
Lemma quiet_enqueue t : quiet (enqueue R1 p t).
Proof. intros s0. apply halted_enqueue. reflexivity. Qed.
Lemma try_body_sim t sim0 o c : sim (try_body R1 p t sim0 o c) (try_body R2 p t sim0 o c).
Proof.
  unfold try_body. apply sim_guard; [|solve [repeat raw2]]. sim1. sim1. destruct a0 as [h new].
  apply sim_pure; [reflexivity|reflexivity|intros _]. apply sim_pure; [reflexivity|reflexivity|intros _].
  apply sim_bind; [apply enqueue_sim| | |]; intros _; [apply sim_same; reflexivity|intros s0; apply keeps_ret|apply raw_ret].
Qed.
Lemma explore_sim t : sim (explore R1 p t) (explore R2 p t).
Proof.
  assert (Yq : forall sim0 o c, quiet (try_body R1 p t sim0 o c)) by (intros sim0 o c s0; apply halted_try_body; reflexivity).
  assert (Rd : forall s0, keeps (halted k s0) (read_solving R1)) by (intros s0; apply halted_keep_read; reflexivity).
  assert (E := fun cu => extract_sims_sim t cu _ _ (try_body_sim t) (raw_try_body t)).
  assert (D := fun cu => divide_sims_sim t cu _ _ (try_body_sim t) (raw_try_body t)).
  assert (S := fun cu => split_sims_sim t cu _ _ (try_body_sim t) (raw_try_body t)).
  assert (Me := fun cu => merge_sims_sim t cu _ _ (try_body_sim t) (raw_try_body t)).
  assert (T : forall m1 m2 : M unit, sim m1 m2 -> sim (mbind m1 (fun _ => read_solving R1)) (mbind m2 (fun _ => read_solving R2))).
  { intros m1 m2 H. apply sim_bind; [exact H|intros _; apply sim_read|intros _; exact Rd|intros _; apply raw_read]. }
  assert (QE : forall cu, quiet (extract_sims R1 p t cu (try_body R1 p t))) by (intros cu s0; apply extract_sims_keeps; [apply Rd|intros; apply Yq]).
  assert (QD : forall cu, quiet (divide_sims R1 p t cu (try_body R1 p t))) by (intros cu s0; apply divide_sims_keeps; [apply Rd|intros; apply Yq]).
  assert (QS : forall cu, quiet (split_sims R1 p t cu (try_body R1 p t))) by (intros cu s0; apply split_sims_keeps; [apply Rd|intros; apply Yq]).
  assert (QM : forall cu, quiet (merge_sims R1 p t cu (try_body R1 p t))) by (intros cu s0; apply merge_sims_keeps; [apply Rd|intros; apply Yq]).
  assert (WD : forall cu, raw (divide_sims R2 p t cu (try_body R2 p t))) by (intros cu; apply raw_keeps; intros s0; apply divide_sims_keeps; [apply ev_read|intros; apply ev_try_body]).
  assert (WS : forall cu, raw (split_sims R2 p t cu (try_body R2 p t))) by (intros cu; apply raw_keeps; intros s0; apply split_sims_keeps; [apply ev_read|intros; apply ev_try_body]).
  assert (WM : forall cu, raw (merge_sims R2 p t cu (try_body R2 p t))) by (intros cu; apply raw_keeps; intros s0; apply merge_sims_keeps; [apply ev_read|intros; apply ev_try_body]).
  assert (QT : forall m : M unit, quiet m -> quiet (mbind m (fun _ => read_solving R1))) by (intros m H; apply quiet_bind; [exact H|intros _; exact Rd]).
  assert (WT : forall m : M unit, raw m -> raw (mbind m (fun _ => read_solving R2))) by (intros m H; apply raw_bind; [exact H|intros _; apply raw_read]).
  assert (QR : forall b : bool, quiet (ret b)) by (intros b s0; apply keeps_ret).
  unfold explore, try_op. sim1. set (cu := compute_cant_use _ _). destruct (zmax (t_source_values t)) as [top|]; [|apply sim_same; reflexivity].
  destruct (top <=? p_min_target p); [apply T, Me|].
  assert (Q4 : quiet (if t_n_sources t =? 1 then ret true else mbind (merge_sims R1 p t cu (try_body R1 p t)) (fun _ => read_solving R1))) by (destruct (t_n_sources t =? 1); [apply QR|apply QT, QM]).
  assert (W4 : raw (if t_n_sources t =? 1 then ret true else mbind (merge_sims R2 p t cu (try_body R2 p t)) (fun _ => read_solving R2))) by (destruct (t_n_sources t =? 1); [apply raw_ret|apply WT, WM]).
  assert (S4 : sim (if t_n_sources t =? 1 then ret true else mbind (merge_sims R1 p t cu (try_body R1 p t)) (fun _ => read_solving R1))
                   (if t_n_sources t =? 1 then ret true else mbind (merge_sims R2 p t cu (try_body R2 p t)) (fun _ => read_solving R2))) by (destruct (t_n_sources t =? 1); [apply sim_same; reflexivity|apply T, Me]).
  assert (C : forall (m1 m2 : M unit) (r1 r2 : M bool), sim m1 m2 -> sim r1 r2 -> quiet r1 -> raw r2 ->
    sim (mbind (mbind m1 (fun _ => read_solving R1)) (fun g => if negb g then ret false else r1))
        (mbind (mbind m2 (fun _ => read_solving R2)) (fun g => if negb g then ret false else r2))).
  { intros m1 m2 r1 r2 Hm Hr Q W. apply sim_bind; [apply T, Hm| | |]; intros g; destruct g; cbn [negb]; auto; [apply sim_same; reflexivity|apply raw_ret]. }
  assert (CQ : forall (m1 : M unit) (r1 : M bool), quiet m1 -> quiet r1 -> quiet (mbind (mbind m1 (fun _ => read_solving R1)) (fun g => if negb g then ret false else r1))).
  { intros m1 r1 Qm Qr. apply quiet_bind; [apply QT, Qm|]. intros g. destruct g; cbn [negb]; auto. }
  assert (CW : forall (m1 : M unit) (r1 : M bool), raw m1 -> raw r1 -> raw (mbind (mbind m1 (fun _ => read_solving R2)) (fun g => if negb g then ret false else r1))).
  { intros m1 r1 Qm Qr. apply raw_bind; [apply WT, Qm|]. intros g. destruct g; cbn [negb]; auto using raw_ret. }
  apply C; [apply E| | |].
  - apply C; [apply D| | |]; [apply C; [apply S|exact S4|exact Q4|exact W4]|apply CQ; [apply QS|exact Q4]|apply CW; [apply WS|exact W4]].
  - apply CQ; [apply QD|apply CQ; [apply QS|exact Q4]].
  - apply CW; [apply WD|apply CW; [apply WS|exact W4]].
Qed.
Lemma dequeue_sim : sim (dequeue R1) (dequeue R2).
Proof.
  unfold dequeue, pop_at. apply sim_guard; [|solve [repeat raw2]]. sim1. sim1. destruct ((a <? 3)%nat || (a0 >? 0)).
  - apply sim_same. intros s. unfold mbind, gets, lift, modify, ret. destruct (list_pop (-1) (s_queue s)) as [[x rest]|]; reflexivity.
  - apply sim_same. intros s. unfold mbind, gets, lift, modify, ret. cbn. match goal with |- context [list_pop ?i ?q] => destruct (list_pop i q) as [[x rest]|] end; reflexivity.
Qed.
Lemma solve_loop_sim fuel : sim (solve_loop R1 p fuel) (solve_loop R2 p fuel).
Proof.
  induction fuel as [|fuel IH]; cbn [solve_loop]; [apply sim_same; reflexivity|].
  assert (WT : forall {A} e, raw (@raise A e)) by (intros A e s; apply evolves_refl).
  assert (QG : forall g : bool, quiet (if g then solve_loop R1 p fuel else ret tt)) by (intros [|] s0; [apply halted_solve_loop; reflexivity|apply keeps_ret]).
  assert (WG : forall g : bool, raw (if g then solve_loop R2 p fuel else ret tt)) by (intros [|]; [apply raw_solve_loop|apply raw_ret]).
  apply sim_guard; [|solve [repeat raw2; apply WT]]. sim1. destruct a as [|e q]; [sim1|].
  apply sim_bind; [apply dequeue_sim| | |]; intros x.
  - destruct x as [[t sc]|]; [|apply sim_same; reflexivity].
    apply sim_bind; [apply explore_sim| | exact QG|exact WG]. intros [|]; [exact IH|apply sim_same; reflexivity].
  - destruct x as [[t sc]|]; [|intros s0; apply keeps_raise]. apply quiet_bind; [intros s0; apply halted_explore; reflexivity|exact QG].
  - destruct x as [[t sc]|]; [|apply WT]. apply raw_bind; [apply raw_explore|exact WG].
Qed.
Lemma solve_evolves fuel : evolves (snd (solve R1 fuel p)) (snd (solve R2 fuel p)).
Proof.
  assert (S : sim (mbind (enqueue R1 p (snd (initial_tree p))) (fun _ => solve_loop R1 p fuel)) (mbind (enqueue R2 p (snd (initial_tree p))) (fun _ => solve_loop R2 p fuel))).
  { apply sim_bind; [apply enqueue_sim| | |]; intros _; [apply solve_loop_sim|intros s0; apply halted_solve_loop; reflexivity|apply raw_solve_loop]. }
  destruct (S (initial_state p)) as [[E _]|[_ E]]; [cbn; lia| |exact E]. unfold solve. rewrite E. apply evolves_refl.
Qed.
End Sim.

Lemma stopping_later_lemma : forall p R k k' fuel, loaded p -> not_before k k' ->
  let s := snd (solve (stop_at R (Some k)) fuel p) in
  let s' := snd (solve (stop_at R k') fuel p) in
  (exists l, s_log s' = l ++ s_log s) /\
  (s_best_size s' < s_best_size s \/ (s_best_size s' = s_best_size s /\ exists l, s_solutions s' = s_solutions s ++ l)).
Proof.
  intros p R k k' fuel LD NB s s'. pose proof (solve_evolves R p k k' NB fuel) as E. fold s s' in E. destruct (evolves_facts _ _ E) as (L & B & C).
  split; [exact L|]. pose proof (proj1 (run_inv p (stop_at R (Some k)) fuel LD)) as I. fold s in I. pose proof (proj1 (run_inv p (stop_at R k') fuel LD)) as I'. fold s' in I'.
  pose proof (iv_count _ _ _ _ _ _ _ _ I) as CT. destruct (s_solutions s) as [|u us] eqn:ES; [|destruct B as [_ B]; [rewrite CT; cbn; lia|exact B]].
  cbn in CT. assert (B0 : s_best_size s = p_initial_best_size p).
  { assert (E0 : evolves (initial_state p) s).
    { unfold s, solve. apply (keeps_bind (since_s0 (initial_state p))); [apply ev_enqueue|intros _; apply ev_solve_loop|apply evolves_refl]. }
    destruct (evolves_facts _ _ E0) as (_ & _ & C0). destruct (C0 eq_refl) as [[_ X]|X]; [exact X|lia]. }
  pose proof (iv_best _ _ _ _ _ _ _ _ I') as B'. destruct (Z.eq_dec (s_best_size s') (s_best_size s)) as [Q|Q]; [|left; lia].
  right. split; [exact Q|]. exists (s_solutions s'). reflexivity.
Qed.
