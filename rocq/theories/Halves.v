(** An extracted value is less than half of the value of the node it is taken
    from.  Operations of the search keep that. *)
From Verif Require Import Base BaseLemmas Cost Utils Fractions Load Tree TreeSpec HeapLemmas Search SearchSpec TreeInv TreeOps.
Open Scope Z_scope.

Definition half (n : node Z) : Prop := forall c, In (TExtract c) (n_expands n) -> 2 * c < n_value n.
Definition halves (h : heap Z) : Prop := forall a, half (get h a).

Lemma get_past (h : heap Z) x : (length h <= x)%nat -> get h x = dead_node.
Proof. intros L. unfold get. apply nth_overflow, L. Qed.
Lemma halves_upd h a f : halves h -> (half (get h a) -> half (f (get h a))) -> halves (upd a f h).
Proof.
  intros H F b. destruct (Nat.eq_dec b a) as [->|Ne]; [|rewrite get_upd_other by auto; apply H].
  destruct (Nat.lt_ge_cases a (length h)) as [L|L]; [rewrite get_upd_same by exact L; apply F, H|]. rewrite get_past by (rewrite upd_length; lia). intros c [].
Qed.
Lemma halves_app h n : halves h -> half n -> halves (h ++ [n]).
Proof.
  intros H F b. destruct (Nat.lt_trichotomy b (length h)) as [L|[->|L]].
  - rewrite get_app_l by exact L. apply H.
  - rewrite get_app_new. exact F.
  - rewrite get_past by (rewrite app_length; cbn; lia). intros c [].
Qed.
Lemma halves_fold {A} (f : heap Z -> A -> heap Z) (F : forall h a, halves h -> halves (f h a)) : forall l h, halves h -> halves (fold_left f l h).
Proof. induction l as [|x l IH]; intros h H; [exact H|]. cbn [fold_left]. apply IH, F, H. Qed.
Lemma halves_levels l ns h : halves h -> halves (set_levels l ns h).
Proof. apply halves_fold. intros g a G. apply halves_upd; [exact G|auto]. Qed.

Lemma halves_link par c h : halves h -> halves (link_child par c h).
Proof. intros H. destruct par as [p|]; [|exact H]. apply halves_upd; [exact H|auto]. Qed.
Lemma halves_copy fuel : forall past stack copied h copied' h', halves h -> copy_loop fuel past stack copied h = Ok (copied', h') -> halves h'.
Proof.
  induction fuel as [|fuel IH]; intros past stack copied h copied' h' H E; destruct stack as [|[a par] stack]; cbn [copy_loop] in E; try (injection E as <- <-; exact H); try discriminate.
  destruct (lookup copied a) as [c|].
  - revert E. apply IH. apply halves_link. destruct par as [p|]; [|exact H]. apply halves_upd; [exact H|auto].
  - destruct (n_value (get h a) <? 0); [discriminate|]. revert E. apply IH. apply halves_link, halves_app; [exact H|]. exact (H a).
Qed.
Lemma halves_roots : forall roots copied h copied' h', halves h -> copy_roots roots copied h = Ok (copied', h') -> halves h'.
Proof.
  induction roots as [|r roots IH]; intros copied h copied' h' H E; cbn [copy_roots] in E; [injection E as <- <-; exact H|].
  unfold node_deepcopy in E. destruct (copy_loop _ _ _ copied h) as [[k g]|e] eqn:EC; [|discriminate]. cbn [bind] in E. revert E. apply IH. revert EC. apply halves_copy, H.
Qed.
Lemma halves_deepcopy h t h' t' : halves h -> tree_deepcopy h t = Ok (h', t') -> halves h'.
Proof.
  intros H E. unfold tree_deepcopy in E. destruct (copy_roots (t_roots t) [] h) as [[k g]|e] eqn:EC; [|discriminate]. cbn [bind] in E.
  destruct (look_all k (t_roots t)) as [rs|e]; [|discriminate]. cbn [bind tree_new] in E. destruct (look_all k (t_sources t)) as [ss|e]; [|discriminate]. cbn [bind] in E.
  destruct (map_res (look_all k) (t_levels t)) as [ls|e]; [|discriminate]. cbn [bind] in E. injection E as <- _. apply halves_levels. revert EC. apply halves_roots, H.
Qed.

Lemma halves_children : forall vs h a h' cs, halves h -> new_children h a vs = Ok (h', cs) -> halves h'.
Proof.
  induction vs as [|v vs IH]; intros h a h' cs H E; cbn [new_children] in E; [injection E as <- _; exact H|].
  unfold new_child in E. destruct (v <? 0); [discriminate|]. destruct (n_level (get h a)) as [l|]; [|discriminate]. cbn [bind] in E.
  match type of E with bind (new_children ?g a vs) _ = _ => destruct (new_children g a vs) as [[g' cs']|e] eqn:EN; [|discriminate]; assert (H1 : halves g) end.
  { apply halves_app; [exact H|]. intros c []. }
  cbn [bind] in E. injection E as <- _. apply (IH _ _ _ _ H1 EN).
Qed.
Lemma halves_branch h a vs h' cs : halves h -> branch h a vs = Ok (h', cs) -> halves h'.
Proof.
  intros H E. unfold branch in E. destruct (new_children h a vs) as [[g cs']|e] eqn:EN; [|discriminate]. cbn [bind] in E. injection E as <- _.
  apply halves_fold; [|apply (halves_children _ _ _ _ _ H EN)]. intros g' c G. apply halves_upd; [exact G|auto].
Qed.
(** a tag that is no extraction *)
Lemma halves_tag h a t : halves h -> (forall c, t = TExtract c -> 2 * c < n_value (get h a)) -> halves (upd a (add_tag t) h).
Proof.
  intros H T. apply halves_upd; [exact H|]. intros F c I. cbn [add_tag set_expands n_expands n_value] in *. apply in_app_or in I. destruct I as [I|[I|[]]]; [apply F, I|apply T, I].
Qed.

Lemma halves_perform h t o h' cs : halves h -> (forall i c, o = OExtract i c -> 2 * c < n_value (get h (nth i (t_sources t) O))) -> perform h t o = Ok (h', cs) -> halves h'.
Proof.
  intros H T E. destruct o as [i c|i d|i c|is]; cbn [perform] in E.
  1-3: unfold source_at in E; destruct (nth_error (t_sources t) i) as [a|] eqn:EN; [|discriminate]; cbn [bind] in E; apply (nth_error_nth _ _ O) in EN.
  - unfold node_extract in E. specialize (T i c eq_refl). rewrite EN in T. destruct (zmem c conveyor_speeds); [apply (halves_branch _ _ _ _ _ H E)|]. revert E. apply halves_branch. apply halves_tag; [exact H|]. intros c' [= <-]. exact T.
  - unfold node_divide in E. destruct (d =? 0); [discriminate|]. destruct (d >? 3); [|apply (halves_branch _ _ _ _ _ H E)]. revert E. apply halves_branch. apply halves_tag; [exact H|]. discriminate.
  - unfold node_split in E. destruct (negb (zmem c conveyor_speeds)); [discriminate|]. match type of E with bind ?b _ = _ => destruct b as [[g cs']|e] eqn:EB; [|discriminate] end. cbn [bind] in E. injection E as <- _.
    apply halves_tag; [apply (halves_branch _ _ _ _ _ H EB)|discriminate].
  - destruct (map_res (source_at t) is) as [ns|e]; [|discriminate]. cbn [bind] in E. destruct (node_merge h ns) as [[g m]|e] eqn:EM; [|discriminate]. cbn [bind] in E. injection E as <- _.
    unfold node_merge in EM. destruct (existsb _ ns); [discriminate|]. destruct (_ <? 0); [discriminate|]. destruct (max_level h ns) as [l|e]; [|discriminate]. cbn [bind] in EM. destruct (_ <=? 1)%nat; [discriminate|]. injection EM as <- _.
    apply halves_fold; [intros g' c G; apply halves_upd; [exact G|auto]|]. apply halves_app; [exact H|]. intros c I. cbn [n_expands] in I. destruct (3 <? length ns)%nat; [destruct I as [I|[]]; discriminate|destruct I].
Qed.

Lemma halves_apply h t N o cost h' t' : wf h t N -> sensible h t o -> (forall i c, o = OExtract i c -> 2 * c < zsum (taken h t o)) -> halves h ->
  apply_op h t o cost = Ok (h', t') -> halves h'.
Proof.
  intros W S T H E. destruct (tree_deepcopy_ok h t N W) as (hc & tc & C & EC & CR). unfold apply_op in E. rewrite EC in E. cbn [bind] in E.
  destruct (perform hc tc o) as [[g cs]|e] eqn:EP; [|discriminate]. cbn [bind] in E.
  assert (G : halves g).
  { revert EP. apply halves_perform; [apply (halves_deepcopy _ _ _ _ H EC)|]. intros i c ->. specialize (T i c eq_refl). cbn [taken op_nodes map] in T. unfold taken in T. cbn [op_nodes map zsum fold_right] in T. rewrite Z.add_0_r in T.
    cbn [sensible] in S. destruct S as (Hi & _). rewrite (cr_sources _ _ _ _ _ _ CR), (nth_indep _ O (C O)) by (rewrite map_length; exact Hi). rewrite map_nth.
    destruct (cr_data _ _ _ _ _ _ CR (nth i (t_sources t) O)) as (V & _); [apply (wf_open _ _ _ W), nth_In, Hi|]. unfold value in *. rewrite V. exact T. }
  unfold tree_add in E. destruct cs as [|f cs]; [discriminate|]. injection E as <- _. apply halves_levels, G.
Qed.
