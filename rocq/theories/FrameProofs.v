(** Expanding only touches nodes connected to the roots. *)
From Verif Require Import Base BaseLemmas Cost Utils Fractions Load Tree TreeSpec HeapLemmas Expand.
From Coq Require Import QArith Qcanon.
Open Scope Z_scope.

Lemma fold_res_ind {A B} (f : A -> B -> res A) (I : A -> Prop) : (forall a b a', I a -> f a b = Ok a' -> I a') ->
  forall l a a', I a -> fold_res f l a = Ok a' -> I a'.
Proof.
  intros H. induction l as [|b l IH]; intros a a' Ia E; [injection E as <-; exact Ia|]. cbn in E. destruct (f a b) as [a1|] eqn:E1; [|discriminate]. cbn in E.
  apply (IH a1); [apply (H a b); assumption|exact E].
Qed.
Lemma fold_left_ind {A B} (f : A -> B -> A) (I : A -> Prop) l : (forall a b, In b l -> I a -> I (f a b)) -> forall a, I a -> I (fold_left f l a).
Proof. induction l as [|b l IH]; intros H a Ia; [exact Ia|]. cbn. apply IH; [intros a' b' J; apply H; right; exact J|]. apply H; [left; reflexivity|exact Ia]. Qed.
Lemma at_index_in {A} (l : list A) i x : at_index l i = Ok x -> In x l.
Proof. unfold at_index. destruct (nth_error l (Z.to_nat i)) eqn:E; [|discriminate]. intros [= <-]. eapply nth_error_In, E. Qed.

Section Frame.
Variables (h0 : heap Qc) (P : nat -> Prop).
Hypothesis New : forall a, (length h0 <= a)%nat -> P a.

Definition linked (n : node Qc) (b : nat) : Prop := In b (n_children n) \/ In b (n_parents n).
Record fr (h : heap Qc) : Prop := {
  fr_len : (length h0 <= length h)%nat;
  fr_closed : forall a b, P a -> linked (get h a) b -> P b;
  fr_out : forall a, ~ P a -> get h a = get h0 a
}.

Lemma fr_child h a b : fr h -> P a -> In b (n_children (get h a)) -> P b.
Proof. intros F Pa I. apply (fr_closed h F a b Pa). left. exact I. Qed.
Lemma fr_parent h a b : fr h -> P a -> In b (n_parents (get h a)) -> P b.
Proof. intros F Pa I. apply (fr_closed h F a b Pa). right. exact I. Qed.
Lemma upd_beyond {A} a (f : A -> A) l : (length l <= a)%nat -> upd a f l = l.
Proof. revert a. induction l as [|x l IH]; intros a B; [destruct a; reflexivity|]. destruct a as [|a]; cbn in *; [lia|]. rewrite IH by lia. reflexivity. Qed.
Lemma fr_upd h a f : fr h -> P a -> (forall b, linked (f (get h a)) b -> P b) -> fr (upd a f h).
Proof.
  intros F Pa L. destruct (Nat.lt_ge_cases a (length h)) as [B|B]; [|rewrite upd_beyond by exact B; exact F]. destruct F as [F1 F2 F3]. constructor.
  - rewrite upd_length. exact F1.
  - intros x b Px. destruct (Nat.eq_dec a x) as [<-|Ne]; [rewrite get_upd_same by exact B; apply L|]. rewrite get_upd_other by exact Ne. apply F2, Px.
  - intros x Nx. rewrite get_upd_other by (intros ->; contradiction). apply F3, Nx.
Qed.
(** updates that keep the links *)
Lemma fr_keep h a f : fr h -> P a -> (forall n, n_children (f n) = n_children n) -> (forall n, n_parents (f n) = n_parents n) -> fr (upd a f h).
Proof. intros F Pa C Q. apply fr_upd; [exact F|exact Pa|]. intros b. unfold linked. rewrite C, Q. apply (fr_closed h F a b Pa). Qed.
Lemma fr_add_child h a c : fr h -> P a -> P c -> fr (upd a (add_child c) h).
Proof. intros F Pa Pc. apply fr_upd; [exact F|exact Pa|]. intros b [I|I]; [|apply (fr_parent h a b F Pa I)]. cbn in I. apply in_app_iff in I. destruct I as [I|[<-|[]]]; [apply (fr_child h a b F Pa I)|exact Pc]. Qed.
Lemma fr_add_parent h a c : fr h -> P a -> P c -> fr (upd a (add_parent c) h).
Proof. intros F Pa Pc. apply fr_upd; [exact F|exact Pa|]. intros b [I|I]; [apply (fr_child h a b F Pa I)|]. cbn in I. apply in_app_iff in I. destruct I as [I|[<-|[]]]; [apply (fr_parent h a b F Pa I)|exact Pc]. Qed.
Lemma fr_set_parents h a l : fr h -> P a -> Forall P l -> fr (upd a (set_parents l) h).
Proof. intros F Pa L. apply fr_upd; [exact F|exact Pa|]. intros b [I|I]; [apply (fr_child h a b F Pa I)|]. rewrite Forall_forall in L. apply L, I. Qed.
Lemma fr_set_children h a l : fr h -> P a -> Forall P l -> fr (upd a (set_children l) h).
Proof. intros F Pa L. apply fr_upd; [exact F|exact Pa|]. intros b [I|I]; [|apply (fr_parent h a b F Pa I)]. rewrite Forall_forall in L. apply L, I. Qed.
Lemma fr_new h v l k h' a : fr h -> new_node h v l k = Ok (h', a) -> fr h' /\ P a.
Proof.
  unfold new_node. destruct (negative v); [discriminate|]. intros F [= <- <-]. pose proof (fr_len h F) as L. split; [|apply New; exact L]. destruct F as [F1 F2 F3]. constructor.
  - rewrite app_length. lia.
  - intros x b Px. destruct (Nat.lt_ge_cases x (length h)) as [B|B]; [rewrite get_app_l by exact B; apply F2, Px|]. rewrite get_app_r by exact B.
    destruct (x - length h)%nat as [|k'] eqn:E; [cbn; intros [[]|[]]|]. unfold get. rewrite nth_overflow by (cbn; lia). cbn. intros [[]|[]].
  - intros x Nx. assert (x < length h)%nat. { destruct (Nat.lt_ge_cases x (length h)); [assumption|]. exfalso. apply Nx, New. lia. } rewrite get_app_l by assumption. apply F3, Nx.
Qed.
Lemma fr_children h a : fr h -> P a -> Forall P (n_children (get h a)).
Proof. intros F Pa. apply Forall_forall. intros b. apply (fr_child h a b F Pa). Qed.
Lemma fr_parents h a : fr h -> P a -> Forall P (n_parents (get h a)).
Proof. intros F Pa. apply Forall_forall. intros b. apply (fr_parent h a b F Pa). Qed.

Definition frs (st : heap Qc * list nat) : Prop := fr (fst st) /\ Forall P (snd st).
Lemma fr_at l i x : Forall P l -> at_index l i = Ok x -> P x.
Proof. intros F E. rewrite Forall_forall in F. apply F, (at_index_in _ _ _ E). Qed.
Lemma fr_grow r off cur v lvl lta count h st : fr h -> Forall P cur -> grow r off cur v lvl lta count h = Ok st -> frs st.
Proof.
  intros F C. unfold grow. apply (fold_res_ind _ frs); [|split; [exact F|constructor]]. intros [g new] j st' [F1 F2] E. cbn [fst snd] in *. unfold grow_step in E.
  destruct (new_node g v (Some lvl) lta) as [[g' a]|] eqn:E1; [|discriminate]. cbn [bind] in E. destruct (at_index cur ((off + j) / r)) as [p|] eqn:E2; [|discriminate]. cbn [bind] in E. injection E as <-.
  destruct (fr_new _ _ _ _ _ _ F1 E1) as [F' Pa]. pose proof (fr_at _ _ _ C E2) as Pp. split; cbn [fst snd].
  - apply fr_set_parents; [apply fr_add_child; assumption|exact Pa|repeat constructor; exact Pp].
  - apply Forall_app. auto.
Qed.
Lemma fr_relink r off cur orig h h' : fr h -> Forall P cur -> Forall P orig -> relink r off cur orig h = Ok h' -> fr h'.
Proof.
  intros F C O. unfold relink. assert (L : Forall (fun jc : Z * nat => P (snd jc)) (combine (zrange 0 (Z.of_nat (length orig))) orig)).
  { apply Forall_forall. intros [j c] I. apply in_combine_r in I. rewrite Forall_forall in O. apply O, I. }
  revert h F. induction L as [|[j c] l Pc L IH]; intros h F E; [injection E as <-; exact F|]. cbn in E. unfold relink_step in E. cbn [fst snd] in *. destruct (at_index cur ((off + j) / r)) as [p|] eqn:E2; [|discriminate]. cbn [bind] in E.
  pose proof (fr_at _ _ _ C E2) as Pp. apply (IH _ (fr_set_parents _ _ _ (fr_add_child _ _ _ F Pp Pc) Pc (Forall_cons _ Pp (Forall_nil _))) E).
Qed.
Lemma fr_reroute r off cur target count h h' : fr h -> Forall P cur -> P target -> reroute r off cur target count h = Ok h' -> fr h'.
Proof.
  intros F C T. unfold reroute. apply (fold_res_ind _ fr); [|exact F]. intros g j g' F1 E. unfold reroute_step in E. destruct (at_index cur ((off + j) / r)) as [p|] eqn:E2; [|discriminate]. cbn [bind] in E. injection E as <-.
  pose proof (fr_at _ _ _ C E2) as Pp. apply fr_add_parent; [apply fr_add_child; assumption|exact T|exact Pp].
Qed.
Lemma fr_share h a l : fr h -> P a -> P l -> fr (share_children h a l).
Proof.
  intros F Pa Pl. unfold share_children. apply (fold_left_ind _ fr); [|exact F]. intros g c I Fg. pose proof (fr_child h a c F Pa I) as Pc. apply fr_add_parent; [apply fr_add_child; assumption|exact Pc|exact Pl].
Qed.
Lemma fr_tag_merge k h a : fr h -> P a -> fr (tag_merge k h a).
Proof. intros F Pa. unfold tag_merge. destruct (_ <? _); [|exact F]. apply fr_keep; auto. Qed.

Lemma fr_divide_level r w cut ign ll v lvl lta target orig cur h st : fr h -> P target -> Forall P orig -> Forall P cur ->
  divide_level r w cut ign ll v lvl lta target orig cur h = Ok st -> frs st.
Proof.
  intros F T O C. unfold divide_level. intros E.
  destruct (if ll then _ else _) as [[g new]|] eqn:E1; [|discriminate]. cbn [bind] in E. destruct (reroute r 0 cur target cut g) as [g'|] eqn:E2; [|discriminate]. cbn [bind] in E. injection E as <-.
  assert (X : frs (g, new)).
  { destruct ll; [|apply (fr_grow _ _ _ _ _ _ _ _ _ F C E1)]. destruct (relink r cut cur orig h) as [g1|] eqn:E3; [|discriminate]. cbn [bind] in E1. injection E1 as <- <-. split; [apply (fr_relink _ _ _ _ _ _ F C O E3)|exact O]. }
  destruct X as [X1 X2]. split; [apply (fr_reroute _ _ _ _ _ _ _ X1 C T E2)|exact X2].
Qed.
Lemma fr_divide h a d h' u : fr h -> P a -> expand_divide h a d = Ok (h', u) -> fr h'.
Proof.
  intros F Pa. unfold expand_divide. destruct (find_n_m_l d) as [[[[n m] l] ?]|]; [|discriminate]. cbn [bind]. cbv zeta. set (big := above_limit _). set (lv := over _ d).
  destruct (if big then new_node h lv None 0 else Ok (h, a)) as [[g ln]|] eqn:E1; [|discriminate]. cbn [bind].
  destruct (compute_looping_branches _ _ _ _) as [lb|]; [|discriminate]. cbn [bind]. destruct (level_of g a) as [lvl|]; [|discriminate]. cbn [bind].
  assert (X : fr g /\ P ln) by (destruct big; [apply (fr_new _ _ _ _ _ _ F E1)|injection E1 as <- <-; auto]). destruct X as [Fg Pl].
  set (orig := n_children (get g a)). assert (O : Forall P orig) by (apply fr_children; assumption). set (vals := level_values _ n m).
  destruct (fold_res (divide_bin n m lb vals lvl ln orig) (seq 1 n) _) as [st|] eqn:E2; [|discriminate]. cbn [bind].
  assert (S1 : frs st).
  { eapply (fold_res_ind _ frs); [|  |exact E2].
    - intros [g1 cur] i st' [X1 X2] E. cbn [fst snd] in *. unfold divide_bin in E. destruct (lb_get lb (i, 0%nat)) as [cut ign]. destruct (at_index vals (Z.of_nat i)); [|discriminate]. cbn [bind] in E. apply (fr_divide_level _ _ _ _ _ _ _ _ _ _ _ _ _ X1 Pl O X2 E).
    - split; [apply fr_set_children; [exact Fg|exact Pa|constructor]|repeat constructor; exact Pa]. }
  destruct (fold_res (divide_ter n m lb vals lvl a orig) (seq 1 m) st) as [[g2 new]|] eqn:E3; [|discriminate]. cbn [bind].
  assert (S2 : frs (g2, new)).
  { eapply (fold_res_ind _ frs); [|exact S1|exact E3].
    intros [g1 cur] i st' [X1 X2] E. cbn [fst snd] in *. unfold divide_ter in E. destruct (lb_get lb (n, i)) as [cut ign]. destruct (at_index vals (Z.of_nat (n + i))); [|discriminate]. cbn [bind] in E. apply (fr_divide_level _ _ _ _ _ _ _ _ _ _ _ _ _ X1 Pa O X2 E). }
  intros [= <- <-]. apply fr_tag_merge; [|exact Pl]. destruct big; [apply fr_share; [apply S2|exact Pa|exact Pl]|apply S2].
Qed.

Lemma fr_extract_level r w cl il ce ie co io ll v lvl lta ln en on orig cur h st : fr h -> P ln -> P en -> P on -> Forall P orig -> Forall P cur ->
  extract_level r w cl il ce ie co io ll v lvl lta ln en on orig cur h = Ok st -> frs st.
Proof.
  intros F Pl Pe Po O C. unfold extract_level. cbv zeta. intros E.
  destruct (if ll then _ else _) as [[g new]|] eqn:E1; [|discriminate]. cbn [bind] in E. destruct (reroute r 0 cur ln cl g) as [g1|] eqn:E2; [|discriminate]. cbn [bind] in E.
  destruct (reroute r cl cur en ce g1) as [g2|] eqn:E3; [|discriminate]. cbn [bind] in E. destruct (reroute r (cl + ce) cur on co g2) as [g3|] eqn:E4; [|discriminate]. cbn [bind] in E. injection E as <-.
  assert (X : frs (g, new)) by (destruct ll; [injection E1 as <- <-; split; assumption|apply (fr_grow _ _ _ _ _ _ _ _ _ F C E1)]). destruct X as [X1 X2]. split; [|exact X2].
  pose proof (fr_reroute _ _ _ _ _ _ _ X1 C Pl E2) as Y1. pose proof (fr_reroute _ _ _ _ _ _ _ Y1 C Pe E3) as Y2. apply (fr_reroute _ _ _ _ _ _ _ Y2 C Po E4).
Qed.
Lemma fr_extract h a c h' u : fr h -> P a -> expand_extract h a c = Ok (h', u) -> fr h'.
Proof.
  intros F Pa. unfold expand_extract. destruct (as_int _) as [value|]; [|discriminate]. cbn [bind]. cbv zeta. destruct (_ =? 0); [discriminate|].
  set (d := value / _). destruct (find_n_m_l d) as [[[[n m] l] ?]|]; [|discriminate]. cbn [bind]. set (big := _ <? _).
  match goal with |- context [if big then new_node h ?v None 0 else Ok (h, a)] => set (lv := v) end.
  destruct (if big then new_node h lv None 0 else Ok (h, a)) as [[g ln]|] eqn:E1; [|discriminate]. cbn [bind].
  destruct (compute_looping_branches n m l _) as [lbl|]; [|discriminate]. cbn [bind]. destruct (compute_looping_branches n m _ _) as [lbe|]; [|discriminate]. cbn [bind]. destruct (compute_looping_branches n m _ _) as [lbo|]; [|discriminate]. cbn [bind].
  destruct (level_of g a) as [lvl|]; [|discriminate]. cbn [bind].
  assert (X : fr g /\ P ln) by (destruct big; [apply (fr_new _ _ _ _ _ _ F E1)|injection E1 as <- <-; auto]). destruct X as [Fg Pl].
  set (orig := n_children (get g a)). assert (O : Forall P orig) by (apply fr_children; assumption).
  destruct (at_index orig 0) as [c0|] eqn:Ec0; [|discriminate]. cbn [bind]. destruct (at_index orig 1) as [c1|] eqn:Ec1; [|discriminate]. cbn [bind].
  pose proof (fr_at _ _ _ O Ec0) as P0. pose proof (fr_at _ _ _ O Ec1) as P1.
  destruct (if frac_eqb _ _ then (c0, c1) else (c1, c0)) as [en on] eqn:Eo.
  assert (X : P en /\ P on) by (destruct (frac_eqb _ _); injection Eo as <- <-; auto). destruct X as [Pe Po]. clear Eo.
  set (vals := level_values _ n m).
  destruct (fold_res (extract_bin n m lbl lbe lbo vals lvl ln en on orig) (seq 1 n) _) as [st|] eqn:E2; [|discriminate]. cbn [bind].
  assert (S1 : frs st).
  { eapply (fold_res_ind _ frs); [|  |exact E2].
    - intros [g1 cur] i st' [X1 X2] E. cbn [fst snd] in *. unfold extract_bin in E. destruct (lb_get lbl (i, 0%nat)) as [cl il]. destruct (lb_get lbe (i, 0%nat)) as [ce ie]. destruct (lb_get lbo (i, 0%nat)) as [co io]. destruct (at_index vals (Z.of_nat i)); [|discriminate]. cbn [bind] in E.
      eapply fr_extract_level; [exact X1| | | | | |exact E]; assumption.
    - split; [|repeat constructor; exact Pa]. cbn [fst]. apply fr_set_children; [|exact Pa|constructor]. apply fr_set_parents; [|exact Po|constructor]. apply fr_set_parents; [exact Fg|exact Pe|constructor]. }
  destruct (fold_res (extract_ter n m lbl lbe lbo vals lvl ln en on orig) (seq 1 m) st) as [[g2 new]|] eqn:E3; [|discriminate]. cbn [bind].
  assert (S2 : frs (g2, new)).
  { eapply (fold_res_ind _ frs); [|exact S1|exact E3].
    intros [g1 cur] i st' [X1 X2] E. cbn [fst snd] in *. unfold extract_ter in E. destruct (lb_get lbl (n, i)) as [cl il]. destruct (lb_get lbe (n, i)) as [ce ie]. destruct (lb_get lbo (n, i)) as [co io]. destruct (at_index vals (Z.of_nat (n + i))); [|discriminate]. cbn [bind] in E.
    eapply fr_extract_level; [exact X1| | | | | |exact E]; assumption. }
  intros [= <- <-]. apply fr_tag_merge; [|exact Po]. apply fr_tag_merge; [|exact Pe]. apply fr_tag_merge; [|exact Pl]. destruct big; [apply fr_share; [apply S2|exact Pa|exact Pl]|apply S2].
Qed.

Lemma fr_merge_nodes h nodes h' c : fr h -> Forall P nodes -> merge_nodes h nodes = Ok (h', c) -> fr h' /\ P c.
Proof.
  intros F Pn. unfold merge_nodes. cbv zeta. destruct (map_res (level_of h) nodes) as [ls|]; [|discriminate]. cbn [bind]. destruct (zmax ls) as [l|]; [|discriminate].
  destruct (new_node h _ (Some (l + 1)) 0) as [[g k]|] eqn:E; [|discriminate]. cbn [bind]. destruct (_ <=? 1)%nat; [discriminate|]. intros [= <- <-].
  destruct (fr_new _ _ _ _ _ _ F E) as [Fg Pk]. split; [|exact Pk]. apply (fold_left_ind _ fr).
  - intros g1 x I F1. rewrite Forall_forall in Pn. apply fr_add_parent; [apply fr_add_child; auto|exact Pk|auto].
  - destruct (3 <? _)%nat; [apply fr_keep; auto|exact Fg].
Qed.
Lemma fr_drop h x a : fr h -> P x -> fr (upd x (drop_child a) h).
Proof. intros F Px. apply fr_upd; [exact F|exact Px|]. intros b [I|I]; [|apply (fr_parent h x b F Px I)]. cbn in I. apply filter_In in I. apply (fr_child h x b F Px), I. Qed.
Lemma fr_merge_three h a h' : fr h -> P a -> merge_three h a = Ok h' -> fr h'.
Proof.
  intros F Pa. unfold merge_three. destruct (rev (n_parents (get h a))) as [|x [|y [|z rest]]] eqn:R; try discriminate. cbv zeta.
  assert (PP : Forall P (x :: y :: z :: rest)) by (rewrite <- R; apply Forall_rev, fr_parents; assumption).
  inversion PP as [|? ? Px PP1]; subst. inversion PP1 as [|? ? Py PP2]; subst. inversion PP2 as [|? ? Pz Pr]; subst.
  assert (F1 : fr (upd a (set_parents (rev rest)) h)) by (apply fr_set_parents; [exact F|exact Pa|apply Forall_rev, Pr]).
  destruct (merge_nodes _ [x; y; z]) as [[g c]|] eqn:E; [|discriminate]. cbn [bind].
  destruct (fr_merge_nodes _ [x; y; z] _ _ F1 ltac:(repeat constructor; assumption) E) as [Fg Pc]. intros [= <-].
  apply fr_add_parent; [|exact Pa|exact Pc]. apply fr_add_child; [|exact Pc|exact Pa]. apply fr_keep; [|exact Pc|reflexivity|reflexivity].
  apply fr_drop; [|exact Pz]. apply fr_drop; [|exact Py]. apply fr_drop; [exact Fg|exact Px].
Qed.
Lemma fr_merge_loop : forall fuel k h a h', fr h -> P a -> merge_loop fuel k h a = Ok h' -> fr h'.
Proof.
  induction fuel as [|fuel IH]; intros k h a h' F Pa E; cbn in E; destruct (_ <=? k); try (injection E as <-; exact F); [discriminate|].
  destruct (merge_three h a) as [g|] eqn:E1; [|discriminate]. cbn in E. apply (IH k g a h'); [apply (fr_merge_three h a g F Pa E1)|exact Pa|exact E].
Qed.
Lemma fr_split h a c h' u : fr h -> P a -> expand_split h a c = Ok (h', u) -> fr h'.
Proof.
  intros F Pa. unfold expand_split. cbv zeta. destruct (level_of h a) as [lvl|]; [|discriminate]. cbn [bind]. destruct (new_node h _ _ _) as [[g k]|] eqn:E; [|discriminate]. cbn [bind].
  destruct (fr_new _ _ _ _ _ _ F E) as [Fg Pk]. intros [= <- _].
  set (g1 := upd k (set_parents [a]) (upd k (set_children [k]) g)).
  assert (F1 : fr g1) by (apply fr_set_parents; [apply fr_set_children; [exact Fg|exact Pk|repeat constructor; exact Pk]|exact Pk|repeat constructor; exact Pa]).
  assert (O : Forall P (n_children (get g1 a))) by (apply fr_children; assumption). rewrite Forall_forall in O.
  apply (fold_left_ind _ fr); [|apply fr_set_children; [exact F1|exact Pa|repeat constructor; exact Pk]].
  intros g2 x I F2. specialize (O x I). destruct (frac_eqb _ _).
  - apply fr_set_parents; [apply fr_add_child; assumption|exact O|repeat constructor; exact Pk].
  - apply fr_add_child; assumption.
Qed.
Lemma fr_tag h a t h' u : fr h -> P a -> expand_tag h a t = Ok (h', u) -> fr h'.
Proof.
  intros F Pa. destruct t; cbn [expand_tag].
  all: try (apply fr_extract; assumption); try (apply fr_divide; assumption); try (apply fr_split; assumption).
  unfold expand_merge. destruct (merge_loop _ _ h a) as [g|] eqn:E; [|discriminate]. cbn [bind]. intros [= <- _]. apply (fr_merge_loop _ _ _ _ _ F Pa E).
Qed.
Lemma fr_tags : forall fuel h a us h' us', fr h -> P a -> expand_tags fuel h a us = Ok (h', us') -> fr h'.
Proof.
  induction fuel as [|fuel IH]; intros h a us h' us' F Pa E; cbn [expand_tags] in E; destruct (n_expands (get h a)) as [|t rest]; try discriminate; try (injection E as <- _; exact F).
  destruct (expand_tag _ a t) as [[g u]|] eqn:E1; [|discriminate]. cbn [bind] in E. eapply IH; [|exact Pa|exact E]. eapply fr_tag; [|exact Pa|exact E1]. apply fr_keep; auto.
Qed.
Lemma fr_node : forall fuel h seen a r, fr h -> P a -> expand_node fuel h seen a = Ok r -> fr (fst (fst r)).
Proof.
  induction fuel as [|fuel IH]; intros h seen a r F Pa E; [discriminate|]. cbn [expand_node] in E. destruct (nat_in a seen); [injection E as <-; exact F|].
  destruct (expand_tags fuel h a []) as [[g us]|] eqn:E1; [|discriminate]. cbn [bind] in E. pose proof (fr_tags _ _ _ _ _ _ F Pa E1) as Fg. clear E1.
  match type of E with ?f fuel 0%nat g (a :: seen) us = _ => set (it := f) in E end.
  assert (X : forall k i g sn u r, fr g -> it k i g sn u = Ok r -> fr (fst (fst r))); [|apply (X _ _ _ _ _ _ Fg E)]. clear E Fg g us.
  induction k as [|k IHk]; intros i g sn u r' Fg E; cbn [it] in E; (destruct (nth_error (n_children (get g a)) i) as [c|] eqn:En; [|injection E as <-; exact Fg]); [discriminate|].
  destruct (nat_in c sn); [apply (IHk _ _ _ _ _ Fg E)|].
  destruct (expand_node fuel g sn c) as [[[g1 s1] u1]|] eqn:E1; [|discriminate]. cbn [bind] in E.
  assert (F1 : fr g1). { apply (IH _ _ _ _ Fg) in E1; [exact E1|]. apply (fr_child g a c Fg Pa). eapply nth_error_In, En. }
  apply (IHk _ _ _ _ _ F1 E).
Qed.
Lemma fr_all : forall roots fuel h seen us r, fr h -> Forall P roots -> expand_all fuel h seen roots us = Ok r -> fr (fst r).
Proof.
  induction roots as [|a roots IH]; intros fuel h seen us r F Pr E; [injection E as <-; exact F|]. inversion Pr; subst. cbn in E.
  destruct (expand_node fuel h seen a) as [[[g s] u]|] eqn:E1; [|discriminate]. cbn [bind] in E. apply (fr_node _ _ _ _ _ F) in E1; [|assumption]. apply (IH fuel g s (us ++ u) r E1); assumption.
Qed.

Lemma fr_visit {S} (f : heap Qc -> nat -> S -> res (heap Qc * S)) : (forall h a s h' s', fr h -> P a -> f h a s = Ok (h', s') -> fr h') ->
  forall fuel h seen s a r, fr h -> P a -> visit fuel f h seen s a = Ok r -> fr (fst (fst r)).
Proof.
  intros Hf. induction fuel as [|fuel IH]; intros h seen s a r F Pa E; [discriminate|]. cbn [visit] in E. destruct (nat_in a seen); [injection E as <-; exact F|].
  destruct (f h a s) as [[g s1]|] eqn:E1; [|discriminate]. cbn [bind] in E. pose proof (Hf _ _ _ _ _ F Pa E1) as Fg.
  assert (C : Forall P (n_children (get g a))) by (apply fr_children; assumption). revert E. generalize (a :: seen) as sn. generalize s1 as s2. clear E1. revert g Fg C. intros g Fg. generalize (n_children (get g a)) as l. revert g Fg.
  assert (X : forall l g sn s2, fr g -> Forall P l -> fold_res (fun st c => let '(h, seen, s) := st in if nat_in c seen then Ok st else visit fuel f h seen s c) l (g, sn, s2) = Ok r -> fr (fst (fst r))).
  { induction l as [|c l IHl]; intros g sn s2 Fg C E; [injection E as <-; exact Fg|]. inversion C; subst. cbn in E. destruct (nat_in c sn).
    - cbn in E. apply (IHl g sn s2); assumption.
    - destruct (visit fuel f g sn s2 c) as [[[g1 sn1] s3]|] eqn:E1; [|discriminate]. cbn in E. apply IH in E1; [|exact Fg|assumption]. apply (IHl g1 sn1 s3); assumption. }
  intros g Fg l C s2 sn E. apply (X l g sn s2 Fg C E).
Qed.
Lemma fr_visit_all {S} (f : heap Qc -> nat -> S -> res (heap Qc * S)) : (forall h a s h' s', fr h -> P a -> f h a s = Ok (h', s') -> fr h') ->
  forall fuel h s roots h' s', fr h -> Forall P roots -> visit_all fuel f h s roots = Ok (h', s') -> fr h'.
Proof.
  intros Hf fuel h s roots h' s' F Pr. unfold visit_all. generalize (@nil nat) as sn. revert h s F. induction Pr as [|a roots Pa Pr IH]; intros h s F sn E; [injection E as <- <-; exact F|].
  cbn in E. destruct (visit fuel f h sn s a) as [[[g sn1] s1]|] eqn:E1; [|discriminate]. cbn in E. apply (fr_visit f Hf) in E1; [|exact F|exact Pa]. apply (IH g s1 E1 sn1 E).
Qed.
Lemma fr_expand fuel h roots h' : fr h -> Forall P roots -> expand_roots fuel h roots = Ok h' -> fr h'.
Proof.
  intros F Pr. unfold expand_roots. destruct (visit_all fuel min_level_step h _ _) as [[hm ml]|]; [|discriminate]. cbn [bind].
  destruct (expand_all fuel h [] roots _) as [[g us]|] eqn:E; [|discriminate]. cbn [bind]. apply (fr_all _ _ _ _ _ _ F Pr) in E. cbn [fst] in E.
  destruct (fold_res _ us g) as [g1|] eqn:E1; [|discriminate]. cbn [bind].
  assert (F1 : fr g1).
  { eapply (fold_res_ind _ fr); [|exact E|exact E1]. intros x u x' Fx Ex. cbn beta in Ex. destruct (visit_all fuel (tag_levels_step (fst u) (snd u)) x tt roots) as [[y []]|] eqn:E2; [|discriminate]. cbn [bind] in Ex. injection Ex as <-.
    eapply fr_visit_all; [|exact Fx|exact Pr|exact E2]. intros h1 a s h2 s' Fh Pa Eh. unfold tag_levels_step in Eh. destruct (level_of h1 a); [|discriminate]. cbn [bind] in Eh. injection Eh as <- _. destruct (_ <=? _); [apply fr_keep; auto|exact Fh]. }
  destruct (visit_all fuel apply_levels_step g1 tt roots) as [[g2 []]|] eqn:E2; [|discriminate]. cbn [bind]. intros [= <-].
  eapply fr_visit_all; [|exact F1|exact Pr|exact E2]. intros h1 a s h2 s' Fh Pa Eh. unfold apply_levels_step in Eh. destruct (level_of h1 a); [|discriminate]. cbn [bind] in Eh. injection Eh as <- _. apply fr_keep; auto.
Qed.
Lemma fr_set_levels k l h : fr h -> Forall P l -> fr (set_levels k l h).
Proof. intros F Pl. rewrite Forall_forall in Pl. unfold set_levels. apply (fold_left_ind _ fr); [|exact F]. intros g a I Fg. apply fr_keep; auto. Qed.
End Frame.
