(** The operations of the search build what [grown] describes. *)
From Verif Require Import Base BaseLemmas Cost Utils UtilsSpec UtilsProofs Fractions Load Tree TreeSpec Search SearchSpec
  HeapLemmas CopyProofs TreeInv TreeGrow.
Open Scope Z_scope.

Lemma nth_error_seq s n i : (i < n)%nat -> nth_error (seq s n) i = Some (s + i)%nat.
Proof. revert s i. induction n as [|n IH]; intros s i H; [lia|]. destruct i as [|i]; cbn; [f_equal; lia|].
  rewrite IH by lia. f_equal. lia. Qed.

(** ** new nodes below one parent *)
Definition child_past (n : node Z) (v : Z) : fastlist Z :=
  fl_extend Z.eqb (fl_items (n_past n)) (fl_append Z.eqb v fl_new).

Lemma new_children_ok a l : forall vs h, (a < length h)%nat -> level h a = Some l -> Forall (fun v => 0 <= v) vs ->
  exists h1, new_children h a vs = Ok (h1, seq (length h) (length vs)) /\
    length h1 = (length h + length vs)%nat /\ (forall b, (b < length h)%nat -> get h1 b = get h b) /\
    (forall i v, nth_error vs i = Some v ->
       get h1 (length h + i) = MkNode v (length h + i) (Some (l + 1)) (child_past (get h a) v) [a] [] [] 0).
Proof.
  induction vs as [|v vs IH]; intros h B L F.
  - exists h. split; [reflexivity|]. split; [cbn; lia|]. split; [auto|]. intros [|i] v H; discriminate.
  - inversion F; subst. cbn [new_children]. unfold new_child. unfold level in L. rewrite L.
    replace (v <? 0) with false by lia. cbn [bind].
    set (n := MkNode v (length h) (Some (l + 1)) _ [a] [] [] 0).
    assert (B' : (a < length (h ++ [n]))%nat) by (rewrite app_length; lia).
    assert (G : get (h ++ [n]) a = get h a) by (apply get_app_l; exact B).
    destruct (IH (h ++ [n]) B') as (h1 & E & L1 & O1 & N1); [unfold level; rewrite G; exact L|assumption|].
    rewrite E. cbn [bind]. exists h1. rewrite app_length in *. cbn [length] in *.
    replace (length h + 1)%nat with (S (length h)) in * by lia. split; [reflexivity|]. split; [lia|]. split.
    + intros b Hb. rewrite O1 by lia. apply get_app_l. exact Hb.
    + intros [|i] w H.
      * cbn in H. injection H as <-. rewrite Nat.add_0_r. rewrite O1 by lia. rewrite get_app_new. reflexivity.
      * cbn in H. replace (length h + S i)%nat with (S (length h) + i)%nat by lia. rewrite (N1 i w H), G. reflexivity.
Qed.

Lemma add_children_get a cs : forall h, (a < length h)%nat ->
  get (fold_left (fun h c => upd a (add_child c) h) cs h) a = set_children (n_children (get (V := Z) h a) ++ cs) (get h a).
Proof.
  induction cs as [|c cs IH]; intros h B.
  - cbn [fold_left]. rewrite app_nil_r. destruct (get h a). reflexivity.
  - cbn [fold_left]. rewrite IH by (rewrite upd_length; exact B). rewrite get_upd_same by exact B.
    unfold add_child. cbn. rewrite <- app_assoc. reflexivity.
Qed.
Lemma add_children_other a cs b : a <> b -> forall h,
  get (fold_left (fun h c => upd a (add_child c) h) cs h) b = get (V := Z) h b.
Proof. intros D. induction cs as [|c cs IH]; intros h; [reflexivity|]. cbn [fold_left]. rewrite IH. apply get_upd_other, D. Qed.
Lemma add_children_length a cs : forall h : heap Z, length (fold_left (fun h c => upd a (add_child c) h) cs h) = length h.
Proof. induction cs as [|c cs IH]; intros h; [reflexivity|]. cbn [fold_left]. rewrite IH. apply upd_length. Qed.

Lemma branch_ok h a l vs : (a < length h)%nat -> level h a = Some l -> children h a = [] -> Forall (fun v => 0 < v) vs ->
  exists h1, let cs := seq (length h) (length vs) in
    branch h a vs = Ok (h1, cs) /\ length h1 = (length h + length vs)%nat /\
    (forall b, (b < length h)%nat -> b <> a -> get h1 b = get h b) /\
    get h1 a = set_children cs (get h a) /\
    (forall i v, nth_error vs i = Some v ->
       get h1 (length h + i) = MkNode v (length h + i) (Some (l + 1)) (child_past (get h a) v) [a] [] [] 0).
Proof.
  intros B L CH F. destruct (new_children_ok a l vs h B L) as (h1 & E & L1 & O1 & N1).
  { eapply Forall_impl; [|exact F]. cbn. lia. }
  set (cs := seq (length h) (length vs)) in *. exists (fold_left (fun h c => upd a (add_child c) h) cs h1).
  cbn zeta. unfold branch. rewrite E. cbn [bind]. split; [reflexivity|]. rewrite add_children_length. split; [exact L1|]. split; [|split].
  - intros b Hb D. rewrite add_children_other by congruence. apply O1, Hb.
  - rewrite add_children_get by lia. rewrite O1 by exact B. unfold children in CH. rewrite CH. reflexivity.
  - intros i v H. assert (i < length vs)%nat by (apply nth_error_Some; congruence).
    rewrite add_children_other by lia. apply N1, H.
Qed.

(** values of new nodes *)
Lemma map_value_new h1 n vs : (forall i v, nth_error vs i = Some v -> value h1 (n + i) = v) -> map (value h1) (seq n (length vs)) = vs.
Proof.
  revert n. induction vs as [|v vs IH]; intros n H; [reflexivity|]. cbn [length seq map]. f_equal.
  - rewrite <- (H O v eq_refl). f_equal. lia.
  - apply IH. intros i w Hi. rewrite <- (H (S i) w Hi). f_equal. lia.
Qed.

(** one parent *)
Lemma branch_grown h h0 a own l vs h1 h2 own2 :
  (* [h0]: before tagging *)
  length h = length h0 -> (forall b, b <> a -> get h b = get h0 b) ->
  get h a = set_expands (n_expands (get h0 a) ++ own) (get h0 a) ->
  (a < length h0)%nat -> level h0 a = Some l -> children h0 a = [] -> fl_inv (n_past (get h0 a)) ->
  Forall (fun v => 0 < v) vs -> (2 <= length vs)%nat -> zsum vs = value h0 a ->
  split_tags (value h0 a) vs (own ++ own2) ->
  branch h a vs = Ok (h1, seq (length h) (length vs)) ->
  length h2 = length h1 -> (forall b, b <> a -> get h2 b = get h1 b) ->
  get h2 a = set_expands (n_expands (get h1 a) ++ own2) (get h1 a) ->
  grown h0 h2 [a] (seq (length h0) (length vs)) /\ map (value h2) (seq (length h0) (length vs)) = vs.
Proof.
  intros L0 O0 G0 B LV CH FI F LN S T BR L2 O2 G2.
  destruct (branch_ok h a l vs) as (h1' & X). { lia. } { unfold level. rewrite G0. exact LV. } { unfold children. rewrite G0. exact CH. } { exact F. }
  cbn zeta in X. destruct X as (E & L1 & O1 & G1 & N1). rewrite BR in E. injection E as <-. rewrite L0 in *.
  assert (VAL : map (value h2) (seq (length h0) (length vs)) = vs).
  { apply map_value_new. intros i v H. assert (i < length vs)%nat by (apply nth_error_Some; congruence).
    unfold value. rewrite O2 by lia. rewrite (N1 i v H). reflexivity. }
  split; [|exact VAL]. constructor.
  - rewrite seq_length. reflexivity.
  - rewrite seq_length. lia.
  - intros b Hb NI. assert (D : b <> a) by (intros ->; apply NI; left; reflexivity).
    rewrite O2 by exact D. rewrite O1 by (try lia; exact D). apply O0. exact D.
  - intros b [<-|[]]. exists (own ++ own2). rewrite G2, G1, G0. cbn. rewrite app_assoc. split; [reflexivity|].
    rewrite VAL, seq_length. split; [auto|lia].
  - intros c Hc. apply in_seq in Hc. remember (c - length h0)%nat as i. assert (Hi : (i < length vs)%nat) by lia.
    destruct (nth_error vs i) as [v|] eqn:Ev; [|apply nth_error_None in Ev; lia].
    assert (Ec : c = (length h0 + i)%nat) by lia. subst c. unfold parents, children, value. rewrite O2 by lia.
    rewrite (N1 i v Ev). cbn [n_parents n_children n_id n_value n_expands n_past length Nat.ltb Nat.leb].
    assert (I0 : fl_inv (fl_append Z.eqb v fl_new)) by (apply (fl_append_spec Z.eqb Z_eq_decides), fl_new_inv).
    split; [reflexivity|]. split; [reflexivity|]. split; [reflexivity|].
    split; [rewrite Forall_forall in F; apply F, (nth_error_In _ _ Ev)|]. split; [reflexivity|].
    unfold child_past. rewrite G0. cbn [n_past set_expands]. split; [apply (fl_extend_spec Z.eqb Z_eq_decides), I0|]. split.
    + apply (fl_extend_in Z.eqb Z_eq_decides); [exact I0|]. right. cbn. left. reflexivity.
    + split; [intros b w [<-|[]] Hw; apply (fl_extend_in Z.eqb Z_eq_decides); [exact I0|]; left; exact Hw|].
      intros w Hw. apply (fl_extend_in Z.eqb Z_eq_decides) in Hw; [|exact I0]. destruct Hw as [Hw|[Hw|[]]]; [|left; symmetry; exact Hw].
      right. exists a. split; [left; reflexivity|exact Hw].
  - left. exists a. rewrite seq_length. rewrite VAL. auto.
Qed.

Lemma set_expands_nil (n : node Z) : set_expands (n_expands n ++ []) n = n.
Proof. rewrite app_nil_r. destruct n. reflexivity. Qed.

(** ** facts about a source *)
Lemma source_facts h t N a : wf h t N -> In a (t_sources t) ->
  N a /\ (a < length h)%nat /\ (exists l, level h a = Some l) /\ children h a = [] /\ fl_inv (n_past (get h a)) /\ 0 < value h a.
Proof.
  intros W Ha. apply (wf_open _ _ _ W) in Ha. destruct Ha as [Na CH]. split; [exact Na|]. split; [apply (wf_bound _ _ _ W a Na)|].
  destruct (wf_level _ _ _ W a Na) as (l & E & _). split; [exists l; exact E|]. split; [exact CH|].
  split; [apply (wf_past _ _ _ W a Na)|apply (wf_pos _ _ _ W a Na)].
Qed.

Lemma zsorted_two a b : Permutation (zsorted [a; b]) [a; b].
Proof. apply sorted_by_perm. Qed.
Lemma forall_perm {A} (P : A -> Prop) l l' : Permutation l l' -> Forall P l -> Forall P l'.
Proof. intros X F. rewrite Forall_forall in *. intros x Hx. apply F. apply (Permutation_in _ (Permutation_sym X)), Hx. Qed.

Lemma extract_grown h t N a c : wf h t N -> In a (t_sources t) -> 0 < c < value h a -> c <> value h a - c ->
  exists h1 cs, node_extract h a c = Ok (h1, cs) /\ grown h h1 [a] cs /\ Permutation (map (value h1) cs) [c; value h a - c].
Proof.
  intros W Ha Hc Dc. destruct (source_facts h t N a W Ha) as (Na & B & (l & LV) & CH & FI & PV).
  unfold node_extract. set (h0 := if zmem c conveyor_speeds then h else upd a (add_tag (TExtract c)) h).
  assert (L0 : length h0 = length h) by (unfold h0; destruct (zmem _ _); [reflexivity|apply upd_length]).
  assert (O0 : forall b, b <> a -> get h0 b = get h b).
  { intros b D. unfold h0. destruct (zmem _ _); [reflexivity|]. apply get_upd_other. congruence. }
  assert (G0 : get h0 a = set_expands (n_expands (get h a) ++ (if zmem c conveyor_speeds then [] else [TExtract c])) (get h a)).
  { unfold h0. destruct (zmem _ _); [rewrite set_expands_nil; reflexivity|]. rewrite get_upd_same by exact B. reflexivity. }
  assert (EV : n_value (get h0 a) = value h a) by (rewrite G0; reflexivity). rewrite EV.
  set (vs := zsorted [c; value h a - c]).
  assert (PV' : Permutation vs [c; value h a - c]) by apply zsorted_two.
  assert (LN : length vs = 2%nat) by (rewrite (Permutation_length PV'); reflexivity).
  assert (F : Forall (fun v => 0 < v) vs).
  { apply (forall_perm _ _ _ (Permutation_sym PV')). repeat constructor; lia. }
  destruct (branch_ok h0 a l vs) as (h1 & X). { lia. } { unfold level; rewrite G0; exact LV. } { unfold children; rewrite G0; exact CH. } { exact F. }
  cbn zeta in X. destruct X as (BR & _). rewrite BR. exists h1, (seq (length h0) (length vs)). split; [reflexivity|].
  rewrite L0. destruct (branch_grown h0 h a _ l vs h1 h1 [] L0 O0 G0 B LV CH FI F) as [G V]; auto.
  - lia.
  - rewrite (zsum_perm _ _ PV'). cbn. lia.
  - rewrite app_nil_r. apply st_extract; auto.
  - rewrite set_expands_nil. reflexivity.
  - split; [exact G|]. rewrite V. exact PV'.
Qed.

Lemma divide_grown h t N a d : wf h t N -> In a (t_sources t) -> 2 <= d -> (d | value h a) ->
  exists h1 cs, node_divide h a d = Ok (h1, cs) /\ grown h h1 [a] cs /\
    Permutation (map (value h1) cs) (repeat (value h a / d) (Z.to_nat d)).
Proof.
  intros W Ha Hd [q Hq]. destruct (source_facts h t N a W Ha) as (Na & B & (l & LV) & CH & FI & PV).
  unfold node_divide. replace (d =? 0) with false by lia.
  set (h0 := if d >? 3 then upd a (add_tag (TDivide d)) h else h).
  assert (L0 : length h0 = length h) by (unfold h0; destruct (d >? 3); [apply upd_length|reflexivity]).
  assert (O0 : forall b, b <> a -> get h0 b = get h b).
  { intros b D. unfold h0. destruct (d >? 3); [|reflexivity]. apply get_upd_other. congruence. }
  assert (G0 : get h0 a = set_expands (n_expands (get h a) ++ (if 3 <? d then [TDivide d] else [])) (get h a)).
  { unfold h0. rewrite Z.gtb_ltb. destruct (3 <? d); [|rewrite set_expands_nil; reflexivity]. rewrite get_upd_same by exact B. reflexivity. }
  assert (EV : n_value (get h0 a) = value h a) by (rewrite G0; reflexivity). rewrite EV.
  assert (EQ : value h a / d = q) by (rewrite Hq; apply Z.div_mul; lia). rewrite EQ.
  set (vs := repeat q (Z.to_nat d)).
  assert (LN : length vs = Z.to_nat d) by apply repeat_length.
  assert (F : Forall (fun v => 0 < v) vs).
  { apply Forall_forall. intros v Hv. apply repeat_spec in Hv. subst v. nia. }
  destruct (branch_ok h0 a l vs) as (h1 & X). { lia. } { unfold level; rewrite G0; exact LV. } { unfold children; rewrite G0; exact CH. } { exact F. }
  cbn zeta in X. destruct X as (BR & _). rewrite BR. exists h1, (seq (length h0) (length vs)). split; [reflexivity|].
  rewrite L0. destruct (branch_grown h0 h a _ l vs h1 h1 [] L0 O0 G0 B LV CH FI F) as [G V]; auto.
  - lia.
  - unfold vs. rewrite zsum_repeat. lia.
  - rewrite app_nil_r. eapply st_divide; [exact Hd| |reflexivity]. lia.
  - rewrite set_expands_nil. reflexivity.
  - split; [exact G|]. rewrite V. reflexivity.
Qed.

Lemma speed_third c : In c [60; 120; 270; 480; 780; 1200] -> c = 3 * (c / 3) /\ 0 < c / 3 /\ zmem c conveyor_speeds = true.
Proof. intros H. cbn in H. repeat (destruct H as [<-|H]; [cbn; repeat split; reflexivity|]). destruct H. Qed.

Lemma split_grown h t N a c : wf h t N -> In a (t_sources t) -> In c [60; 120; 270; 480; 780; 1200] ->
  2 * (c / 3) < value h a < c ->
  exists h1 cs, node_split h a c = Ok (h1, cs) /\ grown h h1 [a] cs /\
    Permutation (map (value h1) cs) [c / 3; c / 3; value h a - 2 * (c / 3)].
Proof.
  intros W Ha Ic Hc. destruct (source_facts h t N a W Ha) as (Na & B & (l & LV) & CH & FI & PV).
  destruct (speed_third c Ic) as (E3 & P3 & M). unfold node_split. rewrite M. cbn [negb].
  set (q := c / 3) in *. change (n_value (get h a)) with (value h a).
  replace (value h a - q * 2) with (value h a - 2 * q) by lia.
  set (vs := zsorted [q; q; value h a - 2 * q]).
  assert (PV' : Permutation vs [q; q; value h a - 2 * q]) by apply sorted_by_perm.
  assert (LN : length vs = 3%nat) by (rewrite (Permutation_length PV'); reflexivity).
  assert (F : Forall (fun v => 0 < v) vs).
  { apply (forall_perm _ _ _ (Permutation_sym PV')). repeat constructor; lia. }
  destruct (branch_ok h a l vs B LV CH F) as (h1 & X). cbn zeta in X. destruct X as (BR & L1 & _). rewrite BR. cbn [bind].
  exists (upd a (add_tag (TSplit c)) h1), (seq (length h) (length vs)). split; [reflexivity|].
  destruct (branch_grown h h a [] l vs h1 (upd a (add_tag (TSplit c)) h1) [TSplit c]) as [G V]; auto.
  - rewrite set_expands_nil. reflexivity.
  - lia.
  - rewrite (zsum_perm _ _ PV'). rewrite !zsum_cons, zsum_nil. lia.
  - cbn [app]. eapply st_split; eauto.
  - apply upd_length.
  - intros b D. apply get_upd_other. congruence.
  - rewrite get_upd_same by lia. reflexivity.
  - split; [exact G|]. rewrite V. exact PV'.
Qed.

(** ** merging *)
Lemma fold_past_in (h : heap Z) A : (forall a, In a A -> fl_inv (n_past (get h a))) -> forall p, fl_inv p ->
  let r := fold_left (fun p a => fl_extend Z.eqb (fl_items (n_past (get h a))) p) A p in
  fl_inv r /\ (forall v, In v (fl_items p) -> In v (fl_items r)) /\
  (forall a v, In a A -> In v (fl_items (n_past (get h a))) -> In v (fl_items r)) /\
  (forall v, In v (fl_items r) -> In v (fl_items p) \/ exists a, In a A /\ In v (fl_items (n_past (get h a)))).
Proof.
  induction A as [|a A IH]; intros H p I; cbn zeta; cbn [fold_left].
  - repeat split; auto; [apply I|apply I|apply I|]. intros a v [].
  - destruct (IH (fun b Hb => H b (or_intror Hb)) (fl_extend Z.eqb (fl_items (n_past (get h a))) p)) as (I1 & S1 & S2 & S3).
    + apply (fl_extend_spec Z.eqb Z_eq_decides), I.
    + cbn zeta in *. split; [exact I1|]. split.
      * intros v Hv. apply S1. apply (fl_extend_in Z.eqb Z_eq_decides); [exact I|]. right. exact Hv.
      * split; [intros b v [<-|Hb] Hv; [|apply (S2 b v Hb Hv)]; apply S1; apply (fl_extend_in Z.eqb Z_eq_decides); [exact I|]; left; exact Hv|].
        intros v Hv. destruct (S3 v Hv) as [H0|(b & Hb & H0)]; [|right; exists b; split; [right; exact Hb|exact H0]].
        apply (fl_extend_in Z.eqb Z_eq_decides) in H0; [|exact I]. destruct H0 as [H0|H0]; [right; exists a; split; [left; reflexivity|exact H0]|left; exact H0].
Qed.
Lemma map_res_levels (h : heap Z) A : (forall a, In a A -> exists l, level h a = Some l) -> exists ls,
  map_res (fun a => match n_level (get h a) with Some l => Ok l | None => Err TypeError end) A = Ok ls /\ length ls = length A.
Proof.
  induction A as [|a A IH]; intros H; [exists []; auto|]. destruct (H a (or_introl eq_refl)) as (l & E). unfold level in E.
  cbn [map_res]. rewrite E. cbn [bind]. destruct IH as (ls & -> & L); [intros b Hb; apply H; right; exact Hb|]. cbn [bind].
  exists (l :: ls). cbn. auto.
Qed.

Lemma merge_grown h t N A : wf h t N -> (forall a, In a A -> In a (t_sources t)) -> NoDup A -> (2 <= length A)%nat ->
  exists h1 c, node_merge h A = Ok (h1, c) /\ grown h h1 A [c] /\ value h1 c = zsum (map (value h) A).
Proof.
  intros W HA ND LN.
  assert (FACTS := fun a Ha => source_facts h t N a W (HA a Ha)).
  unfold node_merge.
  assert (E1 : existsb (fun a => negb (length (n_children (get h a)) =? 0)%nat) A = false).
  { apply not_true_iff_false. rewrite existsb_exists. intros (a & Ha & X). destruct (FACTS a Ha) as (_ & _ & _ & CH & _).
    unfold children in CH. rewrite CH in X. discriminate. }
  rewrite E1. change (node_values h A) with (map (value h) A). set (s := zsum (map (value h) A)).
  assert (PS : 0 < s).
  { unfold s. destruct A as [|a A']; [cbn in LN; lia|]. cbn [map]. rewrite zsum_cons.
    destruct (FACTS a (or_introl eq_refl)) as (_ & _ & _ & _ & _ & P). assert (0 <= zsum (map (value h) A')); [|lia].
    assert (Q : forall a, In a A' -> 0 < value h a) by (intros b Hb; destruct (FACTS b (or_intror Hb)) as (_ & _ & _ & _ & _ & P'); exact P').
    clear - Q. induction A' as [|b A' IH]; [cbn; lia|]. cbn [map]. rewrite zsum_cons. specialize (Q b (or_introl eq_refl)) as Qb.
    assert (0 <= zsum (map (value h) A')) by (apply IH; intros x Hx; apply Q; right; exact Hx). lia. }
  replace (s <? 0) with false by lia.
  destruct (map_res_levels h A) as (ls & EL & LL). { intros a Ha. apply (FACTS a Ha). }
  unfold max_level. rewrite EL. cbn [bind]. destruct (zmax ls) as [l|] eqn:EM.
  2: { destruct ls; [cbn in LL; lia|discriminate]. }
  cbn [bind]. replace (length A <=? 1)%nat with false by (symmetry; apply Nat.leb_gt; lia).
  set (past := fold_left (fun p a => fl_extend Z.eqb (fl_items (n_past (get h a))) p) A _). set (c := length h). set (new := MkNode s c _ past A [] _ 0).
  assert (BA : forall a, In a A -> (a < length h)%nat) by (intros a Ha; apply (FACTS a Ha)).
  exists (fold_left (fun h a => upd a (add_child c) h) A (h ++ [new])), c. split; [reflexivity|].
  assert (LEN : length (fold_left (fun h a => upd a (add_child c) h) A (h ++ [new])) = (length h + 1)%nat).
  { etransitivity; [apply (fold_upd_length (fun _ => add_child c))|]. rewrite app_length. reflexivity. }
  assert (GC : get (fold_left (fun h a => upd a (add_child c) h) A (h ++ [new])) c = new).
  { etransitivity; [apply (get_fold_upd_other (fun _ => add_child c))|apply get_app_new]. intros I. specialize (BA c I). unfold c in BA. lia. }
  assert (I0 : fl_inv (fl_append Z.eqb s fl_new)) by (apply (fl_append_spec Z.eqb Z_eq_decides), fl_new_inv).
  destruct (fold_past_in h A (fun a Ha => proj1 (proj2 (proj2 (proj2 (proj2 (FACTS a Ha)))))) _ I0) as (P1 & P2 & P3 & P4). fold past in P1, P2, P3, P4.
  split.
  - constructor.
    + reflexivity.
    + exact LEN.
    + intros b B I. etransitivity; [apply (get_fold_upd_other (fun _ => add_child c)); exact I|]. apply get_app_l, B.
    + intros b I. exists []. destruct (FACTS b I) as (_ & _ & _ & CH & _). unfold children in CH.
      split; [|split; [cbn; lia|reflexivity]].
      etransitivity; [apply (get_fold_upd_in (fun _ => add_child c)); [exact ND|exact I|rewrite app_length; specialize (BA b I); lia]|].
      rewrite get_app_l by auto. unfold add_child. rewrite CH, app_nil_r. destruct (get h b). reflexivity.
    + intros x [<-|[]]. unfold parents, children, value. rewrite GC. cbn [n_parents n_children n_id n_value n_expands n_past new].
      split; [reflexivity|]. split; [reflexivity|]. split; [reflexivity|]. split; [exact PS|]. split; [reflexivity|].
      split; [exact P1|]. split; [apply P2; cbn; left; reflexivity|]. split; [exact P3|].
      intros v Hv. destruct (P4 v Hv) as [[H|[]]|H]; [left; symmetry; exact H|right; exact H].
    + right. exists c. split; [exact LN|]. split; [reflexivity|]. unfold value at 1. rewrite GC. reflexivity.
  - unfold value at 1. rewrite GC. reflexivity.
Qed.

(** ** an operation on a tree satisfying the invariant *)
Lemma nth_error_nth' {A} (l : list A) i d : (i < length l)%nat -> nth_error l i = Some (nth i l d).
Proof. apply nth_error_nth'. Qed.
Lemma source_at_ok t i : (i < length (t_sources t))%nat -> source_at t i = Ok (nth i (t_sources t) O).
Proof. intros H. unfold source_at. rewrite (nth_error_nth' _ _ O H). reflexivity. Qed.
Lemma map_res_source_at t is : (forall i, In i is -> (i < length (t_sources t))%nat) ->
  map_res (source_at t) is = Ok (map (fun i => nth i (t_sources t) O) is).
Proof. induction is as [|i is IH]; intros H; [reflexivity|]. cbn [map_res map]. rewrite source_at_ok by (apply H; left; reflexivity).
  cbn [bind]. rewrite IH by (intros j Hj; apply H; right; exact Hj). reflexivity. Qed.

Lemma perform_grown h t N o : wf h t N -> sensible h t o -> exists h1 cs,
  perform h t o = Ok (h1, cs) /\ grown h h1 (op_nodes t o) cs /\
  (forall a, In a (op_nodes t o) -> In a (t_sources t)) /\ NoDup (op_nodes t o) /\
  Permutation (map (value h1) cs) (given h t o).
Proof.
  intros W S. unfold sensible, given, taken in *. destruct o as [i c|i d|i c|is]; cbn [op_nodes map zsum fold_right perform] in *;
    rewrite ?Z.add_0_r in *.
  - destruct S as (Hi & Hc & D). rewrite source_at_ok by exact Hi. cbn [bind]. set (a := nth i (t_sources t) O) in *.
    assert (Ha : In a (t_sources t)) by (apply nth_In, Hi).
    destruct (extract_grown h t N a c W Ha Hc D) as (h1 & cs & E & G & P). exists h1, cs. rewrite E. split; [reflexivity|].
    split; [exact G|]. split; [intros x [<-|[]]; exact Ha|]. split; [repeat constructor; intros []|exact P].
  - destruct S as (Hi & Hd & D). rewrite source_at_ok by exact Hi. cbn [bind]. set (a := nth i (t_sources t) O) in *.
    assert (Ha : In a (t_sources t)) by (apply nth_In, Hi).
    destruct (divide_grown h t N a d W Ha Hd D) as (h1 & cs & E & G & P). exists h1, cs. rewrite E. split; [reflexivity|].
    split; [exact G|]. split; [intros x [<-|[]]; exact Ha|]. split; [repeat constructor; intros []|exact P].
  - destruct S as (Hi & Ic & D). rewrite source_at_ok by exact Hi. cbn [bind]. set (a := nth i (t_sources t) O) in *.
    assert (Ha : In a (t_sources t)) by (apply nth_In, Hi).
    destruct (split_grown h t N a c W Ha Ic D) as (h1 & cs & E & G & P). exists h1, cs. rewrite E. split; [reflexivity|].
    split; [exact G|]. split; [intros x [<-|[]]; exact Ha|]. split; [repeat constructor; intros []|exact P].
  - destruct S as (L & ND & B). rewrite map_res_source_at by exact B. cbn [bind].
    set (A := map (fun i => nth i (t_sources t) O) is).
    assert (HA : forall a, In a A -> In a (t_sources t)).
    { intros a Ha. apply in_map_iff in Ha. destruct Ha as (i & <- & Hi). apply nth_In, B, Hi. }
    assert (NA : NoDup A).
    { apply nodup_map_inj with (fun i => (i < length (t_sources t))%nat); [|exact B|exact ND].
      intros i j Bi Bj E. pose proof (wf_open_nd _ _ _ W) as X. rewrite (NoDup_nth _ O) in X. apply X; assumption. }
    destruct (merge_grown h t N A W HA NA) as (h1 & c & E & G & V); [unfold A; rewrite map_length; exact L|].
    rewrite E. cbn [bind]. exists h1, [c]. split; [reflexivity|]. split; [exact G|]. split; [exact HA|]. split; [exact NA|].
    cbn [map]. rewrite V. unfold A. reflexivity.
Qed.

Lemma op_nodes_copy C t t' o : (forall i, (i < length (t_sources t))%nat -> nth i (t_sources t') O = C (nth i (t_sources t) O)) ->
  (match o with OExtract i _ | ODivide i _ | OSplit i _ => (i < length (t_sources t))%nat | OMerge is => forall i, In i is -> (i < length (t_sources t))%nat end) ->
  op_nodes t' o = map C (op_nodes t o).
Proof.
  intros H B. destruct o as [i c|i d|i c|is]; cbn [op_nodes map]; [rewrite H by exact B; reflexivity..|].
  rewrite map_map. apply map_ext_in. intros i Hi. apply H, B, Hi.
Qed.

(** the tree that results from an operation *)
Record applied (h : heap Z) (t : tree Z) (N : nat -> Prop) (o : op) (cost : Z) (h' : heap Z) (t' : tree Z) (N' : nat -> Prop) : Prop := {
  ap_extends : extends h h';
  ap_wf : wf h' t' N';
  ap_fresh : forall a, N' a -> (length h <= a)%nat;
  ap_roots : map (value h') (t_roots t') = map (value h) (t_roots t);
  ap_size : t_size t' = t_size t + cost;
  ap_past : fl_items (t_past t') = fl_items (fl_append tuple_eqb (t_source_values t) (t_past t));
  ap_level : t_current_level t' = t_current_level t + 1;
  ap_count : t_n_sources t' = Z.of_nat (length (t_sources t'));
  ap_open_level : forall a, In a (t_sources t') -> level h' a = Some (t_current_level t');
  ap_inner_level : forall a, N' a -> ~ In a (t_sources t') -> exists l, level h' a = Some l /\ l < t_current_level t';
  ap_values : Permutation (t_source_values t' ++ taken h t o) (t_source_values t ++ given h t o);
  ap_all : forall v, (exists a, N' a /\ v = value h' a) -> (exists a, N a /\ v = value h a) \/ In v (given h t o);
  (* pasts: a copy has its value and the past of a root, a new node also the values of its parents *)
  ap_root_past : forall b v, In b (t_roots t') -> In v (fl_items (n_past (get h' b))) ->
    In v (map (value h) (t_roots t)) \/ exists r, In r (t_roots t) /\ In v (fl_items (n_past (get h r)));
  ap_node_past : forall b v, N' b -> In v (fl_items (n_past (get h' b))) ->
    v = value h' b \/ In v (taken h t o) \/ exists r, In r (t_roots t) /\ In v (fl_items (n_past (get h r)))
}.

Lemma apply_op_ok h t N o cost : wf h t N -> sensible h t o ->
  exists h' t' N', apply_op h t o cost = Ok (h', t') /\ applied h t N o cost h' t' N'.
Proof.
  intros W S. destruct (tree_deepcopy_ok h t N W) as (hc & tc & C & EC & CR).
  pose proof (cr_wf _ _ _ _ _ _ CR) as WC. set (NC := fun c => exists a, N a /\ c = C a) in *.
  assert (SN : forall i, (i < length (t_sources t))%nat -> N (nth i (t_sources t) O)).
  { intros i Hi. apply (nth_In _ O), (wf_open _ _ _ W) in Hi. tauto. }
  assert (NTH : forall i, (i < length (t_sources t))%nat -> nth i (t_sources tc) O = C (nth i (t_sources t) O)).
  { intros i Hi. rewrite (cr_sources _ _ _ _ _ _ CR). rewrite (nth_indep _ O (C O)) by (rewrite map_length; exact Hi). apply map_nth. }
  assert (BO : match o with OExtract i _ | ODivide i _ | OSplit i _ => (i < length (t_sources t))%nat | OMerge is => forall i, In i is -> (i < length (t_sources t))%nat end).
  { unfold sensible in S. destruct o; tauto. }
  assert (ON : op_nodes tc o = map C (op_nodes t o)) by (apply op_nodes_copy; assumption).
  assert (NO : forall a, In a (op_nodes t o) -> N a).
  { intros a Ha. destruct o as [i c|i d|i c|is]; cbn [op_nodes] in Ha; try (destruct Ha as [<-|[]]; apply SN, BO).
    apply in_map_iff in Ha. destruct Ha as (i & <- & Hi). apply SN, BO, Hi. }
  assert (TK : taken hc tc o = taken h t o).
  { unfold taken. rewrite ON, map_map. apply map_ext_in. intros a Ha. apply (cr_data _ _ _ _ _ _ CR a (NO a Ha)). }
  assert (GV : given hc tc o = given h t o) by (unfold given; rewrite TK; reflexivity).
  assert (SL : length (t_sources tc) = length (t_sources t)) by (rewrite (cr_sources _ _ _ _ _ _ CR); apply map_length).
  assert (SC : sensible hc tc o) by (unfold sensible in *; rewrite TK, SL; exact S).
  destruct (perform_grown hc tc NC o WC SC) as (h1 & cs & EP & G & HA & NA & PV).
  destruct (add_ok hc h1 tc NC (op_nodes tc o) cs cost WC G HA NA)
    as (h2 & t2 & EA & W2 & L2 & OLD & RT & SZ & PA & LV & CT & OL & IL & VN & VC & (QN & QC) & PM).
  exists h2, t2, (fun a => NC a \/ In a cs).
  split. { unfold apply_op. rewrite EC. cbn [bind]. rewrite EP. cbn [bind]. exact EA. }
  pose proof (extends_length _ _ (cr_extends _ _ _ _ _ _ CR)) as LC.
  assert (FR : forall a, NC a \/ In a cs -> (length h <= a)%nat).
  { intros a [(b & Nb & ->)|Hc]; [apply (cr_new _ _ _ _ _ _ CR b Nb)|]. rewrite (gr_cs _ _ _ _ G) in Hc. apply in_seq in Hc. lia. }
  constructor; auto.
  - apply extends_intro.
    + rewrite L2, (gr_len _ _ _ _ G). lia.
    + intros a Ha. rewrite OLD; [apply extends_get; [apply (cr_extends _ _ _ _ _ _ CR)|exact Ha]|lia|].
      intros NCa. specialize (FR a (or_introl NCa)). lia.
  - rewrite RT, (cr_roots _ _ _ _ _ _ CR), map_map. apply map_ext_in. intros a Ha. pose proof (wf_roots _ _ _ W a Ha) as Na.
    rewrite VN by (exists a; auto). apply (cr_data _ _ _ _ _ _ CR a Na).
  - rewrite SZ, (cr_size _ _ _ _ _ _ CR). reflexivity.
  - rewrite PA. destruct (fl_append_spec tuple_eqb tuple_Z_decides (t_source_values tc) (t_past tc) (wf_tpast _ _ _ WC)) as [_ ->].
    destruct (fl_append_spec tuple_eqb tuple_Z_decides (t_source_values t) (t_past t) (wf_tpast _ _ _ W)) as [_ ->].
    rewrite (cr_past _ _ _ _ _ _ CR), (cr_values _ _ _ _ _ _ CR). reflexivity.
  - rewrite LV, (cr_level _ _ _ _ _ _ CR). reflexivity.
  - rewrite <- TK, <- GV, <- (cr_values _ _ _ _ _ _ CR). unfold taken. rewrite PM. apply Permutation_app_head. exact PV.
  - intros v (a & [NCa|Hc] & ->).
    + left. rewrite VN by exact NCa. destruct NCa as (b & Nb & ->). exists b. split; [exact Nb|]. apply (cr_data _ _ _ _ _ _ CR b Nb).
    + right. rewrite <- GV. apply (Permutation_in _ PV). rewrite VC by exact Hc. apply in_map, Hc.
  - intros b v Hb Hv. rewrite RT, (cr_roots _ _ _ _ _ _ CR) in Hb. apply in_map_iff in Hb. destruct Hb as (a & <- & Ha).
    pose proof (wf_roots _ _ _ W a Ha) as Na. rewrite QN in Hv by (exists a; auto).
    destruct (cr_npast _ _ _ _ _ _ CR a v Na Hv) as [->|H]; [left; apply in_map, Ha|right; exact H].
  - assert (OLDP : forall b v, NC b -> In v (fl_items (n_past (get hc b))) -> v = value hc b \/ exists r, In r (t_roots t) /\ In v (fl_items (n_past (get h r)))).
    { intros b v (a & Na & ->) Hv. destruct (cr_npast _ _ _ _ _ _ CR a v Na Hv) as [->|H]; [left; symmetry; apply (cr_data _ _ _ _ _ _ CR a Na)|right; exact H]. }
    intros b v [Nb|Hc] Hv.
    + rewrite QN in Hv by exact Nb. destruct (OLDP b v Nb Hv) as [->|H]; [left; symmetry; apply VN, Nb|auto].
    + rewrite QC in Hv by exact Hc. destruct (gr_new _ _ _ _ G b Hc) as (_ & _ & _ & _ & _ & _ & _ & _ & U).
      destruct (U v Hv) as [->|(a & Ha & H)]; [left; symmetry; apply VC, Hc|]. right.
      assert (NCa : NC a) by (apply (wf_open _ _ _ WC), HA, Ha).
      destruct (OLDP a v NCa H) as [->|H']; [left|right; exact H']. rewrite <- TK. unfold taken. apply in_map, Ha.
Qed.
