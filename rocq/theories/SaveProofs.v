(** Proofs about the saved files: wrap and unwrap, and the names that are removed. *)
From Verif Require Import Base BaseLemmas Cost Utils Fractions FractionsSpec FractionsProofs FormatProofs RoundTripProofs Load Tree HeapLemmas Search Expand Conclude ConcludeSpec FracProofs.
From Coq Require Import QArith Qcanon.
Open Scope Z_scope.

Lemma nat_in_true a l : nat_in a l = true <-> In a l.
Proof. unfold nat_in. rewrite existsb_exists. split; [intros (x & I & E); apply Nat.eqb_eq in E; subst; exact I|intros I; exists a; split; [exact I|apply Nat.eqb_refl]]. Qed.

(** ** traverse *)
Section Wrap.
Variables (h : heap Qc) (root : nat).
Hypothesis InRange : forall a, linked h root a -> (a < length h)%nat.

Definition out (seen : list nat) : list line := map (line_of h) (rev seen).

Lemma seen_bound seen : NoDup seen -> Forall (linked h root) seen -> (length seen <= length h)%nat.
Proof.
  intros ND F. rewrite <- (seq_length (length h) 0). apply NoDup_incl_length; [exact ND|]. intros x I. apply in_seq. rewrite Forall_forall in F. specialize (InRange x (F x I)). lia.
Qed.

Lemma traverse_ok : forall fuel seen a, NoDup seen -> Forall (linked h root) seen -> linked h root a -> (length h - length seen < fuel)%nat ->
  exists new, traverse fuel h (seen, out seen) a = Ok (new ++ seen, out (new ++ seen)) /\ NoDup (new ++ seen) /\ Forall (linked h root) (new ++ seen) /\
    In a (new ++ seen) /\ forall x y, In x new -> neighbour h x y -> In y (new ++ seen).
Proof.
  induction fuel as [|fuel IH]; intros seen a ND F La Fu; [lia|]. cbn [traverse]. destruct (nat_in a seen) eqn:Ea.
  { exists []. apply nat_in_true in Ea. split; [reflexivity|]. split; [exact ND|]. split; [exact F|]. split; [exact Ea|intros x y []]. }
  assert (Na : ~ In a seen) by (intros X; apply nat_in_true in X; congruence).
  assert (ND1 : NoDup (a :: seen)) by (constructor; assumption). assert (F1 : Forall (linked h root) (a :: seen)) by (constructor; assumption).
  pose proof (seen_bound _ ND1 F1) as B1. cbn [length] in B1.
  assert (K : forall l cur, (forall b, In b l -> linked h root b) -> NoDup cur -> Forall (linked h root) cur -> (length h - length cur < fuel)%nat ->
    exists new, fold_res (fun st b => if nat_in b (fst st) then Ok st else traverse fuel h st b) l (cur, out cur) = Ok (new ++ cur, out (new ++ cur)) /\ NoDup (new ++ cur) /\ Forall (linked h root) (new ++ cur) /\
      (forall b, In b l -> In b (new ++ cur)) /\ forall x y, In x new -> neighbour h x y -> In y (new ++ cur)).
  { induction l as [|b l IHl]; intros cur Ll NDc Fc Fuc.
    { exists []. split; [reflexivity|]. split; [exact NDc|]. split; [exact Fc|]. split; [intros b []|intros x y []]. }
    cbn [fold_res fst]. destruct (nat_in b cur) eqn:Eb.
    - destruct (IHl cur (fun x I => Ll x (or_intror I)) NDc Fc Fuc) as (new & R1 & R2 & R3 & R4 & R5). exists new. cbn [bind]. split; [exact R1|]. split; [exact R2|]. split; [exact R3|]. split; [|exact R5].
      intros x [<-|I]; [|auto]. apply nat_in_true in Eb. apply in_or_app. right. exact Eb.
    - destruct (IH cur b NDc Fc (Ll b (or_introl eq_refl)) Fuc) as (n1 & R1 & R2 & R3 & R4 & R5). rewrite R1. cbn [bind].
      destruct (IHl (n1 ++ cur) (fun x I => Ll x (or_intror I)) R2 R3) as (n2 & S1 & S2 & S3 & S4 & S5); [rewrite app_length; lia|].
      exists (n2 ++ n1). rewrite <- app_assoc. split; [exact S1|]. split; [exact S2|]. split; [exact S3|]. split.
      + intros x [<-|I]; [|auto]. apply in_or_app. right. exact R4.
      + intros x y I Nb. apply in_app_or in I. destruct I as [I|I]; [apply (S5 x y I Nb)|]. apply in_or_app. right. apply (R5 x y I Nb). }
  destruct (K (n_children (get h a) ++ n_parents (get h a)) (a :: seen)) as (new & R1 & R2 & R3 & R4 & R5).
  - intros b I. apply (linked_next h root a b La). apply in_app_or in I. exact I.
  - exact ND1.
  - exact F1.
  - cbn [length]. lia.
  - exists (new ++ [a]). rewrite <- app_assoc. cbn [app].
    assert (O1 : out (a :: seen) = out seen ++ [line_of h a]) by (unfold out; cbn [rev]; rewrite map_app; reflexivity).
    rewrite <- O1. split; [exact R1|]. split; [exact R2|]. split; [exact R3|]. split; [apply in_or_app; right; left; reflexivity|].
    intros x y I Nb. apply in_app_or in I. destruct I as [I|[<-|[]]]; [apply (R5 x y I Nb)|]. apply R4. apply in_or_app. exact Nb.
Qed.

Lemma wrap_ok fuel : (length h < fuel)%nat -> exists order, wrap fuel h root = Ok (map (line_of h) order) /\ NoDup order /\ forall a, In a order <-> linked h root a.
Proof.
  intros Fu. destruct (traverse_ok fuel [] root) as (new & R1 & R2 & R3 & R4 & R5); [constructor|constructor|constructor|cbn; lia|]. rewrite app_nil_r in *.
  exists (rev new). unfold wrap. change ([], []) with ([] : list nat, out []). rewrite R1. cbn [bind snd]. split; [reflexivity|]. split; [apply NoDup_rev, R2|].
  intros a. rewrite <- in_rev. split.
  - rewrite Forall_forall in R3. apply R3.
  - intros L. induction L as [|a b La IH Nb]; [exact R4|]. apply (R5 a b IH Nb).
Qed.
End Wrap.

(** ** unwrap *)
Fixpoint position (l : list nat) (a : nat) : nat :=
  match l with [] => O | x :: l => if (x =? a)%nat then O else S (position l a) end.
Lemma position_in l a : In a l -> (position l a < length l)%nat /\ nth (position l a) l O = a.
Proof.
  induction l as [|x l IH]; intros I; [destruct I|]. cbn [position]. destruct (Nat.eqb_spec x a) as [->|Ne]; [cbn; split; [lia|reflexivity]|].
  destruct I as [->|I]; [congruence|]. destruct (IH I) as [A B]. cbn [length nth]. split; [lia|exact B].
Qed.
Lemma position_nth l k : NoDup l -> (k < length l)%nat -> position l (nth k l O) = k.
Proof.
  intros ND B. pose proof (position_in l (nth k l O) (nth_In _ _ B)) as [C D]. apply (proj1 (NoDup_nth l O) ND); assumption.
Qed.

Section Unwrap.
Variables (h : heap Qc) (order : list nat).
Hypothesis ND : NoDup order.
Hypothesis Ids : forall a b, In a order -> In b order -> n_id (get h a) = n_id (get h b) -> a = b.
Hypothesis Vals : forall a, In a order -> 0 <= numer (n_value (get h a)).
Hypothesis Closed : forall a b, In a order -> neighbour h a b -> In b order.

Definition bare (a : nat) : node Qc := let n := get h a in MkNode (n_value n) (n_id n) (n_level n) (fl_append frac_eqb (n_value n) fl_new) [] [] [] 0.
Definition full (a : nat) : node Qc := let n := get h a in MkNode (n_value n) (n_id n) (n_level n) (fl_append frac_eqb (n_value n) fl_new)
  (map (position order) (n_parents n)) (map (position order) (n_children n)) (n_expands n) 0.
Definition idmap (l : list nat) : list (nat * nat) := combine (map (fun a => n_id (get h a)) l) (seq 0 (length l)).

Lemma map_set_fresh m : forall id a, (forall e, In e m -> fst e <> id) -> map_set id a m = m ++ [(id, a)].
Proof. induction m as [|[k b] m IH]; intros id a F; [reflexivity|]. cbn [map_set app]. destruct (Nat.eqb_spec k id) as [->|Ne]; [destruct (F (id, b) (or_introl eq_refl) eq_refl)|]. rewrite IH; [reflexivity|]. intros e I. apply F. right. exact I. Qed.
Lemma combine_snoc {A B} (l : list A) (l' : list B) x y : length l = length l' -> combine (l ++ [x]) (l' ++ [y]) = combine l l' ++ [(x, y)].
Proof. revert l'. induction l as [|a l IH]; intros [|b l'] E; try discriminate; [reflexivity|]. cbn [app combine]. rewrite IH; [reflexivity|]. cbn in E. lia. Qed.
Lemma idmap_snoc l a : idmap (l ++ [a]) = idmap l ++ [(n_id (get h a), length l)].
Proof. unfold idmap. rewrite map_app, app_length, Nat.add_comm. cbn [length map Nat.add]. rewrite seq_S. cbn [Nat.add]. rewrite combine_snoc; [reflexivity|]. rewrite map_length, seq_length. reflexivity. Qed.

Lemma nodes_built : forall todo done, order = done ++ todo -> fold_res unwrap_node (map (line_of h) todo) (map bare done, idmap done) = Ok (map bare order, idmap order).
Proof.
  induction todo as [|a todo IH]; intros done E; [rewrite app_nil_r in E; subst; reflexivity|]. cbn [map fold_res]. unfold unwrap_node. cbn [line_of l_value fst snd l_id l_level].
  assert (Ia : In a order) by (rewrite E; apply in_or_app; right; left; reflexivity). rewrite mkfrac_frac. cbn [bind]. unfold negative. pose proof (Vals a Ia) as V. destruct (Z.ltb_spec (numer (n_value (get h a))) 0); [lia|].
  cbn [bind]. rewrite map_length, map_set_fresh.
  - rewrite <- idmap_snoc. change (map bare done ++ [_]) with (map bare done ++ map bare [a]). rewrite <- map_app. apply IH. rewrite <- app_assoc. exact E.
  - intros [k b] I. cbn [fst]. intros ->. unfold idmap in I. apply in_combine_l in I. apply in_map_iff in I. destruct I as (x & Ex & Ix).
    assert (x = a) by (apply Ids; [rewrite E; apply in_or_app; left; exact Ix|exact Ia|exact Ex]). subst x. rewrite E in ND. apply NoDup_remove_2 in ND. apply ND, in_or_app. left. exact Ix.
Qed.

Lemma idmap_get a : In a order -> map_get (idmap order) (n_id (get h a)) = Ok (position order a).
Proof.
  unfold map_get, idmap. intros Ia.
  assert (X : forall l k, In a l -> incl l order -> find (fun e : nat * nat => (fst e =? n_id (get h a))%nat) (combine (map (fun a => n_id (get h a)) l) (seq k (length l))) = Some (n_id (get h a), (k + position l a)%nat)).
  { induction l as [|x l IH]; intros k I Inc; [destruct I|]. cbn [map length seq combine find fst position]. destruct (Nat.eqb_spec x a) as [->|Ne]; [rewrite Nat.eqb_refl, Nat.add_0_r; reflexivity|].
    destruct (Nat.eqb_spec (n_id (get h x)) (n_id (get h a))) as [Eq|_]; [apply Ids in Eq; [congruence|apply Inc; left; reflexivity|exact Ia]|].
    rewrite IH; [f_equal; f_equal; lia|destruct I; [congruence|assumption]|intros y J; apply Inc; right; exact J]. }
  rewrite (X order 0%nat Ia (incl_refl _)). reflexivity.
Qed.
Lemma idmap_gets l : incl l order -> map_res (map_get (idmap order)) (map (fun a => n_id (get h a)) l) = Ok (map (position order) l).
Proof. induction l as [|a l IH]; intros Inc; [reflexivity|]. cbn [map map_res]. rewrite idmap_get by (apply Inc; left; reflexivity). cbn [bind]. rewrite IH by (intros x I; apply Inc; right; exact I). reflexivity. Qed.

Lemma upd_middle {A} (l : list A) x l' f : upd (length l) f (l ++ x :: l') = l ++ f x :: l'.
Proof. induction l as [|y l IH]; [reflexivity|]. cbn [length app upd]. rewrite IH. reflexivity. Qed.
Lemma links_built : forall todo done, order = done ++ todo -> fold_res (unwrap_links (idmap order)) (map (line_of h) todo) (map full done ++ map bare todo) = Ok (map full order).
Proof.
  induction todo as [|a todo IH]; intros done E; [rewrite app_nil_r in E; subst; cbn; rewrite app_nil_r; reflexivity|]. cbn [map fold_res]. unfold unwrap_links at 1. cbn [line_of l_id l_parents l_children l_expands].
  assert (Ia : In a order) by (rewrite E; apply in_or_app; right; left; reflexivity). rewrite idmap_get by exact Ia. cbn [bind].
  rewrite !idmap_gets by (intros b I; apply (Closed a b Ia); first [left; exact I|right; exact I]). cbn [bind].
  assert (Pa : position order a = length done).
  { rewrite <- (position_nth order (length done) ND) by (rewrite E, app_length; cbn; lia). rewrite E at 3. rewrite app_nth2, Nat.sub_diag by lia. reflexivity. }
  rewrite Pa. replace (length done) with (length (map full done)) by apply map_length. rewrite upd_middle.
  specialize (IH (done ++ [a])). rewrite map_app, <- !app_assoc in IH. cbn [map app] in IH. rewrite <- IH by exact E. reflexivity.
Qed.

Lemma map_snd_combine {A B} (l : list A) (l' : list B) : length l = length l' -> map snd (combine l l') = l'.
Proof. revert l'. induction l as [|a l IH]; intros [|b l'] E; try discriminate; [reflexivity|]. cbn. rewrite IH; [reflexivity|]. cbn in E. lia. Qed.

Lemma unwrap_ok : unwrap (map (line_of h) order) = Ok (map full order, filter (fun a => match n_level (get (map full order) a) with Some l => l =? 0 | None => false end) (seq 0 (length order))).
Proof.
  unfold unwrap. pose proof (nodes_built order [] eq_refl) as A. cbn [map] in A. change (idmap []) with ([] : list (nat * nat)) in A. rewrite A. cbn [bind].
  pose proof (links_built order [] eq_refl) as B. cbn [map app] in B. rewrite B. cbn [bind]. unfold idmap. rewrite map_snd_combine; [reflexivity|]. rewrite map_length, seq_length. reflexivity.
Qed.
End Unwrap.

Lemma get_map_full h order k : (k < length order)%nat -> get (map (full h order) order) k = full h order (nth k order O).
Proof. intros B. unfold get. rewrite nth_indep with (d' := full h order O) by (rewrite map_length; exact B). apply map_nth. Qed.

Lemma c44_partial_lemma : forall h root fuel, (length h < fuel)%nat -> (forall a, linked h root a -> (a < length h)%nat) ->
  (forall a b, linked h root a -> linked h root b -> n_id (get h a) = n_id (get h b) -> a = b) ->
  (forall a, linked h root a -> (0 <= n_value (get h a))%Qc) ->
  exists data h' roots m, wrap fuel h root = Ok data /\ unwrap data = Ok (h', roots) /\ rebuilt h root h' m /\ entrances h root m roots.
Proof.
  intros h root fuel Fu IR Ids Vals. destruct (wrap_ok h root IR fuel Fu) as (order & W & ND & Or).
  assert (V : forall a, In a order -> 0 <= numer (n_value (get h a))).
  { intros a I. specialize (Vals a (proj1 (Or a) I)). unfold Qcle, Qle in Vals. cbn in Vals. unfold numer. lia. }
  assert (Ids' : forall a b, In a order -> In b order -> n_id (get h a) = n_id (get h b) -> a = b) by (intros a b I J; apply Ids; apply Or; assumption).
  assert (Cl : forall a b, In a order -> neighbour h a b -> In b order) by (intros a b I Nb; apply Or; apply (linked_next h root a b); [apply Or, I|exact Nb]).
  pose proof (unwrap_ok h order ND Ids' V Cl) as U. eexists. eexists. eexists. exists (position order). split; [exact W|]. split; [exact U|]. split.
  - split; [|split].
    + intros a La. apply Or in La. destruct (position_in order a La) as [P1 P2]. rewrite map_length. split; [exact P1|]. unfold same_node. rewrite get_map_full, P2 by exact P1. cbn. auto 8.
    + intros b B. rewrite map_length in B. exists (nth b order O). split; [apply Or, nth_In, B|apply position_nth; assumption].
    + intros a b La Lb E. apply Or in La, Lb. rewrite <- (proj2 (position_in order a La)), <- (proj2 (position_in order b Lb)), E. reflexivity.
  - split; [apply NoDup_filter, seq_NoDup|]. intros b. rewrite filter_In, in_seq. split.
    + intros [[_ B] T]. cbn [Nat.add] in B. rewrite get_map_full in T by exact B. exists (nth b order O). split; [apply Or, nth_In, B|]. split; [|apply position_nth; assumption].
      cbn in T. destruct (n_level (get h (nth b order O))) as [l|]; [|discriminate]. apply Z.eqb_eq in T. subst. reflexivity.
    + intros (a & La & Lv & <-). apply Or in La. destruct (position_in order a La) as [P1 P2]. split; [lia|]. rewrite get_map_full, P2 by exact P1. cbn. rewrite Lv. reflexivity.
Qed.

(** ** file names *)
Lemma after_prefix_some pre : forall s r, after_prefix pre s = Some r <-> s = pre ++ r.
Proof.
  induction pre as [|c pre IH]; intros s r; cbn [after_prefix app]; [split; [intros [= ->]; reflexivity|intros ->; reflexivity]|].
  destruct s as [|d s]; [split; discriminate|]. destruct (Z.eqb_spec c d) as [->|Ne]; [rewrite IH; split; [intros ->; reflexivity|intros [= ->]; reflexivity]|]. split; [discriminate|]. intros [= E _]. congruence.
Qed.
Lemma after_prefix_app pre r : after_prefix pre (pre ++ r) = Some r.
Proof. apply after_prefix_some. reflexivity. Qed.
Lemma span_digits_spec s : forall ds r, span_digits s = (ds, r) -> digits ds /\ s = ds ++ r.
Proof.
  induction s as [|c s IH]; intros ds r; cbn [span_digits]; [intros [= <- <-]; split; [constructor|reflexivity]|].
  destruct (is_digit c) eqn:E; [|intros [= <- <-]; split; [constructor|reflexivity]]. destruct (span_digits s) as [ds' r'] eqn:E'. intros [= <- <-]. destruct (IH _ _ eq_refl) as [A B]. split; [constructor; assumption|]. rewrite B. reflexivity.
Qed.
Lemma all_digits_iff ds : all_digits ds <-> ds <> [] /\ digits ds.
Proof.
  unfold all_digits, digits. split; intros [N F]; (split; [exact N|]); rewrite Forall_forall in *; intros c I; specialize (F c I); unfold is_digit in *.
  - apply andb_true_iff. split; apply Z.leb_le; lia.
  - apply andb_true_iff in F. destruct F as [F1 F2]. apply Z.leb_le in F1, F2. lia.
Qed.

Lemma regex_iff name : solution_regex_match name = true <-> looks_produced name.
Proof.
  unfold solution_regex_match, looks_produced, solution_name. split.
  - destruct (after_prefix s_solution name) as [r|] eqn:E; [|discriminate]. apply after_prefix_some in E. destruct (span_digits r) as [ds r'] eqn:E'. apply span_digits_spec in E'. destruct E' as [D ->].
    destruct ds as [|d ds]; [discriminate|]. set (dd := d :: ds) in *.
    assert (X : exists suf r2, suffix_ok suf /\ r' = suf ++ r2 /\ match after_prefix s_expanded_suffix r' with Some r => r | None => r' end = r2).
    { destruct (after_prefix s_expanded_suffix r') as [r2|] eqn:E2; [apply after_prefix_some in E2; exists s_expanded_suffix, r2|exists [], r']; unfold suffix_ok; auto. }
    destruct X as (suf & r2 & S1 & -> & ->). intros T.
    assert (Y : exists ext r3, extension_ok ext /\ r2 = ext ++ r3).
    { unfold extension_ok. destruct (after_prefix s_png r2) as [r3|] eqn:E3; [apply after_prefix_some in E3; exists s_png, r3; auto|]. destruct (after_prefix s_data r2) as [r3|] eqn:E4; [|discriminate]. apply after_prefix_some in E4. exists s_data, r3. auto. }
    destruct Y as (ext & r3 & X1 & ->). exists dd, suf, ext, r3. split; [apply all_digits_iff; split; [discriminate|exact D]|]. split; [exact S1|]. split; [exact X1|]. rewrite E. rewrite <- !app_assoc. reflexivity.
  - intros (ds & suf & ext & rest & D & S1 & X1 & ->). apply all_digits_iff in D. destruct D as [Nd D]. rewrite <- !app_assoc. change [115; 111; 108; 117; 116; 105; 111; 110] with s_solution. rewrite after_prefix_app. rewrite span_digits_app by exact D.
    assert (Z0 : span_digits (suf ++ ext ++ rest) = ([], suf ++ ext ++ rest)) by (destruct S1 as [->| ->], X1 as [->| ->]; reflexivity).
    rewrite Z0. cbn [fst snd]. rewrite app_nil_r. destruct ds as [|d ds]; [congruence|].
    assert (Z1 : match after_prefix s_expanded_suffix (suf ++ ext ++ rest) with Some r => r | None => suf ++ ext ++ rest end = ext ++ rest).
    { destruct S1 as [->| ->]; [|change [95; 101; 120; 112; 97; 110; 100; 101; 100] with s_expanded_suffix; rewrite after_prefix_app; reflexivity]. destruct X1 as [->| ->]; reflexivity. }
    rewrite Z1. destruct X1 as [->| ->]; [change [46; 112; 110; 103] with s_png; rewrite after_prefix_app; reflexivity|].
    change [46; 100; 97; 116; 97] with s_data. rewrite after_prefix_app. destruct (after_prefix s_png (s_data ++ rest)); reflexivity.
Qed.

Lemma solution_files_look i name : 0 <= i -> In name (solution_files i) -> looks_produced name.
Proof.
  intros B I. unfold solution_files in I. apply in_flat_map in I. destruct I as (suf & Is & I). apply in_map_iff in I. destruct I as (ext & <- & Ie).
  destruct (str_of_nonneg i B) as (D & Nd & _). exists (str_of_Z i), suf, ext, []. rewrite app_nil_r. split; [apply all_digits_iff; auto|]. split; [destruct Is as [<-|[<-|[]]]; unfold suffix_ok; auto|]. split; [destruct Ie as [<-|[<-|[]]]; unfold extension_ok; auto|]. reflexivity.
Qed.
Lemma c45_partial_lemma : forall names,
  (forall i name, 0 <= i -> In name (solution_files i) -> ~ In name (clear_solution_files names)) /\
  (forall name, In name (clear_solution_files names) <-> In name names /\ ~ looks_produced name).
Proof.
  intros names. assert (X : forall name, In name (clear_solution_files names) <-> In name names /\ ~ looks_produced name).
  { intros name. unfold clear_solution_files. rewrite filter_In, negb_true_iff, <- regex_iff. destruct (solution_regex_match name); intuition congruence. }
  split; [|exact X]. intros i name B I J. apply X in J. apply (proj2 J), (solution_files_look i); assumption.
Qed.
(** "solution1.png.bak" *)
Definition backup : str := [115; 111; 108; 117; 116; 105; 111; 110; 49; 46; 112; 110; 103; 46; 98; 97; 107].
Lemma last_of_file i name : In name (solution_files i) -> last name 0 = 103 \/ last name 0 = 97.
Proof.
  intros I. unfold solution_files in I. apply in_flat_map in I. destruct I as (suf & Is & I). apply in_map_iff in I. destruct I as (ext & <- & Ie).
  destruct Ie as [<-|[<-|[]]]; rewrite !app_assoc; [left|right]; unfold s_png, s_data.
  - change [46; 112; 110; 103] with ([46; 112; 110] ++ [103]). rewrite app_assoc. apply last_last.
  - change [46; 100; 97; 116; 97] with ([46; 100; 97; 116] ++ [97]). rewrite app_assoc. apply last_last.
Qed.
Lemma c45_refuted_lemma : ~ (forall names name, In name (clear_solution_files names) <-> In name names /\ ~ exists i, 0 <= i /\ In name (solution_files i)).
Proof.
  intros H. assert (X : In backup (clear_solution_files [backup])).
  { apply H. split; [left; reflexivity|]. intros (i & _ & I). apply last_of_file in I. cbn in I. destruct I; discriminate. }
  vm_compute in X. exact X.
Qed.
