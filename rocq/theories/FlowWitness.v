(** A network of nine units that is drawn wrong, and networks too small for that. *)
From Verif Require Import Base BaseLemmas Cost CostSpec CostProofs Utils Fractions FractionsProofs Load LoadSpec Tree TreeSpec HeapLemmas Search SearchSpec SearchWitness Real RealSpec RealProofs Expand ExpandSpec ExpandProofs
  FrameProofs MergeProofs LocalProofs MergeSafe TraverseSafe Conclude ConcludeProofs SavedSpec SavedProofs FlowSpec FlowProofs FlowMerge FlowOps FlowWalk FlowStart FlowFinal.
From Coq Require Import QArith Qcanon.
Open Scope Z_scope.

(** ** 9 to 1 8 *)
Definition p_9 : problem := problem_of [57; 32; 116; 111; 32; 49; 32; 56].
(** the scores and comparisons of the program; the search is stopped once the first solution is found *)
Notation R_9 := (real_oracle p_9 (Some 6%nat) (fun _ => None)).
Notation done_9 := (conclude 60 (fun _ => true) p_9 (snd (solve R_9 50 p_9))).
Definition second (fs : list saved) : heap Qc := match fs with _ :: f :: _ => sv_heap f | _ => [] end.
Definition g_9 : heap Qc := second (fst done_9).
Lemma p_9_loaded : loaded p_9.
Proof. apply loads_loaded. vm_compute. reflexivity. Qed.
Lemma g_9_kids : map n_children g_9 = [[]; [6; 7]; []; []; []; []; [2; 7; 7]; [3]]%nat.
Proof. vm_compute. reflexivity. Qed.
Lemma g_9_nth x : n_children (get g_9 x) = nth x [[]; [6; 7]; []; []; []; []; [2; 7; 7]; [3]]%nat [].
Proof. rewrite <- g_9_kids. unfold get. change (@nil nat) with (n_children (@dead_node Qc _)). symmetry. apply map_nth. Qed.
Lemma g_9_source : n_value (get g_9 1) = frac_of_Z 9.
Proof. apply Qc_is_canon. vm_compute. reflexivity. Qed.
Lemma saved_two (x : list saved * res (heap Qc)) : map (fun f => (sv_index f, sv_expanded f, sv_roots f)) (fst x) = [(0, false, [1]); (0, true, [1])]%nat -> match snd x with Ok _ => true | _ => false end = true ->
  exists f h', x = ([f; MkSaved 0 true (second (fst x)) [1%nat]], Ok h').
Proof.
  destruct x as [fs r]. cbn [fst snd]. intros E E'. destruct fs as [|f [|[i e h rs] [|? ?]]]; try discriminate. destruct r as [h'|]; [|discriminate]. cbn in E. injection E as _ _ _ -> -> ->. exists f, h'. reflexivity.
Qed.
Lemma done_9_saved : exists f h', done_9 = ([f; MkSaved 0 true g_9 [1%nat]], Ok h').
Proof. apply saved_two; vm_compute; reflexivity. Qed.
Section Nine.
Variables (K : nat -> list nat) (inp : nat -> Qc).
Hypothesis HK : forall x, K x = nth x [[]; [6; 7]; []; []; []; []; [2; 7; 7]; [3]]%nat [].
Lemma nine_reached x : reached K [1%nat] x <-> In x [1; 6; 7; 2; 3]%nat.
Proof.
  split.
  - induction 1 as [r [<-|[]]|x y _ IH I]; [left; reflexivity|]. rewrite HK in I. cbn in IH. destruct IH as [<-|[<-|[<-|[<-|[<-|[]]]]]]; cbn in I; cbn; intuition.
  - assert (R1 : reached K [1%nat] 1) by (apply reached_root; left; reflexivity). assert (R6 : reached K [1%nat] 6) by (apply (reached_out _ _ 1 6 R1); rewrite HK; cbn; auto).
    assert (R7 : reached K [1%nat] 7) by (apply (reached_out _ _ 1 7 R1); rewrite HK; cbn; auto). assert (R2 : reached K [1%nat] 2) by (apply (reached_out _ _ 6 2 R6); rewrite HK; cbn; auto).
    assert (R3 : reached K [1%nat] 3) by (apply (reached_out _ _ 7 3 R7); rewrite HK; cbn; auto). intros [<-|[<-|[<-|[<-|[<-|[]]]]]]; assumption.
Qed.
(** The belt from 1 to 3 is gone: the two targets get 3/2 and 15/2. *)
Lemma nine_flow nodes T B : inp 1%nat = frac_of_Z 9 -> works K [1%nat] inp nodes T B -> T 2%nat = (frac_of_Z 9 / frac_of_Z 2 / frac_of_Z 3)%Qc /\ In 2%nat nodes.
Proof.
  intros V W.
  assert (Pm : Permutation nodes [1; 6; 7; 2; 3]%nat).
  { apply NoDup_Permutation; [apply (wk_distinct _ _ _ _ _ _ W)|repeat constructor; cbn; lia|]. intros x. rewrite (wk_nodes _ _ _ _ _ _ W). apply nine_reached. }
  assert (IN : forall x, In x [1; 6; 7; 2; 3]%nat -> In x nodes) by (intros x; apply perm_in, Permutation_sym, Pm).
  assert (BL : forall y, In y [1; 6; 7; 2; 3]%nat -> T y = ((if in_dec Nat.eq_dec y [1%nat] then inp y else Q2Qc 0) + qcsum (map (fun x => frac_of_Z (Z.of_nat (belts K x y)) * B x y)%Qc [1; 6; 7; 2; 3]%nat))%Qc).
  { intros y I. rewrite (wk_balance _ _ _ _ _ _ W y (IN y I)). f_equal. apply qcsum_perm, Permutation_map, Pm. }
  assert (BE : (map (fun y => map (fun x => belts K x y) [1; 6; 7; 2; 3]) [1; 6; 2] = [[0; 0; 0; 0; 0]; [1; 0; 0; 0; 0]; [0; 1; 0; 0; 0]])%nat) by (unfold belts; cbn [map]; rewrite !HK; reflexivity).
  assert (T1 : T 1%nat = frac_of_Z 9).
  { rewrite BL by (cbn; auto). destruct (in_dec Nat.eq_dec 1%nat [1%nat]) as [_|X]; [|destruct X; left; reflexivity]. rewrite V. unfold qcsum. cbn [map fold_right] in BE |- *. injection BE as -> -> -> -> -> _. change (Z.of_nat 0) with 0. rewrite foz_0. ring. }
  assert (T6 : T 6%nat = B 1%nat 6%nat).
  { rewrite BL by (cbn; auto). destruct (in_dec Nat.eq_dec 6%nat [1%nat]) as [[X|[]]|_]; [discriminate|]. unfold qcsum. cbn [map fold_right] in BE |- *. injection BE as _ _ _ _ _ -> -> -> -> -> _. change (Z.of_nat 0) with 0. change (Z.of_nat 1) with 1. rewrite foz_0, foz_1. ring. }
  assert (T2 : T 2%nat = B 6%nat 2%nat).
  { rewrite BL by (cbn; auto 6). destruct (in_dec Nat.eq_dec 2%nat [1%nat]) as [[X|[]]|_]; [discriminate|]. unfold qcsum. cbn [map fold_right] in BE |- *. injection BE as _ _ _ _ _ _ _ _ _ _ -> -> -> -> ->. change (Z.of_nat 0) with 0. change (Z.of_nat 1) with 1. rewrite foz_0, foz_1. ring. }
  split; [|apply IN; cbn; auto 6].
  assert (B16 : B 1%nat 6%nat = (frac_of_Z 9 / frac_of_Z 2)%Qc).
  { destruct (wk_splits _ _ _ _ _ _ W 1%nat) as [E|Hd]; [apply IN; cbn; auto|rewrite HK in E; discriminate|]. destruct Hd as [L E|y z s E Ne Is By Bz|y z s E Ne Iy _ _ _].
    - rewrite (E 6%nat) by (rewrite HK; cbn; auto). rewrite T1, HK. reflexivity.
    - exfalso. destruct (wk_positive _ _ _ _ _ _ W 1%nat) as [_ Pz]; [apply IN; cbn; auto|]. assert (Iz : In z (K 1)) by (apply (perm_in _ _ _ (Permutation_sym E)); cbn; auto). specialize (Pz z Iz). rewrite Bz, T1, <- foz_minus in Pz.
      apply Qclt_not_le in Pz. apply Pz. rewrite <- foz_0. apply (proj1 (foz_le _ _)). unfold speeds in Is. cbn in Is. lia.
    - exfalso. assert (Y : In y (K 1)) by (apply (perm_in _ _ _ (Permutation_sym E)); cbn; auto). rewrite HK in Y. cbn in Y. destruct Y as [<-|[<-|[]]]; rewrite HK in Iy; cbn in Iy; lia. }
  assert (B62 : B 6%nat 2%nat = (T 6%nat / frac_of_Z 3)%Qc).
  { destruct (wk_splits _ _ _ _ _ _ W 6%nat) as [E|Hd]; [apply IN; cbn; auto|rewrite HK in E; discriminate|]. destruct Hd as [L E|y z s E _ _ _ _|y z s E _ _ _ _ _]; [|rewrite HK in E; apply Permutation_length in E; discriminate|rewrite HK in E; apply Permutation_length in E; discriminate].
    rewrite (E 2%nat) by (rewrite HK; cbn; auto). rewrite HK. reflexivity. }
  rewrite T2, B62, T6, B16. reflexivity.
Qed.
Lemma div_twice (a b c : Qc) : b <> Q2Qc 0 -> c <> Q2Qc 0 -> (a / b / c * b * c)%Qc = a.
Proof. intros Hb Hc. field. split; assumption. Qed.
Lemma nine_fails : inp 1%nat = frac_of_Z 9 -> ~ exists nodes T B, works K [1%nat] inp nodes T B /\
  Permutation (map T (filter (fun x => match K x with [] => true | _ => false end) nodes)) (map frac_of_Z [1; 8]).
Proof.
  intros V (nodes & T & B & W & Pm). destruct (nine_flow nodes T B V W) as [T2 I2].
  assert (I : In (T 2%nat) (map frac_of_Z [1; 8])). { apply (Permutation_in _ Pm). apply in_map, filter_In. split; [exact I2|]. rewrite HK. reflexivity. }
  clear - I T2. assert (X : (T 2%nat * frac_of_Z 2 * frac_of_Z 3)%Qc = frac_of_Z 9) by (rewrite T2; apply div_twice; apply foz_neq0; lia).
  destruct I as [I|[I|[]]]; rewrite <- I, <- !foz_mult in X; apply foz_inj in X; lia.
Qed.
End Nine.
Lemma p_9_targets : p_target_integers p_9 = [1; 8].
Proof. vm_compute. reflexivity. Qed.
Definition fails (g : heap Qc) (roots : list nat) (targets : list Z) : Prop :=
  ~ exists nodes through belt, works (fun x => n_children (get g x)) roots (fun r => n_value (get g r)) nodes through belt /\
      Permutation (map through (filter (fun x => match n_children (get g x) with [] => true | _ => false end) nodes)) (map frac_of_Z targets).
Lemma g_9_fails : fails g_9 [1%nat] (p_target_integers p_9).
Proof. rewrite p_9_targets. exact (nine_fails (fun x => n_children (get g_9 x)) (fun r => n_value (get g_9 r)) g_9_nth g_9_source). Qed.
Lemma c65_refuted_lemma : exists p R fuel n f g roots h', loaded p /\ realistic p R /\
  conclude n (fun _ => true) p (snd (solve R fuel p)) = ([f; MkSaved 0 true g roots], Ok h') /\
  ~ exists nodes through belt, works (fun x => n_children (get g x)) roots (fun r => n_value (get g r)) nodes through belt /\
      Permutation (map through (filter (fun x => match n_children (get g x) with [] => true | _ => false end) nodes)) (map frac_of_Z (p_target_integers p)).
Proof.
  destruct done_9_saved as (f & h' & E). exists p_9, R_9, 50%nat, 60%nat, f, g_9, [1%nat], h'.
  exact (conj p_9_loaded (conj (real_realistic p_9 (Some 6%nat) (fun _ => None)) (conj E g_9_fails))).
Qed.

(** ** 7 to 2 5 *)
(** one round of following child links *)
Definition spread (g : heap Qc) (l : list nat) : list nat := nodup Nat.eq_dec (l ++ flat_map (fun x => n_children (get g x)) l).
Definition drawn (g : heap Qc) (roots : list nat) : list nat := Nat.iter 8 (spread g) roots.
Definition tag_free (g : heap Qc) (roots : list nat) : bool :=
  let l := drawn g roots in
  forallb (fun x => match n_expands (get g x) with [] => forallb (fun c => if in_dec Nat.eq_dec c l then true else false) (n_children (get g x)) | _ => false end) l &&
  forallb (fun r => if in_dec Nat.eq_dec r l then true else false) roots.
Lemma tag_free_reached g roots : tag_free g roots = true -> forall x, reached (fun x => n_children (get g x)) roots x -> n_expands (get g x) = [].
Proof.
  intros E. apply andb_true_iff in E. destruct E as [E1 E2]. rewrite forallb_forall in E1, E2. assert (R : forall x, reached (fun x => n_children (get g x)) roots x -> In x (drawn g roots)).
  { induction 1 as [r I|x y _ IH I].
    - specialize (E2 r I). cbn beta in E2. destruct (in_dec Nat.eq_dec r (drawn g roots)); [assumption|discriminate].
    - specialize (E1 x IH). cbn beta in E1. destruct (n_expands (get g x)); [|discriminate]. rewrite forallb_forall in E1. specialize (E1 y I). cbn beta in E1. destruct (in_dec Nat.eq_dec y (drawn g roots)); [assumption|discriminate]. }
  intros x Rx. specialize (E1 x (R x Rx)). cbn beta in E1. destruct (n_expands (get g x)); [reflexivity|discriminate].
Qed.
Notation done_7 := (conclude 60 (fun _ => true) p_7 (snd (solve R0 50 p_7))).
Lemma done_7_drawn : match fst done_7 with _ :: MkSaved 0 true g roots :: _ => tag_free g roots && (4 <? length (drawn g roots))%nat | _ => false end = true.
Proof. vm_compute. reflexivity. Qed.
Lemma c65_example_lemma : loaded p_7 /\ zsum (p_sources p_7) <= 8 /\ (exists t rest, s_solutions (snd (solve R0 50 p_7)) = t :: rest) /\
  exists f g roots files, fst done_7 = f :: MkSaved 0 true g roots :: files /\ forall x, reached (fun x => n_children (get g x)) roots x -> n_expands (get g x) = [].
Proof.
  split; [exact p_7_loaded|]. split; [vm_compute; discriminate|]. split.
  - assert (E : length (s_solutions (snd (solve R0 50 p_7))) = 3%nat) by (vm_compute; reflexivity). destruct (s_solutions _) as [|t rest]; [discriminate|]. exists t, rest. reflexivity.
  - pose proof done_7_drawn as E. destruct (fst done_7) as [|f [|[[|i] [|] g roots] files]]; try discriminate. apply andb_true_iff in E. exists f, g, roots, files. split; [reflexivity|]. apply tag_free_reached, E.
Qed.
Lemma c66_example_lemma : let s := snd (solve R0 50 p_7) in loaded p_7 /\ length (s_solutions s) = 3%nat /\
  existsb (fun n => match n_expands n with TExtract 2 :: _ => true | _ => false end) (s_heap s) = true /\
  forall t a, In t (s_solutions s) -> in_tree (s_heap s) t a -> ~ overloaded (s_heap s) a.
Proof. destruct p_7_example as (A & _ & _ & B & C). split; [exact A|]. split; [exact B|]. split; [exact C|exact p_7_light]. Qed.
