(** Proofs about the drawing. *)
From Verif Require Import Base BaseLemmas Cost Utils Fractions FractionsSpec FractionsProofs Load LoadSpec Tree TreeSpec HeapLemmas Search SearchSpec SearchInit Expand Conclude ConcludeSpec ConcludeProofs FracProofs SaveProofs Draw DrawSpec.
From Coq Require Import QArith Qcanon.
Open Scope Z_scope.

Lemma text_eqb_eq s t : text_eqb s t = true <-> s = t.
Proof.
  destruct s as [[[v i] e] l], t as [[[v' i'] e'] l']. unfold text_eqb. rewrite !andb_true_iff. rewrite (frac_eq_decides v v'), Z.eqb_eq, (@tuple_eqb_eq Z value_Z Z.eqb_eq).
  assert (L : level_eqb l l' = true <-> l = l').
  { destruct l, l'; cbn; try (split; congruence). rewrite Z.eqb_eq. split; congruence. }
  rewrite L. split; [intros [[[-> ->] ->] ->]; reflexivity|]. intros E. inversion E. auto.
Qed.
Lemma text_eqb_neq s t : text_eqb s t = false <-> s <> t.
Proof. rewrite <- text_eqb_eq. destruct (text_eqb s t); split; congruence. Qed.

(** ** the graph *)
Definition attrs : Type := list (text * option (Qc * option Z)).
Lemma put_keys k x (l : attrs) : map fst (put_node k x l) = map fst l \/ (map fst (put_node k x l) = map fst l ++ [k]) /\ ~ In k (map fst l).
Proof.
  induction l as [|[k' x'] l IH]; cbn; [right; auto|]. destruct (text_eqb k' k) eqn:E; cbn; [left; reflexivity|]. apply text_eqb_neq in E.
  destruct IH as [->|[-> N]]; [left; reflexivity|right; split; [reflexivity|tauto]].
Qed.
Lemma put_nodup k x (l : attrs) : NoDup (map fst l) -> NoDup (map fst (put_node k x l)).
Proof.
  intros ND. destruct (put_keys k x l) as [->|[-> N]]; [exact ND|]. apply (Permutation_NoDup (Permutation_cons_append _ _)). constructor; assumption.
Qed.
Lemma put_in_key k x (l : attrs) : In k (map fst (put_node k x l)).
Proof. induction l as [|[k' x'] l IH]; cbn; [auto|]. destruct (text_eqb k' k) eqn:E; cbn; [apply text_eqb_eq in E; auto|auto]. Qed.
Lemma put_mono k x (l : attrs) k' : In k' (map fst l) -> In k' (map fst (put_node k x l)).
Proof. destruct (put_keys k x l) as [->|[-> _]]; [auto|]. intros I. apply in_or_app. auto. Qed.
Lemma put_some k x (l : attrs) e : NoDup (map fst l) -> In e (put_node k (Some x) l) -> e = (k, Some x) \/ (fst e <> k /\ In e l).
Proof.
  induction l as [|[k' x'] l IH]; cbn; intros ND I; [destruct I as [<-|[]]; auto|]. inversion ND as [|? ? Nk ND']; subst.
  destruct (text_eqb k' k) eqn:E.
  - apply text_eqb_eq in E. subst k'. destruct I as [<-|I]; [auto|]. right. split; [|auto]. intros <-. apply Nk, in_map, I.
  - apply text_eqb_neq in E. destruct I as [<-|I]; [right; auto|]. destruct (IH ND' I) as [->|[A B]]; auto.
Qed.
Lemma put_none k (l : attrs) e : In e (put_node k None l) -> In e l \/ (e = (k, None) /\ ~ In k (map fst l)).
Proof.
  induction l as [|[k' x'] l IH]; cbn; intros I; [destruct I as [<-|[]]; auto|].
  destruct (text_eqb k' k) eqn:E; [auto|]. apply text_eqb_neq in E. destruct I as [<-|I]; [auto|]. destruct (IH I) as [A|[A B]]; [auto|]. right. split; [exact A|]. intros [X|X]; auto.
Qed.

Section Draw.
Variables (uid : nat -> Z) (ratio : Z) (h : heap Qc) (roots : list nat).
Hypothesis InRange : forall a, fed h roots a -> (a < length h)%nat.
Hypothesis Readable : readable uid h roots.
Let key := str_node uid h.

(** the graph once the nodes [seen] have been added *)
Record pictures (seen : list nat) (g : graph) : Prop := {
  pc_keys : NoDup (map fst (g_nodes g));
  pc_entry : forall e, In e (g_nodes g) -> exists a, fed h roots a /\ e = (if nat_in a seen then box uid ratio h a else (key a, None));
  pc_seen : forall a, In a seen -> In (key a) (map fst (g_nodes g)) }.

Lemma add_node_pictures seen g a : pictures seen g -> fed h roots a -> pictures (a :: seen) (add_node (key a) (over (n_value (get h a)) ratio) (n_level (get h a)) g).
Proof.
  intros [K E S] F. unfold add_node. constructor; cbn [g_nodes].
  - apply put_nodup, K.
  - intros e I. destruct (put_some _ _ _ _ K I) as [->|[N J]].
    + exists a. split; [exact F|]. rewrite (proj2 (nat_in_true a (a :: seen)) (or_introl eq_refl)). reflexivity.
    + destruct (E e J) as (b & Fb & Eb). exists b. split; [exact Fb|]. rewrite Eb.
      assert (b <> a) by (intros ->; apply N; rewrite Eb; destruct (nat_in a seen); reflexivity).
      destruct (nat_in b seen) eqn:X.
      * apply nat_in_true in X. rewrite (proj2 (nat_in_true b (a :: seen)) (or_intror X)). reflexivity.
      * destruct (nat_in b (a :: seen)) eqn:Y; [|reflexivity]. apply nat_in_true in Y. destruct Y as [Y|Y]; [congruence|]. apply nat_in_true in Y. congruence.
  - intros b [<-|I]; [apply put_in_key|apply put_mono, S, I].
Qed.
Lemma put_none_pictures seen ns es es' a : pictures seen (MkGraph ns es) -> fed h roots a -> pictures seen (MkGraph (put_node (key a) None ns) es').
Proof.
  intros [K E S] F. cbn [g_nodes] in *. constructor; cbn [g_nodes].
  - apply put_nodup, K.
  - intros e I. destruct (put_none _ _ _ I) as [J|[-> N]]; [auto|]. exists a. split; [exact F|].
    destruct (nat_in a seen) eqn:X; [|reflexivity]. apply nat_in_true in X. destruct (N (S a X)).
  - intros b I. apply put_mono, S, I.
Qed.
Lemma add_edge_pictures seen g a b : pictures seen g -> fed h roots a -> fed h roots b -> pictures seen (add_edge (key a) (key b) g).
Proof.
  intros P Fa Fb. unfold add_edge. destruct g as [ns es]. cbn [g_nodes g_edges]. eapply put_none_pictures; [|exact Fb]. eapply put_none_pictures; [exact P|exact Fa].
  Unshelve. exact [].
Qed.

Lemma fed_bound seen : NoDup seen -> Forall (fed h roots) seen -> (length seen <= length h)%nat.
Proof.
  intros ND F. rewrite <- (seq_length (length h) 0). apply NoDup_incl_length; [exact ND|]. intros x I. apply in_seq. rewrite Forall_forall in F. specialize (InRange x (F x I)). lia.
Qed.

Lemma populate_ok : forall fuel seen g a, NoDup seen -> Forall (fed h roots) seen -> pictures seen g -> fed h roots a -> (length h - length seen < fuel)%nat ->
  exists new g', populate fuel uid ratio h (seen, g) a = Ok (new ++ seen, g') /\ NoDup (new ++ seen) /\ Forall (fed h roots) (new ++ seen) /\ pictures (new ++ seen) g' /\
    In a (new ++ seen) /\ (forall x y, In x new -> In y (n_children (get h x)) -> In y (new ++ seen)) /\
    Permutation (g_edges g') (g_edges g ++ flat_map (belts uid h) new).
Proof.
  induction fuel as [|fuel IH]; intros seen g a ND F P Fa Fu; [lia|]. cbn [populate]. destruct (nat_in a seen) eqn:Ea.
  { exists [], g. apply nat_in_true in Ea. cbn [app flat_map]. rewrite app_nil_r. repeat split; auto; try apply P. intros x y []. }
  assert (Na : ~ In a seen) by (intros X; apply nat_in_true in X; congruence).
  assert (ND1 : NoDup (a :: seen)) by (constructor; assumption). assert (F1 : Forall (fed h roots) (a :: seen)) by (constructor; assumption).
  pose proof (fed_bound _ ND1 F1) as B1. cbn [length] in B1.
  assert (K : forall l cur g, (forall b, In b l -> fed h roots b) -> NoDup cur -> Forall (fed h roots) cur -> pictures cur g -> (length h - length cur < fuel)%nat ->
    exists new g', fold_res (fun (st : list nat * graph) c =>
        let (seen, g) := st in
        let g := add_edge (str_node uid h a) (str_node uid h c) g in
        if nat_in c seen then Ok (seen, g) else populate fuel uid ratio h (seen, g) c) l (cur, g) = Ok (new ++ cur, g') /\ NoDup (new ++ cur) /\ Forall (fed h roots) (new ++ cur) /\ pictures (new ++ cur) g' /\
      (forall b, In b l -> In b (new ++ cur)) /\ (forall x y, In x new -> In y (n_children (get h x)) -> In y (new ++ cur)) /\
      Permutation (g_edges g') (g_edges g ++ map (fun c => (key a, key c)) l ++ flat_map (belts uid h) new)).
  { clear g P. induction l as [|b l IHl]; intros cur g Ll NDc Fc Pc Fuc.
    { exists [], g. cbn [app flat_map map]. rewrite app_nil_r. split; [reflexivity|]. split; [exact NDc|]. split; [exact Fc|]. split; [exact Pc|]. split; [intros x []|]. split; [intros x y []|reflexivity]. }
    cbn [fold_res]. pose proof (Ll b (or_introl eq_refl)) as Fb. pose proof (add_edge_pictures cur g a b Pc Fa Fb) as Pb. unfold key in Pb.
    destruct (nat_in b cur) eqn:Eb.
    - destruct (IHl cur _ (fun x I => Ll x (or_intror I)) NDc Fc Pb Fuc) as (new & g' & R1 & R2 & R3 & R4 & R5 & R6 & R7). exists new, g'. cbn [bind].
      split; [exact R1|]. split; [exact R2|]. split; [exact R3|]. split; [exact R4|]. split; [|split; [exact R6|]].
      + intros x [<-|I]; [|auto]. apply nat_in_true in Eb. apply in_or_app. right. exact Eb.
      + rewrite R7. unfold add_edge. cbn [g_edges map]. rewrite <- app_assoc. reflexivity.
    - destruct (IH cur _ b NDc Fc Pb Fb Fuc) as (n1 & g1 & R1 & R2 & R3 & R4 & R5 & R6 & R7). rewrite R1. cbn [bind].
      destruct (IHl (n1 ++ cur) g1 (fun x I => Ll x (or_intror I)) R2 R3 R4) as (n2 & g2 & S1 & S2 & S3 & S4 & S5 & S6 & S7); [rewrite app_length; lia|].
      exists (n2 ++ n1), g2. rewrite <- app_assoc. split; [exact S1|]. split; [exact S2|]. split; [exact S3|]. split; [exact S4|]. split; [|split].
      + intros x [<-|I]; [|auto]. apply in_or_app. right. exact R5.
      + intros x y I Nb. apply in_app_or in I. destruct I as [I|I]; [apply (S6 x y I Nb)|]. apply in_or_app. right. apply (R6 x y I Nb).
      + rewrite S7, R7. unfold add_edge. cbn [g_edges map]. rewrite flat_map_app, <- !app_assoc. cbn [app]. apply Permutation_app_head. apply perm_skip.
        rewrite !app_assoc. rewrite (Permutation_app_comm (flat_map (belts uid h) n1)). rewrite <- !app_assoc. apply Permutation_app_head. apply Permutation_app_comm. }
  destruct (K (n_children (get h a)) (a :: seen) (add_node (key a) (over (n_value (get h a)) ratio) (n_level (get h a)) g)) as (new & g' & R1 & R2 & R3 & R4 & R5 & R6 & R7).
  - intros b I. apply (fed_next h roots a b Fa I).
  - exact ND1.
  - exact F1.
  - apply add_node_pictures; assumption.
  - cbn [length]. lia.
  - exists (new ++ [a]), g'. rewrite <- app_assoc. cbn [app]. split; [exact R1|]. split; [exact R2|]. split; [exact R3|]. split; [exact R4|]. split; [apply in_or_app; right; left; reflexivity|]. split.
    + intros x y I Nb. apply in_app_or in I. destruct I as [I|[<-|[]]]; [apply (R6 x y I Nb)|]. apply R5. exact Nb.
    + rewrite R7. cbn [add_node g_edges]. apply Permutation_app_head. rewrite flat_map_app. cbn [flat_map]. rewrite app_nil_r. apply Permutation_app_comm.
Qed.

Lemma set_level_same r : (r < length h)%nat -> n_level (get h r) = Some 0 -> set_levels 0 [r] h = h.
Proof.
  intros B L. unfold set_levels. cbn [fold_left]. unfold get in L.
  assert (X : forall (l : heap Qc) i, (i < length l)%nat -> n_level (nth i l dead_node) = Some 0 -> upd i (set_level (Some 0)) l = l).
  { induction l as [|n l IH]; intros [|i] Bi Li; cbn in *; try reflexivity.
    - f_equal. destruct n. cbn in *. subst. reflexivity.
    - f_equal. apply IH; [lia|exact Li]. }
  apply X; assumption.
Qed.

Hypothesis Levels : forall r, In r roots -> n_level (get h r) = Some 0.

Lemma draw_ok fuel : (length h < fuel)%nat -> exists g, draw fuel uid ratio h roots = Ok (h, g) /\ shows uid ratio h roots g.
Proof.
  intros Fu. cbv beta delta [draw].
  assert (K : forall l cur g, incl l roots -> NoDup cur -> Forall (fed h roots) cur -> pictures cur g ->
    exists new g', fold_res (fun (st : heap Qc * (list nat * graph)) r =>
      let '(h, st) := st in
      let h := set_levels 0 [r] h in
      do st <- populate fuel uid ratio h st r; Ok (h, st)) l (h, (cur, g)) = Ok (h, (new ++ cur, g')) /\ NoDup (new ++ cur) /\ Forall (fed h roots) (new ++ cur) /\ pictures (new ++ cur) g' /\
      (forall b, In b l -> In b (new ++ cur)) /\ (forall x y, In x new -> In y (n_children (get h x)) -> In y (new ++ cur)) /\
      Permutation (g_edges g') (g_edges g ++ flat_map (belts uid h) new)).
  { induction l as [|b l IHl]; intros cur g Inc NDc Fc Pc.
    { exists [], g. cbn [app flat_map]. rewrite app_nil_r. split; [reflexivity|]. split; [exact NDc|]. split; [exact Fc|]. split; [exact Pc|]. split; [intros x []|]. split; [intros x y []|reflexivity]. }
    cbn [fold_res]. assert (Ib : In b roots) by (apply Inc; left; reflexivity). pose proof (fed_root h roots b Ib) as Fb. rewrite (set_level_same b (InRange b Fb) (Levels b Ib)).
    destruct (populate_ok fuel cur g b NDc Fc Pc Fb) as (n1 & g1 & R1 & R2 & R3 & R4 & R5 & R6 & R7); [lia|]. rewrite R1. cbn [bind].
    destruct (IHl (n1 ++ cur) g1 (fun x I => Inc x (or_intror I)) R2 R3 R4) as (n2 & g2 & S1 & S2 & S3 & S4 & S5 & S6 & S7).
    exists (n2 ++ n1), g2. rewrite <- app_assoc. split; [exact S1|]. split; [exact S2|]. split; [exact S3|]. split; [exact S4|]. split; [|split].
    - intros x [<-|I]; [|auto]. apply in_or_app. right. exact R5.
    - intros x y I Nb. apply in_app_or in I. destruct I as [I|I]; [apply (S6 x y I Nb)|]. apply in_or_app. right. apply (R6 x y I Nb).
    - rewrite S7, R7. rewrite flat_map_app, <- !app_assoc. apply Permutation_app_head, Permutation_app_comm. }
  destruct (K roots [] (MkGraph [] []) (incl_refl _)) as (order & g & R1 & R2 & R3 & R4 & R5 & R6 & R7).
  - constructor.
  - constructor.
  - constructor; cbn; [constructor|intros e []|intros a []].
  - rewrite app_nil_r in *. rewrite R1. cbn [bind]. exists g. split; [reflexivity|]. exists order. split; [exact R2|].
    assert (All : forall a, In a order <-> fed h roots a).
    { intros a. split; [rewrite Forall_forall in R3; apply R3|]. intros L. induction L as [r I|a b La IH Nb]; [apply R5, I|]. apply (R6 a b IH Nb). }
    split; [exact All|]. split; [|exact R7].
    destruct R4 as [K1 K2 K3]. apply NoDup_Permutation.
    + apply (NoDup_map_inv fst), K1.
    + apply (NoDup_map_inv fst). rewrite map_map. cbn [box fst].
      assert (X : forall l, NoDup l -> (forall a, In a l -> fed h roots a) -> NoDup (map (str_node uid h) l)).
      { induction l as [|a l IH]; intros ND Fl; [constructor|]. inversion ND as [|? ? Na ND']; subst. cbn [map]. constructor; [|apply IH; [exact ND'|intros; apply Fl; right; assumption]].
        intros I. apply in_map_iff in I. destruct I as (b & Eb & Ib). apply Readable in Eb; [subst; auto|apply Fl; right; exact Ib|apply Fl; left; reflexivity]. }
      apply X; [exact R2|]. intros a I. apply All, I.
    + intros e. split.
      * intros I. destruct (K2 e I) as (a & Fa & ->). pose proof (proj2 (All a) Fa) as Ia. rewrite (proj2 (nat_in_true a order) Ia). apply in_map, Ia.
      * intros I. apply in_map_iff in I. destruct I as (a & <- & Ia). pose proof (K3 a Ia) as J. apply in_map_iff in J. destruct J as (e & Ee & Ie).
        destruct (K2 e Ie) as (b & Fb & Eb). assert (b = a) by (apply Readable; [exact Fb|apply All, Ia|]; change (key b = key a); rewrite <- Ee, Eb; destruct (nat_in b order); reflexivity).
        subst b. rewrite (proj2 (nat_in_true a order) Ia) in Eb. rewrite <- Eb. exact Ie.
Qed.

(** ** the groups of equal rank *)
Lemma put_rank_spec l k ranks : NoDup (map fst ranks) ->
  NoDup (map fst (put_rank l k ranks)) /\ (forall l', In l' (map fst (put_rank l k ranks)) <-> l' = l \/ In l' (map fst ranks)) /\
  Permutation (flat_map snd (put_rank l k ranks)) (k :: flat_map snd ranks) /\
  forall l' k', (exists ks, In (l', ks) (put_rank l k ranks) /\ In k' ks) <-> (l' = l /\ k' = k) \/ exists ks, In (l', ks) ranks /\ In k' ks.
Proof.
  induction ranks as [|[l0 ks0] ranks IH]; intros ND; cbn [put_rank].
  - cbn. split; [repeat constructor; auto|]. split; [intros; split; intros [?|[]]; auto|]. split; [reflexivity|]. intros l' k'. split.
    + intros (ks & [E|[]] & I). inversion E; subst. destruct I as [<-|[]]. auto.
    + intros [[-> ->]|(ks & [] & _)]. exists [k]. cbn. auto.
  - cbn [map fst] in ND. inversion ND as [|? ? N0 ND']; subst. destruct (Z.eqb_spec l0 l) as [->|Ne].
    + cbn [map fst flat_map snd]. split; [exact ND|]. split; [cbn; intros; split; intros [?|?]; auto|]. split; [rewrite <- app_assoc; cbn [app]; symmetry; apply Permutation_middle|].
      intros l' k'. split.
      * intros (ks & [E|I] & J); [|right; exists ks; cbn; auto]. inversion E; subst. apply in_app_or in J. destruct J as [J|[<-|[]]]; [|auto]. right. exists ks0. cbn. auto.
      * intros [[-> ->]|(ks & [E|I] & J)].
        -- exists (ks0 ++ [k]). split; [left; reflexivity|apply in_or_app; right; left; reflexivity].
        -- inversion E; subst. exists (ks ++ [k]). split; [left; reflexivity|apply in_or_app; left; exact J].
        -- exists ks. split; [right; exact I|exact J].
    + destruct (IH ND') as (A & B & C & D). cbn [map fst flat_map snd]. split; [|split; [|split]].
      * constructor; [|exact A]. rewrite B. intros [E|I]; auto.
      * intros l'. cbn [In]. rewrite B. intuition.
      * rewrite C. symmetry. apply Permutation_middle.
      * intros l' k'. split.
        -- intros (ks & [E|I] & J); [inversion E; subst; right; exists ks; cbn; auto|]. destruct (proj1 (D l' k') (ex_intro _ ks (conj I J))) as [?|(ks' & I' & J')]; [auto|]. right. exists ks'. cbn. auto.
        -- intros [E|(ks & [E|I] & J)].
           ++ destruct (proj2 (D l' k') (or_introl E)) as (ks & I & J). exists ks. cbn. auto.
           ++ inversion E; subst. exists ks. cbn. auto.
           ++ destruct (proj2 (D l' k') (or_intror (ex_intro _ ks (conj I J)))) as (ks' & I' & J'). exists ks'. cbn. auto.
Qed.

Lemma rank_ok g : shows uid ratio h roots g -> (forall a, fed h roots a -> n_level (get h a) <> None) -> exists ranks, rank_nodes g = Ok ranks /\ ranked uid h roots ranks.
Proof.
  intros (order & ND & All & Pn & _) Lv. unfold rank_nodes.
  assert (X : forall l init, NoDup (map fst init) -> (forall e, In e l -> exists a, fed h roots a /\ e = box uid ratio h a) ->
    exists ranks, fold_res (fun ranks (e : text * option (Qc * option Z)) =>
      do l <- match snd e with None => Ok 0 | Some (_, None) => Err ValueError | Some (_, Some l) => Ok l end;
      Ok (put_rank l (fst e) ranks)) l init = Ok ranks /\ NoDup (map fst ranks) /\ Permutation (flat_map snd ranks) (map fst l ++ flat_map snd init) /\
      forall l' k', (exists ks, In (l', ks) ranks /\ In k' ks) <-> (exists a, fed h roots a /\ In (box uid ratio h a) l /\ str_node uid h a = k' /\ n_level (get h a) = Some l') \/ exists ks, In (l', ks) init /\ In k' ks).
  { induction l as [|e l IH]; intros init NDi Hl; cbn [fold_res].
    - exists init. split; [reflexivity|]. split; [exact NDi|]. split; [reflexivity|]. intros l' k'. split; [auto|]. intros [(a & _ & [] & _)|?]; assumption.
    - destruct (Hl e (or_introl eq_refl)) as (a & Fa & ->). cbn [box snd fst]. destruct (n_level (get h a)) as [z|] eqn:La; [|destruct (Lv a Fa La)]. cbn [bind].
      destruct (put_rank_spec z (str_node uid h a) init NDi) as (A & _ & C & D).
      destruct (IH (put_rank z (str_node uid h a) init) A (fun e I => Hl e (or_intror I))) as (ranks & R1 & R2 & R3 & R4). exists ranks. split; [exact R1|]. split; [exact R2|]. split.
      + rewrite R3, C. cbn [map fst]. symmetry. apply Permutation_middle.
      + intros l' k'. rewrite R4, D. split.
        * intros [(b & I & E)|[[-> ->]|?]]; [left; exists b; cbn; tauto| |auto]. left. exists a. split; [exact Fa|]. split; [left; unfold box; rewrite La; reflexivity|auto].
        * intros [(b & Fb & [I|I] & Kb & Lb)|?]; [|left; exists b; auto|auto]. right. left.
          assert (b = a) by (apply Readable; [exact Fb|exact Fa|]; apply (f_equal fst) in I; symmetry; exact I). subst b. rewrite La in Lb. inversion Lb. auto. }
  destruct (X (g_nodes g) [] (NoDup_nil _)) as (ranks & R1 & R2 & R3 & R4).
  - intros e I. apply (Permutation_in _ Pn) in I. apply in_map_iff in I. destruct I as (a & <- & Ia). exists a. split; [apply All, Ia|reflexivity].
  - exists ranks. split; [exact R1|]. split; [exact R2|]. split.
    + apply (Permutation_NoDup (Permutation_sym R3)). cbn [flat_map]. rewrite app_nil_r. apply (Permutation_NoDup (Permutation_sym (Permutation_map fst Pn))). rewrite map_map. cbn [box fst].
      assert (Y : forall l, NoDup l -> (forall a, In a l -> fed h roots a) -> NoDup (map (str_node uid h) l)).
      { induction l as [|a l IH]; intros NDl Fl; [constructor|]. inversion NDl as [|? ? Na ND']; subst. cbn [map]. constructor; [|apply IH; [exact ND'|intros; apply Fl; right; assumption]].
        intros I. apply in_map_iff in I. destruct I as (b & Eb & Ib). apply Readable in Eb; [subst; auto|apply Fl; right; exact Ib|apply Fl; left; reflexivity]. }
      apply Y; [exact ND|]. intros a I. apply All, I.
    + intros l k. rewrite R4. split.
      * intros [(a & Fa & _ & E)|(ks & [] & _)]. exists a. auto.
      * intros (a & Fa & E). left. exists a. split; [exact Fa|]. split; [|exact E]. apply (Permutation_in _ (Permutation_sym Pn)). apply in_map, All, Fa.
Qed.
End Draw.

Lemma c58_partial_lemma : forall uid ratio h roots fuel, (length h < fuel)%nat ->
  (forall a, fed h roots a -> (a < length h)%nat) -> readable uid h roots ->
  (forall r, In r roots -> n_level (get h r) = Some 0) -> (forall a, fed h roots a -> n_level (get h a) <> None) ->
  exists g ranks, draw fuel uid ratio h roots = Ok (h, g) /\ shows uid ratio h roots g /\ rank_nodes g = Ok ranks /\ ranked uid h roots ranks.
Proof.
  intros uid ratio h roots fuel Fu IR Rd L0 Lv. destruct (draw_ok uid ratio h roots IR Rd L0 fuel Fu) as (g & Eg & Sg). destruct (rank_ok uid ratio h roots Rd g Sg Lv) as (ranks & Er & Rr). exists g, ranks. auto.
Qed.

(** ** the first solution saved *)
Section Saved.
Variables (h : heap Z) (t : tree Z) (vals : list Z).
Hypothesis N : network h t vals.
Hypothesis Lv : levelled h t.
Let H := map node_frac (set_levels 0 (t_roots t) h).

Lemma saved_get a : get H a = node_frac (get (set_levels 0 (t_roots t) h) a).
Proof. apply get_frac. Qed.
Lemma saved_children a : n_children (get H a) = children h a.
Proof. rewrite saved_get. apply (get_set_levels (@n_children Z) 0 (t_roots t) h a). reflexivity. Qed.
Lemma saved_parents a : n_parents (get H a) = parents h a.
Proof. rewrite saved_get. apply (get_set_levels (@n_parents Z) 0 (t_roots t) h a). reflexivity. Qed.
Lemma saved_length : length H = length h.
Proof. unfold H. rewrite map_length. apply set_levels_length. Qed.
Lemma saved_fed a : fed H (t_roots t) a -> in_tree h t a.
Proof.
  induction 1 as [r I|a b _ (r & Ir & B) I]; [exists r; split; [exact I|constructor]|]. exists r. split; [exact Ir|]. eapply below_step; [exact B|]. rewrite saved_children in I. exact I.
Qed.
Lemma saved_linked r a : In r (t_roots t) -> linked H r a -> in_tree h t a.
Proof.
  intros Ir. induction 1 as [|a b _ IH I]; [exists r; split; [exact Ir|constructor]|]. unfold neighbour in I. rewrite saved_children, saved_parents in I. destruct I as [I|I].
  - destruct IH as (r0 & Ir0 & B). exists r0. split; [exact Ir0|]. eapply below_step; [exact B|exact I].
  - apply (net_parents _ _ _ N a b IH I).
Qed.
Lemma saved_root_level r : In r (t_roots t) -> n_level (get H r) = Some 0.
Proof.
  intros I. rewrite saved_get, get_set_levels_in; [reflexivity|exact I|]. apply (net_alloc _ _ _ N). exists r. split; [exact I|constructor].
Qed.
Lemma saved_level a : in_tree h t a -> n_level (get H a) <> None.
Proof.
  intros I. destruct (in_dec Nat.eq_dec a (t_roots t)) as [J|J]; [rewrite saved_root_level by exact J; discriminate|]. rewrite saved_get, get_set_levels_other by exact J.
  destruct (in_dec Nat.eq_dec a (t_sources t)) as [K|K].
  - pose proof (lev_open _ _ Lv a K) as E. unfold level in E. cbn. rewrite E. discriminate.
  - destruct (lev_inner _ _ Lv a I K) as (l & E & _). unfold level in E. cbn. rewrite E. discriminate.
Qed.
Lemma saved_ids a b : in_tree h t a -> in_tree h t b -> n_id (get H a) = n_id (get H b) -> a = b.
Proof.
  intros Ia Ib E. apply (net_ids _ _ _ N a b Ia Ib). rewrite !saved_get in E. cbn in E.
  rewrite !(get_set_levels (@n_id Z) 0 (t_roots t) h) in E by reflexivity. exact E.
Qed.
Lemma saved_value a : in_tree h t a -> (0 <= n_value (get H a))%Qc.
Proof.
  intros I. pose proof (net_positive _ _ _ N a I) as P. rewrite saved_get. change (n_value (node_frac ?n)) with (frac_of_Z (n_value n)).
  rewrite (get_set_levels (@n_value Z) 0 (t_roots t) h) by reflexivity. unfold value in P. unfold Qcle. cbn [this frac_of_Z Q2Qc]. rewrite !Qred_correct. unfold Qle. cbn. lia.
Qed.
End Saved.

Lemma c58_first_solution_lemma : forall p R fuel t rest concluding n, loaded p ->
  let s := snd (solve R fuel p) in
  s_solutions s = t :: rest -> (concluding O = true \/ rest = []) ->
  (length (s_heap s) + list_sum (map gsize (p_leaves p)) <= n)%nat ->
  exists f files r, conclude n concluding p s = (f :: files, r) /\ sv_index f = O /\ sv_expanded f = false /\
    forall uid m, readable uid (sv_heap f) (sv_roots f) -> (length (sv_heap f) < m)%nat ->
    exists g ranks, draw m uid (p_unit_flow_ratio p) (sv_heap f) (sv_roots f) = Ok (sv_heap f, g) /\
      shows uid (p_unit_flow_ratio p) (sv_heap f) (sv_roots f) g /\ rank_nodes g = Ok ranks /\ ranked uid (sv_heap f) (sv_roots f) ranks.
Proof.
  intros p R fuel t rest concluding n L s ES EC Hn. destruct (c43_first_solution_lemma p R fuel t rest concluding n L ES EC Hn) as (h & u & files & r & E & N & Lv & _ & _ & Er).
  eexists _, files, r. split; [exact E|]. split; [reflexivity|]. split; [reflexivity|]. cbn [sv_heap sv_roots]. intros uid m. rewrite <- Er. intros Rd Hm.
  apply c58_partial_lemma; [exact Hm| |exact Rd| |].
  - intros a F. rewrite saved_length. apply (net_alloc _ _ _ N), (saved_fed _ _ a F).
  - intros q I. apply (saved_root_level _ _ _ N q I).
  - intros a F. apply (saved_level _ _ _ N Lv), (saved_fed _ _ a F).
Qed.

Lemma c44_first_solution_lemma : forall p R fuel t rest concluding n, loaded p ->
  let s := snd (solve R fuel p) in
  s_solutions s = t :: rest -> (concluding O = true \/ rest = []) ->
  (length (s_heap s) + list_sum (map gsize (p_leaves p)) <= n)%nat ->
  exists f files r, conclude n concluding p s = (f :: files, r) /\ sv_index f = O /\ sv_expanded f = false /\
    forall m, (length (sv_heap f) < m)%nat -> let root := hd O (sv_roots f) in
    exists data h' roots k, wrap m (sv_heap f) root = Ok data /\ unwrap data = Ok (h', roots) /\
      rebuilt (sv_heap f) root h' k /\ entrances (sv_heap f) root k roots.
Proof.
  intros p R fuel t rest concluding n L s ES EC Hn. destruct (c43_first_solution_lemma p R fuel t rest concluding n L ES EC Hn) as (h & u & files & r & E & N & Lv & _ & _ & Er).
  eexists _, files, r. split; [exact E|]. split; [reflexivity|]. split; [reflexivity|]. cbn [sv_heap sv_roots]. intros m. rewrite <- Er. intros Hm. set (root := hd O (t_roots u)).
  assert (Ir : In root (t_roots u)).
  { pose proof (net_roots _ _ _ N) as V. pose proof (lf_nonempty _ (loaded_ok p L)) as NE. unfold root. destruct (t_roots u) as [|x l]; [destruct (NE (eq_sym V))|left; reflexivity]. }
  apply c44_partial_lemma; [exact Hm| | |].
  - intros a K. rewrite saved_length. apply (net_alloc _ _ _ N), (saved_linked _ _ _ N root a Ir K).
  - intros a b Ka Kb. apply (saved_ids _ _ _ N); apply (saved_linked _ _ _ N root); assumption.
  - intros a K. apply (saved_value _ _ _ N), (saved_linked _ _ _ N root a Ir K).
Qed.
