(** expand_split (Expand.v) puts a splitter under the two equal outputs. *)
From Verif Require Import Base BaseLemmas Cost CostSpec CostProofs Utils Fractions FractionsProofs Load Tree TreeSpec HeapLemmas Expand ExpandSpec BranchProofs LevelProofs BuildProofs ExpandProofs MergeProofs.
From Coq Require Import QArith Qcanon.
Open Scope Z_scope.

Lemma perm3 {A} (l : list A) x y z : Permutation l [x; y; z] ->
  In l [[x; y; z]; [x; z; y]; [y; x; z]; [y; z; x]; [z; x; y]; [z; y; x]].
Proof.
  intros P. pose proof (Permutation_length P) as L. destruct l as [|u [|v [|w [|]]]]; try discriminate L. clear L.
  assert (T : forall p q r s : A, Permutation [p; q] [r; s] -> [p; q] = [r; s] \/ [p; q] = [s; r]).
  { intros p q r s Q. apply Permutation_length_2_inv in Q. destruct Q as [E|E]; injection E as <- <-; auto. }
  assert (I : In u [x; y; z]) by (apply (Permutation_in _ P); left; reflexivity). cbn [In] in *.
  destruct I as [E|[E|[E|[]]]].
  - subst u. apply Permutation_cons_inv in P. destruct (T _ _ _ _ P) as [E|E]; injection E as <- <-; tauto.
  - subst u. assert (Q : Permutation [v; w] [x; z]) by (apply (Permutation_cons_inv (a := y)); rewrite P; apply perm_swap).
    destruct (T _ _ _ _ Q) as [E|E]; injection E as <- <-; tauto.
  - subst u. assert (Q : Permutation [v; w] [x; y]) by (apply (Permutation_cons_inv (a := z)); rewrite P; apply (Permutation_app_comm [x; y] [z])).
    destruct (T _ _ _ _ Q) as [E|E]; injection E as <- <-; tauto.
Qed.

Section Split.
Variables (h : heap Qc) (a : nat) (c lvl : Z) (x y o : nat).
Hypothesis LA : links_agree h.
Hypothesis S : splittable h a c lvl x y o.
Let s := length h.

Lemma split_kids_bound p q : In q (kids h p) -> (q < s)%nat.
Proof.
  intros I. destruct (Nat.lt_ge_cases q s) as [B|B]; [exact B|]. apply (count_occ_In Nat.eq_dec) in I. rewrite (LA p q), get_beyond in I by exact B. cbn in I. lia.
Qed.

Lemma split_core : (forall q, In q (kids h a) -> (q < s)%nat) -> exists h', expand_split h a c = Ok (h', (lvl + 1, 1)) /\
  length h' = Datatypes.S (length h) /\
  get h' a = set_children [s; o] (get h a) /\
  n_value (get h' s) = (n_value (get h x) + n_value (get h y))%Qc /\ n_level (get h' s) = Some (lvl + 1) /\
  n_parents (get h' s) = [a] /\ (n_children (get h' s) = [s; x; y] \/ n_children (get h' s) = [s; y; x]) /\ n_expands (get h' s) = [] /\
  get h' x = set_parents [s] (get h x) /\ get h' y = set_parents [s] (get h y) /\
  (forall w, (w < length h)%nat -> w <> a -> w <> x -> w <> y -> get h' w = get h w).
Proof.
  clear LA. intros KB. destruct S as [Ba Ll Hc P D [Vx Vy] Vo Pa]. unfold expand_split, level_of. rewrite Ll. cbn [bind].
  set (v := over (frac_of_Z c) 3) in *.
  assert (Nv : negative (v * frac_of_Z 2)%Qc = false).
  { apply negative_false. unfold v, over. apply nonneg_mult; [apply nonneg_over; [apply foz_nonneg, Hc|lia]|apply (foz_nonneg 2); lia]. }
  unfold new_node. rewrite Nv. cbn [bind]. fold s. set (h0 := h ++ _).
  assert (L0 : length h0 = Datatypes.S s) by (unfold h0; rewrite app_length; cbn; lia).
  assert (G0 : forall w, (w < s)%nat -> get h0 w = get h w) by (intros w B; apply get_app_l, B).
  assert (Gs : get h0 s = MkNode (v * frac_of_Z 2)%Qc s (Some (lvl + 1)) (fl_append frac_eqb (v * frac_of_Z 2)%Qc fl_new) [] [] [] (-1)) by apply get_app_new.
  assert (Bs : forall w, In w [x; y; o] -> (w < s)%nat).
  { intros w I. apply KB. apply (Permutation_in _ (Permutation_sym P)), I. }
  pose proof (Bs x ltac:(cbn; auto)) as Bx. pose proof (Bs y ltac:(cbn; auto)) as By. pose proof (Bs o ltac:(cbn; auto)) as Bo. clear Bs.
  assert (Dx : a <> x /\ a <> y /\ a <> o /\ x <> y /\ x <> o /\ y <> o).
  { clear -D. repeat match goal with H : NoDup (_ :: _) |- _ => inversion H; clear H; subst end. cbn [In] in *. intuition congruence. }
  destruct Dx as (N1 & N2 & N3 & N4 & N5 & N6). change (a < s)%nat in Ba.
  assert (Fx : frac_eqb (n_value (get h x)) v = true) by (apply frac_eq_decides, Vx).
  assert (Fy : frac_eqb (n_value (get h y)) v = true) by (apply frac_eq_decides, Vy).
  assert (Fo : frac_eqb (n_value (get h o)) v = false).
  { destruct (frac_eqb (n_value (get h o)) v) eqn:E; [|reflexivity]. apply frac_eq_decides in E. exact (False_ind _ (Vo E)). }
  set (h1 := upd s (set_parents [a]) (upd s (set_children [s]) h0)).
  assert (L1 : length h1 = Datatypes.S s) by (unfold h1; rewrite !upd_length; exact L0).
  assert (G1 : forall w, (w < s)%nat -> get h1 w = get h w) by (intros w B; unfold h1; rewrite !get_upd_other by lia; apply G0, B).
  assert (G1s : get h1 s = set_parents [a] (set_children [s] (get h0 s))) by (unfold h1; gets; reflexivity). rewrite Gs in G1s. cbn in G1s.
  clearbody h1. clear Gs G0 L0. clearbody h0.
  rewrite (G1 a Ba).
  assert (Vs : (v * frac_of_Z 2 = n_value (get h x) + n_value (get h y))%Qc).
  { rewrite Vx, Vy. fold (over (frac_of_Z c) 3). fold v. replace (frac_of_Z 2) with (1 + 1)%Qc by (apply Qc_is_canon; reflexivity). ring. }
  assert (X : forall l, In l [[x; y; o]; [x; o; y]; [y; x; o]; [y; o; x]; [o; x; y]; [o; y; x]] ->
    let h' := fold_left (fun h z => if frac_eqb (n_value (get h z)) v then upd z (set_parents [s]) (upd s (add_child z) h) else upd a (add_child z) h) l (upd a (set_children [s]) h1) in
    length h' = Datatypes.S s /\
    get h' a = set_children [s; o] (get h a) /\
    n_value (get h' s) = (n_value (get h x) + n_value (get h y))%Qc /\ n_level (get h' s) = Some (lvl + 1) /\
    n_parents (get h' s) = [a] /\ (n_children (get h' s) = [s; x; y] \/ n_children (get h' s) = [s; y; x]) /\ n_expands (get h' s) = [] /\
    get h' x = set_parents [s] (get h x) /\ get h' y = set_parents [s] (get h y) /\
    (forall w, (w < s)%nat -> w <> a -> w <> x -> w <> y -> get h' w = get h w)).
  { set (F := fun (h : heap Qc) z => _ : heap Qc).
    assert (Ft : forall g z l, n_value (get g z) = n_value (get h z) -> frac_eqb (n_value (get h z)) v = true -> fold_left F (z :: l) g = fold_left F l (upd z (set_parents [s]) (upd s (add_child z) g))).
    { intros g z l E T. cbn [fold_left]. unfold F at 2. rewrite E, T. reflexivity. }
    assert (Ff : forall g z l, n_value (get g z) = n_value (get h z) -> frac_eqb (n_value (get h z)) v = false -> fold_left F (z :: l) g = fold_left F l (upd a (add_child z) g)).
    { intros g z l E T. cbn [fold_left]. unfold F at 2. rewrite E, T. reflexivity. }
    intros l Il. cbn [In] in Il.
    Ltac sgets := repeat first [rewrite get_upd_same by (rewrite ?upd_length; lia)|rewrite get_upd_other by lia].
    Ltac sval G1 := sgets; rewrite ?G1 by lia; reflexivity.
    do 6 (destruct Il as [<-|Il]; [do 3 (first [rewrite Ft by (assumption || sval G1)|rewrite Ff by (assumption || sval G1)]); cbn [fold_left]; cbv zeta;
      (split; [rewrite !upd_length; exact L1|]); (split; [sgets; rewrite ?G1 by lia; cbn; reflexivity|]);
      (split; [sgets; rewrite G1s; cbn; exact Vs|]); (split; [sgets; rewrite G1s; reflexivity|]); (split; [sgets; rewrite G1s; reflexivity|]);
      (split; [sgets; rewrite G1s; cbn; auto|]); (split; [sgets; rewrite G1s; reflexivity|]); (split; [sgets; rewrite ?G1 by lia; reflexivity|]); (split; [sgets; rewrite ?G1 by lia; reflexivity|]);
      intros w Bw Wa Wx Wy; sgets; apply G1, Bw|]).
    destruct Il. }
  specialize (X _ (perm3 _ _ _ _ P)). eexists. split; [reflexivity|]. exact X.
Qed.

Lemma split_section : exists h', expand_split h a c = Ok (h', (lvl + 1, 1)) /\
  length h' = Datatypes.S s /\
  n_value (get h' s) = (n_value (get h x) + n_value (get h y))%Qc /\ n_level (get h' s) = Some (lvl + 1) /\
  n_parents (get h' s) = [a] /\ Permutation (n_children (get h' s)) [s; x; y] /\
  get h' a = set_children [s; o] (get h a) /\
  get h' x = set_parents [s] (get h x) /\ get h' y = set_parents [s] (get h y) /\
  (forall w, (w < s)%nat -> w <> a -> w <> x -> w <> y -> get h' w = get h w) /\
  (forall p q, (p, q) <> (s, s) -> count_occ Nat.eq_dec (n_children (get h' p)) q = count_occ Nat.eq_dec (n_parents (get h' q)) p).
Proof.
  destruct (split_core (split_kids_bound a)) as (h' & E & L & Ga & Vs & Ls & Ps & Ks & _ & Gx & Gy & Go). exists h'. split; [exact E|]. split; [exact L|]. split; [exact Vs|]. split; [exact Ls|]. split; [exact Ps|].
  split; [destruct Ks as [->| ->]; [reflexivity|apply perm_skip, perm_swap]|]. split; [exact Ga|]. split; [exact Gx|]. split; [exact Gy|]. split; [exact Go|].
  destruct S as [Ba Ll Hc P D _ _ (Pax & Pay & Pao)]. change (a < s)%nat in Ba.
  assert (Bs : forall w, In w [x; y; o] -> (w < s)%nat).
  { intros w I. apply (split_kids_bound a). apply (Permutation_in _ (Permutation_sym P)), I. }
  pose proof (Bs x ltac:(cbn; auto)) as Bx. pose proof (Bs y ltac:(cbn; auto)) as By. pose proof (Bs o ltac:(cbn; auto)) as Bo. clear Bs.
  assert (Dx : a <> x /\ a <> y /\ a <> o /\ x <> y /\ x <> o /\ y <> o).
  { clear -D. repeat match goal with H : NoDup (_ :: _) |- _ => inversion H; clear H; subst end. cbn [In] in *. intuition congruence. }
  destruct Dx as (N1 & N2 & N3 & N4 & N5 & N6).
  assert (Bk : forall p, cnt s (kids h p) = 0%nat) by (intros p; apply count_occ_not_In; intros I; apply split_kids_bound in I; lia).
  assert (Bp : forall p, cnt s (pars h p) = 0%nat) by (intros p; rewrite <- LA, get_beyond by apply Nat.le_refl; reflexivity).
  assert (Kids : forall p, (p < s)%nat -> kids h' p = if (p =? a)%nat then [s; o] else kids h p).
  { intros p B. destruct (Nat.eqb_spec p a) as [->|Na]; [rewrite Ga; reflexivity|]. destruct (Nat.eq_dec p x) as [->|Nx]; [rewrite Gx; reflexivity|]. destruct (Nat.eq_dec p y) as [->|Ny]; [rewrite Gy; reflexivity|]. rewrite Go by assumption. reflexivity. }
  assert (Pars : forall q, (q < s)%nat -> pars h' q = if (q =? x)%nat || (q =? y)%nat then [s] else pars h q).
  { intros q B. destruct (Nat.eqb_spec q x) as [->|Nx]; [rewrite Gx; reflexivity|]. destruct (Nat.eqb_spec q y) as [->|Ny]; [rewrite Gy; reflexivity|]. destruct (Nat.eq_dec q a) as [->|Na]; [rewrite Ga; reflexivity|]. rewrite Go by assumption. reflexivity. }
  assert (Ka : forall q, cnt q (kids h a) = (cnt q [x; y; o])) by (intros q; apply (Permutation_count_occ Nat.eq_dec), P).
  assert (Kc : forall q, cnt q (kids h' s) = cnt q [s; x; y]).
  { intros q. apply Permutation_count_occ. destruct Ks as [->| ->]; [reflexivity|apply perm_skip, perm_swap]. }
  intros p q Npq. destruct (Nat.lt_trichotomy q s) as [Bq|[->|Bq]].
  - rewrite (Pars q Bq). destruct (Nat.lt_trichotomy p s) as [Bp'|[->|Bp']].
    + rewrite (Kids p Bp'). destruct (Nat.eqb_spec p a) as [->|Na].
      * assert (Z1 : cnt q [s; o] = if (q =? o)%nat then 1%nat else O).
        { cbn [count_occ]. destruct (Nat.eq_dec s q); [lia|]. destruct (Nat.eqb_spec q o); destruct (Nat.eq_dec o q); congruence. }
        rewrite Z1. destruct (Nat.eqb_spec q x) as [->|Nx]; cbn [orb].
        { cbn [count_occ]. destruct (Nat.eq_dec s a); [lia|]. destruct (Nat.eqb_spec x o); congruence. }
        destruct (Nat.eqb_spec q y) as [->|Ny].
        { cbn [count_occ]. destruct (Nat.eq_dec s a); [lia|]. destruct (Nat.eqb_spec y o); congruence. }
        rewrite <- LA, Ka. cbn [count_occ]. destruct (Nat.eq_dec x q); [congruence|]. destruct (Nat.eq_dec y q); [congruence|]. destruct (Nat.eqb_spec q o); destruct (Nat.eq_dec o q); congruence.
      * rewrite (LA p q). destruct (Nat.eqb_spec q x) as [->|Nx]; cbn [orb].
        { rewrite Pax. cbn [count_occ]. destruct (Nat.eq_dec a p); [congruence|]. destruct (Nat.eq_dec s p); [lia|reflexivity]. }
        destruct (Nat.eqb_spec q y) as [->|Ny]; [|reflexivity].
        rewrite Pay. cbn [count_occ]. destruct (Nat.eq_dec a p); [congruence|]. destruct (Nat.eq_dec s p); [lia|reflexivity].
    + rewrite Kc. cbn [count_occ]. destruct (Nat.eq_dec s q); [lia|].
      destruct (Nat.eqb_spec q x) as [->|Nx]; cbn [orb]; [cbn [count_occ]; destruct (Nat.eq_dec s s); [|lia]; destruct (Nat.eq_dec x x); [|lia]; destruct (Nat.eq_dec y x); [congruence|reflexivity]|].
      destruct (Nat.eqb_spec q y) as [->|Ny]; [cbn [count_occ]; destruct (Nat.eq_dec s s); [|lia]; destruct (Nat.eq_dec y y); [|lia]; destruct (Nat.eq_dec x y); [congruence|reflexivity]|].
      destruct (Nat.eq_dec x q); [congruence|]. destruct (Nat.eq_dec y q); [congruence|]. rewrite Bp. reflexivity.
    + rewrite get_beyond by lia. cbn [dead_node n_children count_occ]. destruct (_ || _)%bool.
      * cbn [count_occ]. destruct (Nat.eq_dec s p); [lia|reflexivity].
      * rewrite <- LA, get_beyond by (fold s; lia). reflexivity.
  - rewrite Ps. destruct (Nat.lt_trichotomy p s) as [Bp'|[->|Bp']].
    + rewrite (Kids p Bp'). cbn [count_occ]. destruct (Nat.eqb_spec p a) as [->|Na].
      * cbn [count_occ]. destruct (Nat.eq_dec s s); [|lia]. destruct (Nat.eq_dec o s); [lia|]. destruct (Nat.eq_dec a a); [reflexivity|congruence].
      * rewrite Bk. destruct (Nat.eq_dec a p); [congruence|reflexivity].
    + congruence.
    + rewrite get_beyond by lia. cbn [dead_node n_children count_occ]. destruct (Nat.eq_dec a p); [lia|reflexivity].
  - rewrite (get_beyond h' q) by lia. cbn [dead_node n_parents count_occ]. apply count_occ_not_In. intros I. destruct (Nat.lt_trichotomy p s) as [Bp'|[->|Bp']].
    + rewrite (Kids p Bp') in I. destruct (p =? a)%nat; [destruct I as [<-|[<-|[]]]; lia|]. apply split_kids_bound in I. lia.
    + destruct Ks as [K|K]; rewrite K in I; destruct I as [<-|[<-|[<-|[]]]]; lia.
    + rewrite get_beyond in I by lia. destruct I.
Qed.
End Split.

Lemma split_lemma : forall h a c lvl x y o, links_agree h -> splittable h a c lvl x y o ->
  let s := length h in
  exists h', expand_split h a c = Ok (h', (lvl + 1, 1)) /\
  length h' = S s /\
  n_value (get h' s) = (n_value (get h x) + n_value (get h y))%Qc /\ n_level (get h' s) = Some (lvl + 1) /\
  n_parents (get h' s) = [a] /\ Permutation (n_children (get h' s)) [s; x; y] /\
  get h' a = set_children [s; o] (get h a) /\
  get h' x = set_parents [s] (get h x) /\ get h' y = set_parents [s] (get h y) /\
  (forall w, (w < s)%nat -> w <> a -> w <> x -> w <> y -> get h' w = get h w) /\
  (forall p q, (p, q) <> (s, s) -> count_occ Nat.eq_dec (n_children (get h' p)) q = count_occ Nat.eq_dec (n_parents (get h' q)) p).
Proof. intros. eapply split_section; eassumption. Qed.
Lemma split_unlinked : forall h a c lvl x y o, links_agree h -> splittable h a c lvl x y o ->
  exists h' u, expand_split h a c = Ok (h', u) /\ In (length h) (n_children (get h' (length h))) /\
  ~ In (length h) (n_parents (get h' (length h))) /\ ~ links_agree h'.
Proof.
  intros h a c lvl x y o LA Sp. destruct (split_lemma h a c lvl x y o LA Sp) as (h' & E & _ & _ & _ & P & K & _). exists h', (lvl + 1, 1). split; [exact E|].
  assert (I : In (length h) (kids h' (length h))) by (apply (Permutation_in _ (Permutation_sym K)); left; reflexivity).
  assert (N : ~ In (length h) (pars h' (length h))) by (rewrite P; intros [F|[]]; destruct Sp; lia).
  split; [exact I|]. split; [exact N|]. intros L. specialize (L (length h) (length h)). apply (count_occ_In Nat.eq_dec) in I. apply (proj1 (count_occ_not_In Nat.eq_dec _ _)) in N. lia.
Qed.
