(** One level of a splitter tree: grow, relink and reroute (Expand.v). *)
From Verif Require Import Base BaseLemmas Cost Utils Fractions Load Tree TreeSpec HeapLemmas Expand ExpandSpec.
From Coq Require Import QArith Qcanon.
Open Scope Z_scope.

Notation kids h x := (n_children (get h x)).
Notation pars h x := (n_parents (get h x)).
Notation cnt x l := (count_occ Nat.eq_dec l x).

Lemma zrange_nil lo hi : hi <= lo -> zrange lo hi = [].
Proof. intros H. unfold zrange. replace (Z.to_nat (hi - lo)) with O by lia. reflexivity. Qed.
Lemma zrange_cons lo hi : lo < hi -> zrange lo hi = lo :: zrange (lo + 1) hi.
Proof.
  intros H. unfold zrange. replace (Z.to_nat (hi - lo)) with (S (Z.to_nat (hi - (lo + 1)))) by lia.
  cbn [seq map]. f_equal; [lia|]. rewrite <- seq_shift, map_map. apply map_ext. intros i. lia.
Qed.
Lemma cnt_app x l l' : cnt x (l ++ l') = (cnt x l + cnt x l')%nat.
Proof. apply count_occ_app. Qed.

(** ** Positions *)
Fixpoint place (off : Z) (cs : list nat) : list (Z * nat) :=
  match cs with [] => [] | c :: cs => (off, c) :: place (off + 1) cs end.
Lemma place_app off a b : place off (a ++ b) = place off a ++ place (off + Z.of_nat (length a)) b.
Proof.
  revert off. induction a as [|c a IH]; intros off; [cbn; f_equal; lia|]. cbn [app place length]. rewrite IH. do 3 f_equal. lia.
Qed.
Definition slot_parent (r : Z) (cur : list nat) (s : Z) : nat := nth (Z.to_nat (s / r)) cur O.
Definition gain (r : Z) (cur : list nat) (asg : list (Z * nat)) (x : nat) : list nat :=
  map snd (filter (fun sc => (slot_parent r cur (fst sc) =? x)%nat) asg).
Lemma gain_app r cur a b x : gain r cur (a ++ b) x = gain r cur a x ++ gain r cur b x.
Proof. unfold gain. rewrite filter_app, map_app. reflexivity. Qed.
Lemma gain_cons r cur s c asg x : gain r cur ((s, c) :: asg) x = (if (slot_parent r cur s =? x)%nat then [c] else []) ++ gain r cur asg x.
Proof. unfold gain. cbn [filter fst]. destruct (slot_parent r cur s =? x)%nat; reflexivity. Qed.
Lemma gain_perm r cur a b x : Permutation a b -> Permutation (gain r cur a x) (gain r cur b x).
Proof.
  intros P. unfold gain. apply Permutation_map. induction P; cbn [filter].
  - constructor.
  - destruct (_ =? x)%nat; [constructor|]; assumption.
  - destruct (slot_parent r cur (fst y) =? x)%nat, (slot_parent r cur (fst x0) =? x)%nat; try constructor; apply Permutation_refl.
  - eapply Permutation_trans; eassumption.
Qed.

(** [k] slots from [off] exist below [cur] *)
Definition fits (r : Z) (cur : list nat) (off : Z) (k : nat) : Prop :=
  0 < r /\ 0 <= off /\ off + Z.of_nat k <= r * Z.of_nat (length cur).
Lemma fits_index r cur off k : fits r cur off (S k) -> (Z.to_nat (off / r) < length cur)%nat.
Proof.
  intros (R & O & L). assert (off / r < Z.of_nat (length cur)) by (apply Z.div_lt_upper_bound; lia).
  pose proof (Z.div_pos off r O R). lia.
Qed.
Lemma fits_at r cur off k : fits r cur off (S k) -> at_index cur (off / r) = Ok (slot_parent r cur off).
Proof. intros F. unfold at_index, slot_parent. rewrite (nth_error_nth' cur O (fits_index _ _ _ _ F)). reflexivity. Qed.
Lemma fits_in r cur off k : fits r cur off (S k) -> In (slot_parent r cur off) cur.
Proof. intros F. apply nth_In, (fits_index _ _ _ _ F). Qed.
Lemma fits_next r cur off k : fits r cur off (S k) -> fits r cur (off + 1) k.
Proof. unfold fits. lia. Qed.
Lemma gain_out r cur x : ~ In x cur -> forall cs off, fits r cur off (length cs) -> gain r cur (place off cs) x = [].
Proof.
  intros N. induction cs as [|c cs IH]; intros off F; [reflexivity|]. cbn [place length] in *. rewrite gain_cons.
  pose proof (fits_in _ _ _ _ F) as I. destruct (Nat.eqb_spec (slot_parent r cur off) x) as [E|E]; [subst x; contradiction|].
  apply IH, fits_next, F.
Qed.

Lemma gain_first r c cur : 0 < r -> forall cs off, 0 <= off -> off + Z.of_nat (length cs) <= r -> gain r (c :: cur) (place off cs) c = cs.
Proof.
  intros R. induction cs as [|d cs IH]; intros off O L; [reflexivity|]. cbn [place length] in *. rewrite gain_cons.
  unfold slot_parent. rewrite Z.div_small by lia. cbn [Z.to_nat nth]. rewrite Nat.eqb_refl. cbn [app]. f_equal. apply IH; lia.
Qed.
Lemma gain_first_other r c cur x : 0 < r -> c <> x -> forall cs off, 0 <= off -> off + Z.of_nat (length cs) <= r -> gain r (c :: cur) (place off cs) x = [].
Proof.
  intros R N. induction cs as [|d cs IH]; intros off O L; [reflexivity|]. cbn [place length] in *. rewrite gain_cons.
  unfold slot_parent. rewrite Z.div_small by lia. cbn [Z.to_nat nth]. destruct (Nat.eqb_spec c x); [contradiction|]. apply IH; lia.
Qed.
Lemma gain_shift r c cur x : 0 < r -> forall cs off, 0 <= off -> gain r (c :: cur) (place (off + r) cs) x = gain r cur (place off cs) x.
Proof.
  intros R. induction cs as [|d cs IH]; intros off O; [reflexivity|]. cbn [place]. rewrite !gain_cons. f_equal.
  - unfold slot_parent. replace (off + r) with (off + 1 * r) by lia. rewrite Z.div_add by lia. pose proof (Z.div_pos off r O R).
    replace (Z.to_nat (off / r + 1)) with (S (Z.to_nat (off / r))) by lia. reflexivity.
  - replace (off + r + 1) with (off + 1 + r) by lia. apply IH. lia.
Qed.
(** the slots are shared out evenly *)
Lemma gain_all r : 0 < r -> forall cur T, NoDup cur -> Z.of_nat (length T) = r * Z.of_nat (length cur) ->
  (forall x, In x cur -> Z.of_nat (length (gain r cur (place 0 T) x)) = r) /\ flat_map (gain r cur (place 0 T)) cur = T.
Proof.
  intros R. induction cur as [|c cur IH]; intros T N L.
  - split; [intros x []|]. destruct T; [reflexivity|cbn [length] in L; lia].
  - inversion N as [|? ? Nc Ncur]; subst. set (T1 := firstn (Z.to_nat r) T). set (T2 := skipn (Z.to_nat r) T).
    assert (ET : T = T1 ++ T2) by (symmetry; apply firstn_skipn). cbn [length] in L.
    assert (L1 : Z.of_nat (length T1) = r) by (unfold T1; rewrite firstn_length; lia).
    assert (L2 : Z.of_nat (length T2) = r * Z.of_nat (length cur)) by (unfold T2; rewrite skipn_length; lia).
    destruct (IH T2 Ncur L2) as [A B]. clearbody T1 T2. subst T. rewrite place_app, L1.
    assert (G1 : gain r (c :: cur) (place 0 T1 ++ place (0 + r) T2) c = T1).
    { rewrite gain_app, gain_first by lia. rewrite gain_shift by lia. rewrite gain_out; [apply app_nil_r|exact Nc|]. unfold fits. lia. }
    assert (G2 : forall x, In x cur -> gain r (c :: cur) (place 0 T1 ++ place (0 + r) T2) x = gain r cur (place 0 T2) x).
    { intros x Hx. rewrite gain_app, gain_shift, gain_first_other; try lia; [reflexivity|]. intros ->. contradiction. }
    split.
    + intros x [<-|Hx]; [rewrite G1; exact L1|]. rewrite G2 by exact Hx. apply A, Hx.
    + cbn [flat_map]. rewrite G1. f_equal. rewrite <- B at 2. rewrite !flat_map_concat_map. f_equal. apply map_ext_in. exact G2.
Qed.

(** ** Effects on the old nodes *)
Definition relinked (ps cs : list nat) (n : node Qc) : node Qc := set_parents ps (set_children cs n).
Definition effect (h h' : heap Qc) (chi : nat -> list nat) (par : nat -> list nat -> list nat) : Prop :=
  (length h <= length h')%nat /\
  forall x, (x < length h)%nat -> get h' x = relinked (par x (pars h x)) (kids h x ++ chi x) (get h x).
Lemma relinked_id (n : node Qc) : relinked (n_parents n) (n_children n) n = n.
Proof. destruct n. reflexivity. Qed.
Lemma relinked_relinked ps cs ps' cs' (n : node Qc) : relinked ps cs (relinked ps' cs' n) = relinked ps cs n.
Proof. reflexivity. Qed.
Lemma relinked_kids ps cs n : n_children (relinked ps cs n) = cs.
Proof. reflexivity. Qed.
Lemma relinked_pars ps cs n : n_parents (relinked ps cs n) = ps.
Proof. reflexivity. Qed.
Lemma effect_refl h : effect h h (fun _ => []) (fun _ ps => ps).
Proof. split; [lia|]. intros x Hx. rewrite app_nil_r, relinked_id. reflexivity. Qed.
Lemma effect_trans h h1 h2 c1 p1 c2 p2 : effect h h1 c1 p1 -> effect h1 h2 c2 p2 ->
  effect h h2 (fun x => c1 x ++ c2 x) (fun x ps => p2 x (p1 x ps)).
Proof.
  intros [L1 E1] [L2 E2]. split; [lia|]. intros x Hx. rewrite E2 by lia. rewrite E1 by exact Hx.
  rewrite relinked_kids, relinked_pars, relinked_relinked, app_assoc. reflexivity.
Qed.
Lemma effect_ext h h' c1 p1 c2 p2 : effect h h' c1 p1 -> (forall x, (x < length h)%nat -> c1 x = c2 x) ->
  (forall x, (x < length h)%nat -> p1 x (pars h x) = p2 x (pars h x)) -> effect h h' c2 p2.
Proof. intros [L E] C P. split; [exact L|]. intros x Hx. rewrite E, C, P by exact Hx. reflexivity. Qed.

Lemma effect_new h v lvl lta h' a : new_node h v lvl lta = Ok (h', a) ->
  a = length h /\ length h' = S (length h) /\ effect h h' (fun _ => []) (fun _ ps => ps) /\
  get h' a = MkNode v a lvl (fl_append frac_eqb v fl_new) [] [] [] lta.
Proof.
  unfold new_node. destruct (negative v); [discriminate|]. intros [= <- <-]. rewrite app_length. cbn [length].
  split; [reflexivity|]. split; [lia|]. split; [|apply get_app_new]. split; [rewrite app_length; lia|].
  intros x Hx. rewrite get_app_l by exact Hx. rewrite app_nil_r, relinked_id. reflexivity.
Qed.
Lemma new_ok h v lvl lta : negative v = false -> exists h', new_node h v lvl lta = Ok (h', length h).
Proof. intros N. unfold new_node. rewrite N. eexists. reflexivity. Qed.

Lemma effect_link h p c ps' : (p < length h)%nat -> (c < length h)%nat ->
  effect h (upd c (fun n => set_parents (ps' (n_parents n)) n) (upd p (add_child c) h))
    (fun x => if (p =? x)%nat then [c] else []) (fun x ps => if (c =? x)%nat then ps' ps else ps).
Proof.
  intros Hp Hc. split; [rewrite !upd_length; lia|]. intros x Hx.
  destruct (Nat.eqb_spec c x) as [->|Nc].
  - rewrite get_upd_same by (rewrite upd_length; exact Hx). destruct (Nat.eqb_spec p x) as [->|Np].
    + rewrite get_upd_same by exact Hx. reflexivity.
    + rewrite get_upd_other by exact Np. rewrite app_nil_r. destruct (get h x). reflexivity.
  - rewrite get_upd_other by exact Nc. destruct (Nat.eqb_spec p x) as [->|Np].
    + rewrite get_upd_same by exact Hx. unfold add_child. destruct (get h x). reflexivity.
    + rewrite get_upd_other by exact Np. rewrite app_nil_r, relinked_id. reflexivity.
Qed.
Lemma upd_ext {A} i (f g : A -> A) l : (forall x, f x = g x) -> upd i f l = upd i g l.
Proof. intros E. revert i. induction l as [|x l IH]; intros [|i]; cbn; [reflexivity|reflexivity|rewrite E; reflexivity|rewrite IH; reflexivity]. Qed.
Lemma get_beyond (h : heap Qc) x : (length h <= x)%nat -> get h x = dead_node.
Proof. apply nth_overflow. Qed.

(** ** Links seen from both ends, for the pairs in [D]; the nodes of [S] are yet
    to be attached *)
Definition linked_but (D : nat -> nat -> Prop) (S : list nat) (h : heap Qc) : Prop :=
  forall x y, D x y -> cnt y (kids h x) = if in_dec Nat.eq_dec y S then O else cnt x (pars h y).
Lemma linked_new D S h v lvl lta h' a : new_node h v lvl lta = Ok (h', a) -> linked_but D S h -> linked_but D S h'.
Proof.
  intros N L. destruct (effect_new _ _ _ _ _ _ N) as (-> & LH & [_ E] & G). intros x y HD.
  assert (K : forall z, kids h' z = kids h z /\ pars h' z = pars h z).
  { intros z. destruct (Nat.lt_trichotomy z (length h)) as [B|[->|B]].
    - rewrite E by exact B. rewrite relinked_kids, relinked_pars, app_nil_r. auto.
    - rewrite G. rewrite (get_beyond h) by lia. auto.
    - rewrite (get_beyond h), (get_beyond h') by lia. auto. }
  destruct (K x) as [-> _]. destruct (K y) as [_ ->]. apply L, HD.
Qed.
Lemma effect_same_length h h' chi par z : effect h h' chi par -> length h' = length h ->
  (length h <= z)%nat -> get h' z = get h z.
Proof. intros E L H. rewrite !get_beyond by lia. reflexivity. Qed.
Lemma linked_link D S h p c : (p < length h)%nat -> (c < length h)%nat -> ~ In c S -> linked_but D S h ->
  linked_but D S (upd c (add_parent p) (upd p (add_child c) h)).
Proof.
  intros Hp Hc N L.
  destruct (effect_link h p c (fun ps => ps ++ [p]) Hp Hc) as [_ E]. change (fun n => set_parents (n_parents n ++ [p]) n) with (@add_parent Qc p) in E.
  set (h' := upd c _ _) in *. assert (LH : length h' = length h) by (unfold h'; rewrite !upd_length; reflexivity).
  intros x y HD. specialize (L x y HD).
  assert (K : cnt y (kids h' x) = (cnt y (kids h x) + if (p =? x)%nat then if (c =? y)%nat then 1 else 0 else 0)%nat).
  { destruct (Nat.lt_ge_cases x (length h)) as [B|B].
    - rewrite E by exact B. rewrite relinked_kids, cnt_app. f_equal. destruct (p =? x)%nat; [|reflexivity]. cbn [count_occ].
      destruct (Nat.eq_dec c y) as [->|Ny]; [rewrite Nat.eqb_refl; reflexivity|]. destruct (Nat.eqb_spec c y); [contradiction|reflexivity].
    - rewrite !get_beyond by lia. cbn. destruct (Nat.eqb_spec p x); [lia|reflexivity]. }
  assert (P : cnt x (pars h' y) = (cnt x (pars h y) + if (c =? y)%nat then if (p =? x)%nat then 1 else 0 else 0)%nat).
  { destruct (Nat.lt_ge_cases y (length h)) as [B|B].
    - rewrite E by exact B. rewrite relinked_pars. destruct (Nat.eqb_spec c y) as [->|Nc]; [|lia]. rewrite cnt_app. f_equal. cbn [count_occ].
      destruct (Nat.eq_dec p x) as [->|Nx]; [rewrite Nat.eqb_refl; reflexivity|]. destruct (Nat.eqb_spec p x); [contradiction|reflexivity].
    - rewrite !get_beyond by lia. cbn. destruct (Nat.eqb_spec c y); [lia|reflexivity]. }
  rewrite K, L, P. destruct (in_dec Nat.eq_dec y S) as [I|I].
  - destruct (Nat.eqb_spec c y) as [->|]; [contradiction|]. destruct (p =? x)%nat; reflexivity.
  - destruct (p =? x)%nat, (c =? y)%nat; reflexivity.
Qed.
Lemma linked_relink D S h p c : (p < length h)%nat -> (c < length h)%nat -> ~ In c S -> linked_but D (c :: S) h ->
  linked_but D S (upd c (set_parents [p]) (upd p (add_child c) h)).
Proof.
  intros Hp Hc N L.
  destruct (effect_link h p c (fun ps => [p]) Hp Hc) as [_ E]. change (fun n => set_parents [p] n) with (@set_parents Qc [p]) in E.
  set (h' := upd c _ _) in *. assert (LH : length h' = length h) by (unfold h'; rewrite !upd_length; reflexivity).
  intros x y HD. specialize (L x y HD).
  assert (K : cnt y (kids h' x) = (cnt y (kids h x) + if (p =? x)%nat then if (c =? y)%nat then 1 else 0 else 0)%nat).
  { destruct (Nat.lt_ge_cases x (length h)) as [B|B].
    - rewrite E by exact B. rewrite relinked_kids, cnt_app. f_equal. destruct (p =? x)%nat; [|reflexivity]. cbn [count_occ].
      destruct (Nat.eq_dec c y) as [->|Ny]; [rewrite Nat.eqb_refl; reflexivity|]. destruct (Nat.eqb_spec c y); [contradiction|reflexivity].
    - rewrite !get_beyond by lia. cbn. destruct (Nat.eqb_spec p x); [lia|reflexivity]. }
  assert (P : cnt x (pars h' y) = if (c =? y)%nat then if (p =? x)%nat then 1%nat else 0%nat else cnt x (pars h y)).
  { destruct (Nat.lt_ge_cases y (length h)) as [B|B].
    - rewrite E by exact B. rewrite relinked_pars. destruct (Nat.eqb_spec c y) as [->|Nc]; [|reflexivity]. cbn [count_occ].
      destruct (Nat.eq_dec p x) as [->|Nx]; [rewrite Nat.eqb_refl; reflexivity|]. destruct (Nat.eqb_spec p x); [contradiction|reflexivity].
    - rewrite !get_beyond by lia. cbn. destruct (Nat.eqb_spec c y); [lia|reflexivity]. }
  rewrite K, L, P. destruct (Nat.eqb_spec c y) as [<-|Nc].
  - destruct (in_dec Nat.eq_dec c (c :: S)) as [_|B]; [|exfalso; apply B; left; reflexivity].
    destruct (in_dec Nat.eq_dec c S); [contradiction|]. destruct (p =? x)%nat; reflexivity.
  - replace (if (p =? x)%nat then 0%nat else 0%nat) with 0%nat by (destruct (p =? x)%nat; reflexivity). rewrite Nat.add_0_r.
    destruct (in_dec Nat.eq_dec y (c :: S)) as [[I|I]|I], (in_dec Nat.eq_dec y S) as [J|J]; try reflexivity; try contradiction.
    exfalso. apply I. right. exact J.
Qed.

(** ** reroute *)
Lemma reroute_spec r cur t : (forall S (h : heap Qc), (forall p, In p cur -> (p < length h)%nat) -> (t < length h)%nat ->
  forall k off j0, fits r cur (off + j0) k ->
  exists h', fold_res (reroute_step r off cur t) (zrange j0 (j0 + Z.of_nat k)) h = Ok h' /\ length h' = length h /\
    effect h h' (gain r cur (place (off + j0) (repeat t k)))
      (fun x ps => if (t =? x)%nat then ps ++ map (slot_parent r cur) (zrange (off + j0) (off + j0 + Z.of_nat k)) else ps) /\
    (~ In t S -> forall D, linked_but D S h -> linked_but D S h')).
Proof.
  intros S h Hcur Ht k. revert h Hcur Ht. induction k as [|k IH]; intros h Hcur Ht off j0 F.
  - rewrite !zrange_nil by lia. exists h. split; [reflexivity|]. split; [reflexivity|]. split; [|tauto].
    eapply effect_ext; [apply effect_refl|reflexivity|]. intros x _. destruct (t =? x)%nat; [cbn; rewrite app_nil_r|]; reflexivity.
  - rewrite zrange_cons by lia. cbn [fold_res]. unfold reroute_step at 1. rewrite (fits_at _ _ _ _ F). cbn [bind].
    set (p := slot_parent r cur (off + j0)). pose proof (fits_in _ _ _ _ F) as Ip. fold p in Ip. pose proof (Hcur p Ip) as Hp.
    set (h1 := upd t _ _). assert (L1 : length h1 = length h) by (unfold h1; rewrite !upd_length; reflexivity).
    replace (j0 + Z.of_nat (Datatypes.S k)) with (j0 + 1 + Z.of_nat k) by lia.
    destruct (IH h1) with (off := off) (j0 := j0 + 1) as (h' & E & LH & EF & LK).
    { intros q Hq. rewrite L1. apply Hcur, Hq. } { lia. } { replace (off + (j0 + 1)) with (off + j0 + 1) by lia. apply fits_next, F. }
    exists h'. split; [exact E|]. split; [lia|]. split.
    + eapply effect_ext; [eapply effect_trans; [apply (effect_link h p t (fun ps => ps ++ [p]) Hp Ht)|exact EF]| |]; cbn beta.
      * intros x Hx. cbn [repeat place]. rewrite gain_cons. fold p. replace (off + (j0 + 1)) with (off + j0 + 1) by lia. reflexivity.
      * intros x Hx. destruct (t =? x)%nat; [|reflexivity]. rewrite (zrange_cons (off + j0)) by lia. cbn [map]. fold p. rewrite <- app_assoc. cbn [app].
        do 4 f_equal; lia.
    + intros N D L. apply LK; [exact N|]. apply linked_link; assumption.
Qed.

(** ** relink *)
Lemma relink_spec r off cur S : forall orig (h : heap Qc) j0, (forall p, In p cur -> (p < length h)%nat) -> (forall c, In c orig -> (c < length h)%nat) ->
  NoDup orig -> fits r cur (off + j0) (length orig) ->
  exists h' par, fold_res (relink_step r off cur) (combine (zrange j0 (j0 + Z.of_nat (length orig))) orig) h = Ok h' /\ length h' = length h /\
    effect h h' (gain r cur (place (off + j0) orig)) par /\
    (forall c ps, In c orig -> exists p, In p cur /\ par c ps = [p]) /\
    (forall c ps, ~ In c orig -> par c ps = ps) /\
    ((forall c, In c orig -> ~ In c S) -> forall D, linked_but D (orig ++ S) h -> linked_but D S h').
Proof.
  induction orig as [|c orig IH]; intros h j0 Hcur Horig N F.
  - cbn [length]. rewrite zrange_nil by lia. exists h, (fun _ ps => ps). split; [reflexivity|]. split; [reflexivity|].
    split; [apply effect_refl|]. split; [intros c ps []|]. split; [reflexivity|tauto].
  - cbn [length] in *. rewrite zrange_cons by lia. cbn [combine fold_res]. unfold relink_step at 1. cbn [fst snd]. rewrite (fits_at _ _ _ _ F). cbn [bind].
    set (p := slot_parent r cur (off + j0)). pose proof (fits_in _ _ _ _ F) as Ip. fold p in Ip. pose proof (Hcur p Ip) as Hp.
    pose proof (Horig c (or_introl eq_refl)) as Hc. inversion N as [|? ? Nc Norig]; subst.
    set (h1 := upd c _ _). assert (L1 : length h1 = length h) by (unfold h1; rewrite !upd_length; reflexivity).
    replace (j0 + Z.of_nat (Datatypes.S (length orig))) with (j0 + 1 + Z.of_nat (length orig)) by lia.
    destruct (IH h1 (j0 + 1)) as (h' & par & E & LH & EF & PI & PO & LK).
    { intros q Hq. rewrite L1. apply Hcur, Hq. } { intros q Hq. rewrite L1. apply Horig. right. exact Hq. } { exact Norig. }
    { replace (off + (j0 + 1)) with (off + j0 + 1) by lia. apply fits_next, F. }
    exists h', (fun x ps => par x (if (c =? x)%nat then [p] else ps)). split; [exact E|]. split; [lia|]. split; [|split; [|split]].
    + eapply effect_ext; [eapply effect_trans; [apply (effect_link h p c (fun ps => [p]) Hp Hc)|exact EF]| |]; cbn beta; [|reflexivity].
      intros x Hx. cbn [place]. rewrite gain_cons. fold p. replace (off + (j0 + 1)) with (off + j0 + 1) by lia. reflexivity.
    + intros d ps [<-|Hd]; [|apply PI, Hd]. rewrite Nat.eqb_refl, PO by exact Nc. exists p. auto.
    + intros d ps Hd. rewrite PO by (intros Hd'; apply Hd; right; exact Hd'). destruct (Nat.eqb_spec c d); [exfalso; apply Hd; left; assumption|reflexivity].
    + intros D D' L. apply LK; [intros d Hd; apply D; right; exact Hd|]. cbn [app] in L. apply linked_relink; [exact Hp|exact Hc| |exact L].
      intros I. apply in_app_or in I. destruct I as [I|I]; [contradiction|]. exact (D c (or_introl eq_refl) I).
Qed.

(** ** grow *)
Lemma grow_spec r off cur v lvl lta S : negative v = false -> forall k (h : heap Qc) acc j0, (forall p, In p cur -> (p < length h)%nat) ->
  (forall x, In x S -> (x < length h)%nat) -> fits r cur (off + j0) k ->
  exists h', fold_res (grow_step r off cur v lvl lta) (zrange j0 (j0 + Z.of_nat k)) (h, acc) = Ok (h', acc ++ seq (length h) k) /\
    length h' = (length h + k)%nat /\
    effect h h' (gain r cur (place (off + j0) (seq (length h) k))) (fun _ ps => ps) /\
    (forall x, (length h <= x < length h + k)%nat -> exists p, In p cur /\
       get h' x = MkNode v x (Some lvl) (fl_append frac_eqb v fl_new) [p] [] [] lta) /\
    (forall D, linked_but D S h -> linked_but D S h').
Proof.
  intros Nv. induction k as [|k IH]; intros h acc j0 Hcur HS F.
  - rewrite zrange_nil by lia. exists h. rewrite app_nil_r, Nat.add_0_r. split; [reflexivity|]. split; [reflexivity|].
    split; [apply effect_refl|]. split; [intros x Hx; lia|tauto].
  - rewrite zrange_cons by lia. cbn [fold_res]. unfold grow_step at 1. destruct (new_ok h v (Some lvl) lta Nv) as (h0 & E0). rewrite E0. cbn [bind].
    destruct (effect_new _ _ _ _ _ _ E0) as (_ & L0 & EF0 & G0). rewrite (fits_at _ _ _ _ F). cbn [bind].
    set (p := slot_parent r cur (off + j0)). pose proof (fits_in _ _ _ _ F) as Ip. fold p in Ip. pose proof (Hcur p Ip) as Hp.
    assert (EL : upd (length h) (set_parents [p]) (upd p (add_child (length h)) h0) = upd (length h) (add_parent p) (upd p (add_child (length h)) h0)).
    { set (h1 := upd p _ _). assert (G1 : n_parents (get h1 (length h)) = []).
      { unfold h1. rewrite get_upd_other by lia. rewrite G0. reflexivity. }
      unfold add_parent. clear -G1. assert (B : (length h < length h1)%nat \/ (length h1 <= length h)%nat) by lia. revert G1 B. unfold get. generalize (length h). clear.
      induction h1 as [|x l IH]; intros i G B; [destruct i; reflexivity|]. destruct i as [|i]; cbn in *; [rewrite G; reflexivity|]. f_equal. apply IH; [exact G|lia]. }
    rewrite EL. set (h1 := upd (length h) _ _). assert (L1 : length h1 = Datatypes.S (length h)) by (unfold h1; rewrite !upd_length; exact L0).
    assert (EF1 : effect h0 h1 (fun x => if (p =? x)%nat then [length h] else []) (fun x ps => if (length h =? x)%nat then ps ++ [p] else ps))
      by (apply (effect_link h0 p (length h) (fun ps => ps ++ [p])); lia).
    replace (j0 + Z.of_nat (Datatypes.S k)) with (j0 + 1 + Z.of_nat k) by lia.
    destruct (IH h1 (acc ++ [length h]) (j0 + 1)) as (h' & E & LH & EF & NW & LK).
    { intros q Hq. rewrite L1. specialize (Hcur q Hq). lia. } { intros x Hx. specialize (HS x Hx). lia. }
    { replace (off + (j0 + 1)) with (off + j0 + 1) by lia. apply fits_next, F. }
    exists h'. split; [etransitivity; [exact E|rewrite <- app_assoc, L1; reflexivity]|]. split; [lia|]. split; [|split].
    + eapply effect_ext; [eapply effect_trans; [eapply effect_trans; [exact EF0|exact EF1]|exact EF]| |]; cbn beta.
      * intros x Hx. cbn [seq place]. rewrite gain_cons. fold p. replace (off + (j0 + 1)) with (off + j0 + 1) by lia. rewrite L1. reflexivity.
      * intros x Hx. destruct (Nat.eqb_spec (length h) x); [lia|reflexivity].
    + intros x Hx. destruct (Nat.eq_dec x (length h)) as [->|Nx]; [|apply NW; lia].
      exists p. split; [exact Ip|]. destruct EF as [_ EF]. rewrite EF by lia. destruct EF1 as [_ EF1]. rewrite EF1 by lia. rewrite G0, Nat.eqb_refl.
      destruct (Nat.eqb_spec p (length h)); [lia|]. rewrite gain_out; [reflexivity| |].
      * intros I. specialize (Hcur _ I). lia.
      * rewrite seq_length. replace (off + (j0 + 1)) with (off + j0 + 1) by lia. apply fits_next, F.
    + intros D L. apply LK. unfold h1. apply linked_link; [lia|lia| |eapply linked_new; [exact E0|exact L]].
      intros I. specialize (HS _ I). lia.
Qed.
