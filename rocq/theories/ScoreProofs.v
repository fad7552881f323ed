(** Proofs about the score. *)
From Verif Require Import Base BaseLemmas Cost CostSpec CostProofs Utils UtilsSpec UtilsProofs Fractions Load Score ScoreSpec.
From Coq Require Import QArith Lqa.
Open Scope Z_scope.

Lemma zmem_true v l : zmem v l = true <-> In v l.
Proof. unfold zmem. rewrite existsb_exists. split; [intros (x & I & E); apply Z.eqb_eq in E; subst; exact I|intros I; exists v; split; [exact I|apply Z.eqb_refl]]. Qed.

Notation cache_ok := scores_nonneg.

(** ** small facts *)
Lemma better_ge_l a b : (a <= better a b)%Q.
Proof. unfold better. destruct (Qle_bool a b) eqn:E; [apply Qle_bool_iff, E|apply Qle_refl]. Qed.
Lemma better_ge_r a b : (b <= better a b)%Q.
Proof. unfold better. destruct (Qle_bool a b) eqn:E; [apply Qle_refl|]. destruct (Qlt_le_dec a b) as [H|H]; [|exact H]. exfalso. assert (X : Qle_bool a b = true) by (apply Qle_bool_iff, Qlt_le_weak, H). congruence. Qed.
Lemma better_or a b : better a b = a \/ better a b = b.
Proof. unfold better. destruct (Qle_bool a b); auto. Qed.
Lemma ratio_ok a b : 0 <= a -> 1 <= b -> ratio a b = Ok (inject_Z a / inject_Z b)%Q /\ (0 <= inject_Z a / inject_Z b)%Q.
Proof.
  intros A B. unfold ratio. destruct (Z.eqb_spec b 0); [lia|]. split; [reflexivity|]. apply Qle_shift_div_l; [unfold Qlt; cbn; lia|]. rewrite Qmult_0_l. unfold Qle. cbn. lia.
Qed.
Lemma flag_hit T v : hit T v (flag (zmem v T)).
Proof. unfold hit, flag. destruct (zmem v T) eqn:E; [left; split; [apply zmem_true in E; exact E|reflexivity]|right; split; [intros H; apply zmem_true in H; congruence|reflexivity]]. Qed.
Lemma hit_unique T v a b : hit T v a -> hit T v b -> a = b.
Proof. unfold hit. intros [[? ?]|[? ?]] [[? ?]|[? ?]]; subst; tauto || reflexivity. Qed.
Lemma hit_range T v a : hit T v a -> 0 <= a <= 1.
Proof. unfold hit. intuition lia. Qed.
Lemma zcount_occ v l : zcount v l = Z.of_nat (count_occ Z.eq_dec l v).
Proof. unfold zcount. f_equal. induction l as [|x l IH]; [reflexivity|]. cbn [filter count_occ]. destruct (Z.eqb_spec v x), (Z.eq_dec x v); subst; try congruence; cbn [length]; rewrite IH; reflexivity. Qed.
Lemma zrange_in lo hi x : In x (zrange lo hi) <-> lo <= x < hi.
Proof. unfold zrange. rewrite in_map_iff. split; [intros (i & <- & I); apply in_seq in I; lia|]. intros H. exists (Z.to_nat (x - lo)). split; [lia|]. apply in_seq. lia. Qed.

(** a computation that always returns a non-negative score and leaves a good cache *)
Definition safe (m : SM Q) : Prop := forall st, cache_ok (sc_cache st) -> exists q st', m st = Ok (q, st') /\ (0 <= q)%Q /\ cache_ok (sc_cache st').

Section Run.
Variable solving : nat -> bool.
Variable T : list Z.

Lemma safe_ret q : (0 <= q)%Q -> safe (sret q).
Proof. intros P st C. exists q, st. auto. Qed.
Lemma safe_read (k : bool -> SM Q) : (forall b, safe (k b)) -> safe (sbind (read_flag solving) k).
Proof. intros K st C. unfold sbind, read_flag. apply K. exact C. Qed.
Lemma safe_bind m k : safe m -> (forall q, (0 <= q)%Q -> safe (k q)) -> safe (sbind m k).
Proof. intros M K st C. unfold sbind. destruct (M st C) as (q & st' & -> & P & C'). apply K; assumption. Qed.
Lemma safe_lift {A} (r : res A) k a : r = Ok a -> safe (k a) -> safe (sbind (slift r) k).
Proof. intros -> K st C. unfold sbind, slift. apply K. exact C. Qed.

Lemma flags_nonneg a b : 0 <= flag a + flag b.
Proof. destruct a, b; cbn; lia. Qed.
Lemma better_nonneg a b : (0 <= b)%Q -> (0 <= better a b)%Q.
Proof. intros H. eapply Qle_trans; [exact H|apply better_ge_r]. Qed.

Lemma safe_extract src : safe (score_extract solving T src).
Proof.
  unfold score_extract. assert (G : forall cs score, (forall c, In c cs -> 1 <= c /\ 2 * c < src) -> (0 <= score)%Q -> safe (extract_scores solving T src cs score)).
  { induction cs as [|c cs IH]; intros score B P; cbn [extract_scores]; [apply safe_ret, P|]. apply safe_read. intros b. destruct (negb b); [apply safe_ret, P|].
    destruct (B c (or_introl eq_refl)) as [B1 B2]. assert (B' : forall c, In c cs -> 1 <= c /\ 2 * c < src) by (intros x I; apply B; right; exact I).
    destruct (c =? src - c); [apply IH; assumption|]. destruct (extract_cost_pos src c) as (r & E & Pr); [lia|lia|]. rewrite E. apply safe_lift with (a := r); [reflexivity|].
    destruct (ratio_ok (flag (zmem c T) + flag (zmem (src - c) T)) r) as [R1 R2]; [apply flags_nonneg|exact Pr|]. apply (safe_lift _ _ _ R1). apply IH; [exact B'|]. apply better_nonneg, P. }
  apply G; [|apply Qle_refl]. intros c I. apply zrange_in in I. pose proof (Z.mul_div_le (src - 1) 2). lia.
Qed.
Lemma safe_divide src : 1 <= src -> safe (score_divide solving T src).
Proof.
  intros Ps. unfold score_divide. assert (G : forall ds score, (forall d, In d ds -> 2 <= d <= src /\ (d | src)) -> (0 <= score)%Q -> safe (divide_scores solving T src ds score)).
  { induction ds as [|d ds IH]; intros score B P; cbn [divide_scores]; [apply safe_ret, P|]. apply safe_read. intros b. destruct (negb b); [apply safe_ret, Qle_refl|].
    destruct (B d (or_introl eq_refl)) as [B1 B2]. destruct (divide_cost_pos src d) as (r & E & Pr); [lia|lia|exact B2|]. rewrite E. apply safe_lift with (a := r); [reflexivity|].
    destruct (ratio_ok (zcount (src / d) T) r) as [R1 R2]; [unfold zcount; lia|exact Pr|]. apply (safe_lift _ _ _ R1). apply IH; [intros x I; apply B; right; exact I|]. apply better_nonneg, P. }
  apply G; [|apply Qle_refl]. intros d I. apply filter_In in I. destruct I as [I E]. apply zrange_in in I. apply Z.eqb_eq in E. split; [lia|]. apply Z.mod_divide; [lia|exact E].
Qed.
Lemma safe_split src : safe (score_split solving T src).
Proof.
  unfold score_split. apply safe_read. intros b. destruct (negb b); [apply safe_ret, Qle_refl|]. destruct (find _ _) as [c|]; [|apply safe_ret, Qle_refl].
  destruct (src <=? 2 * (c / 3)); [apply safe_ret, Qle_refl|]. destruct (c / 3 =? src - 2 * (c / 3)); [apply safe_ret, Qle_refl|].
  destruct (ratio_ok (zcount (c / 3) T + flag (zmem (src - 2 * (c / 3)) T)) split_cost) as [R1 R2]; [unfold zcount; destruct (zmem _ _); cbn; lia|unfold split_cost; lia|].
  intros st C. unfold slift. rewrite R1. eexists. eexists. split; [reflexivity|]. auto.
Qed.
Lemma safe_compute_individual src : 1 <= src -> safe (compute_individual solving T src).
Proof.
  intros Ps. unfold compute_individual. apply safe_read. intros b. destruct (negb b); [apply safe_ret, Qle_refl|]. apply safe_bind.
  - destruct (zmem src T); [apply safe_ret; discriminate|]. apply safe_bind; [apply safe_extract|]. intros e Pe. apply safe_bind; [apply safe_divide, Ps|]. intros d Pd. apply safe_bind; [apply safe_split|]. intros s Pq. apply safe_ret. apply better_nonneg, better_nonneg, Pe.
  - intros q Pq st C. eexists. eexists. split; [reflexivity|]. split; [exact Pq|]. cbn [sc_cache]. constructor; assumption.
Qed.
Lemma cache_get_in v c q : cache_get v c = Some q -> In (v, q) c.
Proof. unfold cache_get. destruct (find _ c) as [[k x]|] eqn:E; [|discriminate]. intros [= <-]. apply find_some in E. destruct E as [I E]. cbn in *. apply Z.eqb_eq in E. subst. exact I. Qed.
Lemma safe_individual v : 1 <= v -> safe (individual solving T v).
Proof.
  intros Pv st C. unfold individual. destruct (cache_get v (sc_cache st)) as [q|] eqn:E; [|apply (safe_compute_individual v Pv st C)]. destruct (Qeq_bool q 0); [apply (safe_compute_individual v Pv st C)|].
  exists q, st. split; [reflexivity|]. split; [|exact C]. apply cache_get_in in E. unfold scores_nonneg in C. rewrite Forall_forall in C. apply (C _ E).
Qed.
Lemma safe_sum : forall sums acc, Forall (fun e => 1 <= fst e) sums -> (0 <= acc)%Q -> safe (sum_scores solving T sums acc).
Proof.
  induction sums as [|[v k] sums IH]; intros acc F P; cbn [sum_scores]; [apply safe_ret, P|]. inversion F as [|? ? Fv F']; subst. apply safe_bind; [apply safe_individual, Fv|]. intros q Pq. apply IH; [exact F'|].
  apply (Qle_trans _ (0 + 0)%Q); [discriminate|]. apply Qplus_le_compat; [exact P|]. apply Qle_shift_div_l; [|rewrite Qmult_0_l; exact Pq].
  assert (M : 0 <= merge_cost k 1) by apply merge_cost_nonneg. destruct (Z.eqb_spec (merge_cost k 1) 0); unfold Qlt; cbn; lia.
Qed.
End Run.

(** ** matching *)
Lemma matches_remove S T : exists common, Permutation S (fst (remove_pairs Z.eqb S T) ++ common) /\ Permutation T (snd (remove_pairs Z.eqb S T) ++ common) /\ matches S T (length common) /\
  Z.of_nat (length T) - Z.of_nat (length (snd (remove_pairs Z.eqb S T))) = Z.of_nat (length common).
Proof.
  destruct (remove_pairs_perm Z.eqb Z_eq_decides S T) as (common & P1 & P2). exists common. split; [exact P1|]. split; [exact P2|]. split.
  - exists (fst (remove_pairs Z.eqb S T)), (snd (remove_pairs Z.eqb S T)), common. split; [exact P1|]. split; [exact P2|]. split; [|reflexivity]. intros v. apply (remove_pairs_disjoint Z.eqb Z_eq_decides).
  - apply Permutation_length in P2. rewrite app_length in P2. lia.
Qed.
Lemma rest_pos S T : Forall (fun v => 0 < v) S -> Forall (fun v => 0 < v) (fst (remove_pairs Z.eqb S T)).
Proof. intros F. destruct (matches_remove S T) as (common & P1 & _). rewrite Forall_forall in *. intros v I. apply F. apply (Permutation_in _ (Permutation_sym P1)), in_or_app. left. exact I. Qed.
Lemma sums_pos l : Forall (fun v => 0 < v) l -> Forall (fun e => 1 <= fst e) (all_sums l).
Proof.
  intros F. destruct (all_sums_spec l F) as (_ & K & _). apply Forall_forall. intros e I. apply (in_map fst) in I. apply K in I. destruct I as (l' & Sub & Ne & <-).
  pose proof (zsum_pos l' (subseq_pos _ _ Sub F) Ne). lia.
Qed.

Lemma c46_never_raises_lemma : forall solving T S st, Forall (fun v => 0 < v) S -> cache_ok (sc_cache st) ->
  exists q st', compute solving T S st = Ok (q, st') /\ cache_ok (sc_cache st') /\
    (solving (sc_reads st) = true -> exists m, matches S T m /\ (inject_Z (Z.of_nat m * Z.of_nat m) <= q)%Q).
Proof.
  intros solving T S st F C. unfold compute, sbind at 1, read_flag at 1. set (st1 := MkScorer _ _). assert (C1 : cache_ok (sc_cache st1)) by exact C. destruct (solving (sc_reads st)); cbn [negb].
  2: { exists 0%Q, st1. split; [reflexivity|]. split; [exact C1|discriminate]. }
  destruct (matches_remove S T) as (common & P1 & P2 & M & E). pose proof (rest_pos S T F) as Fr. destruct (remove_pairs Z.eqb S T) as [a b]. cbn [fst snd] in *. rewrite E. destruct (Nat.ltb_spec 0 (length a)) as [Ln|Ln].
  - destruct (safe_sum solving T (all_sums a) 0%Q (sums_pos a Fr) (Qle_refl _) st1 C1) as (q & st2 & R & Pq & C2). unfold sbind. rewrite R. eexists. exists st2. split; [reflexivity|]. split; [exact C2|]. intros _. exists (length common). split; [exact M|].
    rewrite <- Qplus_0_r at 1. apply Qplus_le_compat; [apply Qle_refl|]. apply Qle_shift_div_l; [|rewrite Qmult_0_l; exact Pq].
    assert (2 <= 2 ^ Z.of_nat (length a)) by (change 2 with (2 ^ 1) at 1; apply Z.pow_le_mono_r; lia). unfold Qlt. cbn. lia.
  - eexists. exists st1. split; [reflexivity|]. split; [exact C1|]. intros _. exists (length common). split; [exact M|apply Qle_refl].
Qed.

(** ** the value of the score *)
Section Value.
Variable T : list Z.
Notation on := (fun _ : nat => true).
Notation consistent := (scores_right T).
(** [m] returns some [q] with [P q] and keeps the cache *)
Definition gives (m : SM Q) (P : Q -> Prop) : Prop := forall st, exists q n, m st = Ok (q, MkScorer n (sc_cache st)) /\ P q.

(** [q] is the best of 0 and the gains satisfying [G] *)
Definition top (G : Q -> Prop) (q : Q) : Prop := (q == 0 \/ exists g, G g /\ q == g)%Q /\ (0 <= q)%Q /\ forall g, G g -> (g <= q)%Q.
Lemma top_better G H a b : top G a -> top H b -> top (fun g => G g \/ H g) (better a b).
Proof.
  intros (A1 & A2 & A3) (B1 & B2 & B3). split; [|split].
  - destruct (better_or a b) as [-> | ->]; [destruct A1 as [A1|(g & Gg & A1)]|destruct B1 as [B1|(g & Gg & B1)]]; eauto.
  - eapply Qle_trans; [exact A2|apply better_ge_l].
  - intros g [Gg|Hg]; [eapply Qle_trans; [apply A3, Gg|apply better_ge_l]|eapply Qle_trans; [apply B3, Hg|apply better_ge_r]].
Qed.
Lemma top_none (G : Q -> Prop) : (forall g, ~ G g) -> top G 0.
Proof. intros N. split; [left; reflexivity|]. split; [apply Qle_refl|]. intros g Gg. destruct (N g Gg). Qed.
Lemma top_one x : (0 <= x)%Q -> top (eq x) x.
Proof. intros P. split; [right; exists x; split; [reflexivity|apply Qeq_refl]|]. split; [exact P|]. intros g <-. apply Qle_refl. Qed.
Lemma top_ext (G H : Q -> Prop) q : (forall g, G g <-> H g) -> top G q -> top H q.
Proof. intros E (A & B & C). split; [destruct A as [A|(g & Gg & A)]; [left; exact A|right; exists g; split; [apply E, Gg|exact A]]|]. split; [exact B|]. intros g Hg. apply C, E, Hg. Qed.

Lemma gives_extract src : gives (score_extract on T src) (top (fun g => exists c r a b, 1 <= c /\ 2 * c < src /\ hit T c a /\ hit T (src - c) b /\ extract_cost src c = Ok r /\ g = (inject_Z (a + b)%Z / inject_Z r)%Q)).
Proof.
  unfold score_extract.
  set (G := fun (cs : list Z) g => exists c r a b, In c cs /\ hit T c a /\ hit T (src - c) b /\ extract_cost src c = Ok r /\ g = (inject_Z (a + b)%Z / inject_Z r)%Q).
  assert (X : forall cs score H, (forall c, In c cs -> 1 <= c /\ 2 * c < src) -> top H score -> gives (extract_scores on T src cs score) (top (fun g => G cs g \/ H g))).
  { induction cs as [|c cs IH]; intros score H B P st; cbn [extract_scores].
    - exists score, (sc_reads st). split; [destruct st; reflexivity|]. apply (top_ext H); [|exact P]. intros g. split; [auto|]. intros [(c & r & a & b & [] & _)|Hg]. exact Hg.
    - unfold sbind at 1, read_flag. set (st1 := MkScorer _ _). cbn [negb]. destruct (B c (or_introl eq_refl)) as [B1 B2]. destruct (Z.eqb_spec c (src - c)); [lia|].
      destruct (extract_cost_pos src c) as (r & E & Pr); [lia|lia|]. unfold sbind at 1, slift at 1. rewrite E. destruct (ratio_ok (flag (zmem c T) + flag (zmem (src - c) T)) r) as [R1 R2]; [apply flags_nonneg|exact Pr|].
      unfold sbind at 1, slift at 1. rewrite R1. set (x := (inject_Z _ / inject_Z r)%Q) in *.
      destruct (IH (better x score) (fun g => x = g \/ H g) (fun y I => B y (or_intror I)) (top_better _ _ _ _ (top_one x R2) P) st1) as (q & n0 & Ru & Tq). exists q, n0. split; [exact Ru|]. revert Tq. apply top_ext. intros g. split.
      + intros [(c' & r' & a & b & I & H1 & H2 & H3 & ->)|[<-|Hg]]; [left; exists c', r', a, b; split; [right; exact I|]; auto| |right; exact Hg].
        left. exists c, r, (flag (zmem c T)), (flag (zmem (src - c) T)). split; [left; reflexivity|]. split; [apply flag_hit|]. split; [apply flag_hit|]. split; [exact E|reflexivity].
      + intros [(c' & r' & a & b & [<-|I] & H1 & H2 & H3 & ->)|Hg]; [|left; exists c', r', a, b; auto|right; right; exact Hg].
        right. left. unfold x. rewrite (hit_unique _ _ _ _ H1 (flag_hit _ _)), (hit_unique _ _ _ _ H2 (flag_hit _ _)). rewrite E in H3. injection H3 as <-. reflexivity. }
  intros st. destruct (X (zrange 1 ((src - 1) / 2 + 1)) 0%Q (fun _ => False)) with (st := st) as (q & n & R & Tq).
  - intros c I. apply zrange_in in I. pose proof (Z.mul_div_le (src - 1) 2). lia.
  - apply top_none. auto.
  - exists q, n. split; [exact R|]. revert Tq. apply top_ext. intros g. split.
    + intros [(c & r & a & b & I & H)|[]]. apply zrange_in in I. pose proof (Z.mul_div_le (src - 1) 2). exists c, r, a, b. split; [lia|]. split; [lia|exact H].
    + intros (c & r & a & b & B1 & B2 & H). left. exists c, r, a, b. split; [|exact H]. apply zrange_in. assert (c <= (src - 1) / 2) by (apply Z.div_le_lower_bound; lia). lia.
Qed.
Lemma gives_divide src : 1 <= src -> gives (score_divide on T src) (top (fun g => exists d r, 2 <= d <= src /\ (d | src) /\ divide_cost src d = Ok r /\ g = (inject_Z (Z.of_nat (count_occ Z.eq_dec T (src / d)%Z)) / inject_Z r)%Q)).
Proof.
  intros Ps. unfold score_divide.
  set (G := fun (ds : list Z) g => exists d r, In d ds /\ divide_cost src d = Ok r /\ g = (inject_Z (Z.of_nat (count_occ Z.eq_dec T (src / d)%Z)) / inject_Z r)%Q).
  assert (X : forall ds score H, (forall d, In d ds -> 2 <= d <= src /\ (d | src)) -> top H score -> gives (divide_scores on T src ds score) (top (fun g => G ds g \/ H g))).
  { induction ds as [|d ds IH]; intros score H B P st; cbn [divide_scores].
    - exists score, (sc_reads st). split; [destruct st; reflexivity|]. apply (top_ext H); [|exact P]. intros g. split; [auto|]. intros [(c & r & [] & _)|Hg]. exact Hg.
    - unfold sbind at 1, read_flag. set (st1 := MkScorer _ _). cbn [negb]. destruct (B d (or_introl eq_refl)) as [B1 B2].
      destruct (divide_cost_pos src d) as (r & E & Pr); [lia|lia|exact B2|]. unfold sbind at 1, slift at 1. rewrite E. destruct (ratio_ok (zcount (src / d) T) r) as [R1 R2]; [unfold zcount; lia|exact Pr|].
      unfold sbind at 1, slift at 1. rewrite R1. set (x := (inject_Z _ / inject_Z r)%Q) in *.
      destruct (IH (better x score) (fun g => x = g \/ H g) (fun y I => B y (or_intror I)) (top_better _ _ _ _ (top_one x R2) P) st1) as (q & n0 & Ru & Tq). exists q, n0. split; [exact Ru|]. revert Tq. apply top_ext. intros g. split.
      + intros [(c' & r' & I & H3 & ->)|[<-|Hg]]; [left; exists c', r'; split; [right; exact I|]; auto| |right; exact Hg].
        left. exists d, r. split; [left; reflexivity|]. split; [exact E|]. unfold x. rewrite zcount_occ. reflexivity.
      + intros [(c' & r' & [<-|I] & H3 & ->)|Hg]; [|left; exists c', r'; auto|right; right; exact Hg].
        right. left. unfold x. rewrite E in H3. injection H3 as <-. rewrite zcount_occ. reflexivity. }
  intros st. destruct (X (filter (fun d => src mod d =? 0) (zrange 2 (src + 1))) 0%Q (fun _ => False)) with (st := st) as (q & n & R & Tq).
  - intros d I. apply filter_In in I. destruct I as [I E]. apply zrange_in in I. apply Z.eqb_eq in E. split; [lia|]. apply Z.mod_divide; [lia|exact E].
  - apply top_none. auto.
  - exists q, n. split; [exact R|]. revert Tq. apply top_ext. intros g. split.
    + intros [(d & r & I & H)|[]]. apply filter_In in I. destruct I as [I E]. apply zrange_in in I. apply Z.eqb_eq in E. exists d, r. split; [lia|]. split; [apply Z.mod_divide; [lia|exact E]|exact H].
    + intros (d & r & B1 & B2 & H). left. exists d, r. split; [|exact H]. apply filter_In. split; [apply zrange_in; lia|]. apply Z.eqb_eq, Z.mod_divide; [lia|exact B2].
Qed.
Lemma gives_split src : gives (score_split on T src) (top (fun g => exists c b, In c conveyor_speeds /\ src < c /\ (forall c', In c' conveyor_speeds -> src < c' -> c <= c') /\
  2 * (c / 3) < src /\ hit T (src - 2 * (c / 3))%Z b /\ g = (inject_Z (Z.of_nat (count_occ Z.eq_dec T (c / 3)%Z) + b)%Z / inject_Z split_cost)%Q)).
Proof.
  intros st. unfold score_split, sbind, read_flag. cbn [negb].
  assert (Lst : forall l, StronglySorted Z.lt l -> match find (fun c => src <? c) l with Some c => In c l /\ src < c /\ forall c', In c' l -> src < c' -> c <= c' | None => forall c, In c l -> ~ src < c end).
  { induction l as [|x l IH]; intros So; cbn [find]; [intros c []|]. inversion So as [|? ? So' Fa]; subst. rewrite Forall_forall in Fa. destruct (Z.ltb_spec src x) as [Lt|Ge].
    - split; [left; reflexivity|]. split; [exact Lt|]. intros c' [<-|I] _; [lia|]. specialize (Fa c' I). lia.
    - specialize (IH So'). destruct (find (fun c => src <? c) l) as [c|]; [destruct IH as (A & B & C); split; [right; exact A|]; split; [exact B|]; intros c' [<-|I] Lt; [lia|apply C; assumption]|intros c [<-|I]; [lia|apply IH, I]]. }
  assert (So : StronglySorted Z.lt conveyor_speeds) by (unfold conveyor_speeds; repeat constructor; lia). specialize (Lst _ So). destruct (find (fun c => src <? c) conveyor_speeds) as [c|].
  - destruct Lst as (A & B & C). assert (U : forall c', In c' conveyor_speeds -> src < c' -> (forall c'', In c'' conveyor_speeds -> src < c'' -> c' <= c'') -> c' = c) by (intros c' I L Mi; specialize (C c' I L); specialize (Mi c A B); lia).
    destruct (Z.leb_spec src (2 * (c / 3))) as [Le|Gt].
    + exists 0%Q. eexists. split; [reflexivity|]. apply top_none. intros g (c' & b & H1 & H2 & H3 & H4 & _). rewrite (U c' H1 H2 H3) in H4. lia.
    + assert (D3 : c = 3 * (c / 3)) by (clear -A; cbn in A; repeat (destruct A as [<-|A]; [reflexivity|]); destruct A). destruct (Z.eqb_spec (c / 3) (src - 2 * (c / 3))); [lia|].
      destruct (ratio_ok (zcount (c / 3) T + flag (zmem (src - 2 * (c / 3)) T)) split_cost) as [R1 R2]; [unfold zcount; destruct (zmem _ _); cbn; lia|unfold split_cost; lia|].
      unfold slift. rewrite R1. eexists. eexists. split; [reflexivity|]. revert R2. intros R2. eapply top_ext; [|apply (top_one _ R2)]. intros g. split.
      * intros <-. exists c, (flag (zmem (src - 2 * (c / 3)) T)). split; [exact A|]. split; [exact B|]. split; [exact C|]. split; [lia|]. split; [apply flag_hit|]. rewrite zcount_occ. reflexivity.
      * intros (c' & b & H1 & H2 & H3 & H4 & H5 & ->). rewrite (U c' H1 H2 H3) in *. rewrite (hit_unique _ _ _ _ H5 (flag_hit _ _)), zcount_occ. reflexivity.
  - exists 0%Q. eexists. split; [reflexivity|]. apply top_none. intros g (c' & b & H1 & H2 & _). apply (Lst c' H1 H2).
Qed.

Lemma gives_individual src st : 1 <= src -> consistent (sc_cache st) -> exists q st', individual on T src st = Ok (q, st') /\ best T src q /\ consistent (sc_cache st').
Proof.
  intros Ps C. assert (X : exists q st', compute_individual on T src st = Ok (q, st') /\ best T src q /\ consistent (sc_cache st')).
  { unfold compute_individual, sbind at 1, read_flag. set (st1 := MkScorer _ _). assert (C1 : consistent (sc_cache st1)) by exact C. cbn [negb].
    assert (Y : forall q, best T src q -> consistent (cache_set src q (sc_cache st1))) by (intros q B v x [[= <- <-]|I]; [exact B|apply C1, I]).
    destruct (zmem src T) eqn:EM.
    - unfold sbind, sret. assert (B : best T src 1) by (split; [intros _; apply Qeq_refl|intros N; exfalso; apply N; apply zmem_true; exact EM]). eexists. eexists. split; [reflexivity|]. split; [exact B|]. apply Y, B.
    - assert (NI : ~ In src T) by (intros I; apply zmem_true in I; congruence).
      destruct (gives_extract src st1) as (e & n1 & R1 & T1). destruct (gives_divide src Ps (MkScorer n1 (sc_cache st1))) as (d & n2 & R2 & T2). destruct (gives_split src (MkScorer n2 (sc_cache st1))) as (s & n3 & R3 & T3).
      unfold sbind. rewrite R1, R2. cbn [sc_cache] in *. rewrite R3. unfold sret.
      assert (B : best T src (better s (better d e))).
      { split; [intros I; contradiction|]. intros _. pose proof (top_better _ _ _ _ T3 (top_better _ _ _ _ T2 T1)) as TT. revert TT. apply top_ext. intros g. split.
        - intros [(c & b & H1 & H2 & H3 & H4 & H5 & ->)|[(dd & r & H1 & H2 & H3 & ->)|(c & r & a & b & H1 & H2 & H3 & H4 & H5 & ->)]]; [apply gain_split|apply gain_divide|apply gain_extract with (c := c)]; assumption.
        - intros Gg. destruct Gg; [right; right|right; left|left]; eauto 12. }
      eexists. eexists. split; [reflexivity|]. split; [exact B|]. apply Y, B. }
  unfold individual. destruct (cache_get src (sc_cache st)) as [q|] eqn:E; [|exact X]. destruct (Qeq_bool q 0); [exact X|]. exists q, st. split; [reflexivity|]. split; [|exact C]. apply C, cache_get_in, E.
Qed.

Lemma gives_sum : forall sums acc st, Forall (fun e => 1 <= fst e) sums -> consistent (sc_cache st) ->
  exists q st' bests, sum_scores on T sums acc st = Ok (q, st') /\ consistent (sc_cache st') /\ Forall2 (fun sum b => best T (fst sum) b) sums bests /\ (q == acc + weighted sums bests)%Q.
Proof.
  induction sums as [|[v k] sums IH]; intros acc st F C; cbn [sum_scores].
  - exists acc, st, []. split; [reflexivity|]. split; [exact C|]. split; [constructor|]. cbn. ring.
  - inversion F as [|? ? Fv F']; subst. destruct (gives_individual v st Fv C) as (q & st1 & R & B & C1). unfold sbind. rewrite R.
    destruct (IH (acc + q / inject_Z (if merge_cost k 1 =? 0 then 1 else merge_cost k 1))%Q st1 F' C1) as (q2 & st2 & bests & R2 & C2 & B2 & E2). exists q2, st2, (q :: bests). split; [exact R2|]. split; [exact C2|]. split; [constructor; [exact B|exact B2]|].
    rewrite E2. cbn [weighted]. assert (M : 0 <= merge_cost k 1) by apply merge_cost_nonneg. assert (W : (if merge_cost k 1 =? 0 then 1 else merge_cost k 1) = Z.max 1 (merge_cost k 1)) by (destruct (Z.eqb_spec (merge_cost k 1) 0); lia). rewrite W. ring.
Qed.
End Value.

Lemma c46_value_lemma : forall T S st, Forall (fun v => 0 < v) S -> scores_right T (sc_cache st) ->
  exists q st', compute (fun _ => true) T S st = Ok (q, st') /\ scores_right T (sc_cache st') /\ score_is T S q.
Proof.
  intros T S st F C. unfold compute, sbind at 1, read_flag at 1. set (st1 := MkScorer _ _). assert (C1 : scores_right T (sc_cache st1)) by exact C. cbn [negb].
  unfold score_is. destruct (matches_remove S T) as (common & P1 & P2 & M & E). pose proof (rest_pos S T F) as Fr. destruct (remove_pairs Z.eqb S T) as [a b]. cbn [fst snd] in *. rewrite E.
  destruct (gives_sum T (all_sums a) 0%Q st1 (sums_pos a Fr) C1) as (q & st2 & bests & R & C2 & B & Eq). destruct (Nat.ltb_spec 0 (length a)) as [Ln|Ln].
  - unfold sbind. rewrite R. eexists. exists st2. split; [reflexivity|]. split; [exact C2|]. exists (length common), bests. split; [exact M|]. split; [exact B|]. rewrite Eq, Qplus_0_l. apply Qeq_refl.
  - eexists. exists st1. split; [reflexivity|]. split; [exact C1|]. exists (length common), []. split; [exact M|]. destruct a; [|cbn [length] in Ln; lia]. split; [constructor|]. change (weighted (all_sums []) []) with 0%Q. unfold Qdiv. ring.
Qed.

Lemma best_unique T v a b : best T v a -> best T v b -> (a == b)%Q.
Proof.
  intros [A1 A2] [B1 B2]. destruct (in_dec Z.eq_dec v T) as [I|N]; [rewrite (A1 I), (B1 I); apply Qeq_refl|]. destruct (A2 N) as (A & A0 & Am), (B2 N) as (B & B0 & Bm).
  apply Qle_antisym; [destruct A as [->|(g & G & ->)]|destruct B as [->|(g & G & ->)]]; auto.
Qed.
Lemma matches_unique S T m n : matches S T m -> matches S T n -> m = n.
Proof.
  assert (X : forall (S T a b c a' b' c' : list Z), Permutation S (a ++ c) -> Permutation T (b ++ c) -> Permutation S (a' ++ c') -> Permutation T (b' ++ c') -> (forall v, ~ (In v a /\ In v b)) -> (forall v, ~ (In v a' /\ In v b')) -> Permutation c c').
  { intros S0 T0 a b c a' b' c' P1 P2 P3 P4 D D'. apply (Permutation_count_occ Z.eq_dec). intros v.
    pose proof (proj1 (Permutation_count_occ Z.eq_dec _ _) (Permutation_trans (Permutation_sym P1) P3) v) as E1. pose proof (proj1 (Permutation_count_occ Z.eq_dec _ _) (Permutation_trans (Permutation_sym P2) P4) v) as E2. rewrite !count_occ_app in E1, E2.
    assert (K : forall x y : list Z, (forall v, ~ (In v x /\ In v y)) -> count_occ Z.eq_dec x v = 0%nat \/ count_occ Z.eq_dec y v = 0%nat).
    { intros x y Dxy. destruct (in_dec Z.eq_dec v x) as [I|N]; [right; apply count_occ_not_In; intros J; apply (Dxy v); auto|left; apply count_occ_not_In; exact N]. }
    specialize (K a b D) as K1. specialize (K a' b' D') as K2. lia. }
  intros (a & b & c & P1 & P2 & D & ->) (a' & b' & c' & P3 & P4 & D' & ->). apply Permutation_length. apply (X S T a b c a' b' c'); assumption.
Qed.
Lemma weighted_unique T sums : forall b b', Forall2 (fun sum x => best T (fst sum) x) sums b -> Forall2 (fun sum x => best T (fst sum) x) sums b' -> (weighted sums b == weighted sums b')%Q.
Proof.
  induction sums as [|[v k] sums IH]; intros b b' F F'; inversion F; inversion F'; subst; cbn [weighted]; [apply Qeq_refl|]. rewrite (IH l' l'0) by assumption. match goal with A : best T _ ?x, B : best T _ ?y |- _ => rewrite (best_unique _ _ _ _ A B) end. apply Qeq_refl.
Qed.
Lemma c46_unique_lemma : forall T S q q', score_is T S q -> score_is T S q' -> (q == q')%Q.
Proof.
  intros T S q q' (m & b & M & F & E) (m' & b' & M' & F' & E'). rewrite (matches_unique _ _ _ _ M M') in E. rewrite E, E', (weighted_unique _ _ _ _ F F'). apply Qeq_refl.
Qed.

(** ** more matches, higher score *)
Lemma gain_le_2 T v g : NoDup T -> 1 <= v -> gain T v g -> (g <= 2)%Q.
Proof.
  intros ND Pv G. assert (K : forall x, (count_occ Z.eq_dec T x <= 1)%nat) by (intros x; apply (proj1 (NoDup_count_occ Z.eq_dec T)), ND).
  assert (X : forall a b, 0 <= a <= 2 -> 1 <= b -> (inject_Z a / inject_Z b <= 2)%Q).
  { intros a b A B. apply Qle_shift_div_r; [unfold Qlt; cbn; lia|]. change 2%Q with (inject_Z 2). rewrite <- inject_Z_mult, <- Zle_Qle. lia. }
  destruct G as [c r a b H1 H2 H3 H4 H5|d r H1 H2 H3|c b H1 H2 H3 H4 H5]; apply X.
  - apply hit_range in H3, H4. lia.
  - destruct (extract_cost_pos v c) as (r' & E & Pr); [lia|lia|]. rewrite E in H5. injection H5 as <-. exact Pr.
  - specialize (K (v / d)). lia.
  - destruct (divide_cost_pos v d) as (r' & E & Pr); [lia|lia|exact H2|]. rewrite E in H3. injection H3 as <-. exact Pr.
  - specialize (K (c / 3)). apply hit_range in H5. lia.
  - unfold split_cost. lia.
Qed.
Lemma best_le_2 T v q : NoDup T -> 1 <= v -> best T v q -> (0 <= q <= 2)%Q.
Proof.
  intros ND Pv [B1 B2]. destruct (in_dec Z.eq_dec v T) as [I|N]; [rewrite (B1 I); split; discriminate|]. destruct (B2 N) as (A & A0 & _). split; [exact A0|]. destruct A as [->|(g & G & ->)]; [discriminate|]. apply (gain_le_2 T v); assumption.
Qed.
Lemma weighted_le T : NoDup T -> forall sums bests, Forall (fun e => 1 <= fst e) sums -> Forall2 (fun sum b => best T (fst sum) b) sums bests -> (0 <= weighted sums bests <= inject_Z (2 * Z.of_nat (length sums)))%Q.
Proof.
  intros ND. induction sums as [|[v k] sums IH]; intros bests F F2; inversion F2; subst; cbn [weighted]; [split; discriminate|]. inversion F as [|? ? Fv F']; subst. cbn [fst] in *.
  match goal with B : best T v ?q, R : Forall2 _ sums _ |- _ => destruct (best_le_2 _ _ _ ND Fv B) as [L U]; destruct (IH _ F' R) as [L2 U2] end.
  set (mc := Z.max 1 (merge_cost k 1)). assert (M : (1 <= inject_Z mc)%Q) by (unfold Qle; cbn; lia). assert (M0 : (0 < inject_Z mc)%Q) by (unfold Qlt; cbn; lia).
  assert (D1 : (0 <= y / inject_Z mc)%Q) by (apply Qle_shift_div_l; [exact M0|rewrite Qmult_0_l; exact L]).
  assert (D2 : (y / inject_Z mc <= 2)%Q) by (apply Qle_shift_div_r; [exact M0|]; nra).
  split; [lra|]. replace (inject_Z (2 * Z.of_nat (length ((v, k) :: sums)))) with (inject_Z (2 + 2 * Z.of_nat (length sums))) by (f_equal; cbn [length]; lia). rewrite inject_Z_plus. change (inject_Z 2) with 2%Q. lra.
Qed.

Lemma subseqs_exist (l : list Z) : exists ss : list (list Z), length ss = (2 ^ length l)%nat /\ (forall s, subseq s l -> In s ss).
Proof.
  induction l as [|x l (ss & Ls & H)]; [exists [[]]; split; [reflexivity|]; intros s Hs; inversion Hs; left; reflexivity|].
  exists (ss ++ map (cons x) ss). split; [rewrite app_length, map_length, Ls; cbn; lia|]. intros s Hs. apply in_or_app. inversion Hs; subst; [left; auto|right; apply in_map; auto].
Qed.
Lemma sums_few l : Forall (fun v => 0 < v) l -> Z.of_nat (length (all_sums l)) <= 2 ^ Z.of_nat (length l) - 1.
Proof.
  intros F. destruct (all_sums_spec l F) as (N & K & _). destruct (subseqs_exist l) as (ss & Ls & H). assert (X : (length (0%Z :: map fst (all_sums l)) <= length (map zsum ss))%nat).
  { apply NoDup_incl_length.
    - constructor; [|exact N]. intros I. apply K in I. destruct I as (l' & Sub & Ne & Z0). pose proof (zsum_pos l' (subseq_pos _ _ Sub F) Ne). lia.
    - intros v [<-|I].
      + change 0 with (zsum []). apply in_map, H. clear. induction l; constructor; assumption.
      + apply K in I. destruct I as (l' & Sub & _ & <-). apply in_map, H, Sub. }
  cbn [length] in X. rewrite !map_length, Ls in X. assert (Z.of_nat (2 ^ length l) = 2 ^ Z.of_nat (length l)) by (rewrite Nat2Z.inj_pow; reflexivity). lia.
Qed.
Lemma score_bounds T S q m : NoDup T -> Forall (fun v => 0 < v) S -> score_is T S q -> matches S T m ->
  (inject_Z (Z.of_nat m * Z.of_nat m) <= q <= inject_Z (Z.of_nat m * Z.of_nat m) + 2)%Q.
Proof.
  intros ND F (m' & bests & M' & F2 & E) M. rewrite (matches_unique _ _ _ _ M' M) in E. pose proof (rest_pos S T F) as Fr. set (rest := fst (remove_pairs Z.eqb S T)) in *.
  destruct (weighted_le T ND _ _ (sums_pos rest Fr) F2) as [L U]. pose proof (sums_few rest Fr) as Few. set (w := weighted _ _) in *. set (n := 2 ^ Z.of_nat (length rest) - 1) in *.
  assert (B : (0 <= w / inject_Z n <= 2)%Q).
  { destruct (Z.eq_dec n 0) as [Z0|Nz]; [rewrite Z0; change (inject_Z 0) with 0%Q; unfold Qdiv; change (/ 0)%Q with 0%Q; rewrite Qmult_0_r; split; discriminate|].
    assert (Pn : (0 < inject_Z n)%Q) by (unfold Qlt; cbn; lia). split; [apply Qle_shift_div_l; [exact Pn|rewrite Qmult_0_l; exact L]|]. apply Qle_shift_div_r; [exact Pn|]. eapply Qle_trans; [exact U|]. change 2%Q with (inject_Z 2). rewrite <- inject_Z_mult. rewrite <- Zle_Qle. lia. }
  rewrite E. set (z := inject_Z (Z.of_nat m * Z.of_nat m)). split; lra.
Qed.
Lemma c54_partial_lemma : forall T S1 S2 q1 q2 m1 m2, NoDup T -> Forall (fun v => 0 < v) S1 -> Forall (fun v => 0 < v) S2 ->
  score_is T S1 q1 -> score_is T S2 q2 -> matches S1 T m1 -> matches S2 T m2 -> (1 <= m1 < m2)%nat -> (q1 < q2)%Q.
Proof.
  intros T S1 S2 q1 q2 m1 m2 ND F1 F2 Q1 Q2 M1 M2 Lt. destruct (score_bounds _ _ _ _ ND F1 Q1 M1) as [_ U]. destruct (score_bounds _ _ _ _ ND F2 Q2 M2) as [L _]. eapply Qle_lt_trans; [exact U|]. eapply Qlt_le_trans; [|exact L].
  change 2%Q with (inject_Z 2). rewrite <- inject_Z_plus, <- Zlt_Qlt. nia.
Qed.

Lemma c46_cached_lemma : forall T S c st, Forall (fun v => 0 < v) S -> scores_right T (sc_cache st) -> totals_right T c ->
  exists q c' st', cached_compute (fun _ => true) T S c st = Ok ((q, c'), st') /\ score_is T S q /\ scores_right T (sc_cache st') /\ totals_right T c'.
Proof.
  intros T S c st F C TC. unfold cached_compute. cbv zeta. destruct (c46_value_lemma T S st F C) as (q & st' & R & C' & Sc).
  assert (X : exists q c' st', (match compute (fun _ => true) T S st with Ok (q, st') => Ok ((q, (S, q) :: c), st') | Err e => Err e end) = Ok ((q, c'), st') /\ score_is T S q /\ scores_right T (sc_cache st') /\ totals_right T c').
  { rewrite R. exists q, ((S, q) :: c), st'. split; [reflexivity|]. split; [exact Sc|]. split; [exact C'|]. intros S' q' [[= <- <-]|I]; [exact Sc|apply TC, I]. }
  destruct (tuple_get S c) as [x|] eqn:E; [|exact X]. destruct (Qeq_bool x 0); [exact X|]. exists x, c, st. split; [reflexivity|]. split; [|split; assumption].
  apply TC. unfold tuple_get in E. destruct (find _ c) as [[k y]|] eqn:Fi; [|discriminate]. injection E as <-. apply find_some in Fi. destruct Fi as [I K]. cbn [fst snd] in *. destruct (list_eq_dec Z.eq_dec k S) as [<-|]; [exact I|discriminate].
Qed.

(** ** witnesses *)
Definition st0 : scorer := MkScorer 0 [].
Lemma compute_130 : match compute (fun _ => true) [60; 70] [130] st0 with Ok (q, _) => Qeq_bool q 2 | Err _ => false end = true.
Proof. vm_compute. reflexivity. Qed.
Lemma compute_35 : match compute (fun _ => true) [60; 70] [35; 35; 60] st0 with Ok (q, _) => Qeq_bool q (4 # 3) | Err _ => false end = true.
Proof. vm_compute. reflexivity. Qed.
Lemma empty_right T : scores_right T [].
Proof. intros v q []. Qed.
Lemma score_from_run T S x : Forall (fun v => 0 < v) S -> match compute (fun _ => true) T S st0 with Ok (q, _) => Qeq_bool q x | Err _ => false end = true -> exists q, score_is T S q /\ (q == x)%Q.
Proof.
  intros F E. destruct (c46_value_lemma T S st0 F (empty_right T)) as (q & st' & R & _ & Sc). rewrite R in E. exists q. split; [exact Sc|apply Qeq_bool_iff, E].
Qed.
Lemma c54_refuted_lemma : ~ (forall T S1 S2 q1 q2 m1 m2, NoDup T -> Forall (fun v => 0 < v) S1 -> Forall (fun v => 0 < v) S2 ->
  score_is T S1 q1 -> score_is T S2 q2 -> matches S1 T m1 -> matches S2 T m2 -> (m1 < m2)%nat -> (q1 < q2)%Q).
Proof.
  intros H. assert (F1 : Forall (fun v => 0 < v) [130]) by (repeat constructor). assert (F2 : Forall (fun v => 0 < v) [35; 35; 60]) by (repeat constructor).
  destruct (score_from_run [60; 70] [130] 2%Q F1 compute_130) as (q1 & Q1 & E1). destruct (score_from_run [60; 70] [35; 35; 60] (4 # 3)%Q F2 compute_35) as (q2 & Q2 & E2).
  assert (X : (q1 < q2)%Q).
  { apply (H [60; 70] [130] [35; 35; 60] q1 q2 0%nat 1%nat); try assumption; [repeat constructor; cbn; lia| | |lia].
    - exists [130], [60; 70], []. split; [reflexivity|]. split; [reflexivity|]. split; [cbn; intros v; lia|reflexivity].
    - exists [35; 35], [70], [60]. split; [reflexivity|]. split; [apply perm_swap|]. split; [cbn; intros v; lia|reflexivity]. }
  rewrite E1, E2 in X. revert X. apply Qle_not_lt. discriminate.
Qed.
Lemma c54_repeated_refuted_lemma : ~ (forall T S1 S2 q1 q2 m1 m2, Forall (fun v => 0 < v) S1 -> Forall (fun v => 0 < v) S2 ->
  score_is T S1 q1 -> score_is T S2 q2 -> matches S1 T m1 -> matches S2 T m2 -> (1 <= m1 < m2)%nat -> (q1 < q2)%Q).
Proof.
  intros H. assert (F1 : Forall (fun v => 0 < v) [1; 2]) by (repeat constructor). assert (F2 : Forall (fun v => 0 < v) [1; 1]) by (repeat constructor).
  destruct (score_from_run [1; 1; 1; 1; 1] [1; 2] 6%Q F1 ltac:(vm_compute; reflexivity)) as (q1 & Q1 & E1).
  destruct (score_from_run [1; 1; 1; 1; 1] [1; 1] 4%Q F2 ltac:(vm_compute; reflexivity)) as (q2 & Q2 & E2).
  assert (X : (q1 < q2)%Q).
  { apply (H [1; 1; 1; 1; 1] [1; 2] [1; 1] q1 q2 1%nat 2%nat); try assumption; [| |lia].
    - exists [2], [1; 1; 1; 1], [1]. split; [apply perm_swap|]. split; [reflexivity|]. split; [cbn; intros v; lia|reflexivity].
    - exists [], [1; 1; 1], [1; 1]. split; [reflexivity|]. split; [reflexivity|]. split; [cbn; intros v; lia|reflexivity]. }
  rewrite E1, E2 in X. revert X. apply Qle_not_lt. discriminate.
Qed.
Lemma c46_never_raises_example : Forall (fun v => 0 < v) [5; 4; 4] /\ scores_nonneg [(13, (1 # 3)%Q)] /\ matches [5; 4; 4] [4; 9] 1 /\
  match compute (fun k => (k <? 7)%nat) [4; 9] [5; 4; 4] (MkScorer 0 [(13, (1 # 3)%Q)]) with Ok (q, _) => Qeq_bool q (17 # 12) | Err _ => false end = true.
Proof.
  split; [repeat constructor|]. split; [repeat constructor; discriminate|]. split; [|vm_compute; reflexivity].
  exists [5; 4], [9], [4]. split; [reflexivity|]. split; [apply perm_swap|]. split; [cbn; intros v; lia|reflexivity].
Qed.
Lemma c46_cached_example : Forall (fun v => 0 < v) [5; 4; 4] /\
  match cached_compute (fun _ => true) [4; 9] [13] [] st0 with
  | Ok ((q, c), st) => match cached_compute (fun _ => true) [4; 9] [5; 4; 4] c st with
    | Ok ((q', c'), st') => Qeq_bool q (1 # 3) && Qeq_bool q' (7 # 4) && (length c' =? 2)%nat && (length (sc_cache st') =? 4)%nat
    | Err _ => false end
  | Err _ => false end = true.
Proof. split; [repeat constructor|]. vm_compute. reflexivity. Qed.
Lemma c54_example : exists q1 q2, NoDup [4; 9; 20] /\ score_is [4; 9; 20] [4; 29] q1 /\ score_is [4; 9; 20] [4; 9; 10; 10] q2 /\ matches [4; 29] [4; 9; 20] 1 /\ matches [4; 9; 10; 10] [4; 9; 20] 2.
Proof.
  assert (F1 : Forall (fun v => 0 < v) [4; 29]) by (repeat constructor). assert (F2 : Forall (fun v => 0 < v) [4; 9; 10; 10]) by (repeat constructor).
  destruct (c46_value_lemma [4; 9; 20] _ st0 F1 (empty_right _)) as (q1 & st1 & _ & _ & H1). destruct (c46_value_lemma [4; 9; 20] _ st0 F2 (empty_right _)) as (q2 & st2 & _ & _ & H2).
  exists q1, q2. split; [repeat constructor; cbn; lia|]. split; [exact H1|]. split; [exact H2|]. split.
  - exists [29], [9; 20], [4]. split; [apply perm_swap|]. split; [apply (Permutation_app_comm [4] [9; 20])|]. split; [cbn; intros v; lia|reflexivity].
  - exists [10; 10], [20], [4; 9]. split; [apply (Permutation_app_comm [4; 9] [10; 10])|]. split; [apply (Permutation_app_comm [4; 9] [20])|]. split; [cbn; intros v; lia|reflexivity].
Qed.
