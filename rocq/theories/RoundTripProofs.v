(** Formatting then parsing a problem (C12). *)
From Verif Require Import Base BaseLemmas Utils UtilsSpec UtilsProofs Fractions FractionsSpec FractionsProofs FormatProofs.
From Coq Require Import ZifyBool ZifyNat Lqa Qfield.
Open Scope Z_scope.

(** ** long division *)
Lemma decimals_spec m : forall part den, 0 <= part < den ->
  digits (decimals m part den) /\ length (decimals m part den) = m /\
  exists R, part * 10 ^ Z.of_nat m = dval (decimals m part den) * den + R /\ 0 <= R < den.
Proof.
  induction m as [|m IH]; intros part den H; cbn [decimals].
  - split; [constructor|]. split; [reflexivity|]. exists part. cbn. lia.
  - assert (Hd : 0 <= part * 10 / den < 10).
    { split; [apply Z.div_pos; lia|]. apply Z.div_lt_upper_bound; lia. }
    rewrite str_of_digit by exact Hd.
    destruct (IH ((part * 10) mod den) den) as (D & L & R & E & B).
    { apply Z.mod_pos_bound. lia. }
    split; [constructor; [apply is_digit_range; lia|exact D]|].
    split; [cbn [app length]; congruence|]. exists R. split; [|exact B].
    cbn [app]. rewrite dval_cons, L. rewrite Nat2Z.inj_succ, Z.pow_succ_r by lia.
    pose proof (Z.div_mod (part * 10) den). set (q := part * 10 / den) in *. set (t := (part * 10) mod den) in *.
    replace (part * (10 * 10 ^ Z.of_nat m)) with ((part * 10) * 10 ^ Z.of_nat m) by ring.
    rewrite H0 by lia. replace ((den * q + t) * 10 ^ Z.of_nat m) with (den * q * 10 ^ Z.of_nat m + t * 10 ^ Z.of_nat m) by ring.
    rewrite E. ring.
Qed.

(** characters of a formatted number *)
Definition num_char (c : Z) : Prop := is_digit c = true \/ c = dot_char \/ c = slash \/ c = big_solidus.
(** [s] is one word that parses as [v] *)
Definition token (s : str) (v : Qc) : Prop :=
  s <> [] /\ Forall num_char s /\ parse_fraction s = Ok v.

Lemma digits_num_char s : digits s -> Forall num_char s.
Proof. intros H. eapply Forall_impl; [|exact H]. intros c Hc. left. exact Hc. Qed.

Lemma replace_char_none a b s : str_mem a s = false -> replace_char a b s = s.
Proof. unfold replace_char. induction s as [|c s IH]; [reflexivity|]. cbn [str_mem existsb map]. intros H.
  apply orb_false_elim in H. destruct H as [H1 H2]. rewrite Z.eqb_sym, H1. f_equal. apply IH. exact H2. Qed.
Lemma replace_char_app a b s t : replace_char a b (s ++ t) = replace_char a b s ++ replace_char a b t.
Proof. apply map_app. Qed.

Lemma str_mem_mid c a d b : digits a -> digits b -> is_digit c = false ->
  str_mem c (a ++ [d] ++ b) = (c =? d).
Proof. intros Ha Hb Hc. rewrite !str_mem_app, (digits_not_in c a), (digits_not_in c b) by assumption.
  cbn [str_mem existsb]. rewrite !orb_false_r. reflexivity. Qed.

Lemma token_int n : 0 <= n -> token (str_of_Z n) (frac_of_Z n).
Proof. intros H. destruct (str_of_nonneg n H) as (D & N & V). split; [exact N|]. split; [apply digits_num_char; exact D|].
  unfold parse_fraction. rewrite !digits_not_in by (assumption || reflexivity). cbn [negb].
  rewrite int_of_str_of_Z by exact H. reflexivity. Qed.
Lemma token_slash c f : c = slash \/ c = big_solidus -> 0 <= numer f ->
  token (str_of_Z (numer f) ++ [c] ++ str_of_Z (denom f)) f.
Proof. intros Hc Hn. pose proof (denom_pos f) as Hd.
  destruct (str_of_nonneg (numer f) Hn) as (D & N & V). destruct (str_of_nonneg (denom f)) as (D' & N' & V'); [lia|].
  split; [intros E; apply app_eq_nil in E; tauto|]. split.
  { apply Forall_app. split; [apply digits_num_char; exact D|]. cbn [app]. constructor; [unfold num_char; tauto|].
    apply digits_num_char. exact D'. }
  assert (P : parse_slash c (str_of_Z (numer f) ++ [c] ++ str_of_Z (denom f)) = Ok f).
  { unfold parse_slash. cbn [app].
    assert (is_digit c = false) by (destruct Hc as [-> | ->]; reflexivity).
    rewrite split_char_app by (apply digits_not_in; assumption).
    rewrite split_char_none by (apply digits_not_in; assumption).
    rewrite !int_of_str_of_Z by lia. cbn [bind]. apply mkfrac_frac. }
  unfold parse_fraction. rewrite !str_mem_mid by (assumption || reflexivity).
  destruct Hc as [-> | ->]; exact P. Qed.

Lemma int_frac f : denom f = 1 -> frac_of_Z (numer f) = f.
Proof. intros H. unfold frac_of_Z. apply Qc_is_canon. rewrite this_Q2Qc. unfold numer, denom in *.
  destruct (this f) as [n d]. cbn [Qnum Qden] in *. injection H as ->. reflexivity. Qed.

Lemma format_one_token f : 0 <= numer f ->
  exists s, format_one f = Ok s /\ token s f /\ token (replace_char big_solidus slash s) f.
Proof.
  intros Hn. unfold format_one.
  destruct (info_loops f) as (a & b & d & Ha & Hb & Hd & H2 & H5 & E & I).
  pose proof (denom_pos f) as Hp.
  assert (Plain : token (replace_char slash big_solidus (str_of_frac f)) f /\
                  token (replace_char big_solidus slash (replace_char slash big_solidus (str_of_frac f))) f).
  { unfold str_of_frac. destruct (str_of_nonneg (numer f) Hn) as (D & _ & _).
    destruct (str_of_nonneg (denom f)) as (D' & _ & _); [lia|].
    destruct (Z.eqb_spec (denom f) 1) as [E1|E1].
    - rewrite !(replace_char_none slash), !(replace_char_none big_solidus) by (apply digits_not_in; [exact D|reflexivity]).
      rewrite <- (int_frac f E1) at 2 4. split; apply token_int; exact Hn.
    - rewrite !replace_char_app. rewrite !(replace_char_none _ _ (str_of_Z (numer f))) by (apply digits_not_in; [exact D|reflexivity]).
      rewrite !(replace_char_none _ _ (str_of_Z (denom f))) by (apply digits_not_in; [exact D'|reflexivity]).
      change (replace_char slash big_solidus [slash]) with [big_solidus].
      change (replace_char big_solidus slash [big_solidus]) with [slash].
      split; apply token_slash; auto. }
  rewrite I. destruct (Z.eqb_spec d 1) as [->|N].
  - cbn [bind]. destruct (Z.eqb_spec (Z.max a b) 0) as [M|M]; [eauto|].
    eexists. split; [reflexivity|].
    rewrite Z.abs_eq by exact Hn.
    set (m := Z.max a b) in *. set (part := numer f mod denom f).
    assert (Hpart : 0 <= part < denom f) by (apply Z.mod_pos_bound; lia).
    destruct (decimals_spec (Z.to_nat m) part (denom f) Hpart) as (DD & LD & R & ED & BR).
    rewrite Z2Nat.id in ED by lia.
    assert (HR : R = 0).
    { assert (Dv : (denom f | part * 10 ^ m)).
      { apply Z.divide_mul_r. rewrite E. apply (den_divides_pow10 a b 1); auto; try lia. }
      rewrite ED in Dv. apply Z.divide_add_cancel_r in Dv; [|exists (dval (decimals (Z.to_nat m) part (denom f))); ring].
      destruct (Z.eq_dec R 0) as [|NR]; [assumption|]. apply Z.divide_pos_le in Dv; lia. }
    subst R. rewrite Z.add_0_r in ED.
    destruct (str_of_nonneg (numer f / denom f)) as (DI & NI & VI); [apply Z.div_pos; lia|].
    assert (T : token (str_of_Z (numer f / denom f) ++ [dot_char] ++ decimals (Z.to_nat m) part (denom f)) f).
    { split; [intros X; apply app_eq_nil in X; tauto|]. split.
      - apply Forall_app. split; [apply digits_num_char; exact DI|]. cbn [app].
        constructor; [unfold num_char; tauto|]. apply digits_num_char. exact DD.
      - destruct (parse_fraction_plain _ _ DI DD) as (x & -> & Ex). f_equal. apply Qc_is_canon.
        rewrite dval_app, VI, LD, Z2Nat.id in Ex by lia.
        assert (P10 : 0 < 10 ^ m) by (apply Z.pow_pos_nonneg; lia).
        rewrite (this_frac f). apply (proj1 (Qmult_inj_r (this x) (inject_Z (numer f) / inject_Z (denom f)) (inject_Z (10 ^ m)) ltac:(apply inject_Z_nz; lia))).
        rewrite Ex. setoid_replace (inject_Z (numer f) / inject_Z (denom f) * inject_Z (10 ^ m))%Q
          with (inject_Z (numer f * 10 ^ m) / inject_Z (denom f))%Q
          by (rewrite inject_Z_mult; field; apply inject_Z_nz; lia).
        assert (EQ : numer f * 10 ^ m = (numer f / denom f * 10 ^ m + dval (decimals (Z.to_nat m) part (denom f))) * denom f).
        { rewrite Z.mul_add_distr_r, <- ED. unfold part. pose proof (Z.div_mod (numer f) (denom f)). nia. }
        rewrite EQ, inject_Z_mult. field. apply inject_Z_nz. lia. }
    split; [exact T|]. rewrite replace_char_none; [exact T|].
    rewrite str_mem_mid by (assumption || reflexivity). reflexivity.
  - destruct ((a =? 0) && (b =? 0)); cbn [bind]; [eauto|].
    destruct (Z.eqb_spec (Z.max a b) 0); eauto.
Qed.

(** ** words *)
Definition word (s : str) : Prop := s <> [] /\ Forall (fun c => is_space c = false) s.

Lemma num_char_not_space c : num_char c -> is_space c = false.
Proof. intros [H|[->|[->| ->]]]; try reflexivity. apply is_digit_range in H. unfold is_space. lia. Qed.

Lemma split_ws_loop_word s : Forall (fun c => is_space c = false) s -> forall rest cur,
  split_ws_loop (s ++ rest) cur = split_ws_loop rest (rev s ++ cur).
Proof. induction 1 as [|c s Hc H IH]; intros rest cur; [reflexivity|]. cbn [app split_ws_loop rev].
  rewrite Hc, IH, <- app_assoc. reflexivity. Qed.
Lemma split_ws_cons s rest : word s -> split_ws (s ++ space :: rest) = s :: split_ws rest.
Proof. intros [N F]. unfold split_ws. rewrite split_ws_loop_word by exact F. cbn [split_ws_loop].
  change (is_space space) with true. cbn iota. rewrite app_nil_r.
  destruct (rev s) eqn:E; [apply (f_equal (@rev Z)) in E; rewrite rev_involutive in E; subst; cbn in N; congruence|].
  rewrite <- E, rev_involutive. reflexivity. Qed.
Lemma split_ws_last s : word s -> split_ws s = [s].
Proof. intros [N F]. unfold split_ws. rewrite <- (app_nil_r s) at 1. rewrite split_ws_loop_word by exact F. cbn [split_ws_loop].
  rewrite app_nil_r.
  destruct (rev s) eqn:E; [apply (f_equal (@rev Z)) in E; rewrite rev_involutive in E; subst; cbn in N; congruence|].
  rewrite <- E, rev_involutive. reflexivity. Qed.
Lemma split_ws_space s : split_ws (space :: s) = split_ws s.
Proof. reflexivity. Qed.

Lemma join_cons s r : r <> [] -> join_space (s :: r) = s ++ space :: join_space r.
Proof. destruct r; [congruence|reflexivity]. Qed.
Lemma split_ws_join_space ws : Forall word ws -> split_ws (join_space ws ++ [space]) = ws.
Proof. induction 1 as [|s ws Hs H IH]; [reflexivity|]. destruct ws as [|s' ws].
  - cbn [join_space]. rewrite split_ws_cons by exact Hs. reflexivity.
  - rewrite join_cons by discriminate. rewrite <- app_assoc. cbn [app]. rewrite split_ws_cons by exact Hs. rewrite IH. reflexivity. Qed.
Lemma split_ws_join ws : Forall word ws -> split_ws (join_space ws) = ws.
Proof. induction 1 as [|s ws Hs H IH]; [reflexivity|]. destruct ws as [|s' ws].
  - cbn [join_space]. apply split_ws_last. exact Hs.
  - rewrite join_cons by discriminate. rewrite split_ws_cons by exact Hs. rewrite IH. reflexivity. Qed.

Lemma join_app a b : a <> [] -> b <> [] -> join_space (a ++ b) = join_space a ++ space :: join_space b.
Proof. induction a as [|s a IH]; intros Ha Hb; [congruence|]. destruct a as [|s' a].
  - cbn [app]. rewrite join_cons by exact Hb. reflexivity.
  - cbn [app]. rewrite (join_cons s (s' :: a ++ b)), (join_cons s (s' :: a)) by discriminate.
    change (s' :: a ++ b) with ((s' :: a) ++ b). rewrite IH by (discriminate || exact Hb). rewrite <- app_assoc. reflexivity. Qed.
Lemma join_concat wss : Forall (fun ws => ws <> []) wss ->
  join_space (map join_space wss) = join_space (concat wss).
Proof. induction 1 as [|ws wss Hw H IH]; [reflexivity|]. cbn [map concat]. destruct wss as [|ws' wss].
  - cbn [map join_space concat]. rewrite app_nil_r. reflexivity.
  - rewrite join_cons by discriminate. rewrite IH, join_app; [reflexivity|exact Hw|].
    inversion H; subst. cbn [concat]. intros E. apply app_eq_nil in E. tauto. Qed.

(** ** one formatted problem side *)
Definition count_word (c : nat) : str := str_of_Z (Z.of_nat c) ++ [letter_x].
Definition entry_words (tok : Qc -> str) (p : Qc * nat) : list str :=
  if (1 <? snd p)%nat then [count_word (snd p); tok (fst p)] else [tok (fst p)].

Lemma count_word_digits c : digits (str_of_Z (Z.of_nat c)) /\ str_of_Z (Z.of_nat c) <> [].
Proof. destruct (str_of_nonneg (Z.of_nat c)) as (D & N & _); [lia|]. auto. Qed.

Lemma token_not_x s v : token s v -> ends_with_x s = false.
Proof. intros (N & F & _). unfold ends_with_x. apply Z.eqb_neq. intros E.
  destruct (exists_last N) as (l & c & ->). rewrite last_last in E. subst c.
  apply Forall_app in F. destruct F as [_ F]. inversion F; subst.
  destruct H1 as [H|[H|[H|H]]]; try discriminate. Qed.

Lemma parse_args_entries target tok es :
  Forall (fun p => token (tok (fst p)) (fst p) /\ (0 < snd p)%nat) es ->
  parse_args target (flat_map (entry_words tok) es) = Ok (Some (flat_map (fun p => repeat (fst p) (snd p)) es)).
Proof.
  induction 1 as [|[v c] es [T Hc] H IH]; [reflexivity|]. cbn [flat_map fst snd] in *.
  unfold entry_words at 1. cbn [fst snd]. destruct (Nat.ltb_spec 1 c) as [L|L].
  - cbn [app parse_args]. destruct (count_word_digits c) as [D N].
    assert (X : ends_with_x (count_word c) = true).
    { unfold ends_with_x, count_word. rewrite last_last. reflexivity. }
    rewrite X. cbn [negb]. unfold count_word. rewrite removelast_last, app_length. cbn [length].
    assert (A : all_digits (str_of_Z (Z.of_nat c)) = true).
    { unfold all_digits. destruct (str_of_Z (Z.of_nat c)); [congruence|]. cbn [length Nat.eqb negb andb].
      apply forallb_forall. intros d Hd. unfold digits in D. rewrite Forall_forall in D. auto. }
    rewrite A. destruct (Nat.ltb_spec (length (str_of_Z (Z.of_nat c)) + 1) 2) as [L2|L2].
    { destruct (str_of_Z (Z.of_nat c)); [congruence|]. cbn [length] in L2. lia. }
    cbn [negb orb]. rewrite int_of_str_of_Z by lia. cbn [bind].
    destruct T as (_ & _ & ->). cbn [bind]. rewrite IH. cbn [bind option_map].
    rewrite Nat2Z.id. reflexivity.
  - assert (c = 1%nat) by lia. subst c. cbn [app parse_args repeat]. rewrite (token_not_x _ _ T). cbn [negb].
    destruct T as (_ & _ & ->). cbn [bind]. rewrite IH. reflexivity.
Qed.

Definition side_char (c : Z) : Prop := num_char c \/ c = letter_x \/ c = space.
Lemma join_chars ws : Forall (fun s => Forall side_char s) ws -> Forall side_char (join_space ws).
Proof. induction 1 as [|s ws Hs H IH]; [constructor|]. destruct ws as [|s' ws]; [exact Hs|].
  rewrite join_cons by discriminate. apply Forall_app. split; [exact Hs|]. constructor; [unfold side_char; tauto|exact IH]. Qed.

Lemma entries_words tok es :
  Forall (fun p => token (tok (fst p)) (fst p) /\ (0 < snd p)%nat) es ->
  Forall word (flat_map (entry_words tok) es) /\ Forall (fun s => Forall side_char s) (flat_map (entry_words tok) es).
Proof.
  induction 1 as [|[v c] es [T Hc] H IH]; [split; constructor|]. cbn [flat_map fst snd] in *. destruct IH as [I1 I2].
  destruct T as (N & F & _).
  assert (W : word (tok v)). { split; [exact N|]. eapply Forall_impl; [|exact F]. exact num_char_not_space. }
  assert (C : Forall side_char (tok v)). { eapply Forall_impl; [|exact F]. intros x Hx. left. exact Hx. }
  destruct (count_word_digits c) as [D DN].
  split; apply Forall_app; (split; [|assumption]); unfold entry_words; cbn [fst snd]; destruct (1 <? c)%nat; repeat constructor; auto; try apply W.
  - unfold count_word. intros E. apply app_eq_nil in E. destruct E; discriminate.
  - unfold count_word. apply Forall_app. split; [|repeat constructor].
    eapply Forall_impl; [|exact D]. intros x Hx. apply num_char_not_space. left. exact Hx.
  - unfold count_word. apply Forall_app. split; [|repeat constructor; unfold side_char; tauto].
    eapply Forall_impl; [|exact D]. intros x Hx. left. left. exact Hx.
Qed.

(** ** split("to") *)
Lemma split_to_loop_skip a : ~ In letter_t a -> forall b cur,
  split_to_loop (a ++ letter_t :: letter_o :: b) cur = (rev cur ++ a) :: split_to_loop b [].
Proof. induction a as [|c a IH]; intros N b cur.
  - cbn [app split_to_loop]. change (letter_t =? letter_t) with true. change (letter_o =? letter_o) with true. cbn [andb].
    rewrite app_nil_r. reflexivity.
  - cbn [app split_to_loop]. destruct (Z.eqb_spec c letter_t) as [->|Nc]; [exfalso; apply N; left; reflexivity|].
    cbn [andb]. destruct (a ++ letter_t :: letter_o :: b) as [|d r] eqn:E; [destruct a; discriminate|].
    rewrite <- E, IH by (intros H; apply N; right; exact H). cbn [rev]. rewrite <- app_assoc. reflexivity. Qed.
Lemma split_to_loop_end a : ~ In letter_t a -> forall cur, split_to_loop a cur = [rev cur ++ a].
Proof. induction a as [|c a IH]; intros N cur.
  - cbn. rewrite app_nil_r. reflexivity.
  - cbn [split_to_loop]. destruct a as [|d a].
    + cbn [rev]. reflexivity.
    + destruct (Z.eqb_spec c letter_t) as [->|Nc]; [exfalso; apply N; left; reflexivity|]. cbn [andb].
      rewrite IH by (intros H; apply N; right; exact H). cbn [rev]. rewrite <- app_assoc. reflexivity. Qed.

Lemma side_no_t s : Forall side_char s -> ~ In letter_t s.
Proof. intros F H. rewrite Forall_forall in F. apply F in H.
  destruct H as [[H|[H|[H|H]]]|[H|H]]; try discriminate. Qed.

Definition to_str : str := [space; letter_t; letter_o; space].

Lemma parse_sides tok es et :
  es <> [] -> et <> [] ->
  Forall (fun p => token (tok (fst p)) (fst p) /\ (0 < snd p)%nat) es ->
  Forall (fun p => token (tok (fst p)) (fst p) /\ (0 < snd p)%nat) et ->
  parse_user_input (join_space (flat_map (entry_words tok) es) ++ to_str ++ join_space (flat_map (entry_words tok) et))
  = Ok (Some (flat_map (fun p => repeat (fst p) (snd p)) es, flat_map (fun p => repeat (fst p) (snd p)) et)).
Proof.
  intros Ns Nt Hs Ht. destruct (entries_words tok es Hs) as [Ws Cs]. destruct (entries_words tok et Ht) as [Wt Ct].
  set (A := join_space (flat_map (entry_words tok) es)). set (B := join_space (flat_map (entry_words tok) et)).
  assert (TA : ~ In letter_t (A ++ [space])).
  { apply side_no_t. apply Forall_app. split; [apply join_chars; exact Cs|]. constructor; [unfold side_char; tauto|constructor]. }
  assert (TB : ~ In letter_t (space :: B)).
  { apply side_no_t. constructor; [unfold side_char; tauto|]. apply join_chars. exact Ct. }
  assert (S : split_to (A ++ to_str ++ B) = [A ++ [space]; space :: B]).
  { unfold split_to, to_str. change (A ++ [space; letter_t; letter_o; space] ++ B) with (A ++ [space] ++ letter_t :: letter_o :: space :: B).
    rewrite app_assoc, split_to_loop_skip by exact TA. cbn [rev app]. rewrite split_to_loop_end by exact TB. reflexivity. }
  unfold parse_user_input. rewrite S, split_char_length.
  assert (Sp : (2 <= length (filter (Z.eqb space) (A ++ to_str ++ B)))%nat).
  { rewrite !filter_app, !app_length. cbn [filter to_str]. change (space =? space) with true. change (space =? letter_t) with false.
    change (space =? letter_o) with false. cbn [length]. lia. }
  destruct (Nat.ltb_spec (Datatypes.S (length (filter (Z.eqb space) (A ++ to_str ++ B)))) 3) as [L|_]; [lia|].
  cbn [orb length Nat.eqb]. rewrite split_ws_space. unfold A, B.
  rewrite split_ws_join_space, split_ws_join by assumption.
  assert (Nw : forall e, e <> [] -> flat_map (entry_words tok) e <> []).
  { intros e Ne. destruct e as [|p e]; [congruence|]. cbn [flat_map]. unfold entry_words. destruct (1 <? snd p)%nat; discriminate. }
  rewrite !parse_args_entries by assumption. cbn [bind option_map].
  pose proof (Nw es Ns). pose proof (Nw et Nt).
  destruct (flat_map (entry_words tok) es); [congruence|]. destruct (flat_map (entry_words tok) et); [congruence|]. reflexivity.
Qed.

(** ** the whole round trip *)
Definition fmt (f : Qc) : str := match format_one f with Ok s => s | Err _ => [] end.

Lemma counter_entries fs : Forall (fun f => 0 <= numer f) fs ->
  Forall (fun p => 0 <= numer (fst p) /\ (0 < snd p)%nat) (counter frac_eqb fs).
Proof. intros F. rewrite (counter_closed _ frac_eq_decides). apply Forall_map, Forall_forall. intros f Hf. cbn [fst snd].
  apply (proj1 (nub_in _ frac_eq_decides _ _)) in Hf. rewrite Forall_forall in F. split; [auto|].
  apply (cnt_pos _ frac_eq_decides). exact Hf. Qed.

Lemma format_fractions_words fs : Forall (fun f => 0 <= numer f) fs ->
  format_fractions fs = Ok (join_space (flat_map (entry_words fmt) (counter frac_eqb fs))).
Proof.
  intros F. unfold format_fractions. pose proof (counter_entries fs F) as C.
  assert (E : map_res (fun p => do s <- format_one (fst p); Ok (with_count (snd p) s)) (counter frac_eqb fs)
    = Ok (map join_space (map (entry_words fmt) (counter frac_eqb fs)))).
  { induction C as [|[f c] es [Hf Hc] H IH]; [reflexivity|]. cbn [map_res map fst snd].
    unfold fmt, entry_words at 1. cbn [fst snd] in *. destruct (format_one_token f Hf) as (s & Es & _). rewrite Es. cbn [bind].
    rewrite IH. cbn [bind]. do 2 f_equal. unfold with_count, count_word. destruct (1 <? c)%nat; [|reflexivity].
    cbn [join_space]. rewrite <- !app_assoc. reflexivity. }
  rewrite E. cbn [bind]. f_equal. rewrite join_concat, <- flat_map_concat_map; [reflexivity|].
  apply Forall_map, Forall_forall. intros p _. unfold entry_words. destruct (1 <? snd p)%nat; discriminate.
Qed.

Lemma expand_gather fs : flat_map (fun p => repeat (fst p) (snd p)) (counter frac_eqb fs) = gather frac_eqb fs.
Proof. rewrite (counter_closed _ frac_eq_decides). unfold gather. generalize (nub frac_eqb fs). induction l as [|x l IH]; [reflexivity|].
  cbn [map flat_map fst snd]. rewrite IH. reflexivity. Qed.

Lemma counter_nonempty fs : fs <> [] -> counter frac_eqb fs <> [].
Proof. intros N. rewrite (counter_closed _ frac_eq_decides). destruct fs; [congruence|]. discriminate. Qed.

Lemma join_replace a b ws : a <> space -> replace_char a b (join_space ws) = join_space (map (replace_char a b) ws).
Proof. intros Na. induction ws as [|s ws IH]; [reflexivity|]. destruct ws as [|s' ws]; [reflexivity|].
  rewrite (join_cons s (s' :: ws)) by discriminate. rewrite replace_char_app.
  change (map (replace_char a b) (s :: s' :: ws)) with (replace_char a b s :: map (replace_char a b) (s' :: ws)).
  rewrite (join_cons (replace_char a b s)) by discriminate. f_equal. rewrite <- IH.
  unfold replace_char at 1. cbn [map]. destruct (Z.eqb_spec space a); [congruence|reflexivity]. Qed.

Lemma count_word_replace c : replace_char big_solidus slash (count_word c) = count_word c.
Proof. apply replace_char_none. unfold count_word. rewrite str_mem_app. destruct (count_word_digits c) as [D _].
  rewrite digits_not_in by (assumption || reflexivity). reflexivity. Qed.

Lemma words_replace es : map (replace_char big_solidus slash) (flat_map (entry_words fmt) es)
  = flat_map (entry_words (fun f => replace_char big_solidus slash (fmt f))) es.
Proof. induction es as [|[f c] es IH]; [reflexivity|]. cbn [flat_map]. rewrite map_app, IH. f_equal.
  unfold entry_words. cbn [fst snd]. destruct (1 <? c)%nat; [|reflexivity]. cbn [map]. rewrite count_word_replace. reflexivity. Qed.

Lemma round_trip ss ts : ss <> [] -> ts <> [] ->
  Forall (fun f => 0 <= numer f) ss -> Forall (fun f => 0 <= numer f) ts ->
  exists a b, format_fractions ss = Ok a /\ format_fractions ts = Ok b /\
    parse_user_input (a ++ to_str ++ b) = Ok (Some (gather frac_eqb ss, gather frac_eqb ts)) /\
    parse_user_input (norm (a ++ to_str ++ b)) = Ok (Some (gather frac_eqb ss, gather frac_eqb ts)).
Proof.
  intros Ns Nt Fs Ft. rewrite !format_fractions_words by assumption. do 2 eexists. split; [reflexivity|]. split; [reflexivity|].
  pose proof (counter_nonempty _ Ns) as Cs. pose proof (counter_nonempty _ Nt) as Ct.
  assert (Tok : forall fs, Forall (fun f => 0 <= numer f) fs ->
    Forall (fun p => token (fmt (fst p)) (fst p) /\ (0 < snd p)%nat) (counter frac_eqb fs) /\
    Forall (fun p => token (replace_char big_solidus slash (fmt (fst p))) (fst p) /\ (0 < snd p)%nat) (counter frac_eqb fs)).
  { intros fs F. pose proof (counter_entries fs F) as C.
    split; (eapply Forall_impl; [|exact C]); intros [f c] [Hf Hc]; cbn [fst snd] in *; split; auto; unfold fmt;
    destruct (format_one_token f Hf) as (s & -> & T1 & T2); assumption. }
  destruct (Tok ss Fs) as [S1 S2]. destruct (Tok ts Ft) as [T1 T2]. split.
  - rewrite parse_sides by assumption. rewrite !expand_gather. reflexivity.
  - unfold norm. rewrite !replace_char_app, !join_replace, !words_replace by discriminate.
    change (replace_char big_solidus slash to_str) with to_str.
    rewrite parse_sides by assumption. rewrite !expand_gather. reflexivity.
Qed.

Lemma c12_format_parse_round_trip_lemma : forall ss ts, ss <> [] -> ts <> [] ->
  Forall (fun f => (0 <= f)%Qc) ss -> Forall (fun f => (0 <= f)%Qc) ts ->
  exists a b, format_fractions ss = Ok a /\ format_fractions ts = Ok b /\
    let s := a ++ [space; letter_t; letter_o; space] ++ b in
    let expected := Ok (Some (gather frac_eqb ss, gather frac_eqb ts)) in
    parse_user_input s = expected /\
    parse_user_input (replace_char big_solidus slash s) = expected.
Proof.
  intros ss ts H1 H2 F1 F2. apply (round_trip ss ts H1 H2);
  (eapply Forall_impl; [|eassumption]); intros f; unfold Qcle, Qle, numer; cbn; lia.
Qed.

Lemma c12_gather_permutes_lemma : forall fs, Permutation (gather frac_eqb fs) fs.
Proof. exact (gather_perm frac_eqb frac_eq_decides). Qed.

Lemma c13_repeating_decimals_lemma : forall w f r, digits w -> digits f -> digits r -> r <> [] ->
  exists x, parse_fraction (w ++ [dot_char] ++ f ++ [lparen] ++ r ++ [rparen]) = Ok x /\
    expands_to x w f r /\ forall y, expands_to y w f r -> (y == x)%Q.
Proof.
  intros w f r Hw Hf Hr Nr. destruct (parse_fraction_repeat w f r Hw Hf Hr Nr) as (x & E & V).
  exists x. split; [exact E|]. pose proof (repeat_expansion w f r x Hr Nr V) as X. split; [exact X|].
  intros y Y. exact (expansion_unique w f r y x Nr Y X).
Qed.

Lemma c15_fastlist_lemma : forall (A : Type) (eqb : A -> A -> bool), eq_decides eqb ->
  forall ops, let l := fold_left (fun l o => fst (fl_step eqb o l)) ops fl_new in
  NoDup (fl_items l) /\
  (forall x, fl_contains eqb x l = true <-> In x (fl_items l)) /\
  fl_items l = fold_left (fun l o => fst (ref_step eqb o l)) ops [].
Proof.
  intros A eqb Heq ops. destruct (fl_run_spec eqb Heq ops fl_new (fl_new_inv)) as [I E].
  split; [exact (proj1 I)|]. split; [|exact E]. intros x. exact (fl_contains_in eqb Heq x _ I).
Qed.

Lemma c15_fastlist_raise_lemma : forall (A : Type) (eqb : A -> A -> bool), eq_decides eqb ->
  forall ops o, let l := fold_left (fun l o => fst (fl_step eqb o l)) ops fl_new in
  ((exists e, snd (fl_step eqb o l) = Some e) <-> snd (ref_step eqb o (fl_items l)) = true) /\
  ((exists e, snd (fl_step eqb o l) = Some e) -> fst (fl_step eqb o l) = l).
Proof.
  intros A eqb Heq ops o l. destruct (fl_run_spec eqb Heq ops fl_new (fl_new_inv)) as [I _]. fold l in I.
  destruct (fl_step_spec eqb Heq o l I) as (_ & _ & R & U).
  destruct (snd (fl_step eqb o l)) as [e|]; split.
  - split; [intros _; symmetry; exact R|eauto].
  - intros _. apply U. discriminate.
  - split; [intros [e [=]]|congruence].
  - intros [e [=]].
Qed.
