(** Lemmas about the textual notation of problems (C12-C14). *)
From Verif Require Import Base BaseLemmas Utils UtilsSpec UtilsProofs Fractions FractionsSpec FractionsProofs.
From Coq Require Import ZifyBool ZifyNat Lqa Qfield.
Open Scope Z_scope.

Lemma is_digit_range c : is_digit c = true <-> 48 <= c <= 57.
Proof. unfold is_digit. lia. Qed.

Lemma dval_acc s : forall a, fold_left (fun a c => a * 10 + (c - 48)) s a = a * 10 ^ Z.of_nat (length s) + dval s.
Proof. unfold dval. induction s as [|c s IH]; intros a; [cbn; lia|]. cbn [fold_left length].
  rewrite IH, (IH (0 * 10 + (c - 48))). rewrite Nat2Z.inj_succ, Z.pow_succ_r by lia. lia. Qed.
Lemma dval_app a b : dval (a ++ b) = dval a * 10 ^ Z.of_nat (length b) + dval b.
Proof. unfold dval at 1. rewrite fold_left_app. apply dval_acc. Qed.
Lemma dval_cons c s : dval (c :: s) = (c - 48) * 10 ^ Z.of_nat (length s) + dval s.
Proof. unfold dval at 1. cbn [fold_left]. rewrite dval_acc. f_equal. Qed.
Lemma dval_bound s : digits s -> 0 <= dval s < 10 ^ Z.of_nat (length s).
Proof. induction 1 as [|c s Hc H IH]; [cbn; lia|]. rewrite dval_cons. cbn [length].
  apply is_digit_range in Hc. rewrite Nat2Z.inj_succ, Z.pow_succ_r by lia. nia. Qed.

Lemma int_digits_ok s : digits s -> forall acc after, (s <> [] \/ after = true) ->
  int_digits s acc after = Ok (acc * 10 ^ Z.of_nat (length s) + dval s).
Proof. induction 1 as [|c s Hc H IH]; intros acc after Ha.
  - destruct Ha as [Ha | ->]; [congruence|]. cbn. f_equal. lia.
  - cbn [int_digits length]. rewrite Hc, IH by auto. rewrite dval_cons, Nat2Z.inj_succ, Z.pow_succ_r by lia. f_equal. ring. Qed.
Lemma int_of_digits s : digits s -> s <> [] -> int_of_str s = Ok (dval s).
Proof. intros H N. destruct s as [|c s]; [congruence|]. unfold int_of_str. inversion H; subst.
  pose proof H2 as R. apply is_digit_range in R. unfold minus_sign, plus_sign.
  destruct (Z.eqb_spec c 45); [lia|]. destruct (Z.eqb_spec c 43); [lia|].
  rewrite int_digits_ok; auto. Qed.

Lemma digits_app a b : digits a -> digits b -> digits (a ++ b).
Proof. intros. apply Forall_app. auto. Qed.

Lemma digits_loop_spec fuel : forall n, 0 <= n -> n < 2 ^ Z.of_nat fuel ->
  fuel <> O -> digits (digits_loop fuel n) /\ digits_loop fuel n <> [] /\ dval (digits_loop fuel n) = n.
Proof. induction fuel as [|fuel IH]; intros n Hn Hf NZ; [congruence|]. cbn [digits_loop].
  assert (D : digits [48 + n mod 10]).
  { constructor; [|constructor]. apply is_digit_range. pose proof (Z.mod_pos_bound n 10). lia. }
  split; [|split].
  - apply digits_app; [|exact D]. destruct (Z.ltb_spec n 10); [constructor|].
    rewrite Nat2Z.inj_succ, Z.pow_succ_r in Hf by lia.
    apply IH; [apply Z.div_pos; lia|apply Z.div_lt_upper_bound; lia|]. intros ->. cbn in Hf. lia.
  - intros H. apply app_eq_nil in H. destruct H; discriminate.
  - rewrite dval_app. cbn [length]. change (10 ^ Z.of_nat 1) with 10.
    change (dval [48 + n mod 10]) with (0 * 10 + (48 + n mod 10 - 48)).
    destruct (Z.ltb_spec n 10).
    + rewrite Z.mod_small by lia. unfold dval. cbn [fold_left]. lia.
    + rewrite Nat2Z.inj_succ, Z.pow_succ_r in Hf by lia.
      destruct (IH (n / 10)) as (_ & _ & ->).
      * apply Z.div_pos; lia.
      * apply Z.div_lt_upper_bound; lia.
      * intros ->. cbn in Hf. lia.
      * pose proof (Z.div_mod n 10). lia. Qed.

Lemma str_of_nonneg n : 0 <= n ->
  digits (str_of_Z n) /\ str_of_Z n <> [] /\ dval (str_of_Z n) = n.
Proof. intros H. unfold str_of_Z. destruct (Z.ltb_spec n 0); [lia|]. unfold str_of_nat.
  apply digits_loop_spec; [exact H| |discriminate].
  destruct (Z.eq_dec n 0) as [->|N]; [cbn; lia|]. pose proof (Z.log2_spec n). pose proof (Z.log2_nonneg n).
  replace (Z.of_nat (S (Z.to_nat (Z.log2 n)))) with (Z.succ (Z.log2 n)) by lia. lia. Qed.
Lemma int_of_str_of_Z n : 0 <= n -> int_of_str (str_of_Z n) = Ok n.
Proof. intros H. destruct (str_of_nonneg n H) as (D & N & V). rewrite int_of_digits by assumption. congruence. Qed.
Lemma str_of_digit d : 0 <= d < 10 -> str_of_Z d = [48 + d].
Proof. intros H. unfold str_of_Z, str_of_nat. destruct (Z.ltb_spec d 0); [lia|]. cbn [digits_loop].
  destruct (Z.ltb_spec d 10); [|lia]. rewrite Z.mod_small by lia. reflexivity. Qed.

(** ** span_digits, split_char *)
Lemma span_digits_app w s : digits w -> span_digits (w ++ s) = (w ++ fst (span_digits s), snd (span_digits s)).
Proof. induction 1 as [|c w Hc H IH]; cbn [app span_digits]; [destruct (span_digits s); reflexivity|].
  rewrite Hc, IH. reflexivity. Qed.
Lemma span_digits_stop c s : is_digit c = false -> span_digits (c :: s) = ([], c :: s).
Proof. intros H. cbn. rewrite H. reflexivity. Qed.

Lemma str_mem_in c s : str_mem c s = true <-> In c s.
Proof. apply existsb_eqb. exact Z_eq_decides. Qed.
Lemma str_mem_false c s : str_mem c s = false <-> ~ In c s.
Proof. apply existsb_eqb_false. exact Z_eq_decides. Qed.
Lemma str_mem_app c a b : str_mem c (a ++ b) = str_mem c a || str_mem c b.
Proof. apply existsb_app. Qed.
Lemma digits_not_in c s : digits s -> is_digit c = false -> str_mem c s = false.
Proof. intros H Hc. apply str_mem_false. intros I. unfold digits in H. rewrite Forall_forall in H.
  apply H in I. congruence. Qed.

Lemma split_char_none c s : str_mem c s = false -> split_char c s = [s].
Proof. induction s as [|d s IH]; [reflexivity|]. cbn [str_mem existsb split_char]. intros H.
  apply orb_false_elim in H. destruct H as [H1 H2]. rewrite Z.eqb_sym, H1. rewrite IH by exact H2. reflexivity. Qed.
Lemma split_char_app c a b : str_mem c a = false ->
  split_char c (a ++ c :: b) = a :: split_char c b.
Proof. induction a as [|d a IH]; cbn [app str_mem existsb split_char]; intros H.
  - rewrite Z.eqb_refl. reflexivity.
  - apply orb_false_elim in H. destruct H as [H1 H2]. rewrite Z.eqb_sym, H1. rewrite IH by exact H2. reflexivity. Qed.
Lemma split_char_length c s : length (split_char c s) = S (length (filter (Z.eqb c) s)).
Proof. induction s as [|d s IH]; [reflexivity|]. cbn [split_char filter]. rewrite (Z.eqb_sym c d).
  destruct (d =? c); cbn [length]; [rewrite IH; reflexivity|].
  destruct (split_char c s) as [|f fs]; [discriminate|]. cbn [length] in *. exact IH. Qed.

(** ** Qc helpers *)
Lemma this_Q2Qc q : (this (Q2Qc q) == q)%Q.
Proof. cbn. apply Qred_correct. Qed.
Lemma this_plus a b : (this (a + b)%Qc == this a + this b)%Q.
Proof. unfold Qcplus. apply this_Q2Qc. Qed.
Lemma this_frac f : (this f == inject_Z (numer f) / inject_Z (denom f))%Q.
Proof. unfold numer, denom. destruct (this f) as [n d]. cbn [Qnum Qden].
  rewrite Qmake_Qdiv. reflexivity. Qed.
Lemma mkfrac_pos n d : 0 < d -> exists q, mkfrac n d = Ok q /\ (this q == inject_Z n / inject_Z d)%Q.
Proof. intros H. destruct d as [|p|p]; try lia. cbn [mkfrac]. eexists. split; [reflexivity|].
  rewrite this_Q2Qc. apply Qmake_Qdiv. Qed.
Lemma mkfrac_frac f : mkfrac (numer f) (denom f) = Ok f.
Proof. unfold mkfrac, numer, denom. f_equal. apply Qc_is_canon. rewrite this_Q2Qc.
  destruct (this f) as [n d]. reflexivity. Qed.
Lemma frac_of_Z_this n : (this (frac_of_Z n) == inject_Z n)%Q.
Proof. unfold frac_of_Z. apply this_Q2Qc. Qed.
Lemma inject_Z_nz d : d <> 0 -> ~ (inject_Z d == 0)%Q.
Proof. intros H E. apply H. unfold Qeq in E. cbn in E. lia. Qed.

(** ** parse_fraction on decimals *)
Lemma pow10_pos k : 0 < 10 ^ Z.of_nat k.
Proof. apply Z.pow_pos_nonneg; lia. Qed.

Lemma parse_decimal_plain w f : digits w -> digits f ->
  parse_decimal (w ++ [dot_char] ++ f) = Ok (dval w, f, []).
Proof. intros Hw Hf. unfold parse_decimal. rewrite span_digits_app by exact Hw.
  cbn [app]. rewrite span_digits_stop by reflexivity. cbn [fst snd]. rewrite app_nil_r.
  cbn [Z.eqb]. change (dot_char =? dot_char) with true. cbn iota.
  replace f with (f ++ []) at 1 by apply app_nil_r. rewrite span_digits_app by exact Hf.
  cbn [span_digits fst snd]. rewrite app_nil_r.
  destruct w as [|c w]; [reflexivity|]. rewrite int_of_digits by (assumption || discriminate). reflexivity. Qed.
Lemma parse_decimal_repeat w f r : digits w -> digits f -> digits r -> r <> [] ->
  parse_decimal (w ++ [dot_char] ++ f ++ [lparen] ++ r ++ [rparen]) = Ok (dval w, f, r).
Proof. intros Hw Hf Hr Nr. unfold parse_decimal. rewrite span_digits_app by exact Hw.
  cbn [app]. rewrite span_digits_stop by reflexivity. cbn [fst snd]. rewrite app_nil_r.
  change (dot_char =? dot_char) with true. cbn iota.
  rewrite span_digits_app by exact Hf. rewrite span_digits_stop by reflexivity. cbn [fst snd]. rewrite app_nil_r.
  change (lparen =? lparen) with true. cbn iota.
  rewrite span_digits_app by exact Hr. rewrite span_digits_stop by reflexivity. cbn [fst snd]. rewrite app_nil_r.
  change (rparen =? rparen) with true. destruct r as [|c r]; [congruence|]. cbn [length Nat.eqb negb andb].
  destruct w as [|c' w]; [reflexivity|]. rewrite int_of_digits by (assumption || discriminate). reflexivity. Qed.

Lemma nodigit_dot : is_digit dot_char = false. Proof. reflexivity. Qed.
Lemma nodigit_slash : is_digit slash = false. Proof. reflexivity. Qed.
Lemma nodigit_solidus : is_digit big_solidus = false. Proof. reflexivity. Qed.

Lemma parse_fraction_dispatch w rest : digits w ->
  str_mem slash rest = false -> str_mem big_solidus rest = false ->
  parse_fraction (w ++ dot_char :: rest) =
    do (wf, r) <- parse_decimal (w ++ dot_char :: rest);
    let (w, f) := wf in
    let f_len := Z.of_nat (length f) in
    let v := frac_of_Z w in
    do v <- (match f with
             | [] => Ok v
             | _ => do n <- int_of_str f; do q <- mkfrac n (10 ^ f_len); Ok (v + q)%Qc
             end);
    match r with
    | [] => Ok v
    | _ => do n <- int_of_str r;
           do q <- mkfrac n (10 ^ f_len * (10 ^ Z.of_nat (length r) - 1)); Ok (v + q)%Qc
    end.
Proof. intros Hw H1 H2. unfold parse_fraction. rewrite !str_mem_app.
  rewrite !(digits_not_in _ w Hw) by reflexivity. cbn [orb str_mem existsb].
  unfold str_mem in H1, H2. change (slash =? dot_char) with false. change (big_solidus =? dot_char) with false.
  change (dot_char =? dot_char) with true. rewrite H1, H2. reflexivity. Qed.

(** the part before the repetition *)
Lemma parse_prefix f v : digits f ->
  exists q, (match f with
             | [] => Ok v
             | _ => do n <- int_of_str f; do q <- mkfrac n (10 ^ Z.of_nat (length f)); Ok (v + q)%Qc
             end) = Ok q /\
    (this q == this v + inject_Z (dval f) / inject_Z (10 ^ Z.of_nat (length f)))%Q.
Proof. intros Hf. destruct f as [|c f].
  - exists v. split; [reflexivity|]. cbn. field.
  - rewrite int_of_digits by (assumption || discriminate). cbn [bind].
    destruct (mkfrac_pos (dval (c :: f)) (10 ^ Z.of_nat (length (c :: f))) (pow10_pos _)) as (q & -> & E).
    cbn [bind]. eexists. split; [reflexivity|]. rewrite this_plus, E. reflexivity. Qed.

Lemma parse_fraction_plain w f : digits w -> digits f ->
  exists x, parse_fraction (w ++ [dot_char] ++ f) = Ok x /\
    (this x * inject_Z (10 ^ Z.of_nat (length f)) == inject_Z (dval (w ++ f)))%Q.
Proof. intros Hw Hf. cbn [app]. rewrite parse_fraction_dispatch by (try assumption; apply digits_not_in; try assumption; reflexivity).
  change (w ++ dot_char :: f) with (w ++ [dot_char] ++ f). rewrite parse_decimal_plain by assumption. cbn [bind].
  destruct (parse_prefix f (frac_of_Z (dval w)) Hf) as (q & -> & E). cbn [bind].
  exists q. split; [reflexivity|]. rewrite E, frac_of_Z_this, dval_app, inject_Z_plus, inject_Z_mult.
  field. apply inject_Z_nz. pose proof (pow10_pos (length f)). lia. Qed.

Lemma parse_fraction_repeat w f r : digits w -> digits f -> digits r -> r <> [] ->
  exists x, parse_fraction (w ++ [dot_char] ++ f ++ [lparen] ++ r ++ [rparen]) = Ok x /\
    (this x == (inject_Z (dval (w ++ f))
       + inject_Z (dval r) / inject_Z (10 ^ Z.of_nat (length r) - 1)) / inject_Z (10 ^ Z.of_nat (length f)))%Q.
Proof. intros Hw Hf Hr Nr. cbn [app].
  rewrite parse_fraction_dispatch.
  2: exact Hw.
  2-3: rewrite str_mem_app; cbn [str_mem existsb]; fold (str_mem slash (r ++ [rparen])); fold (str_mem big_solidus (r ++ [rparen]));
    rewrite str_mem_app; rewrite !digits_not_in by (assumption || reflexivity); reflexivity.
  change (w ++ dot_char :: f ++ lparen :: r ++ [rparen]) with (w ++ [dot_char] ++ f ++ [lparen] ++ r ++ [rparen]).
  rewrite parse_decimal_repeat by assumption. cbn [bind].
  destruct (parse_prefix f (frac_of_Z (dval w)) Hf) as (q & -> & E). cbn [bind].
  pose proof (pow10_pos (length f)) as P.
  assert (P2 : 0 < 10 ^ Z.of_nat (length r) - 1).
  { destruct r as [|c r]; [congruence|]. cbn [length]. rewrite Nat2Z.inj_succ, Z.pow_succ_r by lia. pose proof (pow10_pos (length r)). lia. }
  destruct (mkfrac_pos (dval r) (10 ^ Z.of_nat (length f) * (10 ^ Z.of_nat (length r) - 1))) as (q2 & E2 & E3); [nia|].
  exists (q + q2)%Qc. split.
  { destruct r as [|c r]; [congruence|]. rewrite int_of_digits by (assumption || discriminate). cbn [bind].
    rewrite E2. reflexivity. }
  rewrite this_plus, E, E3, frac_of_Z_this, dval_app, inject_Z_plus, !inject_Z_mult.
  field. split; apply inject_Z_nz; lia. Qed.

(** ** C13: the repeating expansion *)
Lemma Qdiv_le a b c : (0 < c)%Q -> (a <= b)%Q -> (a / c <= b / c)%Q.
Proof. intros Hc H. unfold Qdiv. apply Qmult_le_compat_r; [exact H|]. apply Qlt_le_weak, Qinv_lt_0_compat, Hc. Qed.
Lemma inject_pos d : 0 < d -> (0 < inject_Z d)%Q.
Proof. intros H. unfold Qlt. cbn. lia. Qed.

Lemma repeat_expansion w f r x : digits r -> r <> [] ->
  (x == (inject_Z (dval (w ++ f)) + inject_Z (dval r) / inject_Z (10 ^ Z.of_nat (length r) - 1))
        / inject_Z (10 ^ Z.of_nat (length f)))%Q ->
  expands_to x w f r.
Proof.
  intros Hr Nr E k. cbn zeta. set (R := 10 ^ Z.of_nat (length r)) in *.
  assert (HR : 1 < R).
  { unfold R. destruct r as [|c r]; [congruence|]. cbn [length]. rewrite Nat2Z.inj_succ, Z.pow_succ_r by lia. pose proof (pow10_pos (length r)). lia. }
  pose proof (dval_bound r Hr) as B. fold R in B.
  set (e := (inject_Z (dval r) / inject_Z (R - 1))%Q) in *.
  assert (He0 : (0 <= e)%Q).
  { unfold e. apply Qle_shift_div_l; [apply inject_pos; lia|]. rewrite Qmult_0_l. unfold Qle. cbn. lia. }
  assert (He1 : (e <= 1)%Q).
  { unfold e. apply Qle_shift_div_r; [apply inject_pos; lia|]. rewrite Qmult_1_l. rewrite <- Zle_Qle. lia. }
  set (P := inject_Z (10 ^ Z.of_nat (length f + k * length r))).
  assert (HP : (0 < P)%Q) by (apply inject_pos, pow10_pos).
  assert (K : (x * P == inject_Z (dval (w ++ f ++ repeat_str k r)) + e)%Q).
  { unfold P. clear HP P. induction k as [|k IH].
    - cbn [repeat_str Nat.mul]. rewrite app_nil_r, Nat.add_0_r, E. field. apply inject_Z_nz. pose proof (pow10_pos (length f)). lia.
    - cbn [repeat_str Nat.mul].
      replace (length f + (length r + k * length r))%nat with ((length f + k * length r) + length r)%nat by lia.
      rewrite Nat2Z.inj_add, Z.pow_add_r, inject_Z_mult, Qmult_assoc by lia. fold R. rewrite IH.
      assert (A : dval (w ++ f ++ repeat_str k r ++ r) = dval (w ++ f ++ repeat_str k r) * R + dval r).
      { rewrite !app_assoc, dval_app, <- !app_assoc. reflexivity. }
      rewrite A, inject_Z_plus, inject_Z_mult.
      unfold e. assert (ER : (inject_Z R == inject_Z (R - 1) + 1)%Q)
        by (unfold Z.sub; rewrite inject_Z_plus; cbn; ring).
      rewrite ER. field. apply inject_Z_nz. lia. }
  assert (Hx : (x == (inject_Z (dval (w ++ f ++ repeat_str k r)) + e) / P)%Q).
  { rewrite <- K. field. intros H. rewrite H in HP. apply Qlt_irrefl in HP. exact HP. }
  rewrite Hx. split.
  - apply Qdiv_le; [exact HP|]. lra.
  - setoid_replace (inject_Z (dval (w ++ f ++ repeat_str k r)) / P + 1 / P)%Q
      with ((inject_Z (dval (w ++ f ++ repeat_str k r)) + 1) / P)%Q by (field; intros H; rewrite H in HP; apply Qlt_irrefl in HP; exact HP).
    apply Qdiv_le; [exact HP|]. lra.
Qed.

Lemma pow10_gt n : Z.of_nat n < 10 ^ Z.of_nat n.
Proof. induction n as [|n IH]; [reflexivity|]. rewrite Nat2Z.inj_succ, Z.pow_succ_r by lia. lia. Qed.

Lemma expansion_unique w f r x y : r <> [] -> expands_to x w f r -> expands_to y w f r -> (x == y)%Q.
Proof.
  intros Nr Hx Hy.
  assert (W : forall a b, (forall k, (a - b <= 1 / inject_Z (10 ^ Z.of_nat (length f + k * length r)))%Q) -> (a <= b)%Q).
  { intros a b H. apply Qnot_lt_le. intros L.
    set (d := (a - b)%Q). assert (Hd : (0 < d)%Q) by (unfold d; lra).
    destruct d as [n p] eqn:Ed. unfold Qlt in Hd. cbn in Hd.
    specialize (H (Pos.to_nat p)). fold d in H. rewrite Ed in H.
    set (E := (length f + Pos.to_nat p * length r)%nat) in *.
    assert (HE : (Pos.to_nat p <= E)%nat).
    { unfold E. destruct r; [congruence|]. cbn [length]. nia. }
    pose proof (pow10_gt E) as G.
    apply (Qmult_le_r _ _ (inject_Z (10 ^ Z.of_nat E))) in H; [|apply inject_pos, pow10_pos].
    setoid_replace (1 / inject_Z (10 ^ Z.of_nat E) * inject_Z (10 ^ Z.of_nat E))%Q with 1%Q in H
      by (field; apply inject_Z_nz; pose proof (pow10_pos E); lia).
    unfold Qle, Qmult, inject_Z in H. cbn [Qnum Qden] in H. nia. }
  apply Qle_antisym; apply W; intros k.
  - destruct (Hx k) as [_ H1]. destruct (Hy k) as [H2 _]. lra.
  - destruct (Hy k) as [_ H1]. destruct (Hx k) as [H2 _]. lra.
Qed.

(** ** C14: what parse_decimal accepts *)
Lemma span_digits_digits s : digits (fst (span_digits s)) /\ s = fst (span_digits s) ++ snd (span_digits s).
Proof. induction s as [|c s IH]; [split; [constructor|reflexivity]|]. cbn [span_digits].
  destruct (is_digit c) eqn:E; [|split; [constructor|reflexivity]].
  destruct (span_digits s) as [a b]. cbn [fst snd] in *. destruct IH as [D ->]. split; [constructor; assumption|reflexivity]. Qed.

Lemma parse_decimal_accepts s : (exists v, parse_decimal s = Ok v) <->
  exists w rest, digits w /\ s = w ++ dot_char :: rest.
Proof.
  split.
  - intros [v H]. unfold parse_decimal in H. destruct (span_digits_digits s) as [D E].
    destruct (span_digits s) as [w s1]. cbn [fst snd] in *. destruct s1 as [|c s2]; [discriminate|].
    destruct (Z.eqb_spec c dot_char) as [->|]; [|discriminate]. exists w, s2. auto.
  - intros (w & rest & D & ->). unfold parse_decimal. rewrite span_digits_app by exact D.
    rewrite span_digits_stop by reflexivity. cbn [fst snd]. rewrite app_nil_r.
    change (dot_char =? dot_char) with true. cbn iota. destruct (span_digits rest) as [f s3].
    destruct w as [|c w]; [|rewrite int_of_digits by (assumption || discriminate)]; cbn [bind]; eexists; reflexivity.
Qed.

Lemma parse_fraction_slashless s : str_mem slash s = false -> str_mem big_solidus s = false ->
  str_mem dot_char s = true ->
  (exists x, parse_fraction s = Ok x) <-> exists w rest, digits w /\ s = w ++ dot_char :: rest.
Proof.
  intros H1 H2 H3. rewrite <- parse_decimal_accepts. unfold parse_fraction. rewrite H1, H2, H3. cbn [negb].
  split.
  - intros [x H]. destruct (parse_decimal s) as [v|e]; [eauto|discriminate].
  - intros [[[w f] r] H]. rewrite H. cbn [bind].
    assert (DF : digits f /\ digits r).
    { unfold parse_decimal in H. destruct (span_digits s) as [w0 s1].
      destruct s1 as [|c s2]; [discriminate|]. destruct (c =? dot_char); [|discriminate].
      pose proof (span_digits_digits s2) as [D _]. destruct (span_digits s2) as [f0 s3]. cbn [fst] in D.
      match type of H with bind ?a _ = _ => destruct a; [|discriminate] end. cbn [bind] in H.
      injection H as _ <- <-. split; [exact D|]. destruct s3 as [|c3 s4]; [constructor|].
      destruct (c3 =? lparen); [|constructor]. pose proof (span_digits_digits s4) as [D4 _].
      destruct (span_digits s4) as [r0 [|c5 s5]]; [constructor|]. cbn [fst] in D4.
      destruct ((c5 =? rparen) && negb (length r0 =? 0)%nat); [exact D4|constructor]. }
    destruct DF as [DF DR].
    destruct (parse_prefix f (frac_of_Z w) DF) as (q & -> & _). cbn [bind].
    destruct r as [|c r]; [eauto|]. rewrite int_of_digits by (assumption || discriminate). cbn [bind].
    pose proof (pow10_pos (length f)).
    destruct (mkfrac_pos (dval (c :: r)) (10 ^ Z.of_nat (length f) * (10 ^ Z.of_nat (length (c :: r)) - 1))) as (q2 & -> & _).
    { cbn [length]. rewrite Nat2Z.inj_succ, Z.pow_succ_r by lia. pose proof (pow10_pos (length r)). nia. }
    cbn [bind]. eauto.
Qed.

Lemma malformed_accepted :
  exists s x, In dot_char s /\ ~ In slash s /\ ~ In big_solidus s /\
    parse_fraction s = Ok x /\ ~ well_formed s.
Proof.
  (* "1.5.7" *)
  exists [49; 46; 53; 46; 55], (Q2Qc (3 # 2)).
  split; [cbn; tauto|]. split; [cbn; unfold slash; intuition discriminate|].
  split; [cbn; unfold big_solidus; intuition discriminate|]. split; [vm_compute; reflexivity|].
  intros (w & f & Dw & Df & H).
  assert (C : forall s, digits s -> filter (Z.eqb dot_char) s = []).
  { induction 1 as [|c s Hc Hs IH]; [reflexivity|]. cbn [filter]. destruct (Z.eqb_spec dot_char c) as [<-|_]; [discriminate|exact IH]. }
  destruct H as [H|(r & Dr & _ & H)]; apply (f_equal (filter (Z.eqb dot_char))) in H;
  rewrite ?filter_app, ?C in H by assumption; cbn in H; rewrite ?filter_app, ?C in H by assumption; discriminate.
Qed.

Lemma parse_fraction_accepts s : ~ In slash s -> ~ In big_solidus s -> In dot_char s ->
  ((exists x, parse_fraction s = Ok x) <-> exists w rest, digits w /\ s = w ++ dot_char :: rest).
Proof. intros H1 H2 H3. apply parse_fraction_slashless; [apply str_mem_false..|apply str_mem_in]; assumption. Qed.

Lemma well_formed_accepted s : well_formed s -> exists x, parse_fraction s = Ok x.
Proof. intros (w & f & Dw & Df & [->|(r & Dr & Nr & ->)]).
  - destruct (parse_fraction_plain w f Dw Df) as (x & E & _). eauto.
  - destruct (parse_fraction_repeat w f r Dw Df Dr Nr) as (x & E & _). eauto. Qed.
