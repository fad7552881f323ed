(** Property theorems C07, C08, C12-C19, C48 (src/utils). *)
From Verif Require Import Base Utils UtilsSpec UtilsProofs Fractions FractionsSpec FractionsProofs FormatProofs RoundTripProofs.
Open Scope Z_scope.

(** C07, for keys of any type with decidable equality *)
Theorem C07_remove_pairs_counts : forall (A : Type) (eqb : A -> A -> bool), eq_decides eqb ->
  forall a b v,
  cnt eqb v (fst (remove_pairs eqb a b)) = (cnt eqb v a - cnt eqb v b)%nat /\
  cnt eqb v (snd (remove_pairs eqb a b)) = (cnt eqb v b - cnt eqb v a)%nat.
Proof. exact @remove_pairs_counts. Qed.
Print Assumptions C07_remove_pairs_counts.

Theorem C07_remove_pairs_disjoint : forall (A : Type) (eqb : A -> A -> bool), eq_decides eqb ->
  forall a b v, ~ (In v (fst (remove_pairs eqb a b)) /\ In v (snd (remove_pairs eqb a b))).
Proof. exact @remove_pairs_disjoint. Qed.
Print Assumptions C07_remove_pairs_disjoint.

Theorem C07_remove_pairs_sums : forall a b,
  zsum (fst (remove_pairs Z.eqb a b)) - zsum (snd (remove_pairs Z.eqb a b)) = zsum a - zsum b.
Proof. exact remove_pairs_sums. Qed.
Print Assumptions C07_remove_pairs_sums.

Theorem C07_remove_pairs_sorted : forall (A : Type) (eqb : A -> A -> bool), eq_decides eqb ->
  forall (R : A -> A -> Prop) a b, (forall x, R x x) ->
  (StronglySorted R a -> StronglySorted R (fst (remove_pairs eqb a b))) /\
  (StronglySorted R b -> StronglySorted R (snd (remove_pairs eqb a b))).
Proof. exact @remove_pairs_sorted. Qed.
Print Assumptions C07_remove_pairs_sorted.

Example C07_witness :
  eq_decides Z.eqb /\ remove_pairs Z.eqb [1; 2; 2; 5; 2] [2; 7; 5; 5] = ([1; 2; 2], [7; 5]).
Proof. split; [exact Z_eq_decides|reflexivity]. Qed.

(** C08: [scaled_is f u z] says f * u = z in the rationals *)
Theorem C08_fractions_to_integers : forall fs,
  let (zs, u) := fractions_to_integers fs in
  0 < u /\ Forall2 (fun f z => scaled_is f u z) fs zs /\
  forall v, 0 < v -> Forall (fun f => exists z, scaled_is f v z) fs -> u <= v /\ (u | v).
Proof. exact fractions_to_integers_spec. Qed.
Print Assumptions C08_fractions_to_integers.

Example C08_witness : fractions_to_integers (map Q2Qc [3 # 4; 5 # 6; 7 # 1]) = ([9; 10; 84], 12).
Proof. vm_compute. reflexivity. Qed.

(** C12 *)
Theorem C12_format_parse_round_trip : forall ss ts, ss <> [] -> ts <> [] ->
  Forall (fun f => (0 <= f)%Qc) ss -> Forall (fun f => (0 <= f)%Qc) ts ->
  exists a b, format_fractions ss = Ok a /\ format_fractions ts = Ok b /\
    let s := a ++ [space; letter_t; letter_o; space] ++ b in
    let expected := Ok (Some (gather frac_eqb ss, gather frac_eqb ts)) in
    parse_user_input s = expected /\
    parse_user_input (replace_char big_solidus slash s) = expected.
Proof. exact c12_format_parse_round_trip_lemma. Qed.
Print Assumptions C12_format_parse_round_trip.

(** gathering only permutes *)
Theorem C12_gather_permutes : forall fs, Permutation (gather frac_eqb fs) fs.
Proof. exact c12_gather_permutes_lemma. Qed.
Print Assumptions C12_gather_permutes.

Example C12_witness :
  let fs := map Q2Qc [3 # 4; 1 # 3; 5 # 6; 3 # 4; 60 # 1] in
  Forall (fun f => (0 <= f)%Qc) fs /\
  gather frac_eqb fs = map Q2Qc [3 # 4; 3 # 4; 1 # 3; 5 # 6; 60 # 1].
Proof. split; [repeat constructor; unfold Qcle; cbn; discriminate|vm_compute; reflexivity]. Qed.

(** C13: with or without a repeating block *)
Theorem C13_repeating_decimals : forall w f r, digits w -> digits f -> digits r -> r <> [] ->
  exists x, parse_fraction (w ++ [dot_char] ++ f ++ [lparen] ++ r ++ [rparen]) = Ok x /\
    expands_to x w f r /\ forall y, expands_to y w f r -> (y == x)%Q.
Proof. exact c13_repeating_decimals_lemma. Qed.
Print Assumptions C13_repeating_decimals.

Theorem C13_terminating_decimals : forall w f, digits w -> digits f ->
  exists x, parse_fraction (w ++ [dot_char] ++ f) = Ok x /\
    (this x * inject_Z (10 ^ Z.of_nat (length f)) == inject_Z (dval (w ++ f)))%Q.
Proof. exact parse_fraction_plain. Qed.
Print Assumptions C13_terminating_decimals.

(** "1.2(34)" = 611/495 *)
Example C13_witness :
  digits [49] /\ digits [50] /\ digits [51; 52] /\
  parse_fraction ([49] ++ [dot_char] ++ [50] ++ [lparen] ++ [51; 52] ++ [rparen]) = Ok (Q2Qc (611 # 495)).
Proof.
  repeat split; try (repeat constructor). vm_compute.
  apply f_equal, Qc_is_canon. reflexivity.
Qed.

(** C14.  Full statement: for every s with a dot and no slash,
      (exists x, parse_fraction s = Ok x) -> well_formed s.
    It is false: re.match only looks at a prefix ("1.5.7" is accepted). *)
Theorem C14_malformed_rejected_refuted :
  exists s x, In dot_char s /\ ~ In slash s /\ ~ In big_solidus s /\
    parse_fraction s = Ok x /\ ~ well_formed s.
Proof. exact malformed_accepted. Qed.
Print Assumptions C14_malformed_rejected_refuted.

(** What is accepted: exactly the strings starting with digits and a dot. *)
Theorem C14_malformed_rejected_partial : forall s,
  ~ In slash s -> ~ In big_solidus s -> In dot_char s ->
  ((exists x, parse_fraction s = Ok x) <-> exists w rest, digits w /\ s = w ++ dot_char :: rest).
Proof. exact parse_fraction_accepts. Qed.
Print Assumptions C14_malformed_rejected_partial.

Theorem C14_well_formed_accepted_partial : forall s, well_formed s -> exists x, parse_fraction s = Ok x.
Proof. exact well_formed_accepted. Qed.
Print Assumptions C14_well_formed_accepted_partial.

Example C14_witness : ~ exists x, parse_fraction [45; 49; 46; 53] = Ok x. (* "-1.5" *)
Proof. intros [x H]. vm_compute in H. discriminate. Qed.

(** C15 *)
Theorem C15_fastlist : forall (A : Type) (eqb : A -> A -> bool), eq_decides eqb ->
  forall ops, let l := fold_left (fun l o => fst (fl_step eqb o l)) ops fl_new in
  NoDup (fl_items l) /\
  (forall x, fl_contains eqb x l = true <-> In x (fl_items l)) /\
  fl_items l = fold_left (fun l o => fst (ref_step eqb o l)) ops [].
Proof. exact c15_fastlist_lemma. Qed.
Print Assumptions C15_fastlist.

(** an operation raises exactly when it does on the reference list, and then
    changes nothing (neither the list nor the set) *)
Theorem C15_fastlist_raise : forall (A : Type) (eqb : A -> A -> bool), eq_decides eqb ->
  forall ops o, let l := fold_left (fun l o => fst (fl_step eqb o l)) ops fl_new in
  ((exists e, snd (fl_step eqb o l) = Some e) <-> snd (ref_step eqb o (fl_items l)) = true) /\
  ((exists e, snd (fl_step eqb o l) = Some e) -> fst (fl_step eqb o l) = l).
Proof. exact c15_fastlist_raise_lemma. Qed.
Print Assumptions C15_fastlist_raise.

Example C15_witness :
  fl_items (fold_left (fun l o => fst (fl_step Z.eqb o l))
    [FExtend [3; 1; 3; 2]; FRemove 7; FPop (-2); FAppend 1; FAppend 3] fl_new) = [3; 2; 1].
Proof. reflexivity. Qed.

(** C16: newest first, each once; [appended] lists the normalised inputs,
    oldest first.  prompt_toolkit may load the history at any moment. *)
Theorem C16_history : forall ops,
  let h := fold_left hstep ops history_new in
  h_loaded_strings h = nub str_eqb (rev (appended ops)) /\
  h_storage h = rev (nub str_eqb (rev (appended ops))).
Proof. exact history_spec. Qed.
Print Assumptions C16_history.

Example C16_witness :
  h_loaded_strings (fold_left hstep
    [HAppend [49]; HAppend [50; 10744]; HLoad; HAppend [49]; HAppend [50; 47]] history_new)
  = [[50; 47]; [49]].
Proof. reflexivity. Qed.

(** C17 *)
Theorem C17_all_sums : forall numbers, Forall (fun v => 0 < v) numbers ->
  NoDup (map fst (all_sums numbers)) /\
  (forall s, In s (map fst (all_sums numbers)) <->
     exists l, subseq l numbers /\ l <> [] /\ zsum l = s) /\
  (forall s c, In (s, c) (all_sums numbers) ->
     exists l, subseq l numbers /\ zsum l = s /\ c = Z.of_nat (length l)).
Proof. exact all_sums_spec. Qed.
Print Assumptions C17_all_sums.

Example C17_witness : all_sums [1; 1; 4] = [(1, 1); (2, 2); (4, 1); (5, 2); (6, 3)].
Proof. reflexivity. Qed.

(** C18.  Full statement: for positive numbers, In (s, c) (all_sums numbers) and
    subseq l numbers with zsum l = s imply c <= length l.  False: the last
    decomposition found overwrites the others. *)
Theorem C18_cheapest_sum_refuted :
  exists numbers s c l, Forall (fun v => 0 < v) numbers /\ In (s, c) (all_sums numbers) /\
    subseq l numbers /\ zsum l = s /\ Z.of_nat (length l) < c.
Proof. exact all_sums_not_minimal. Qed.
Print Assumptions C18_cheapest_sum_refuted.

(** It holds for sums all of whose decompositions use equally many values. *)
Theorem C18_cheapest_sum_partial : forall numbers s c, Forall (fun v => 0 < v) numbers ->
  In (s, c) (all_sums numbers) ->
  (forall l l', subseq l numbers -> subseq l' numbers -> zsum l = s -> zsum l' = s -> length l = length l') ->
  forall l, subseq l numbers -> zsum l = s -> c = Z.of_nat (length l).
Proof. exact all_sums_unambiguous. Qed.
Print Assumptions C18_cheapest_sum_partial.

Example C18_witness : In (8, 3) (all_sums [1; 1; 4; 4; 6]) /\ 4 + 4 = 8.
Proof. vm_compute. tauto. Qed.

(** C19.  Full statement: the yielded vectors are exactly the solutions.  False:
    entries after the position where the target is reached are stale. *)
Theorem C19_linear_combinations_refuted :
  exists x y outs c, x <> [] /\ Forall (fun a => 0 < a) x /\ 0 <= y /\
    find_linear_combinations x y = Ok outs /\ In c outs /\ ~ nonneg_solution x y c.
Proof. exact flc_stale. Qed.
Print Assumptions C19_linear_combinations_refuted.

(** The yields correspond one to one to the solutions, each yield being right up
    to the last non-zero coefficient of its solution. *)
Theorem C19_linear_combinations_partial : forall x y, x <> [] -> Forall (fun a => 0 < a) x -> 0 <= y ->
  exists outs ss, find_linear_combinations x y = Ok outs /\
    NoDup ss /\ (forall c, In c ss <-> nonneg_solution x y c) /\
    Forall2 agrees_up_to_zeros outs ss.
Proof. exact flc_partial. Qed.
Print Assumptions C19_linear_combinations_partial.

Example C19_witness : find_linear_combinations [2; 1] 2 = Ok [[0; 2]; [1; 2]].
Proof. reflexivity. Qed.

(** C48: [finite_decimals f k] says f * 10^k is an integer, [periodic_from f k]
    that f * 10^k * (10^p - 1) is one for some p > 0, i.e. the decimals repeat
    from position k on. *)
Theorem C48_decimal_representation_info : forall f, exists r, decimal_representation_info f = Ok r /\
  match r with
  | (true, Some m) => 0 <= m /\ finite_decimals f m /\ forall k, 0 <= k -> finite_decimals f k -> m <= k
  | (true, None) => False
  | (false, Some m) => (forall k, 0 <= k -> ~ finite_decimals f k) /\
      0 < m /\ periodic_from f m /\ forall k, 0 <= k -> periodic_from f k -> m <= k
  | (false, None) => (forall k, 0 <= k -> ~ finite_decimals f k) /\ periodic_from f 0
  end.
Proof. exact decimal_info_spec. Qed.
Print Assumptions C48_decimal_representation_info.

Example C48_witness :
  decimal_representation_info (Q2Qc (3 # 40)) = Ok (true, Some 3) /\
  decimal_representation_info (Q2Qc (5 # 6)) = Ok (false, Some 1) /\
  decimal_representation_info (Q2Qc (5 # 7)) = Ok (false, None).
Proof. vm_compute. auto. Qed.
