(** What the score of a tuple of source values should be. *)
From Verif Require Import Base Cost Utils.
From Coq Require Import QArith.
Open Scope Z_scope.

(** [m] of the sources [S] are targets (as multisets) *)
Definition matches (S T : list Z) (m : nat) : Prop := exists a b c,
  Permutation S (a ++ c) /\ Permutation T (b ++ c) /\ (forall v, ~ (In v a /\ In v b)) /\ m = length c.

(** 1 for a target, 0 for anything else *)
Definition hit (T : list Z) (v k : Z) : Prop := (In v T /\ k = 1) \/ (~ In v T /\ k = 0).

(** targets obtained per unit of cost by one operation on a source of value [v] *)
Inductive gain (T : list Z) (v : Z) : Q -> Prop :=
| gain_extract c r a b : 1 <= c -> 2 * c < v -> hit T c a -> hit T (v - c) b -> extract_cost v c = Ok r ->
    gain T v (inject_Z (a + b) / inject_Z r)
| gain_divide d r : 2 <= d <= v -> (d | v) -> divide_cost v d = Ok r ->
    gain T v (inject_Z (Z.of_nat (count_occ Z.eq_dec T (v / d))) / inject_Z r)
| gain_split c b : In c conveyor_speeds -> v < c -> (forall c', In c' conveyor_speeds -> v < c' -> c <= c') ->
    2 * (c / 3) < v -> hit T (v - 2 * (c / 3)) b ->
    gain T v (inject_Z (Z.of_nat (count_occ Z.eq_dec T (c / 3)) + b) / inject_Z split_cost).

(** the best one operation can do for a source that is not a target *)
Definition best (T : list Z) (v : Z) (q : Q) : Prop :=
  (In v T -> (q == 1)%Q) /\
  (~ In v T -> ((q == 0)%Q \/ exists g, gain T v g /\ (q == g)%Q) /\ (0 <= q)%Q /\ forall g, gain T v g -> (g <= q)%Q).

(** total of the best for every sum of sources, each divided by the cost of merging it *)
Fixpoint weighted (sums : list (Z * Z)) (bests : list Q) : Q :=
  match sums, bests with
  | (_, k) :: sums, q :: bests => (q / inject_Z (Z.max 1 (merge_cost k 1)) + weighted sums bests)%Q
  | _, _ => 0%Q
  end.
Definition score_is (T S : list Z) (q : Q) : Prop := exists m bests,
  matches S T m /\
  let rest := fst (remove_pairs Z.eqb S T) in
  Forall2 (fun sum b => best T (fst sum) b) (all_sums rest) bests /\
  (q == inject_Z (Z.of_nat m * Z.of_nat m) + weighted (all_sums rest) bests / inject_Z (2 ^ Z.of_nat (length rest) - 1))%Q.

(** every remembered score is right *)
Definition scores_right (T : list Z) (c : list (Z * Q)) : Prop := forall v q, In (v, q) c -> best T v q.
Definition totals_right (T : list Z) (c : list (list Z * Q)) : Prop := forall S q, In (S, q) c -> score_is T S q.
(** no remembered score is negative *)
Definition scores_nonneg (c : list (Z * Q)) : Prop := Forall (fun e => (0 <= snd e)%Q) c.
