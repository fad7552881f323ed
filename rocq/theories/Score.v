(** Model of the score of a tree, src/score.py:1-75.

    Simplification: the results of / and their sums and maxima are floats in
    Python and exact rationals here; in particular the OverflowError of a float
    divided by (1 << n) - 1 for 1024 and more unmatched sources is not modelled. *)
From Verif Require Import Base Cost Utils Fractions Load.
From Coq Require Import QArith.
Open Scope Z_scope.

(** The k-th read of self.solver.solving is [solving k]: stop() may arrive at any
    time.  The state is the number of reads so far and self.individual_cache. *)
Record scorer := MkScorer { sc_reads : nat; sc_cache : list (Z * Q) }.
Definition SM (A : Type) : Type := scorer -> res (A * scorer).
Definition sret {A} (a : A) : SM A := fun st => Ok (a, st).
Definition sbind {A B} (m : SM A) (k : A -> SM B) : SM B :=
  fun st => match m st with Ok (a, st) => k a st | Err e => Err e end.
Definition slift {A} (r : res A) : SM A := fun st => match r with Ok a => Ok (a, st) | Err e => Err e end.
Notation "'let?' x := m 'in' k" := (sbind m (fun x => k))
  (at level 200, x pattern, m at level 100, k at level 200).

(** a / b of two ints *)
Definition ratio (a b : Z) : res Q := if b =? 0 then Err ZeroDivisionError else Ok (inject_Z a / inject_Z b)%Q.
Definition flag (b : bool) : Z := if b then 1 else 0.
(** "if new_score > score: score = new_score", and max *)
Definition better (new_score score : Q) : Q := if Qle_bool new_score score then score else new_score.

(** individual_cache.get(key, None) and individual_cache[key] = value *)
Definition cache_get (v : Z) (c : list (Z * Q)) : option Q := option_map snd (find (fun e => fst e =? v) c).
Definition cache_set (v : Z) (q : Q) (c : list (Z * Q)) : list (Z * Q) := (v, q) :: c.

Section Score.
Variable solving : nat -> bool.
Variable targets : list Z.

Definition read_flag : SM bool := fun st => Ok (solving (sc_reads st), MkScorer (S (sc_reads st)) (sc_cache st)).

(** the loop of score_extract, 13-22 *)
Fixpoint extract_scores (src : Z) (cs : list Z) (score : Q) : SM Q :=
  match cs with
  | [] => sret score
  | c :: cs =>
    let? go := read_flag in
    if negb go then sret score else
    let overflow := src - c in
    if c =? overflow then extract_scores src cs score else
    let? cost := slift (extract_cost src c) in
    let? new_score := slift (ratio (flag (zmem c targets) + flag (zmem overflow targets)) cost) in
    extract_scores src cs (better new_score score)
  end.
(** score_extract, 10-23 *)
Definition score_extract (src : Z) : SM Q := extract_scores src (zrange 1 ((src - 1) / 2 + 1)) 0%Q.

(** the loop of score_divide, 28-32 *)
Fixpoint divide_scores (src : Z) (ds : list Z) (score : Q) : SM Q :=
  match ds with
  | [] => sret score
  | d :: ds =>
    let? go := read_flag in
    if negb go then sret 0%Q else
    let divided_value := src / d in
    let? cost := slift (divide_cost src d) in
    let? new_score := slift (ratio (zcount divided_value targets) cost) in
    divide_scores src ds (better new_score score)
  end.
(** score_divide, 25-33 *)
Definition score_divide (src : Z) : SM Q :=
  divide_scores src (filter (fun d => src mod d =? 0) (zrange 2 (src + 1))) 0%Q.

(** score_split, 35-46; no conveyor speed is 0 *)
Definition score_split (src : Z) : SM Q :=
  let? go := read_flag in
  if negb go then sret 0%Q else
  match find (fun c => src <? c) conveyor_speeds with
  | None => sret 0%Q
  | Some c =>
    let value := c / 3 in
    let tmp := 2 * value in
    if src <=? tmp then sret 0%Q else
    let overflow := src - tmp in
    if value =? overflow then sret 0%Q else
    slift (ratio (zcount value targets + flag (zmem overflow targets)) split_cost)
  end.

(** compute_individual, 52-56 *)
Definition compute_individual (src : Z) : SM Q :=
  let? go := read_flag in
  if negb go then sret 0%Q else
  let? score :=
    (if zmem src targets then sret 1%Q
     else let? e := score_extract src in
          let? d := score_divide src in
          let? s := score_split src in
          sret (better s (better d e))) in
  fun st => Ok (score, MkScorer (sc_reads st) (cache_set src score (sc_cache st))).

(** "individual_cache.get(v, None) or compute_individual(v)": 0 is falsy *)
Definition individual (v : Z) : SM Q := fun st =>
  match cache_get v (sc_cache st) with
  | Some q => if Qeq_bool q 0 then compute_individual v st else Ok (q, st)
  | None => compute_individual v st
  end.

(** the sum of 66-73 *)
Fixpoint sum_scores (sums : list (Z * Z)) (acc : Q) : SM Q :=
  match sums with
  | [] => sret acc
  | (v, k) :: sums =>
    let? q := individual v in
    let mc := merge_cost k 1 in
    sum_scores sums (acc + q / inject_Z (if mc =? 0 then 1 else mc))%Q
  end.

(** compute, 58-75; the write to solver.score_cache is left to [cached_compute] *)
Definition compute (given : list Z) : SM Q :=
  let? go := read_flag in
  if negb go then sret 0%Q else
  let (sources, rest) := remove_pairs Z.eqb given targets in
  let n := length sources in
  let matching := Z.of_nat (length targets) - Z.of_nat (length rest) in
  if (0 <? n)%nat then
    let? total := sum_scores (all_sums sources) 0%Q in
    sret (inject_Z (matching * matching) + total / inject_Z (2 ^ Z.of_nat n - 1))%Q
  else sret (inject_Z (matching * matching)).

(** self.solver.score_cache, src/solver.py:114 *)
Definition tuple_get (given : list Z) (c : list (list Z * Q)) : option Q :=
  option_map snd (find (fun e => if list_eq_dec Z.eq_dec (fst e) given then true else false) c).

(** score_cache.get(source_values, None) or compute(source_values), src/solver.py:308-309,
    with the write of src/score.py:74, which only a compute that was not stopped
    at its first line reaches *)
Definition cached_compute (given : list Z) (c : list (list Z * Q)) : SM (Q * list (list Z * Q)) :=
  let fresh := fun st =>
    match compute given st with
    | Ok (q, st') => Ok ((q, if solving (sc_reads st) then (given, q) :: c else c), st')
    | Err e => Err e
    end in
  match tuple_get given c with
  | Some q => if Qeq_bool q 0 then fresh else sret (q, c)
  | None => fresh
  end.
End Score.
