(** Independent vocabulary for the expansion of operations into splitters and
    mergers (src/cost.py:61-86, src/node.py:238-537). *)
From Verif Require Import Base Cost Utils Fractions Load Tree.
From Coq Require Import QArith Qcanon.
Open Scope Z_scope.

(** A full splitter tree has [n] levels of two-way splitters above [m] levels of
    three-way splitters.  Level [k] lies below [k] splitters; its slots are the
    belts there. *)
Definition slots (n k : nat) : Z := 2 ^ Z.of_nat (Nat.min k n) * 3 ^ Z.of_nat (k - n).
(** bottom slots under one slot of level [k] *)
Definition under (n m k : nat) : Z := 2 ^ Z.of_nat (n - k) * 3 ^ Z.of_nat (m - (k - n)).
(** outputs of the splitters between levels [k - 1] and [k] *)
Definition radix (n k : nat) : Z := if (k <=? n)%nat then 2 else 3.
(** the key of level [k] in the dictionaries of compute_looping_branches *)
Definition level_key (n k : nat) : nat * nat := (Nat.min k n, (k - n)%nat).

(** [cut k] subtrees are cut at each level [k]: how many slots of level [k] lie
    strictly under one of them *)
Fixpoint covered (n : nat) (cut : nat -> Z) (k : nat) : Z :=
  match k with
  | O => 0
  | S k' => radix n k * (cut k' + covered n cut k')
  end.

(** every link is recorded at both ends, as often at one as at the other *)
Definition links_agree (h : heap Qc) : Prop :=
  forall x y, count_occ Nat.eq_dec (n_children (get h x)) y = count_occ Nat.eq_dec (n_parents (get h y)) x.

(** Below [a], whose input belt carries [flow], [h'] has a tree of splitters:
    [levels k] are the nodes of level [k], [loops k] the other ends of the belts
    that leave the tree between levels [k - 1] and [k]. *)
Record splitter_tree (h h' : heap Qc) (a n m : nat) (flow : Qc) (levels loops : nat -> list nat) : Prop := {
  st_top : levels O = [a];
  st_fresh : forall k y, (0 < k < n + m)%nat -> In y (levels k) -> (length h <= y < length h')%nat;
  st_nodup : forall k, NoDup (levels k);
  st_distinct : forall j k y, (j < k <= n + m)%nat -> In y (levels j) -> ~ In y (levels k);
  st_fanout : forall k x, (k < n + m)%nat -> In x (levels k) -> Z.of_nat (length (n_children (get h' x))) = radix n (S k);
  st_links : forall k, (k < n + m)%nat ->
    Permutation (flat_map (fun x => n_children (get h' x)) (levels k)) (loops (S k) ++ levels (S k));
  st_values : forall k y, (0 < k < n + m)%nat -> In y (levels k) -> n_value (get h' y) = (flow / frac_of_Z (slots n k))%Qc
}.

(** the number of splitters *)
Definition splitter_count (n m : nat) (levels : nat -> list nat) : Z :=
  zsum (map (fun k => Z.of_nat (length (levels k))) (seq 0 (n + m))).
(** the flow of the belts to [t]; a belt into level [k] carries flow / slots n k *)
Definition qcsum (l : list Qc) : Qc := fold_right Qcplus (Q2Qc 0) l.
Definition flow_to (t : nat) (n m : nat) (flow : Qc) (loops : nat -> list nat) : Qc :=
  qcsum (map (fun k => (frac_of_Z (Z.of_nat (count_occ Nat.eq_dec (loops k) t)) * (flow / frac_of_Z (slots n k)))%Qc) (seq 1 (n + m))).

(** the nodes of [h] other than [a] and those of [ps] are as before, up to links
    to parents for those of [ps] *)
Definition untouched (h h' : heap Qc) (a : nat) (ps : list nat) : Prop :=
  forall x, (x < length h)%nat -> x <> a -> exists qs,
    get h' x = set_parents qs (get h x) /\ (~ In x ps -> qs = n_parents (get h x)).

(** what expand_divide needs of its node *)
Record divisible (h : heap Qc) (a : nat) (d lvl : Z) : Prop := {
  dv_node : (a < length h)%nat;
  dv_level : n_level (get h a) = Some lvl;
  dv_value : (Q2Qc 0 <= n_value (get h a))%Qc;
  dv_count : Z.of_nat (length (n_children (get h a))) = d;
  dv_distinct : NoDup (n_children (get h a));
  dv_self : ~ In a (n_children (get h a));
  dv_parents : forall c, In c (n_children (get h a)) -> n_parents (get h c) = [a]
}.

(** what expand_extract needs of its node: a value [x], and two children that
    carry [c] and [x - c] *)
Record extractable (h : heap Qc) (a : nat) (x c lvl : Z) (ext ovf : nat) : Prop := {
  ex_node : (a < length h)%nat;
  ex_level : n_level (get h a) = Some lvl;
  ex_value : n_value (get h a) = frac_of_Z x;
  ex_children : n_children (get h a) = [ext; ovf] \/ n_children (get h a) = [ovf; ext] /\ 2 * c <> x;
  ex_extract : n_value (get h ext) = frac_of_Z c;
  ex_overflow : n_value (get h ovf) = frac_of_Z (x - c);
  ex_distinct : ext <> ovf /\ ext <> a /\ ovf <> a;
  ex_parents : n_parents (get h ext) = [a] /\ n_parents (get h ovf) = [a]
}.

(** the flow [p] sends along each of its links *)
Definition sent (h : heap Qc) (p : nat) : Qc :=
  (n_value (get h p) / frac_of_Z (Z.of_nat (length (n_children (get h p)))))%Qc.

(** what expand_merge needs of its node: at most one link from each parent *)
Record mergeable (h : heap Qc) (a : nat) : Prop := {
  me_node : (a < length h)%nat;
  me_level : exists l, n_level (get h a) = Some l;
  me_single : NoDup (n_parents (get h a));
  me_self : ~ In a (n_parents (get h a));
  me_parents : forall p, In p (n_parents (get h a)) ->
    (Q2Qc 0 <= n_value (get h p))%Qc /\ exists l, n_level (get h p) = Some l
}.

(** the nodes of [h'] beyond [h] are mergers that gather the inputs of [a] *)
Record merged_into (h h' : heap Qc) (a : nat) : Prop := {
  mg_length : (length h <= length h')%nat;
  mg_mergers : forall c, (length h <= c < length h')%nat ->
    length (n_parents (get h' c)) = 3%nat /\ NoDup (n_parents (get h' c)) /\
    n_value (get h' c) = qcsum (map (sent h') (n_parents (get h' c))) /\
    n_level (get h' c) = n_level (get h a) /\ n_expands (get h' c) = [] /\
    (forall p, In p (n_parents (get h' c)) -> p < c)%nat /\
    exists y, n_children (get h' c) = [y] /\ (y = a \/ (c < y < length h')%nat);
  mg_inflow : qcsum (map (sent h') (n_parents (get h' a))) = qcsum (map (sent h) (n_parents (get h a)));
  mg_inputs : forall p, In p (n_parents (get h' a)) -> In p (n_parents (get h a)) \/ (length h <= p < length h')%nat;
  mg_node : get h' a = set_parents (n_parents (get h' a)) (get h a);
  mg_others : forall x, (x < length h)%nat -> x <> a ->
    get h' x = set_children (n_children (get h' x)) (get h x) /\
    length (n_children (get h' x)) = length (n_children (get h x)) /\
    (forall y, (y < length h)%nat -> y <> a ->
       count_occ Nat.eq_dec (n_children (get h' x)) y = count_occ Nat.eq_dec (n_children (get h x)) y) /\
    (~ In x (n_parents (get h a)) -> n_children (get h' x) = n_children (get h x))
}.

(** what expand_split needs of its node: three children, two of which carry a
    third of [c] each *)
Record splittable (h : heap Qc) (a : nat) (c lvl : Z) (x y o : nat) : Prop := {
  sp_node : (a < length h)%nat;
  sp_level : n_level (get h a) = Some lvl;
  sp_speed : 0 <= c;
  sp_children : Permutation (n_children (get h a)) [x; y; o];
  sp_distinct : NoDup [a; x; y; o];
  sp_thirds : n_value (get h x) = (frac_of_Z c / frac_of_Z 3)%Qc /\ n_value (get h y) = (frac_of_Z c / frac_of_Z 3)%Qc;
  sp_overflow : n_value (get h o) <> (frac_of_Z c / frac_of_Z 3)%Qc;
  sp_parents : n_parents (get h x) = [a] /\ n_parents (get h y) = [a] /\ n_parents (get h o) = [a]
}.
