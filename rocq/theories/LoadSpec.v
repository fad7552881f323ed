(** Specification vocabulary for grouping and loading. *)
From Verif Require Import Base Cost Fractions FractionsSpec Load.
From Coq Require Import QArith Qcanon.
Open Scope Z_scope.

(** A group tree: an inner node has at least two children of equal value, its
    value is their sum, and it is tagged exactly when it has more than three. *)
Inductive folded : gnode -> Prop :=
| folded_leaf v : folded (GNode v [] [])
| folded_inner w cs :
    (2 <= length cs)%nat ->
    (forall c, In c cs -> gvalue c = w) ->
    (forall c, In c cs -> folded c) ->
    folded (GNode (w * Z.of_nat (length cs))
                  (if (3 <? length cs)%nat then [TDivide (Z.of_nat (length cs))] else []) cs).

(** values of the leaves *)
Fixpoint gleaves (g : gnode) : list Z :=
  match g with
  | GNode v _ [] => [v]
  | GNode _ _ cs => flat_map gleaves cs
  end.
(** (value, number of children) of every inner node *)
Fixpoint ginner (g : gnode) : list (Z * Z) :=
  match g with
  | GNode _ _ [] => []
  | GNode v _ cs => (v, Z.of_nat (length cs)) :: flat_map ginner cs
  end.

(** [total] is the sum of divide_cost over the given divisions *)
Definition total_divide_cost (divs : list (Z * Z)) (total : Z) : Prop :=
  exists costs, Forall2 (fun d c => divide_cost (fst d) (snd d) = Ok c) divs costs /\
    total = zsum costs.

(** sum of rationals *)
Definition qsum (l : list Qc) : Qc := fold_right Qcplus (Q2Qc 0) l.

(** The integer problem behind a request: balance the totals with at most one
    generated value on the lighter side, cancel equal values on both sides, and
    scale by the least factor making everything integral. *)
Definition reduced (ss ts : list Qc) (u : Z) (S T : list Z) : Prop :=
  exists es et common fs ft : list Qc,
    ((es = [] /\ et = [] /\ qsum ss = qsum ts) \/
     (exists d, (0 < d)%Qc /\ es = [d] /\ et = [] /\ (qsum ss + d)%Qc = qsum ts) \/
     (exists d, (0 < d)%Qc /\ es = [] /\ et = [d] /\ qsum ss = (qsum ts + d)%Qc)) /\
    Permutation (ss ++ es) (fs ++ common) /\
    Permutation (ts ++ et) (ft ++ common) /\
    (forall f, ~ (In f fs /\ In f ft)) /\
    0 < u /\
    Forall2 (fun f z => scaled_is f u z) fs S /\
    Forall2 (fun f z => scaled_is f u z) ft T /\
    (forall v, 0 < v -> Forall (fun f => exists z, scaled_is f v z) (fs ++ ft) -> u <= v) /\
    StronglySorted Z.le S /\ StronglySorted Z.le T.

(** the requests on which load fails: the remaining flow is 2 units, or 3 units
    to be delivered as 1 and 2 *)
Definition too_small (T : list Z) : Prop := zsum T = 2 \/ T = [1; 2].
