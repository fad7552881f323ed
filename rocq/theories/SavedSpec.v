(** Which networks can be expanded: no belt of a loop-back is overfull. *)
From Verif Require Import Base Cost Load Tree TreeSpec.
Open Scope Z_scope.

(** into how many equal branches the operation recorded by a tag cuts the flow
    [v] of its node *)
Definition branches (v : Z) (t : tag) : option Z :=
  match t with
  | TDivide d => Some d
  | TExtract c => Some (v / Z.gcd v c)
  | TSplit _ | TMerge _ => None
  end.
(** [l] branches, those that the splitters chosen for [d] have in excess, are led
    back to the node, which then carries its flow and [l / d] of it: more than
    the belt limit *)
Definition overloaded (h : heap Z) (a : nat) : Prop := exists t d n m l s,
  In t (n_expands (get h a)) /\ branches (value h a) t = Some d /\
  find_n_m_l d = Ok (n, m, l, s) /\ 1200 * d < value h a * (d + l).
