(** Specification vocabulary for fractions, their formatting and parsing. *)
From Verif Require Import Base Utils Fractions.
Open Scope Z_scope.

(** [f * u] is the integer [z] *)
Definition scaled_is (f : Qc) (u z : Z) : Prop := (this f * inject_Z u == inject_Z z)%Q.

(** [f] has at most [k] decimals *)
Definition finite_decimals (f : Qc) (k : Z) : Prop := exists z, scaled_is f (10 ^ k) z.

(** from decimal [k] on, the decimals of [f] repeat for ever *)
Definition periodic_from (f : Qc) (k : Z) : Prop :=
  exists p z, 0 < p /\ scaled_is f (10 ^ k * (10 ^ p - 1)) z.

(** value of a string of digits *)
Definition dval (s : str) : Z := fold_left (fun a c => a * 10 + (c - 48)) s 0.

Definition digits (s : str) : Prop := Forall (fun c => is_digit c = true) s.

Fixpoint repeat_str (k : nat) (r : str) : str :=
  match k with O => [] | S k => repeat_str k r ++ r end.

(** [x] is squeezed by the truncations of w.f r r r ... *)
Definition expands_to (x : Q) (w f r : str) : Prop :=
  forall k, let N := inject_Z (dval (w ++ f ++ repeat_str k r)) in
            let P := inject_Z (10 ^ Z.of_nat (length f + k * length r)) in
            (N / P <= x)%Q /\ (x <= N / P + 1 / P)%Q.

(** the three forms announced by the error message *)
Definition well_formed (s : str) : Prop :=
  exists w f, digits w /\ digits f /\
    (s = w ++ [dot_char] ++ f \/
     exists r, digits r /\ r <> [] /\ s = w ++ [dot_char] ++ f ++ [lparen] ++ r ++ [rparen]).

