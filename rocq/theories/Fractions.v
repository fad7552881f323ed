(** Model of src/utils/fractions.py and of the parser of src/utils/solver.py.
    A Python Fraction is a canonical rational [Qc] (lowest terms, positive
    denominator); a str is a list of code points.
    Simplification: only ASCII digits are digits ([\d], int() and isdigit() also
    know other Unicode digits). *)
From Verif Require Import Base Utils.
From Coq Require Export QArith Qcanon.
Open Scope Z_scope.

(** Fraction.numerator, Fraction.denominator *)
Definition numer (f : Qc) : Z := Qnum (this f).
Definition denom (f : Qc) : Z := Zpos (Qden (this f)).
(** Fraction(n, d) *)
Definition mkfrac (n d : Z) : res Qc :=
  match d with
  | Z0 => Err ZeroDivisionError
  | Zpos p => Ok (Q2Qc (n # p))
  | Zneg p => Ok (Q2Qc ((- n) # p))
  end.
Definition frac_of_Z (n : Z) : Qc := Q2Qc (n # 1).
(** == on fractions *)
Definition frac_eqb (a b : Qc) : bool := (numer a =? numer b) && (denom a =? denom b).

(** math.lcm of several integers; 1 for none *)
Definition lcm_list (l : list Z) : Z := fold_left Z.lcm l 1.
(** src/utils/fractions.py:1-6 fractions_to_integers *)
Definition fractions_to_integers (fs : list Qc) : list Z * Z :=
  let common := lcm_list (map denom fs) in
  (map (fun f => numer f * (common / denom f)) fs, common).

(** the loops "while denominator % p == 0" of src/utils/fractions.py:12-17;
    returns the reduced denominator and the exponent *)
Fixpoint strip_factor (fuel : nat) (p d k : Z) : res (Z * Z) :=
  match fuel with
  | O => Err OutOfFuel
  | S fuel => if d mod p =? 0 then strip_factor fuel p (d / p) (k + 1) else Ok (d, k)
  end.
(** src/utils/fractions.py:8-21 decimal_representation_info *)
Definition decimal_representation_info (f : Qc) : res (bool * option Z) :=
  let d := denom f in
  let fuel := S (Z.to_nat (Z.log2 d)) in
  do (d, power_of_2) <- strip_factor fuel 2 d 0;
  do (d, power_of_5) <- strip_factor fuel 5 d 0;
  let m := Z.max power_of_2 power_of_5 in
  if d =? 1 then Ok (true, Some m)
  else if (power_of_2 =? 0) && (power_of_5 =? 0) then Ok (false, None)
  else Ok (false, Some m).

(** str(n) for a non-negative int, then for any int *)
Fixpoint digits_loop (fuel : nat) (n : Z) : str :=
  match fuel with
  | O => []
  | S fuel => (if n <? 10 then [] else digits_loop fuel (n / 10)) ++ [48 + n mod 10]
  end.
Definition str_of_nat (n : Z) : str := digits_loop (S (Z.to_nat (Z.log2 n))) n.
Definition minus_sign : Z := 45.
Definition plus_sign : Z := 43.
Definition dot_char : Z := 46.
Definition underscore : Z := 95.
Definition space : Z := 32.
Definition letter_x : Z := 120.
Definition letter_t : Z := 116.
Definition letter_o : Z := 111.
Definition lparen : Z := 40.
Definition rparen : Z := 41.
Definition str_of_Z (n : Z) : str :=
  if n <? 0 then minus_sign :: str_of_nat (- n) else str_of_nat n.
(** str(frac) *)
Definition str_of_frac (f : Qc) : str :=
  if denom f =? 1 then str_of_Z (numer f)
  else str_of_Z (numer f) ++ [slash] ++ str_of_Z (denom f).

(** the digit loop of src/utils/fractions.py:48-53 *)
Fixpoint decimals (m : nat) (part den : Z) : str :=
  match m with
  | O => []
  | S m => str_of_Z (part * 10 / den) ++ decimals m ((part * 10) mod den) den
  end.
(** one entry of src/utils/fractions.py:36-59, without its multiplier *)
Definition format_one (f : Qc) : res str :=
  do (terminating, m) <- decimal_representation_info f;
  let plain := replace_char slash big_solidus (str_of_frac f) in
  match m with
  | None => Ok plain
  | Some m =>
      if m =? 0 then Ok plain
      else if terminating
           then Ok (str_of_Z (numer f / denom f) ++ [dot_char]
                    ++ decimals (Z.to_nat m) (Z.abs (numer f) mod denom f) (denom f))
           else Ok plain
  end.
(** with_count, src/utils/fractions.py:33-34 *)
Definition with_count (count : nat) (s : str) : str :=
  if (1 <? count)%nat then str_of_Z (Z.of_nat count) ++ [letter_x; space] ++ s else s.
(** ' '.join *)
Fixpoint join_space (l : list str) : str :=
  match l with
  | [] => []
  | [s] => s
  | s :: r => s ++ [space] ++ join_space r
  end.
Fixpoint map_res {A B} (f : A -> res B) (l : list A) : res (list B) :=
  match l with
  | [] => Ok []
  | x :: r => do y <- f x; do ys <- map_res f r; Ok (y :: ys)
  end.
(** src/utils/fractions.py:23-87 format_fractions *)
Definition format_fractions (fs : list Qc) : res str :=
  do out <- map_res (fun p => do s <- format_one (fst p); Ok (with_count (snd p) s))
              (counter frac_eqb fs);
  Ok (join_space out).

(** ** Parsing *)
Definition is_digit (c : Z) : bool := (48 <=? c) && (c <=? 57).
(** str.isspace on one code point *)
Definition is_space (c : Z) : bool :=
  ((9 <=? c) && (c <=? 13)) || ((28 <=? c) && (c <=? 32)) || (c =? 133) || (c =? 160)
  || (c =? 5760) || ((8192 <=? c) && (c <=? 8202)) || (c =? 8232) || (c =? 8233)
  || (c =? 8239) || (c =? 8287) || (c =? 12288).

(** the digits of an int literal: groups of digits separated by single
    underscores; [after] says that the previous character was a digit *)
Fixpoint int_digits (s : str) (acc : Z) (after : bool) : res Z :=
  match s with
  | [] => if after then Ok acc else Err ValueError
  | c :: r =>
      if is_digit c then int_digits r (acc * 10 + (c - 48)) true
      else if (c =? underscore) && after then int_digits r acc false
      else Err ValueError
  end.
(** int(s).  Simplification: surrounding white space, which int() would strip,
    never reaches it (its arguments come from split()) and is rejected. *)
Definition int_of_str (s : str) : res Z :=
  match s with
  | c :: r =>
      if c =? minus_sign then do v <- int_digits r 0 false; Ok (- v)
      else if c =? plus_sign then int_digits r 0 false
      else int_digits s 0 false
  | [] => Err ValueError
  end.

(** greedy run of digits *)
Fixpoint span_digits (s : str) : str * str :=
  match s with
  | c :: r => if is_digit c then let (a, b) := span_digits r in (c :: a, b) else ([], s)
  | [] => ([], [])
  end.
(** src/utils/fractions.py:89-95 parse_decimal: re.match, at the start of the
    string, of: digits (group w), a dot, digits (group f), and optionally a
    parenthesised non-empty run of digits (group r).  Greedy matching
    without backtracking is exact here: a digit is neither '.' nor '('. *)
Definition parse_decimal (s : str) : res (Z * str * str) :=
  let (w, s1) := span_digits s in
  match s1 with
  | c :: s2 =>
      if c =? dot_char then
        let (f, s3) := span_digits s2 in
        let r :=
          match s3 with
          | c3 :: s4 =>
              if c3 =? lparen then
                match span_digits s4 with
                | (r, c5 :: _) => if (c5 =? rparen) && negb (length r =? 0)%nat then r else []
                | _ => []
                end
              else []
          | [] => []
          end in
        do w <- (match w with [] => Ok 0 | _ => int_of_str w end);
        Ok (w, f, r)
      else Err ValueError
  | [] => Err ValueError
  end.

(** s.split(c) for a one-character separator *)
Fixpoint split_char (c : Z) (s : str) : list str :=
  match s with
  | [] => [[]]
  | d :: r => if d =? c then [] :: split_char c r
              else match split_char c r with
                   | f :: fs => (d :: f) :: fs
                   | [] => [[d]]
                   end
  end.
Definition str_mem (c : Z) (s : str) : bool := existsb (Z.eqb c) s.

(** Fraction + Fraction is exact addition *)
(** src/utils/fractions.py:97-110 parse_fraction *)
Definition parse_slash (c : Z) (s : str) : res Qc :=
  match split_char c s with
  | [a; b] => do n <- int_of_str a; do d <- int_of_str b; mkfrac n d
  | _ => Err ValueError
  end.
Definition parse_fraction (s : str) : res Qc :=
  if str_mem slash s then parse_slash slash s
  else if str_mem big_solidus s then parse_slash big_solidus s
  else if negb (str_mem dot_char s) then do n <- int_of_str s; Ok (frac_of_Z n)
  else
    do (wf, r) <- parse_decimal s;
    let (w, f) := wf in
    let f_len := Z.of_nat (length f) in
    let v := frac_of_Z w in
    do v <- (match f with
             | [] => Ok v
             | _ => do n <- int_of_str f; do q <- mkfrac n (10 ^ f_len); Ok (v + q)%Qc
             end);
    match r with
    | [] => Ok v
    | _ => do n <- int_of_str r;
           do q <- mkfrac n (10 ^ f_len * (10 ^ Z.of_nat (length r) - 1)); Ok (v + q)%Qc
    end.

(** s.split(): maximal runs of non-space characters.  (The strip() before it in
    src/utils/solver.py:25-26 does not change the result and is omitted.) *)
Fixpoint split_ws_loop (s : str) (cur : str) : list str :=
  match s with
  | [] => match cur with [] => [] | _ => [rev cur] end
  | c :: r => if is_space c
              then match cur with [] => split_ws_loop r [] | _ => rev cur :: split_ws_loop r [] end
              else split_ws_loop r (c :: cur)
  end.
Definition split_ws (s : str) : list str := split_ws_loop s [].

(** s.split("to") *)
Fixpoint split_to_loop (s : str) (cur : str) : list str :=
  match s with
  | [] => [rev cur]
  | c :: r =>
      match r with
      | d :: r' => if (c =? letter_t) && (d =? letter_o) then rev cur :: split_to_loop r' []
                   else split_to_loop r (c :: cur)
      | [] => [rev (c :: cur)]
      end
  end.
Definition split_to (s : str) : list str := split_to_loop s [].

(** s.endswith('x'), s[:-1] *)
Definition ends_with_x (s : str) : bool := last s 0 =? letter_x.
Definition all_digits (s : str) : bool := negb (length s =? 0)%nat && forallb is_digit s.

(** the two argument loops, src/utils/solver.py:35-50 and 52-70; [target] tells
    them apart: a trailing Nx raises IndexError on the source side and returns
    (None, None) on the target side.  [None] is that early return. *)
Fixpoint parse_args (target : bool) (args : list str) : res (option (list Qc)) :=
  match args with
  | [] => Ok (Some [])
  | a :: rest =>
      if negb (ends_with_x a) then
        do v <- parse_fraction a;
        do vs <- parse_args target rest;
        Ok (option_map (cons v) vs)
      else if (length a <? 2)%nat || negb (all_digits (removelast a)) then Ok None
      else
        do k <- int_of_str (removelast a);
        match rest with
        | [] => if target then Ok None else Err IndexError
        | b :: rest' =>
            do v <- parse_fraction b;
            do vs <- parse_args target rest';
            Ok (option_map (app (repeat v (Z.to_nat k))) vs)
        end
  end.
(** src/utils/solver.py:17-73 parse_user_input; None stands for (None, None) *)
Definition parse_user_input (s : str) : res (option (list Qc * list Qc)) :=
  if (length (split_char space s) <? 3)%nat || (length (split_to s) =? 1)%nat
  then Ok (Some ([], []))
  else
    match split_to s with
    | [a; b] =>
        let source_args := split_ws a in
        let target_args := split_ws b in
        match source_args, target_args with
        | [], _ => Ok None
        | _, [] => Ok None
        | _, _ =>
            do srcs <- parse_args false source_args;
            match srcs with
            | None => Ok None
            | Some srcs =>
                do tgts <- parse_args true target_args;
                Ok (option_map (fun t => (srcs, t)) tgts)
            end
        end
    | _ => Err ValueError
    end.
