(** Text representation of double values: printf with "%24.16E" (as used by
    strpr, utility.cpp:90-102) and atof.

    Both are library functions, modelled after the C standard with correct
    rounding (IEC 60559, as in glibc): the text is the exact value rounded to the
    given number of digits (ties to even), reading rounds the exact decimal value
    to the nearest double.  Values are real numbers; infinities, NaN, hexadecimal
    numbers, overflow in atof and negative zero are left out. *)
From Coq Require Import Reals ZArith List Ascii String Bool Arith.
From Flocq Require Import Core.
From Coq Require Import List.
From Verif Require Import Model.Strings.
Import ListNotations.
Local Open Scope R_scope.

Definition radix10 : radix := Build_radix 10 eq_refl.

(** ** Output *)
Definition digit (z : Z) : ascii := ascii_of_nat (48 + Z.to_nat z).
(** The last k decimal digits of z. *)
Fixpoint decimals (k : nat) (z : Z) : str :=
  match k with O => [] | S k => decimals k (z / 10) ++ [digit (z mod 10)] end.
(** Mantissa (as integer of prec+1 digits) and decimal exponent of |v|. *)
Definition sci (prec : nat) (v : R) : Z * Z :=
  if Req_EM_T v 0 then (0, 0)%Z
  else
    let e := (mag radix10 v - 1)%Z in
    let m := ZnearestE (Rabs v * bpow radix10 (Z.of_nat prec - e)) in
    if Z.eqb m (10 ^ (Z.of_nat prec + 1)) then (10 ^ Z.of_nat prec, e + 1)%Z else (m, e).
(** Exponents have at least two digits; those of double values at most three. *)
Definition exponent_text (e : Z) : str :=
  (if Z.ltb e 0 then lit "-" else lit "+") ++ decimals (if Z.ltb (Z.abs e) 100 then 2 else 3) (Z.abs e).
(** Conversion %.precE (prec > 0). *)
Definition print_E (prec : nat) (v : R) : str :=
  let (m, e) := sci prec v in
  (if Rlt_dec v 0 then lit "-" else []) ++
  decimals 1 (m / 10 ^ Z.of_nat prec) ++ lit "." ++ decimals prec m ++ lit "E" ++ exponent_text e.
(** Conversion %24.16E. *)
Definition fmt24 (v : R) : str := pad (print_E 16 v) 24 ch_space false.
(** Conversion %2s. *)
Definition fmt2s (s : str) : str := pad s 2 ch_space false.

(** std::string::c_str() as seen by printf: up to the first NUL. *)
Definition ch_nul : ascii := ascii_of_nat 0.
Fixpoint c_str (s : str) : str :=
  match s with [] => [] | c :: r => if ch_eqb c ch_nul then [] else c :: c_str r end.
(** utility.cpp:90-102 strpr: vsprintf into a buffer of 1024 characters
    ([None] = buffer overflow), given the formatted text. *)
Definition strpr (text : str) : option str := if Nat.ltb (List.length text) 1024 then Some text else None.

(** ** Input *)
Definition is_digit (c : ascii) : bool := (Nat.leb 48 (nat_of_ascii c) && Nat.leb (nat_of_ascii c) 57)%bool.
Definition digit_value (c : ascii) : Z := Z.of_nat (nat_of_ascii c) - 48.
(** Leading digits appended to [acc]: value, number of digits, remaining text. *)
Fixpoint scan_digits (s : str) (acc : Z) : Z * nat * str :=
  match s with
  | c :: r => if is_digit c then let '(v, n, t) := scan_digits r (10 * acc + digit_value c) in (v, S n, t) else (acc, 0%nat, s)
  | [] => (acc, 0%nat, [])
  end.
Definition scan_sign (s : str) : bool * str :=
  match s with
  | c :: r => if ch_eqb c "-"%char then (true, r) else if ch_eqb c "+"%char then (false, r) else (false, s)
  | [] => (false, [])
  end.
Definition scan_exponent (s : str) : Z :=
  match s with
  | c :: r =>
    if (ch_eqb c "E"%char || ch_eqb c "e"%char)%bool then
      let (neg, r) := scan_sign r in
      let '(v, n, _) := scan_digits r 0 in
      if Nat.eqb n 0 then 0%Z else if neg then (- v)%Z else v
    else 0%Z
  | [] => 0%Z
  end.
Definition is_space (c : ascii) : bool := (ch_eqb c ch_space || (Nat.leb 9 (nat_of_ascii c) && Nat.leb (nat_of_ascii c) 13))%bool.
Fixpoint skip_space (s : str) : str :=
  match s with c :: r => if is_space c then skip_space r else s | [] => [] end.
(** Exact value of the longest numeric prefix (0 if there is none). *)
Definition decimal_value (s : str) : R :=
  let (neg, s) := scan_sign (skip_space s) in
  let '(a, n1, s) := scan_digits s 0 in
  let '(m, n2, s) := match s with
                     | c :: r => if ch_eqb c "."%char then scan_digits r a else (a, 0%nat, s)
                     | [] => (a, 0%nat, s)
                     end in
  if Nat.eqb (n1 + n2) 0 then 0
  else (if neg then -1 else 1) * IZR m * bpow radix10 (scan_exponent s - Z.of_nat n2).
Definition round64 (x : R) : R := round radix2 (FLT_exp (-1074) 53) ZnearestE x.
Definition atof (s : str) : R := round64 (decimal_value s).
