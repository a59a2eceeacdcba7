(** Model of the string utilities in src/libnnp/utility.{h,cpp} and of pow_int.
    std::string is a list of characters [str]; positions are [nat];
    std::string::npos is [None]. *)
From Coq Require Import List Ascii String NArith ZArith Reals Bool.
Import ListNotations.

Definition str := list ascii.
(** Literal helper. *)
Definition lit (s : string) : str := list_ascii_of_string s.

Definition ch_eqb (a b : ascii) : bool := Ascii.eqb a b.
Definition str_eqb (a b : str) : bool := if list_eq_dec ascii_dec a b then true else false.

(** Membership in a character set given as a string. *)
Definition in_set (ws : str) (c : ascii) : bool := existsb (ch_eqb c) ws.

(** Position of the first character at or after [pos] satisfying [p]
    (std::string::find_first_of / find_first_not_of). *)
Fixpoint find_from (p : ascii -> bool) (s : str) (i : nat) (pos : nat) : option nat :=
  match s with
  | [] => None
  | c :: s' => if (Nat.leb pos i && p c)%bool then Some i else find_from p s' (S i) pos
  end.
Definition find_first_of (ws s : str) (pos : nat) := find_from (in_set ws) s 0 pos.
Definition find_first_not_of (ws s : str) (pos : nat) :=
  find_from (fun c => negb (in_set ws c)) s 0 pos.

(** std::string::find_last_not_of. *)
Fixpoint find_last_not_of_aux (ws s : str) (i : nat) (best : option nat) : option nat :=
  match s with
  | [] => best
  | c :: s' => find_last_not_of_aux ws s' (S i) (if in_set ws c then best else Some i)
  end.
Definition find_last_not_of (ws s : str) := find_last_not_of_aux ws s 0 None.

(** std::string::substr(pos, len), std::string::replace(pos, len, fill). *)
Definition substr (s : str) (pos len : nat) : str := firstn len (skipn pos s).
Definition replace_at (s : str) (pos len : nat) (fill : str) : str :=
  firstn pos s ++ fill ++ skipn (pos + len) s.

(** utility.cpp:33-45 split: std::getline(ss, item, delimiter) until failure.
    [acc] is the item being read (reversed); at the end of the stream an item is
    delivered only if at least one character was extracted. *)
Fixpoint split_go (d : ascii) (acc : str) (s : str) : list str :=
  match s with
  | [] => match acc with [] => [] | _ => [rev acc] end
  | c :: s' => if ch_eqb c d then rev acc :: split_go d [] s'
               else split_go d (c :: acc) s'
  end.
Definition split (s : str) (d : ascii) : list str := split_go d [] s.

(** utility.cpp:47-58 trim. *)
Definition trim (line ws : str) : str :=
  match find_first_not_of ws line 0 with
  | None => []
  | Some b => match find_last_not_of ws line with
              | None => [] (* unreachable: a first position exists *)
              | Some e => substr line b (e - b + 1)
              end
  end.

(** utility.cpp:66-74, the while loop of reduce.  Each iteration consumes at
    least one character, so the length of the string is enough fuel
    ([reduce_fuel] in the proofs); [None] models running out of it.  When
    find_first_not_of returns npos the range is [npos - begin] and replace
    removes everything up to the end. *)
Fixpoint reduce_loop (fuel : nat) (ws fill : str) (result : str) (begin : option nat)
  : option str :=
  match begin with
  | None => Some result
  | Some b =>
      match fuel with
      | O => None
      | S k =>
          let range := match find_first_not_of ws result b with
                       | Some e => e - b
                       | None => List.length result - b
                       end in
          let result := replace_at result b range fill in
          let newBegin := b + List.length fill in
          reduce_loop k ws fill result (find_first_of ws result newBegin)
      end
  end.

(** utility.cpp:60-77 reduce. *)
Definition reduce_opt (line ws fill : str) : option str :=
  let result := trim line ws in
  reduce_loop (S (List.length result)) ws fill result (find_first_of ws result 0).

(** utility.h:49, 61-62 default arguments. *)
Definition ch_space : ascii := " "%char.
Definition ch_tab : ascii := ascii_of_nat 9.
Definition ch_lf : ascii := ascii_of_nat 10.
Definition ch_cr : ascii := ascii_of_nat 13.
Definition ws_default : str := [ch_space; ch_tab].
Definition fill_default : str := [ch_space].

(** reduce with default arguments; the fuel never runs out (proved). *)
Definition reduce (line : str) : str :=
  match reduce_opt line ws_default fill_default with Some r => r | None => [] end.

(** utility.cpp:79-88 pad. *)
Definition pad (input : str) (num : nat) (fill : ascii) (right : bool) : str :=
  if Nat.leb num (List.length input) then input
  else let p := repeat fill (num - List.length input) in
       if right then input ++ p else p ++ input.

(** utility.cpp:292-317 pow_int.  [int]/[unsigned int] have 32 bits, hence the
    do-while loop runs at most 32 times; [None] would mean it did not stop.
    The loop body is executed before the test as in the code. *)
Fixpoint pow_loop (fuel : nat) (m : N) (x result : R) : option R :=
  match fuel with
  | O => None
  | S k =>
      let result := if N.odd m then (result * x)%R else result in
      let m := N.div2 m in
      let x := (x * x)%R in
      if N.eqb m 0 then Some result else pow_loop k m x result
  end.

Definition pow_int (x : R) (n : Z) : option R :=
  let x' := if Z.ltb n 0 then (1 / x)%R else x in
  let m := if Z.ltb n 0 then Z.to_N (- n) else Z.to_N n in
  pow_loop 32 m x' 1%R.
