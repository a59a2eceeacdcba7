(** Properties C05, C06: integer power, tokenisation. *)
From Coq Require Import String List Ascii ZArith Reals Lia.
From Verif Require Import Model.Strings Spec.StringSpec Proofs.StringProofs.
Import ListNotations.

(** ** C05 *)
(** All exponents an [int] can hold except INT_MIN (whose negation overflows). *)
Theorem C05_pow_int : forall (x : R) (n : Z),
  (- 2 ^ 31 < n < 2 ^ 31)%Z -> (n < 0 -> x <> 0%R)%Z -> pow_int x n = Some (powerRZ x n).
Proof. exact pow_int_spec. Qed.
Print Assumptions C05_pow_int.

Example C05_nonvacuous : (- 2 ^ 31 < -13 < 2 ^ 31)%Z /\ (-13 < 0 -> (3 <> 0)%R)%Z.
Proof. split; [lia | intros _; discrR]. Qed.

(** ** C06 *)
(** The token list of a string exists and is unique. *)
Theorem C06_tokens_exist_unique : forall s, exists ! ws, is_words s ws.
Proof. exact words_exist_unique. Qed.
Print Assumptions C06_tokens_exist_unique.

Theorem C06_reduce_tokens : forall s ws, is_words s ws ->
  reduce_opt s ws_default fill_default = Some (join [ch_space] ws) /\
  reduce s = join [ch_space] ws /\
  is_words (reduce s) ws.
Proof. exact reduce_tokens. Qed.
Print Assumptions C06_reduce_tokens.

Theorem C06_split_reduce_tokens : forall s ws, is_words s ws -> split (reduce s) ch_space = ws.
Proof. exact split_reduce_tokens. Qed.
Print Assumptions C06_split_reduce_tokens.

Theorem C06_reduce_idempotent : forall s, reduce (reduce s) = reduce s.
Proof. exact reduce_idempotent. Qed.
Print Assumptions C06_reduce_idempotent.

Theorem C06_split_lossless : forall s d,
  (join [d] (split s d) = s \/ join [d] (split s d) ++ [d] = s) /\
  (forall w, In w (split s d) -> ~ In d w).
Proof. exact split_lossless. Qed.
Print Assumptions C06_split_lossless.

Theorem C06_split_inverts_join : forall d ws,
  ws <> [] -> (forall w, In w ws -> ~ In d w) -> last ws [] <> [] -> split (join [d] ws) d = ws.
Proof. exact split_join. Qed.
Print Assumptions C06_split_inverts_join.

(** Padding keeps the text, on the requested side, and reaches the width. *)
Theorem C06_pad_fills : forall s n c (b : bool), exists p, (forall x, In x p -> x = c) /\
  pad s n c b = (if b then s ++ p else p ++ s) /\ length (pad s n c b) = Nat.max n (length s).
Proof. exact pad_shape. Qed.
Print Assumptions C06_pad_fills.

Example C06_nonvacuous : is_words (lit "  elements   H O ") [lit "elements"; lit "H"; lit "O"].
Proof. apply is_words_iff. reflexivity. Qed.
