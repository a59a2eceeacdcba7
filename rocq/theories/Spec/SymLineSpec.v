(** What the symfunction_short lines of a settings file mean (C72, C73),
    following the tables in the headers SymFncExpRad.h, SymFncExpAngn.h, ...,
    SymFncCompAngwWeighted.h.  Words are counted from 0, further words are
    ignored. *)
From Coq Require Import Reals ZArith Ascii String Bool Arith Permutation.
From Flocq Require Import Core.
From Coq Require Import List.
From Verif Require Import Model.Strings Model.Printf Model.ElementMap Model.CoreFunction Model.CutoffFunction
  Model.CompactScreening Model.Scaling Model.SymFunctions Model.SymSetup Model.SymLines Spec.StringSpec Spec.ElementSpec Spec.CompactSpec Spec.SymSpec.
Import ListNotations.
Local Open Scope R_scope.

(** The i-th word, as text, as number, as symbol of a registered element, as
    type number. *)
Definition word (ws : list str) (i : nat) (w : str) : Prop := nth_error ws i = Some w.
Definition num (ws : list str) (i : nat) (x : R) : Prop := exists w, word ws i w /\ x = atof w.
Definition elt (em : element_map) (ws : list str) (i e : nat) : Prop := exists w, word ws i w /\ em_index em w = Some e.
Definition type_no (ws : list str) (i : nat) (n : Z) : Prop := exists w, word ws i w /\ atoi w = Done n.

(** Subtypes of the compact types.  Documented are "e", "pN" and "pNa"; all
    texts of up to three characters beginning with e are accepted. *)
Inductive subtype : str -> core_kind -> bool -> Prop :=
| st_p1 : subtype (lit "p1") CK_POLY1 false
| st_p2 : subtype (lit "p2") CK_POLY2 false
| st_p3 : subtype (lit "p3") CK_POLY3 false
| st_p4 : subtype (lit "p4") CK_POLY4 false
| st_p1a : subtype (lit "p1a") CK_POLY1 true
| st_p2a : subtype (lit "p2a") CK_POLY2 true
| st_p3a : subtype (lit "p3a") CK_POLY3 true
| st_p4a : subtype (lit "p4a") CK_POLY4 true
| st_e rest : (List.length rest <= 2)%nat -> subtype ("e"%char :: rest) CK_EXP false.

(** Angles in degrees. *)
Definition degrees (x : R) : R := x * PI / 180.
Definition window (l r : R) : Prop := l < r /\ r - l <= 360 /\ (0 <= l \/ l + r = 0) /\ (r <= 180 \/ l + r = 360).

(** The members zetaInt (rounded, halves away from zero) and useIntegerPow. *)
Definition exponent (zeta : R) (zi : Z) (use : bool) : Prop :=
  zi = ZnearestA zeta /\ (- 2 ^ 31 <= zi < 2 ^ 31)%Z /\ (use = true <-> Rabs (zeta - IZR zi) <= dbl_min).

Section Documented.
  Variables (em : element_map) (t : cutoff_kind) (alpha : R).

  (** The function of type [n] described by the words [ws]. *)
  Inductive documented_kind (ws : list str) : Z -> kind -> Prop :=
  | doc_ExpRad e1 eta rs rc fc :
      elt em ws 2 e1 -> num ws 3 eta -> num ws 4 rs -> num ws 5 rc -> cf_configure t rc alpha = Some fc ->
      documented_kind ws 2 (ExpRad (mkER e1 eta rs rc fc))
  | doc_ExpRadWeighted eta rs rc fc :
      num ws 2 eta -> num ws 3 rs -> num ws 4 rc -> cf_configure t rc alpha = Some fc ->
      documented_kind ws 12 (ExpRadWeighted (mkER 0 eta rs rc fc))
  | doc_ExpAngn e1 e2 eta lambda zeta rc rs zi use fc :
      elt em ws 2 e1 -> elt em ws 3 e2 -> num ws 4 eta -> num ws 5 lambda -> num ws 6 zeta -> num ws 7 rc ->
      (num ws 8 rs \/ (List.length ws <= 8)%nat /\ rs = 0) -> cf_configure t rc alpha = Some fc -> exponent zeta zi use ->
      documented_kind ws 3 (ExpAngn (mkEA (Nat.min e1 e2) (Nat.max e1 e2) eta rs lambda zeta zi use rc fc))
  | doc_ExpAngw e1 e2 eta lambda zeta rc rs zi use fc :
      elt em ws 2 e1 -> elt em ws 3 e2 -> num ws 4 eta -> num ws 5 lambda -> num ws 6 zeta -> num ws 7 rc ->
      (num ws 8 rs \/ (List.length ws <= 8)%nat /\ rs = 0) -> cf_configure t rc alpha = Some fc -> exponent zeta zi use ->
      documented_kind ws 9 (ExpAngw (mkEA (Nat.min e1 e2) (Nat.max e1 e2) eta rs lambda zeta zi use rc fc))
  | doc_ExpAngnWeighted eta rs lambda zeta rc zi use fc :
      num ws 2 eta -> num ws 3 rs -> num ws 4 lambda -> num ws 5 zeta -> num ws 6 rc ->
      cf_configure t rc alpha = Some fc -> exponent zeta zi use ->
      documented_kind ws 13 (ExpAngnWeighted (mkEA 0 0 eta rs lambda zeta zi use rc fc))
  | doc_CompRad e1 rl rc s k asym c :
      elt em ws 2 e1 -> num ws 3 rl -> num ws 4 rc -> word ws 5 s -> subtype s k asym ->
      compact_config k asym rl rc = Some c ->
      documented_kind ws 20 (CompRad (mkCR e1 rl rc c))
  | doc_CompRadWeighted rl rc s k asym c :
      num ws 2 rl -> num ws 3 rc -> word ws 4 s -> subtype s k asym ->
      compact_config k asym rl rc = Some c ->
      documented_kind ws 23 (CompRadWeighted (mkCR 0 rl rc c))
  | doc_CompAngn e1 e2 rl rc l r s k asym c a :
      elt em ws 2 e1 -> elt em ws 3 e2 -> num ws 4 rl -> num ws 5 rc -> num ws 6 l -> num ws 7 r -> word ws 8 s ->
      subtype s k asym -> window l r ->
      compact_config k asym rl rc = Some c -> compact_config k false (degrees l) (degrees r) = Some a ->
      documented_kind ws 21 (CompAngn (mkCA (Nat.min e1 e2) (Nat.max e1 e2) rl rc (degrees l) (degrees r) c a))
  | doc_CompAngw e1 e2 rl rc l r s k asym c a :
      elt em ws 2 e1 -> elt em ws 3 e2 -> num ws 4 rl -> num ws 5 rc -> num ws 6 l -> num ws 7 r -> word ws 8 s ->
      subtype s k asym -> window l r ->
      compact_config k asym rl rc = Some c -> compact_config k false (degrees l) (degrees r) = Some a ->
      documented_kind ws 22 (CompAngw (mkCA (Nat.min e1 e2) (Nat.max e1 e2) rl rc (degrees l) (degrees r) c a))
  | doc_CompAngnWeighted rl rc l r s k asym c a :
      num ws 2 rl -> num ws 3 rc -> num ws 4 l -> num ws 5 r -> word ws 6 s ->
      subtype s k asym -> window l r ->
      compact_config k asym rl rc = Some c -> compact_config k false (degrees l) (degrees r) = Some a ->
      documented_kind ws 24 (CompAngnWeighted (mkCA 0 0 rl rc (degrees l) (degrees r) c a))
  | doc_CompAngwWeighted rl rc l r s k asym c a :
      num ws 2 rl -> num ws 3 rc -> num ws 4 l -> num ws 5 r -> word ws 6 s ->
      subtype s k asym -> window l r ->
      compact_config k asym rl rc = Some c -> compact_config k false (degrees l) (degrees r) = Some a ->
      documented_kind ws 25 (CompAngwWeighted (mkCA 0 0 rl rc (degrees l) (degrees r) c a)).

  (** The text [line] asks for the function [k] for atoms of element [ec]. *)
  Definition describes (line : str) (ec : nat) (k : kind) : Prop :=
    exists ws n, is_words line ws /\ elt em ws 0 ec /\ type_no ws 1 n /\ documented_kind ws n k.
End Documented.

(** The function in the unit of length used internally. *)
Definition in_unit (normalize : bool) (conv : R) (k k' : kind) : Prop :=
  if normalize then changeLengthUnit conv k = Some k' else k' = k.
(** Just constructed apart from index and kind: no scaling, no cache. *)
Definition untouched (f : symfnc) : Prop :=
  sf_ci (sf_c f) = sf_ci new_common /\ sf_scaling (sf_c f) = sf_scaling new_common.

(** Parameters for which the functions are what their formula says: positive
    cutoff radius, exponent zeta not above 2^30 and not below the smallest
    normal double (other than 0). *)
Definition ordinary_exponent (zeta : R) : Prop := (zeta = 0 \/ dbl_min < Rabs zeta) /\ Rabs zeta < 2 ^ 30.
Definition ordinary (k : kind) : Prop :=
  match k with
  | ExpRad p | ExpRadWeighted p => 0 < er_rc p
  | ExpAngn p | ExpAngw p | ExpAngnWeighted p => 0 < ea_rc p /\ ordinary_exponent (ea_zeta p)
  | _ => True
  end.

(** A list of distinct symbols was registered. *)
Definition registered (em : element_map) : Prop := exists line ws, is_words line ws /\ NoDup ws /\
  (forall s, In s ws -> exists z, element_Z s z) /\ registerElements em_init line = Some (em, List.length ws).

(** The function [f] was made from the settings line [v] (text, line number). *)
Definition made_from (em : element_map) (normalize : bool) (conv : R) (t : cutoff_kind) (alpha : R)
  (v : str * nat) (f : linefn) : Prop :=
  lf_line f = snd v /\ untouched (lf_sf f) /\
  exists k, describes em t alpha (fst v) (lf_ec f) k /\ in_unit normalize conv k (lf_kind f).

(** ** Pruning (C73) *)
(** The same functions, possibly with other scaling data (ranges). *)
Definition same_functions (fss elements : list (list linefn)) : Prop :=
  Forall2 (Forall2 (fun f g => lf_line g = lf_line f /\ lf_kind g = lf_kind f)) fss elements.
(** The range of the values seen is at least the threshold. *)
Definition wide (threshold : R) (f : linefn) : bool :=
  if Rle_dec threshold (Rabs (s_Gmax (sf_scaling (sf_c (lf_sf f))) - s_Gmin (sf_scaling (sf_c (lf_sf f))))) then true else false.
(** The functions of element [e] with sensitivity at least the threshold. *)
Definition sensitive (threshold : R) (sensitivity : list (list R)) (e : nat) (fs : list linefn) : list linefn :=
  map snd (filter (fun x => if Rle_dec threshold (fst x) then true else false) (List.combine (nth e sensitivity []) fs)).
