(** Model of the way from the settings file to the symmetry functions of each
    element (src/libnnp): Mode::setupCutoff, Mode::setupSymmetryFunctions,
    Element::addSymmetryFunction, the setParameters functions of the eleven
    types, their operator<, Element::setCutoffFunction, and the selection of
    functions to be pruned.

    Numbers in the text are read with [atof] of Model/Printf.v.  The type check
    at the start of each setParameters compares with the type the object was
    just created for and is left out. *)
From Coq Require Import Reals ZArith Ascii String Bool Arith.
From Flocq Require Import Core.
From Coq Require Import List.
From Verif Require Import Base.AssocMap Model.Strings Model.Printf Model.ElementMap Model.CoreFunction
  Model.CutoffFunction Model.CompactScreening Model.Scaling Model.SymFunctions Model.SymSetup.
Import ListNotations.
Local Open Scope R_scope.

(** Outcome of a call: normal return, exception, undefined behaviour. *)
Inductive outcome (A : Type) := Done (a : A) | Thrown | Undefined.
Arguments Done {A} a. Arguments Thrown {A}. Arguments Undefined {A}.
Definition bindo {A B} (x : outcome A) (f : A -> outcome B) : outcome B :=
  match x with Done a => f a | Thrown => Thrown | Undefined => Undefined end.
Definition throwing {A} (x : option A) : outcome A := match x with Some a => Done a | None => Thrown end.
Notation "x <- e ; f" := (bindo e (fun x => f)) (at level 61, e at next level, right associativity).
(** for (x : l) s = f(x, s). *)
Fixpoint foldo {A S} (f : A -> S -> outcome S) (l : list A) (s : S) : outcome S :=
  match l with [] => Done s | x :: l => s <- f x s; foldo f l s end.
Fixpoint mapo {A B} (f : A -> outcome B) (l : list A) : outcome (list B) :=
  match l with [] => Done [] | x :: l => y <- f x; ys <- mapo f l; Done (y :: ys) end.

(** C library atoi; a value outside int is undefined behaviour (C11 7.22.1). *)
Definition in_int (z : Z) : bool := (Z.leb (- 2 ^ 31) z && Z.ltb z (2 ^ 31))%bool.
Definition atoi (s : str) : outcome Z :=
  let (neg, s) := scan_sign (skip_space s) in
  let '(v, _, _) := scan_digits s 0 in
  let z := (if neg then - v else v)%Z in
  if in_int z then Done z else Undefined.

(** splitLine.at(i), atof(splitLine.at(i).c_str()), elementMap[splitLine.at(i)]. *)
Definition at_ (l : list str) (i : nat) : outcome str := throwing (nth_error l i).
Definition number_at (l : list str) (i : nat) : outcome R := w <- at_ l i; Done (atof w).
Definition element_at (em : element_map) (l : list str) (i : nat) : outcome nat := w <- at_ l i; throwing (em_index em w).

(** ** setParameters *)
(** fc.setCutoffRadius(rc); fc.setCutoffParameter(cutoffAlpha) with the initial
    cutoffAlpha = 0 (SymFncBaseCutoff.cpp:51-56). *)
Definition new_fc (rc : R) : outcome cutoff_function :=
  throwing (cf_setCutoffParameter 0 (cf_setCutoffRadius rc cf_init)).
(** SymFncExpRad.cpp:77-96. *)
Definition setParameters_ExpRad (em : element_map) (l : list str) : outcome kind :=
  e1 <- element_at em l 2; eta <- number_at l 3; rs <- number_at l 4; rc <- number_at l 5;
  fc <- new_fc rc; Done (ExpRad (mkER e1 eta rs rc fc)).
(** SymFncExpRadWeighted.cpp:74-92. *)
Definition setParameters_ExpRadWeighted (l : list str) : outcome kind :=
  eta <- number_at l 2; rs <- number_at l 3; rc <- number_at l 4;
  fc <- new_fc rc; Done (ExpRadWeighted (mkER 0 eta rs rc fc)).
(** SymFncBaseExpAng.cpp:82-90, SymFncExpAngnWeighted.cpp:106-114: zetaInt (an
    int) and useIntegerPow; numeric_limits<double>::min() = 2^-1022. *)
Definition numeric_min : R := / 2 ^ 1022.
Definition set_zeta (zeta : R) : outcome (Z * bool) :=
  let z := ZnearestA zeta in
  if in_int z then Done (z, leR (Rabs (zeta - IZR z)) numeric_min) else Undefined.
(** SymFncBaseExpAng.cpp:50-93; [mk] is the derived class. *)
Definition setParameters_ExpAng (mk : ea_par -> kind) (em : element_map) (l : list str) : outcome kind :=
  e1 <- element_at em l 2; e2 <- element_at em l 3;
  eta <- number_at l 4; lambda <- number_at l 5; zeta <- number_at l 6; rc <- number_at l 7;
  rs <- (if Nat.ltb 8 (List.length l) then number_at l 8 else Done 0);
  fc <- new_fc rc;
  let (e1, e2) := if Nat.ltb e2 e1 then (e2, e1) else (e1, e2) in
  zi <- set_zeta zeta;
  Done (mk (mkEA e1 e2 eta rs lambda zeta (fst zi) (snd zi) rc fc)).
(** SymFncExpAngnWeighted.cpp:87-117. *)
Definition setParameters_ExpAngnWeighted (l : list str) : outcome kind :=
  eta <- number_at l 2; rs <- number_at l 3; lambda <- number_at l 4; zeta <- number_at l 5; rc <- number_at l 6;
  fc <- new_fc rc;
  zi <- set_zeta zeta;
  Done (ExpAngnWeighted (mkEA 0 0 eta rs lambda zeta (fst zi) (snd zi) rc fc)).
(** SymFncBaseComp.cpp:39-90 setCompactFunction on a fresh [cr]
    (N2P2_NO_ASYM_POLY not defined). *)
Definition setCompactFunction (subtype : str) : outcome compact_function :=
  if Nat.ltb 3 (List.length subtype) then Thrown else
  match subtype with
  | [] => Thrown
  | c :: rest =>
    if ch_eqb c "p"%char then
      match rest with
      | [] => Thrown
      | d :: rest =>
        cr <- (if ch_eqb d "1"%char then Done (cp_setCoreFunction CK_POLY1 cp_init)
               else if ch_eqb d "2"%char then Done (cp_setCoreFunction CK_POLY2 cp_init)
               else if ch_eqb d "3"%char then Done (cp_setCoreFunction CK_POLY3 cp_init)
               else if ch_eqb d "4"%char then Done (cp_setCoreFunction CK_POLY4 cp_init)
               else Thrown);
        match rest with
        | [] => Done cr
        | a :: _ => if ch_eqb a "a"%char then Done (cp_setAsymmetric true cr) else Thrown
        end
      end
    else if ch_eqb c "e"%char then Done (cp_setCoreFunction CK_EXP cp_init)
    else Thrown
  end.
(** if (rl > rc) throw; setCompactFunction(subtype); cr.setLeftRight(rl, rc). *)
Definition set_radial (rl rc : R) (subtype : str) : outcome compact_function :=
  if ltR rc rl then Thrown else
  cr <- setCompactFunction subtype; throwing (cp_setLeftRight rl rc cr).
(** SymFncCompRad.cpp:69-99; the subtype is returned with the function. *)
Definition setParameters_CompRad (em : element_map) (l : list str) : outcome (str * kind) :=
  e1 <- element_at em l 2; rl <- number_at l 3; rc <- number_at l 4; subtype <- at_ l 5;
  cr <- set_radial rl rc subtype; Done (subtype, CompRad (mkCR e1 rl rc cr)).
(** SymFncCompRadWeighted.cpp:66-95. *)
Definition setParameters_CompRadWeighted (l : list str) : outcome (str * kind) :=
  rl <- number_at l 2; rc <- number_at l 3; subtype <- at_ l 4;
  cr <- set_radial rl rc subtype; Done (subtype, CompRadWeighted (mkCR 0 rl rc cr)).
(** SymFncBaseCompAng.cpp:83-113, SymFncBaseCompAngWeighted.cpp:70-100. *)
Definition set_angular (left right : R) (cr : compact_function) : outcome (R * R * compact_function) :=
  if leR right left then Thrown else
  let center := (left + right) / 2 in
  if ((ltR left 0 && negb (eqR center 0)) || (ltR 180 right && negb (eqR center 180)))%bool then Thrown else
  if ltR 360 (right - left) then Thrown else
  let ca := cp_setCoreFunction (core_type (cp_core cr)) cp_init in
  let l := left * PI / 180 in let r := right * PI / 180 in
  ca <- throwing (cp_setLeftRight l r ca);
  Done (l, r, ca).
(** SymFncBaseCompAng.cpp:48-114. *)
Definition setParameters_CompAng (mk : ca_par -> kind) (em : element_map) (l : list str) : outcome (str * kind) :=
  e1 <- element_at em l 2; e2 <- element_at em l 3;
  rl <- number_at l 4; rc <- number_at l 5; left <- number_at l 6; right <- number_at l 7; subtype <- at_ l 8;
  let (e1, e2) := if Nat.ltb e2 e1 then (e2, e1) else (e1, e2) in
  cr <- set_radial rl rc subtype;
  lra <- set_angular left right cr;
  let '(lrad, rrad, ca) := lra in
  Done (subtype, mk (mkCA e1 e2 rl rc lrad rrad cr ca)).
(** SymFncBaseCompAngWeighted.cpp:44-101. *)
Definition setParameters_CompAngWeighted (mk : ca_par -> kind) (l : list str) : outcome (str * kind) :=
  rl <- number_at l 2; rc <- number_at l 3; left <- number_at l 4; right <- number_at l 5; subtype <- at_ l 6;
  cr <- set_radial rl rc subtype;
  lra <- set_angular left right cr;
  let '(lrad, rrad, ca) := lra in
  Done (subtype, mk (mkCA 0 0 rl rc lrad rrad cr ca)).

(** ** Objects *)
(** A symmetry function with the members not in [symfnc]: ec, lineNumber and
    subtype (SymFnc.h, SymFncBaseCutoff.h, SymFncBaseComp.h). *)
Record linefn := mkLF { lf_ec : nat; lf_subtype : str; lf_line : nat; lf_sf : symfnc }.
Definition lf_kind (f : linefn) : kind := sf_kind (lf_sf f).
(** SymFnc.cpp: constructor (scaling members 0, factor 1, no cache indices).
    indexPerElement is SIZE_MAX before setupSymmetryFunctionMemory and not read;
    0 here. *)
Definition new_common : sf_common := mkCommon 0 (fun _ => 0%nat) (fun _ => []) (mkScaling ST_NONE 0 0 0 0 0 0 1).
(** SymFncBaseCutoff.cpp:51-56: initial subtype of the Gaussian types. *)
Definition gaussian (k : outcome kind) : outcome (str * kind) := k <- k; Done (lit "ct0", k).
(** Element.cpp:82-141 addSymmetryFunction: the function appended. *)
Definition newFunction (em : element_map) (parameters : str) (lineNumber : nat) : outcome linefn :=
  let args := split (reduce parameters) ch_space in
  w <- at_ args 1;
  type <- atoi w;
  sk <- (match type with
         | 2%Z => gaussian (setParameters_ExpRad em args)
         | 3%Z => gaussian (setParameters_ExpAng ExpAngn em args)
         | 9%Z => gaussian (setParameters_ExpAng ExpAngw em args)
         | 12%Z => gaussian (setParameters_ExpRadWeighted args)
         | 13%Z => gaussian (setParameters_ExpAngnWeighted args)
         | 20%Z => setParameters_CompRad em args
         | 21%Z => setParameters_CompAng CompAngn em args
         | 22%Z => setParameters_CompAng CompAngw em args
         | 23%Z => setParameters_CompRadWeighted args
         | 24%Z => setParameters_CompAngWeighted CompAngnWeighted args
         | 25%Z => setParameters_CompAngWeighted CompAngwWeighted args
         | _ => Thrown
         end);
  ec <- element_at em args 0;
  Done (mkLF ec (fst sk) lineNumber (mkSF new_common (snd sk))).

(** ** Order *)
(** std::string operator<. *)
Fixpoint str_lt (a b : str) : bool :=
  match a, b with
  | _, [] => false
  | [], _ :: _ => true
  | x :: a, y :: b => if Nat.ltb (nat_of_ascii x) (nat_of_ascii y) then true
                      else if Nat.ltb (nat_of_ascii y) (nat_of_ascii x) then false else str_lt a b
  end.
Definition is_gaussian (k : kind) : bool :=
  match k with ExpRad _ | ExpRadWeighted _ | ExpAngn _ | ExpAngw _ | ExpAngnWeighted _ => true | _ => false end.
(** operator< of the eleven classes (citations at [sort_key], Model/SymSetup.v):
    ec, type, for the compact types the text of the subtype, then numbers.  The
    numbers are those of [sort_key] without type and subtype. *)
Definition numbers (k : kind) : list R := if is_gaussian k then tl (sort_key k) else tl (tl (sort_key k)).
Definition lf_lt (f g : linefn) : bool :=
  if Nat.ltb (lf_ec f) (lf_ec g) then true else if Nat.ltb (lf_ec g) (lf_ec f) then false else
  let k := lf_kind f in let l := lf_kind g in
  if Nat.ltb (type_number k) (type_number l) then true else if Nat.ltb (type_number l) (type_number k) then false else
  if (negb (is_gaussian k) && str_lt (lf_subtype f) (lf_subtype g))%bool then true else
  if (negb (is_gaussian k) && str_lt (lf_subtype g) (lf_subtype f))%bool then false else
  lexlt (numbers k) (numbers l).
Definition with_index (i : nat) (f : linefn) : linefn := mkLF (lf_ec f) (lf_subtype f) (lf_line f) (set_index i (lf_sf f)).
(** Element.cpp:154-166 sortSymmetryFunctions; [sort] is std::sort with
    comparePointerTargets. *)
Definition sortLines (sort : list linefn -> list linefn) (fs : list linefn) : list linefn :=
  let fs := sort fs in
  map (fun x => with_index (fst x) (snd x)) (List.combine (seq 0 (List.length fs)) fs).

(** ** Length unit and cutoff *)
(** Element.cpp:143-152. *)
Definition changeUnit (conv : R) (f : linefn) : outcome linefn :=
  k <- throwing (changeLengthUnit conv (lf_kind f));
  Done (mkLF (lf_ec f) (lf_subtype f) (lf_line f) (mkSF (sf_c (lf_sf f)) k)).
(** SymFncBaseCutoff.cpp:38-49: fc.setCutoffType, fc.setCutoffParameter, new
    subtype; Element.cpp:328-342: only for the Gaussian types. *)
Definition set_fc (t : cutoff_kind) (alpha : R) (fc : cutoff_function) : option cutoff_function :=
  cf_setCutoffParameter alpha (cf_setCutoffType t fc).
Definition set_er (t : cutoff_kind) (alpha : R) (p : er_par) : option er_par :=
  option_map (mkER (er_e1 p) (er_eta p) (er_rs p) (er_rc p)) (set_fc t alpha (er_fc p)).
Definition set_ea (t : cutoff_kind) (alpha : R) (p : ea_par) : option ea_par :=
  option_map (mkEA (ea_e1 p) (ea_e2 p) (ea_eta p) (ea_rs p) (ea_lambda p) (ea_zeta p) (ea_zetaInt p)
                   (ea_useIntegerPow p) (ea_rc p)) (set_fc t alpha (ea_fc p)).
Definition set_cutoff (t : cutoff_kind) (alpha : R) (k : kind) : option kind :=
  match k with
  | ExpRad p => option_map ExpRad (set_er t alpha p)
  | ExpRadWeighted p => option_map ExpRadWeighted (set_er t alpha p)
  | ExpAngn p => option_map ExpAngn (set_ea t alpha p)
  | ExpAngw p => option_map ExpAngw (set_ea t alpha p)
  | ExpAngnWeighted p => option_map ExpAngnWeighted (set_ea t alpha p)
  | _ => Some k
  end.
Definition setCutoff (t : cutoff_kind) (alpha : R) (f : linefn) : outcome linefn :=
  k <- throwing (set_cutoff t alpha (lf_kind f));
  Done (mkLF (lf_ec f) (if is_gaussian (lf_kind f) then lit "ct" ++ [digit (Z.of_nat (cutoff_number t))] else lf_subtype f)
             (lf_line f) (mkSF (sf_c (lf_sf f)) k)).
(** SymFnc::getRc. *)
Definition radius (k : kind) : R :=
  match k with
  | ExpRad p | ExpRadWeighted p => er_rc p
  | ExpAngn p | ExpAngw p | ExpAngnWeighted p => ea_rc p
  | CompRad p | CompRadWeighted p => cr_rc p
  | CompAngn p | CompAngw p | CompAngnWeighted p | CompAngwWeighted p => ca_rc p
  end.
(** Element.cpp:415-426 getMaxCutoffRadius. *)
Definition getMaxCutoffRadius (fs : list linefn) : R := fold_left (fun m f => Rmax (radius (lf_kind f)) m) fs 0.

(** ** Mode *)
(** Mode.cpp:520-613 setupCutoff on the value of "cutoff_type" (already trimmed
    and reduced by Settings); cutoffAlpha is 0 before (Mode.cpp:45). *)
Definition cutoff_kinds : list cutoff_kind :=
  [CT_HARD; CT_COS; CT_TANHU; CT_TANH; CT_EXP; CT_POLY1; CT_POLY2; CT_POLY3; CT_POLY4].
Definition setupCutoff (value : str) : outcome (cutoff_kind * R) :=
  let args := split value ch_space in
  w <- at_ args 0;
  z <- atoi w;
  alpha <- (if Nat.ltb 1 (List.length args)
            then a <- number_at args 1; if (ltR 0 a && leR 1 a)%bool then Thrown else Done a
            else Done 0);
  t <- (if Z.ltb z 0 then Thrown else throwing (nth_error cutoff_kinds (Z.to_nat z)));
  Done (t, alpha).

(** Mode.cpp:622-630: the loop over the values of "symfunction_short";
    elements.at(element). *)
Definition addLine (em : element_map) (value : str * nat) (elements : list (list linefn)) : outcome (list (list linefn)) :=
  element <- element_at em (split (reduce (fst value)) ch_space) 0;
  fs <- throwing (nth_error elements element);
  f <- newFunction em (fst value) (snd value);
  Done (firstn element elements ++ (fs ++ [f]) :: skipn (S element) elements).
(** Mode.cpp:652-668: one element. *)
Definition finishElement (sort : list linefn -> list linefn) (normalize : bool) (conv : R) (t : cutoff_kind) (alpha : R)
  (fs : list linefn) : outcome (list linefn * R) :=
  fs <- (if normalize then mapo (changeUnit conv) fs else Done fs);
  let fs := sortLines sort fs in
  let r := getMaxCutoffRadius fs in
  fs <- mapo (setCutoff t alpha) fs;
  Done (fs, r).
(** Mode.cpp:615-690 setupSymmetryFunctions: the functions of each element and
    maxCutoffRadius.  minNeighbors, minCutoffRadius and the log are left out. *)
Definition setupSymmetryFunctions (sort : list linefn -> list linefn) (em : element_map) (normalize : bool) (conv : R)
  (t : cutoff_kind) (alpha : R) (values : list (str * nat)) : outcome (list (list linefn) * R) :=
  elements <- foldo (addLine em) values (repeat [] (em_size em));
  done <- mapo (finishElement sort normalize conv t alpha) elements;
  Done (map fst done, fold_left (fun m x => Rmax (snd x) m) done 0).

(** ** Pruning *)
(** Mode.cpp:2228-2247 pruneSymmetryFunctionsRange: line numbers. *)
Definition pruneRange (threshold : R) (elements : list (list linefn)) : list nat :=
  flat_map (fun fs => map lf_line (filter (fun f =>
    let s := sf_scaling (sf_c (lf_sf f)) in ltR (Rabs (s_Gmax s - s_Gmin s)) threshold) fs)) elements.
(** Mode.cpp:2249-2268 pruneSymmetryFunctionsSensitivity; [Thrown] =
    out_of_range. *)
Definition pruneSensitivity (threshold : R) (sensitivity : list (list R)) (elements : list (list linefn))
  : outcome (list nat) :=
  foldo (fun ie prune =>
    foldo (fun jf prune =>
      row <- throwing (nth_error sensitivity (fst ie));
      s <- throwing (nth_error row (fst jf));
      Done (if ltR s threshold then prune ++ [lf_line (snd jf)] else prune))
      (List.combine (seq 0 (List.length (snd ie))) (snd ie)) prune)
    (List.combine (seq 0 (List.length elements)) elements) [].
