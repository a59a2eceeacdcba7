(** Model of the preparation of an element's symmetry functions (src/libnnp):
    change of length unit, sorting, grouping, derivative memory tables.

    Simplification: all functions of one Element have this element as central
    element, so the comparisons of [ec] are left out. *)
From Coq Require Import Reals ZArith List Bool Arith.
From Verif Require Import Base.Vec3 Base.Loop Model.CoreFunction Model.CutoffFunction Model.CompactScreening
  Model.Scaling Model.SymFunctions.
Import ListNotations.
Local Open Scope R_scope.

(** ** Change of length unit *)
(** fc.setCutoffRadius(rc); fc.setCutoffParameter(cutoffAlpha); [None] =
    invalid_argument. *)
Definition refresh_fc (rc : R) (fc : cutoff_function) : option cutoff_function :=
  cf_setCutoffParameter (cf_alpha fc) (cf_setCutoffRadius rc fc).
(** SymFncExpRad.cpp:98-109, SymFncExpRadWeighted.cpp:94-105. *)
Definition er_changeLengthUnit (conv : R) (p : er_par) : option er_par :=
  let rc := er_rc p * conv in
  match refresh_fc rc (er_fc p) with
  | None => None
  | Some fc => Some (mkER (er_e1 p) (er_eta p / (conv * conv)) (er_rs p * conv) rc fc)
  end.
(** SymFncBaseExpAng.cpp:95-106, SymFncExpAngnWeighted.cpp:119-130. *)
Definition ea_changeLengthUnit (conv : R) (p : ea_par) : option ea_par :=
  let rc := ea_rc p * conv in
  match refresh_fc rc (ea_fc p) with
  | None => None
  | Some fc => Some (mkEA (ea_e1 p) (ea_e2 p) (ea_eta p / (conv * conv)) (ea_rs p * conv) (ea_lambda p) (ea_zeta p)
                          (ea_zetaInt p) (ea_useIntegerPow p) rc fc)
  end.
(** SymFncCompRad.cpp:101-110, SymFncCompRadWeighted.cpp:97-106. *)
Definition cr_changeLengthUnit (conv : R) (p : cr_par) : option cr_par :=
  let rl := cr_rl p * conv in let rc := cr_rc p * conv in
  match cp_setLeftRight rl rc (cr_c p) with
  | None => None
  | Some c => Some (mkCR (cr_e1 p) rl rc c)
  end.
(** SymFncBaseCompAng.cpp:116-125, SymFncBaseCompAngWeighted.cpp:103-112. *)
Definition ca_changeLengthUnit (conv : R) (p : ca_par) : option ca_par :=
  let rl := ca_rl p * conv in let rc := ca_rc p * conv in
  match cp_setLeftRight rl rc (ca_c p) with
  | None => None
  | Some c => Some (mkCA (ca_e1 p) (ca_e2 p) rl rc (ca_left p) (ca_right p) c (ca_a p))
  end.
(** SymFnc::changeLengthUnit (virtual). *)
Definition changeLengthUnit (conv : R) (k : kind) : option kind :=
  match k with
  | ExpRad p => option_map ExpRad (er_changeLengthUnit conv p)
  | ExpRadWeighted p => option_map ExpRadWeighted (er_changeLengthUnit conv p)
  | ExpAngn p => option_map ExpAngn (ea_changeLengthUnit conv p)
  | ExpAngw p => option_map ExpAngw (ea_changeLengthUnit conv p)
  | ExpAngnWeighted p => option_map ExpAngnWeighted (ea_changeLengthUnit conv p)
  | CompRad p => option_map CompRad (cr_changeLengthUnit conv p)
  | CompRadWeighted p => option_map CompRadWeighted (cr_changeLengthUnit conv p)
  | CompAngn p => option_map CompAngn (ca_changeLengthUnit conv p)
  | CompAngw p => option_map CompAngw (ca_changeLengthUnit conv p)
  | CompAngnWeighted p => option_map CompAngnWeighted (ca_changeLengthUnit conv p)
  | CompAngwWeighted p => option_map CompAngwWeighted (ca_changeLengthUnit conv p)
  end.

(** ** Order *)
(** The type numbers (Element.cpp:88-134). *)
Definition type_number (k : kind) : nat :=
  match k with
  | ExpRad _ => 2 | ExpAngn _ => 3 | ExpAngw _ => 9 | ExpRadWeighted _ => 12 | ExpAngnWeighted _ => 13
  | CompRad _ => 20 | CompAngn _ => 21 | CompAngw _ => 22 | CompRadWeighted _ => 23
  | CompAngnWeighted _ => 24 | CompAngwWeighted _ => 25
  end.
(** CutoffFunction.h:42-76: values of the enumeration. *)
Definition cutoff_number (t : cutoff_kind) : nat :=
  match t with
  | CT_HARD => 0 | CT_COS => 1 | CT_TANHU => 2 | CT_TANH => 3
  | CT_EXP => 4 | CT_POLY1 => 5 | CT_POLY2 => 6 | CT_POLY3 => 7 | CT_POLY4 => 8
  end.
(** The rank of the subtype text ("e", "ea", "p1", "p1a", ..., SymFncBaseComp.cpp:39-90)
    in the order of strings. *)
Definition subtype_rank (c : core_function) : nat :=
  (2 * match core_type c with CK_EXP => 0 | CK_COS => 5 | CK_POLY1 => 1 | CK_POLY2 => 2 | CK_POLY3 => 3 | CK_POLY4 => 4 end
   + if core_asym c then 1 else 0)%nat.
(** The members compared by operator<, in order, all written as numbers:
    SymFncExpRad.cpp:55-75, SymFncExpRadWeighted.cpp:53-72,
    SymFncExpAngn.cpp:51-77, SymFncExpAngw.cpp:51-77,
    SymFncExpAngnWeighted.cpp:62-85, SymFncCompRad.cpp:51-68,
    SymFncCompRadWeighted.cpp:49-65, SymFncCompAngn.cpp:52-74,
    SymFncCompAngw.cpp:52-74, SymFncCompAngnWeighted.cpp:51-70,
    SymFncCompAngwWeighted.cpp:51-70.  Angles are compared in degrees in the
    code; radians have the same order. *)
Definition fc_key (fc : cutoff_function) (rc : R) : list R := [INR (cutoff_number (cf_type fc)); cf_alpha fc; rc].
Definition sort_key (k : kind) : list R :=
  INR (type_number k) ::
  match k with
  | ExpRad p => fc_key (er_fc p) (er_rc p) ++ [er_eta p; er_rs p; INR (er_e1 p)]
  | ExpRadWeighted p => fc_key (er_fc p) (er_rc p) ++ [er_eta p; er_rs p]
  | ExpAngn p | ExpAngw p =>
      fc_key (ea_fc p) (ea_rc p) ++ [ea_eta p; ea_rs p; ea_zeta p; ea_lambda p; INR (ea_e1 p); INR (ea_e2 p)]
  | ExpAngnWeighted p => fc_key (ea_fc p) (ea_rc p) ++ [ea_eta p; ea_rs p; ea_zeta p; ea_lambda p]
  | CompRad p => [INR (subtype_rank (cp_core (cr_c p))); INR (cr_e1 p); cr_rc p; cr_rl p]
  | CompRadWeighted p => [INR (subtype_rank (cp_core (cr_c p))); cr_rc p; cr_rl p]
  | CompAngn p | CompAngw p =>
      [INR (subtype_rank (cp_core (ca_c p))); INR (ca_e1 p); INR (ca_e2 p); ca_rc p; ca_rl p; ca_left p; ca_right p]
  | CompAngnWeighted p | CompAngwWeighted p =>
      [INR (subtype_rank (cp_core (ca_c p))); ca_rc p; ca_rl p; ca_left p; ca_right p]
  end.
(** "if (a < b) return true; else if (a > b) return false;" repeated, then
    "return false". *)
Fixpoint lexlt (a b : list R) : bool :=
  match a, b with
  | x :: a, y :: b => if Rlt_dec x y then true else if Rlt_dec y x then false else lexlt a b
  | _, _ => false
  end.
Definition sf_lt (f g : symfnc) : bool := lexlt (sort_key (sf_kind f)) (sort_key (sf_kind g)).

Definition set_index (i : nat) (f : symfnc) : symfnc :=
  mkSF (mkCommon i (sf_perElement (sf_c f)) (sf_ci (sf_c f)) (sf_scaling (sf_c f))) (sf_kind f).
(** Element.cpp:154-166 sortSymmetryFunctions; [sort] is std::sort. *)
Definition sortSymmetryFunctions (sort : list symfnc -> list symfnc) (fs : list symfnc) : list symfnc :=
  map (fun x => set_index (fst x) (snd x)) (List.combine (seq 0 (length fs)) (sort fs)).

(** ** Groups *)
Definition eqR (x y : R) : bool := if Req_EM_T x y then true else false.
Definition cutoff_eqb (a b : cutoff_kind) : bool := Nat.eqb (cutoff_number a) (cutoff_number b).
Definition fc_eqb (a b : cutoff_function) : bool := (cutoff_eqb (cf_type a) (cf_type b) && eqR (cf_alpha a) (cf_alpha b))%bool.
(** addMember on a non-empty group whose first member is [k0]:
    SymGrpExpRad.cpp:72-108, SymGrpExpRadWeighted.cpp:68-102,
    SymGrpExpAngn.cpp:68-106, SymGrpExpAngw.cpp:68-106,
    SymGrpExpAngnWeighted.cpp:71-105, SymGrpCompRad.cpp:60-89,
    SymGrpCompRadWeighted.cpp:53-80, SymGrpCompAngn.cpp:60-91,
    SymGrpCompAngw.cpp:60-91, SymGrpCompAngnWeighted.cpp:52-79,
    SymGrpCompAngwWeighted.cpp:52-79.  The exception for different convLength is
    left out: changeLengthUnit is applied to all functions of an element
    together. *)
Definition addMember (k0 k : kind) : bool :=
  match k0, k with
  | ExpRad p, ExpRad q => (fc_eqb (er_fc q) (er_fc p) && eqR (er_rc q) (er_rc p) && Nat.eqb (er_e1 q) (er_e1 p))%bool
  | ExpRadWeighted p, ExpRadWeighted q => (fc_eqb (er_fc q) (er_fc p) && eqR (er_rc q) (er_rc p))%bool
  | ExpAngn p, ExpAngn q | ExpAngw p, ExpAngw q =>
      (fc_eqb (ea_fc q) (ea_fc p) && eqR (ea_rc q) (ea_rc p) && Nat.eqb (ea_e1 q) (ea_e1 p) && Nat.eqb (ea_e2 q) (ea_e2 p))%bool
  | ExpAngnWeighted p, ExpAngnWeighted q => (fc_eqb (ea_fc q) (ea_fc p) && eqR (ea_rc q) (ea_rc p))%bool
  | CompRad p, CompRad q => Nat.eqb (cr_e1 q) (cr_e1 p)
  | CompAngn p, CompAngn q | CompAngw p, CompAngw q => (Nat.eqb (ca_e1 q) (ca_e1 p) && Nat.eqb (ca_e2 q) (ca_e2 p))%bool
  | CompRadWeighted _, CompRadWeighted _ | CompAngnWeighted _, CompAngnWeighted _
  | CompAngwWeighted _, CompAngwWeighted _ => true
  | _, _ => false
  end.
(** Element.cpp:196-211: the first group which accepts the function; a group is
    the list of its members in the order of addition. *)
Fixpoint place (f : symfnc) (gs : list (list symfnc)) : list (list symfnc) :=
  match gs with
  | [] => [[f]]
  | [] :: r => [f] :: r
  | (f0 :: m) :: r => if addMember (sf_kind f0) (sf_kind f) then (f0 :: m ++ [f]) :: r else (f0 :: m) :: place f r
  end.
(** Element.cpp:194-287; [gsort] and [msort] are the two uses of std::sort. *)
Definition setupGroups (gsort : list (list symfnc) -> list (list symfnc)) (msort : list symfnc -> list symfnc)
           (fs : list symfnc) : list (list symfnc) :=
  map msort (gsort (fold_left (fun gs f => place f gs) fs [])).

(** ** Derivative memory *)
(** checkRelevantElement: SymFncExpRad.cpp:230-234,
    SymFncExpRadWeighted.cpp:213-216, SymFncBaseExpAng.cpp:179-183,
    SymFncExpAngnWeighted.cpp:338-341, SymFncCompRad.cpp:222-226,
    SymFncCompRadWeighted.cpp:202-205, SymFncBaseCompAng.cpp:190-194,
    SymFncBaseCompAngWeighted.cpp:169-172. *)
Definition checkRelevantElement (k : kind) (index : nat) : bool :=
  match k with
  | ExpRad p => Nat.eqb index (er_e1 p)
  | CompRad p => Nat.eqb index (cr_e1 p)
  | ExpAngn p | ExpAngw p => if Nat.eqb index (ea_e1 p) then true else Nat.eqb index (ea_e2 p)
  | CompAngn p | CompAngw p => if Nat.eqb index (ca_e1 p) then true else Nat.eqb index (ca_e2 p)
  | _ => true
  end.
Definition setIndexPerElement (element value : nat) (f : symfnc) : symfnc :=
  mkSF (mkCommon (sf_index (sf_c f)) (upd (sf_perElement (sf_c f)) element value) (sf_ci (sf_c f)) (sf_scaling (sf_c f)))
       (sf_kind f).
(** Element.cpp:295-302, one function: the tables and the function. *)
Definition register_memory (numElements : nat) (f : symfnc) (table : nat -> list nat) : symfnc * (nat -> list nat) :=
  fold_left (fun ft i => let (f, table) := (ft : symfnc * (nat -> list nat)) in
    if checkRelevantElement (sf_kind f) i
    then (setIndexPerElement i (length (table i)) f, upd table i (table i ++ [sf_index (sf_c f)]))
    else (f, table)) (seq 0 numElements) (f, table).
(** Element.cpp:289-311 setupSymmetryFunctionMemory: the functions,
    symmetryFunctionTable and symmetryFunctionNumTable. *)
Definition setupMemory (numElements : nat) (fs : list symfnc) : list symfnc * (nat -> list nat) * list nat :=
  let (fs', table) :=
    fold_left (fun st f => let (done, table) := (st : list symfnc * (nat -> list nat)) in
                           let (f', table') := register_memory numElements f table in (done ++ [f'], table'))
              fs ([], fun _ => []) in
  (fs', table, map (fun i => length (table i)) (seq 0 numElements)).
