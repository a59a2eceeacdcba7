(** Model of the set-up of the symmetry function cache:
    Mode::setupSymmetryFunctionCache, Element::setCacheIndices,
    SymFnc::addCacheIndex and the getCacheIdentifiers methods (src/libnnp).

    Simplification: an identifier string "<element> <f|df> <subtype>
    alpha = <text> rc = <text>" is modelled by the triple of its parts; the third
    part, the text describing the function, is given by a function [key] into a
    type with decidable equality (it contains numbers printed with "%16.8E",
    so different functions may have the same text). *)
From Coq Require Import Reals List Bool Arith.
From Verif Require Import Base.Loop Model.CoreFunction Model.CutoffFunction Model.CompactScreening Model.Scaling
  Model.NeighborList Model.SymFunctions.
Import ListNotations.

Section Cache.
Variables (K : Type) (K_dec : forall a b : K, {a = b} + {a <> b}) (key : symfnc -> K).
Variable numElements : nat.

(** element, derivative?, text *)
Definition cid : Type := (nat * bool * K)%type.
Definition cid_eqb (a b : cid) : bool :=
  let '(e, d, k) := a in let '(e', d', k') := b in
  (Nat.eqb e e' && Bool.eqb d d' && (if K_dec k k' then true else false))%bool.
Definition cid_element (a : cid) : nat := fst (fst a).

(** The elements for which a function registers identifiers, in order:
    SymFncExpRad.cpp:248-249, SymFncCompRad.cpp:240-241 (e1),
    SymFncBaseExpAng.cpp:197-200, SymFncBaseCompAng.cpp:208-211 (e1, and e2 if
    different), the weighted types (all elements). *)
Definition id_elements (k : kind) : list nat :=
  match k with
  | ExpRad p => [er_e1 p]
  | CompRad p => [cr_e1 p]
  | ExpAngn p | ExpAngw p => if Nat.eqb (ea_e1 p) (ea_e2 p) then [ea_e1 p] else [ea_e1 p; ea_e2 p]
  | CompAngn p | CompAngw p => if Nat.eqb (ca_e1 p) (ca_e2 p) then [ca_e1 p] else [ca_e1 p; ca_e2 p]
  | _ => seq 0 numElements
  end.
(** getCacheIdentifiers. *)
Definition identifiers (f : symfnc) : list cid :=
  flat_map (fun e => [(e, false, key f); (e, true, key f)]) (id_elements (sf_kind f)).

(** Element.h SFCacheList: identifier and symmetry function indices; the lists
    are kept per neighbor element. *)
Definition entry : Type := (cid * list nat)%type.
(** Mode.cpp:1002-1021: append to the first entry with this identifier or add a
    new one. *)
Fixpoint register (index : nat) (id : cid) (l : list entry) : list entry :=
  match l with
  | [] => [(id, [index])]
  | (i, ixs) :: r => if cid_eqb id i then (i, ixs ++ [index]) :: r else (i, ixs) :: register index id r
  end.
(** Mode.cpp:996-1023; [index] is s.getIndex(). *)
Definition collect_one (lists : nat -> list entry) (f : symfnc) : nat -> list entry :=
  fold_left (fun ls id => upd ls (cid_element id) (register (sf_index (sf_c f)) id (ls (cid_element id))))
            (identifiers f) lists.
Definition collect (fs : list symfnc) : nat -> list entry := fold_left collect_one fs (fun _ => []).
(** Mode.cpp:1039-1045: entries used only once are removed. *)
Definition prune_lists (lists : nat -> list entry) : nat -> list entry :=
  fun e => filter (fun en => Nat.ltb 1 (length (snd en))) (lists e).

(** SymFnc.cpp:106-132 addCacheIndex of function [f]; the table of the
    functions' cacheIndices is [t s e] (function index, element).  [None] =
    exception. *)
Definition addCacheIndex (fs : list symfnc) (element cacheIndex : nat) (id : cid) (s : nat)
           (t : nat -> nat -> list nat) : option (nat -> nat -> list nat) :=
  match nth_error fs s with
  | None => None
  | Some f =>
    let perElement := filter (fun i => Nat.eqb (cid_element i) element) (identifiers f) in
    match nth_error perElement (length (t s element)) with
    | None => None
    | Some i => if cid_eqb i id
                then Some (upd t s (upd (t s) element (t s element ++ [cacheIndex])))
                else None
    end
  end.
(** Element.cpp:544-561 setCacheIndices. *)
Definition setCacheIndices (fs : list symfnc) (lists : nat -> list entry) (t : nat -> nat -> list nat)
  : option (nat -> nat -> list nat) :=
  ofold (fun i t =>
    ofold (fun je t => ofold (addCacheIndex fs (cid_element (fst (snd je))) (fst je) (fst (snd je)))
                             (snd (snd je)) t)
          (List.combine (seq 0 (length (lists i))) (lists i)) t)
    (seq 0 numElements) t.

(** Mode.cpp:984-1100: the functions with their cache indices, and the cache
    size for each neighbor element (Element.cpp:563-571 getCacheSizes). *)
Definition with_ci (ci : nat -> list nat) (f : symfnc) : symfnc :=
  mkSF (mkCommon (sf_index (sf_c f)) (sf_perElement (sf_c f)) ci (sf_scaling (sf_c f))) (sf_kind f).
Definition setupCache (fs : list symfnc) : option (list symfnc * (nat -> nat)) :=
  let lists := prune_lists (collect fs) in
  match setCacheIndices fs lists (fun s => match nth_error fs s with Some f => sf_ci (sf_c f) | None => fun _ => [] end) with
  | None => None
  | Some t => Some (map (fun sf => with_ci (t (fst sf)) (snd sf)) (List.combine (seq 0 (length fs)) fs),
                    fun e => length (lists e))
  end.
End Cache.

(** The text part of the identifiers (SymFncExpRad.cpp:239-247,
    SymFncBaseExpAng.cpp:188-196, SymFncCompRad.cpp:231-239,
    SymFncBaseCompAng.cpp:199-207 and the weighted types).  [fmt] is the
    conversion of a number with "%16.8E", [conv] is convLength. *)
Section Text.
Variables (T : Type) (fmt : R -> T).
Inductive text := TCut (subtype : cutoff_kind) (alpha rc : T) | TComp (subtype : core_kind * bool) (rl rc : T).
Definition cut_text (conv : R) (fc : cutoff_function) (rc : R) : text :=
  TCut (cf_type fc) (fmt (cf_alpha fc)) (fmt (rc / conv)%R).
Definition comp_text (conv : R) (c : compact_function) (rl rc : R) : text :=
  TComp (core_type (cp_core c), core_asym (cp_core c)) (fmt (rl / conv)%R) (fmt (rc / conv)%R).
Definition text_of (conv : R) (f : symfnc) : text :=
  match sf_kind f with
  | ExpRad p | ExpRadWeighted p => cut_text conv (er_fc p) (er_rc p)
  | ExpAngn p | ExpAngw p | ExpAngnWeighted p => cut_text conv (ea_fc p) (ea_rc p)
  | CompRad p | CompRadWeighted p => comp_text conv (cr_c p) (cr_rl p) (cr_rc p)
  | CompAngn p | CompAngw p | CompAngnWeighted p | CompAngwWeighted p =>
      comp_text conv (ca_c p) (ca_rl p) (ca_rc p)
  end.
End Text.
Arguments TCut {T}. Arguments TComp {T}.
Definition text_dec {T} (T_dec : forall a b : T, {a = b} + {a <> b}) (a b : text T) : {a = b} + {a <> b}.
Proof. decide equality; decide equality; decide equality. Defined.
