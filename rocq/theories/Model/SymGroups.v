(** Model of the evaluation of symmetry functions in groups: SymGrp*.cpp
    (src/libnnp), methods sortMembers, setScalingFactors and calculate of the
    eleven group types, and Element.cpp:344-382, 449-460.

    Simplifications: as in Model/SymFunctions.v (reals, vector notation, default
    compile time switches).  The vectors which sortMembers fills with copies of
    the members' parameters are the members' parameters (nothing changes these
    after the groups are set up).  The weighted groups multiply with the atomic
    numbers, the others with the constant 1 instead of nothing. *)
From Coq Require Import Reals ZArith List Bool Arith.
From Verif Require Import Base.Vec3 Base.Loop Model.Strings Model.CutoffFunction Model.CompactScreening
  Model.Scaling Model.NeighborList Model.SymFunctions Model.SymSetup.
Import ListNotations.
Local Open Scope R_scope.

(** ** Groups *)
(** A member: the function (index, table entries, cache indices, scaling,
    parameters) and its entries of the group's vectors calculateExp /
    calculateComp, factorNorm (exponential angular groups only) and
    scalingFactors (empty before setScalingFactors). *)
Record member (P : Type) := mkMember {
  m_c : sf_common; m_p : P; m_calc : bool; m_norm : R; m_scale : option R
}.
Arguments mkMember {P}. Arguments m_c {P}. Arguments m_p {P}. Arguments m_calc {P}.
Arguments m_norm {P}. Arguments m_scale {P}.

(** SymGrpExpAngn, SymGrpExpAngw, SymGrpExpAngnWeighted. *)
Inductive exp_ang := Narrow | Wide | NarrowWeighted.
(** The common parameters (SymGrpBaseCutoff.h, SymGrpBaseComp.h, ...) and the
    members. *)
Inductive group :=
| GExpRad (weighted : bool) (fc : cutoff_function) (rc : R) (e1 : nat) (ms : list (member er_par))
| GExpAng (t : exp_ang) (fc : cutoff_function) (rc : R) (e1 e2 : nat) (ms : list (member ea_par))
| GCompRad (weighted : bool) (rmin rmax : R) (e1 : nat) (ms : list (member cr_par))
| GCompAng (narrow weighted : bool) (rmin rmax : R) (e1 e2 : nat) (ms : list (member ca_par)).

(** The dynamic_cast of addMember. *)
Definition as_expRad (weighted : bool) (k : kind) : option er_par :=
  match k with
  | ExpRad p => if weighted then None else Some p
  | ExpRadWeighted p => if weighted then Some p else None
  | _ => None
  end.
Definition as_expAng (t : exp_ang) (k : kind) : option ea_par :=
  match t, k with
  | Narrow, ExpAngn p | Wide, ExpAngw p | NarrowWeighted, ExpAngnWeighted p => Some p
  | _, _ => None
  end.
Definition as_compRad (weighted : bool) (k : kind) : option cr_par :=
  match k with
  | CompRad p => if weighted then None else Some p
  | CompRadWeighted p => if weighted then Some p else None
  | _ => None
  end.
Definition as_compAng (narrow weighted : bool) (k : kind) : option ca_par :=
  match narrow, weighted, k with
  | true, false, CompAngn p | false, false, CompAngw p
  | true, true, CompAngnWeighted p | false, true, CompAngwWeighted p => Some p
  | _, _, _ => None
  end.

(** sortMembers after the sort: the vectors calculateExp / calculateComp
    ([changed q p]: must be recomputed for p after q) and factorNorm. *)
Fixpoint members_of {P} (as_par : kind -> option P) (changed : P -> P -> bool) (norm : P -> R) (prev : option P)
         (fs : list symfnc) : option (list (member P)) :=
  match fs with
  | [] => Some []
  | f :: r =>
    match as_par (sf_kind f) with
    | None => None
    | Some p =>
      let calc := match prev with None => true | Some q => changed q p end in
      match members_of as_par changed norm (Some p) r with
      | None => None
      | Some ms => Some (mkMember (sf_c f) p calc (norm p) None :: ms)
      end
    end
  end.
(** SymGrpExpAngn.cpp:108-148, SymGrpExpAngw.cpp:108-148,
    SymGrpExpAngnWeighted.cpp:107-147. *)
Definition exp_changed (q p : ea_par) : bool :=
  (negb (eqR (ea_eta q) (ea_eta p)) || negb (eqR (ea_rs q) (ea_rs p)))%bool.
Definition exp_norm (p : ea_par) : R := Rpower 2 (1 - ea_zeta p).
(** SymGrpCompAngn.cpp:93-138, SymGrpCompAngnWeighted.cpp:81-126. *)
Definition comp_changed (q p : ca_par) : bool :=
  (negb (eqR (ca_rc q) (ca_rc p)) || negb (eqR (ca_rl q) (ca_rl p)))%bool.

(** The range of the compact groups: SymGrpBaseComp.cpp:26-27 and, for each
    member, e.g. SymGrpCompRad.cpp:82-84. *)
Definition grow (range : R * R) (rlrc : R * R) : R * R :=
  let (rmin, rmax) := range in
  let (rl, rc) := rlrc in
  ((if Rle_dec rl 0 then 0 else Rmin rmin rl), Rmax rmax rc).
Definition limits (k : kind) : R * R :=
  match k with
  | CompRad p | CompRadWeighted p => (cr_rl p, cr_rc p)
  | CompAngn p | CompAngw p | CompAngnWeighted p | CompAngwWeighted p => (ca_rl p, ca_rc p)
  | _ => (0, 0)
  end.
Definition group_range (fs : list symfnc) : R * R := fold_left grow (map (fun f => limits (sf_kind f)) fs) (0, 0).

(** A group from its members in order of addition (the common parameters come
    from the first one added) and in sorted order. *)
Definition group_fc (fc : cutoff_function) (rc : R) : option cutoff_function :=
  cf_configure (cf_type fc) rc (cf_alpha fc).
Definition make_group (added sorted : list symfnc) : option group :=
  match added with
  | [] => None
  | f0 :: _ =>
    let expRad weighted (p : er_par) :=
      match group_fc (er_fc p) (er_rc p) with
      | None => None
      | Some fc => option_map (GExpRad weighted fc (er_rc p) (er_e1 p))
                     (members_of (as_expRad weighted) (fun _ _ => true) (fun _ => 1) None sorted)
      end in
    let expAng t (p : ea_par) :=
      match group_fc (ea_fc p) (ea_rc p) with
      | None => None
      | Some fc => option_map (GExpAng t fc (ea_rc p) (ea_e1 p) (ea_e2 p))
                     (members_of (as_expAng t) exp_changed exp_norm None sorted)
      end in
    let (rmin, rmax) := group_range added in
    let compRad weighted (p : cr_par) :=
      option_map (GCompRad weighted rmin rmax (cr_e1 p))
        (members_of (as_compRad weighted) (fun _ _ => true) (fun _ => 1) None sorted) in
    let compAng (narrow weighted : bool) (p : ca_par) :=
      option_map (GCompAng narrow weighted rmin rmax (ca_e1 p) (ca_e2 p))
        (members_of (as_compAng narrow weighted) (if narrow then comp_changed else fun _ _ => true) (fun _ => 1)
           None sorted) in
    match sf_kind f0 with
    | ExpRad p => expRad false p
    | ExpRadWeighted p => expRad true p
    | ExpAngn p => expAng Narrow p
    | ExpAngw p => expAng Wide p
    | ExpAngnWeighted p => expAng NarrowWeighted p
    | CompRad p => compRad false p
    | CompRadWeighted p => compRad true p
    | CompAngn p => compAng true false p
    | CompAngw p => compAng false false p
    | CompAngnWeighted p => compAng true true p
    | CompAngwWeighted p => compAng false true p
    end
  end.

Fixpoint oall {A B} (f : A -> option B) (l : list A) : option (list B) :=
  match l with
  | [] => Some []
  | a :: r => match f a, oall f r with Some b, Some bs => Some (b :: bs) | _, _ => None end
  end.
(** Element.cpp:194-287 setupSymmetryFunctionGroups ([place] as in
    Model/SymSetup.v). *)
Definition setupSymmetryFunctionGroups (gsort : list (list symfnc) -> list (list symfnc))
           (msort : list symfnc -> list symfnc) (fs : list symfnc) : option (list group) :=
  oall (fun g => make_group g (msort g)) (gsort (fold_left (fun gs f => place f gs) fs [])).

(** ** Scaling *)
(** Element.cpp:344-382: setScalingType on every function ([sc i] is the
    resulting scaling of the function with index i; the members of the groups
    are pointers to the functions), then setScalingFactors on every group. *)
Definition with_scaling (sc : nat -> scaling) (c : sf_common) : sf_common :=
  mkCommon (sf_index c) (sf_perElement c) (sf_ci c) (sc (sf_index c)).
Definition set_scaling (sc : nat -> scaling) (f : symfnc) : symfnc := mkSF (with_scaling sc (sf_c f)) (sf_kind f).
(** setScalingFactors: SymGrpExpRad.cpp:127-136, SymGrpExpRadWeighted.cpp:121-130,
    SymGrpCompRad.cpp:122-131, SymGrpCompRadWeighted.cpp:105-114,
    SymGrpBaseCompAng.cpp:44-54, SymGrpBaseCompAngWeighted.cpp:39-49; for the
    exponential angular groups (SymGrpBaseExpAng.cpp:45-57,
    SymGrpExpAngnWeighted.cpp:149-159) factorNorm is multiplied in place. *)
Definition scale_member {P} (multiply : bool) (sc : nat -> scaling) (m : member P) : member P :=
  let c := with_scaling sc (m_c m) in
  let factor := scalingFactor (sf_scaling c) in
  mkMember c (m_p m) (m_calc m) (if multiply then m_norm m * factor else m_norm m) (Some factor).
Definition set_group_scaling (sc : nat -> scaling) (g : group) : group :=
  match g with
  | GExpRad w fc rc e1 ms => GExpRad w fc rc e1 (map (scale_member false sc) ms)
  | GExpAng t fc rc e1 e2 ms => GExpAng t fc rc e1 e2 (map (scale_member true sc) ms)
  | GCompRad w rmin rmax e1 ms => GCompRad w rmin rmax e1 (map (scale_member false sc) ms)
  | GCompAng n w rmin rmax e1 e2 ms => GCompAng n w rmin rmax e1 e2 (map (scale_member false sc) ms)
  end.

(** ** Evaluation *)
(** The array result[] and the atom's storage. *)
Definition gstate := ((nat -> R) * store)%type.
(** A loop over the members; the position is the index into result[]. *)
Definition each {P S : Type} (f : nat -> member P -> S -> option S) (ms : list (member P)) (s : S) : option S :=
  ofold (fun lm s => f (fst lm) (snd lm) s) (List.combine (seq 0 (length ms)) ms) s.
(** Storing the derivatives of one member: one neighbor, or a pair. *)
Definition put_radial (c : sf_common) (j : nat) (n : neighbor) (p1 : R) (s : store) : store :=
  let dij := smul p1 (nb_dr n) in
  dsub (LN j (sf_perElement c (nb_element n))) dij (dadd (LA (sf_index c)) dij s).
Definition put_pair (c : sf_common) (j k : nat) (nj nk : neighbor) (p1 p2 p3 : R) (s : store) : store :=
  let drij := smul p1 (nb_dr nj) in
  let drik := smul p2 (nb_dr nk) in
  let drjk := smul p3 (vsub (nb_dr nk) (nb_dr nj)) in
  dsub (LN k (sf_perElement c (nb_element nk))) (vsub drik drjk)
  (dsub (LN j (sf_perElement c (nb_element nj))) (vadd drij drjk)
  (dadd (LA (sf_index c)) (vadd drij drik) s)).
(** atom.G[memberIndex[l]] = members[l]->scale(result[l]) at the end. *)
Definition finish {P} (final : member P -> R -> option R) (ms : list (member P)) (st : gstate) : option store :=
  let (res, s) := st in
  each (fun l m s => match final m (res l) with
                     | None => None
                     | Some v => Some (set_G (sf_index (m_c m)) (scale (sf_scaling (m_c m)) v) s)
                     end) ms s.

Section Calculate.
Variables (Z : nat -> R) (a : atom) (derivatives : bool).
Let nbs := a_nbs a.

(** *** Radial, exponential: SymGrpExpRad.cpp:144-239,
    SymGrpExpRadWeighted.cpp:138-226 *)
Definition expRad_member (w : R) (j : nat) (n : neighbor) (fd : R * R) (l : nat) (m : member er_par) (st : gstate)
  : option gstate :=
  let (res, s) := st in
  let (pfc, pdfc) := fd in
  let p := m_p m in
  let rij := nb_d n in
  let pexp := w * exp (- er_eta p * (rij - er_rs p) * (rij - er_rs p)) in
  let res := upd res l (res l + pexp * pfc) in
  if derivatives then
    match m_scale m with
    | None => None
    | Some factor =>
      let p1 := factor * (pdfc - 2 * er_eta p * (rij - er_rs p) * pfc) * pexp / rij in
      Some (res, put_radial (m_c m) j n p1 s)
    end
  else Some (res, s).
Definition expRad_step (weighted : bool) (fc : cutoff_function) (rc : R) (e1 : nat) (ms : list (member er_par))
           (ci : nat -> list nat) (j : nat) (st : gstate) : option gstate :=
  let (res, s) := st in
  match nth_error nbs j with
  | None => None
  | Some n =>
    if ((weighted || Nat.eqb e1 (nb_element n)) && ltR (nb_d n) rc)%bool then
      match fetch (ci (nb_element n)) (ci (nb_element n)) (cf_fdf fc) j (nb_d n) s with
      | None => None
      | Some (fd, s) =>
        each (expRad_member (if weighted then Z (nb_element n) else 1) j n fd) ms (res, s)
      end
    else Some (res, s)
  end.
Definition expRad_group (weighted : bool) (fc : cutoff_function) (rc : R) (e1 : nat) (ms : list (member er_par))
           (s : store) : option store :=
  match ms with
  | [] => None
  | m0 :: _ =>
    match ofold (expRad_step weighted fc rc e1 ms (sf_ci (m_c m0)))
                (seq 0 (bound a (if weighted then None else Some rc))) (fun _ => 0, s) with
    | None => None
    | Some st => finish (fun _ v => Some v) ms st
    end
  end.

(** *** Radial, compact: SymGrpCompRad.cpp:139-219,
    SymGrpCompRadWeighted.cpp:122-204 *)
Definition compRad_member (weighted : bool) (j : nat) (n : neighbor) (l : nat) (m : member cr_par) (st : gstate)
  : option gstate :=
  let (res, s) := st in
  let p := m_p m in
  let rij := nb_d n in
  let w := if weighted then Z (nb_element n) else 1 in
  if (leR rij (cr_rl p) || leR (cr_rc p) rij)%bool then Some (res, s)
  else
    match fetch (sf_ci (m_c m) (nb_element n)) (sf_ci (m_c m) (nb_element n)) (cp_fdf (cr_c p)) j rij s with
    | None => None
    | Some ((rad, drad), s) =>
      let res := upd res l (res l + w * rad) in
      if (negb derivatives || eqR drad 0)%bool then Some (res, s)
      else
        match m_scale m with
        | None => None
        | Some factor => Some (res, put_radial (m_c m) j n (drad * (w * factor / rij)) s)
        end
    end.
Definition compRad_step (weighted : bool) (rmin rmax : R) (e1 : nat) (ms : list (member cr_par))
           (j : nat) (st : gstate) : option gstate :=
  match nth_error nbs j with
  | None => None
  | Some n =>
    if ((weighted || Nat.eqb e1 (nb_element n)) && ltR (nb_d n) rmax && ltR rmin (nb_d n))%bool
    then each (compRad_member weighted j n) ms st
    else Some st
  end.
Definition compRad_group (weighted : bool) (rmin rmax : R) (e1 : nat) (ms : list (member cr_par)) (s : store)
  : option store :=
  match ofold (compRad_step weighted rmin rmax e1 ms) (seq 0 (a_numN a)) (fun _ => 0, s) with
  | None => None
  | Some st => finish (fun _ v => Some v) ms st
  end.

(** *** Angular, exponential: SymGrpExpAngn.cpp:156-403,
    SymGrpExpAngw.cpp:156-376, SymGrpExpAngnWeighted.cpp:167-389 *)
(** vexp, rijs, riks, rjks. *)
Record exp_aux := mkAux { x_vexp : R; x_rijs : R; x_riks : R; x_rjks : R }.
Definition weight (weighted : bool) (nj nk : neighbor) : R :=
  if weighted then Z (nb_element nj) * Z (nb_element nk) else 1.
Definition is_weighted (t : exp_ang) : bool := match t with NarrowWeighted => true | _ => false end.
Definition is_narrow (t : exp_ang) : bool := match t with Wide => false | _ => true end.

(** One member for one pair.  The wide type has no third distance: rjk, rjks,
    pfcjk and pr3 are left out there. *)
Definition expAng_aux (t : exp_ang) (p : ea_par) (rij rik rjk : R) (x : exp_aux) : exp_aux :=
  if (is_weighted t || ltR 0 (ea_rs p))%bool then
    let rijs := rij - ea_rs p in
    let riks := rik - ea_rs p in
    let rjks := if is_narrow t then rjk - ea_rs p else x_rjks x in
    mkAux (exp (- ea_eta p * (if is_narrow t then rijs * rijs + riks * riks + rjks * rjks
                              else rijs * rijs + riks * riks))) rijs riks rjks
  else
    let r2sum := if is_narrow t then rij * rij + rik * rik + rjk * rjk else rij * rij + rik * rik in
    mkAux (exp (- ea_eta p * r2sum)) (x_rijs x) (x_riks x) (x_rjks x).
Definition expAng_factors (t : exp_ang) (p : ea_par) (norm : R) (rij rik rjk rinvijik costijk pfc pr1 pr2 pr3 : R)
           (x : exp_aux) (fg plambda : R) : R * R * R :=
  let fg := fg * norm in
  let pfczl := pfc * (ea_zeta p * ea_lambda p) in
  let p2etapl := plambda * (2 * ea_eta p / ea_zeta p / ea_lambda p) in
  let r2ij := rij * rij in
  let r2ik := rik * rik in
  if (is_weighted t || ltR 0 (ea_rs p))%bool then
    (fg * (pfczl * (rinvijik - costijk / r2ij - p2etapl * x_rijs x / rij) + pr1 * plambda),
     fg * (pfczl * (rinvijik - costijk / r2ik - p2etapl * x_riks x / rik) + pr2 * plambda),
     if is_narrow t then fg * (pfczl * (rinvijik + p2etapl * x_rjks x / rjk) - pr3 * plambda)
     else fg * pfczl * rinvijik)
  else
    (fg * (pfczl * (rinvijik - costijk / r2ij - p2etapl) + pr1 * plambda),
     fg * (pfczl * (rinvijik - costijk / r2ik - p2etapl) + pr2 * plambda),
     if is_narrow t then fg * (pfczl * (rinvijik + p2etapl) - pr3 * plambda)
     else fg * pfczl * rinvijik).
Definition expAng_member (t : exp_ang) (j k : nat) (nj nk : neighbor)
           (rij rik rjk rinvijik costijk pfc pr1 pr2 pr3 : R)
           (l : nat) (m : member ea_par) (st : exp_aux * gstate) : option (exp_aux * gstate) :=
  let '(x, (res, s)) := st in
  let p := m_p m in
  let x := if m_calc m then expAng_aux t p rij rik rjk x else x in
  let plambda := 1 + ea_lambda p * costijk in
  let fg := if leR plambda 0 then 0 else x_vexp x * zeta_pow p plambda in
  let res := upd res l (res l + fg * plambda * pfc) in
  if derivatives then
    let '(p1, p2, p3) := expAng_factors t p (m_norm m) rij rik rjk rinvijik costijk pfc pr1 pr2 pr3 x fg plambda in
    Some (x, (res, put_pair (m_c m) j k nj nk p1 p2 p3 s))
  else Some (x, (res, s)).
Definition expAng_pair (t : exp_ang) (fc : cutoff_function) (ms : list (member ea_par))
           (j k : nat) (nj nk : neighbor) (fij fik : R * R) (st : gstate) : option gstate :=
  let (pfcij, pdfcij) := fij in
  let (pfcik, pdfcik) := fik in
  let rij := nb_d nj in
  let rik := nb_d nk in
  let rjk := sqrt (norm2 (vsub (nb_dr nk) (nb_dr nj))) in
  let (pfcjk, pdfcjk) := cf_fdf fc rjk in
  let rinvijik := 1 / rij / rik in
  let costijk := dot (nb_dr nj) (nb_dr nk) * rinvijik in
  let z := weight (is_weighted t) nj nk in
  let '(pfc, pr1, pr2, pr3) :=
    if is_narrow t
    then (z * pfcij * pfcik * pfcjk, z * pfcik * pfcjk * pdfcij / rij,
          z * pfcij * pfcjk * pdfcik / rik, z * pfcij * pfcik * pdfcjk / rjk)
    else (z * pfcij * pfcik, z * pfcik * pdfcij / rij, z * pfcij * pdfcik / rik, 0) in
  match each (expAng_member t j k nj nk rij rik rjk rinvijik costijk pfc pr1 pr2 pr3) ms (mkAux 0 0 0 0, st) with
  | None => None
  | Some (_, st) => Some st
  end.
(** The size test for neighbor k looks at the element of neighbor j in
    SymGrpExpAngnWeighted.cpp:240, at that of neighbor k in the others. *)
Definition expAng_inner (t : exp_ang) (fc : cutoff_function) (rc : R) (e1 e2 : nat) (ms : list (member ea_par))
           (ci : nat -> list nat) (j : nat) (nj : neighbor) (fij : R * R) (k : nat) (st : gstate) : option gstate :=
  let (res, s) := st in
  match nth_error nbs k with
  | None => None
  | Some nk =>
    if ((is_weighted t || pairs_match e1 e2 (nb_element nj) (nb_element nk)) && ltR (nb_d nk) rc
        && (negb (is_narrow t) || ltR (norm2 (vsub (nb_dr nk) (nb_dr nj))) (rc * rc)))%bool then
      match fetch (ci (nb_element (if is_weighted t then nj else nk))) (ci (nb_element nk)) (cf_fdf fc) k (nb_d nk) s with
      | None => None
      | Some (fik, s) => expAng_pair t fc ms j k nj nk fij fik (res, s)
      end
    else Some (res, s)
  end.
Definition expAng_outer (t : exp_ang) (fc : cutoff_function) (rc : R) (e1 e2 : nat) (ms : list (member ea_par))
           (ci : nat -> list nat) (numN j : nat) (st : gstate) : option gstate :=
  let (res, s) := st in
  match nth_error nbs j with
  | None => None
  | Some nj =>
    if ((is_weighted t || one_of e1 e2 (nb_element nj)) && ltR (nb_d nj) rc)%bool then
      match fetch (ci (nb_element nj)) (ci (nb_element nj)) (cf_fdf fc) j (nb_d nj) s with
      | None => None
      | Some (fij, s) =>
        ofold (expAng_inner t fc rc e1 e2 ms ci j nj fij) (seq (j + 1) (numN - (j + 1))) (res, s)
      end
    else Some (res, s)
  end.
(** result[l] *= factorNorm[l] / scalingFactors[l]. *)
Definition expAng_final (m : member ea_par) (v : R) : option R :=
  match m_scale m with None => None | Some factor => Some (v * (m_norm m / factor)) end.
Definition expAng_group (t : exp_ang) (fc : cutoff_function) (rc : R) (e1 e2 : nat) (ms : list (member ea_par))
           (s : store) : option store :=
  match ms with
  | [] => None
  | m0 :: _ =>
    let numN := bound a (match t with Narrow => Some rc | _ => None end) in
    let numN := if Nat.eqb numN 0 then 1%nat else numN in
    match ofold (expAng_outer t fc rc e1 e2 ms (sf_ci (m_c m0)) numN) (seq 0 (numN - 1)) (fun _ => 0, s) with
    | None => None
    | Some st => finish expAng_final ms st
    end
  end.

(** *** Angular, compact: SymGrpCompAngn.cpp:146-405,
    SymGrpCompAngw.cpp:134-366, SymGrpCompAngnWeighted.cpp:134-393,
    SymGrpCompAngwWeighted.cpp:119-351 *)
(** The arrays radij[] and dradij[] and the rest. *)
Definition cstate := ((nat -> R * R) * gstate)%type.
(** The loop which precalculates the radial part of neighbor j. *)
Definition compAng_radial (j : nat) (nj : neighbor) (l : nat) (m : member ca_par) (st : (nat -> R * R) * store)
  : option ((nat -> R * R) * store) :=
  let (rad, s) := st in
  let p := m_p m in
  let rij := nb_d nj in
  if (ltR (ca_rl p) rij && ltR rij (ca_rc p))%bool then
    match fetch (sf_ci (m_c m) (nb_element nj)) (sf_ci (m_c m) (nb_element nj)) (cp_fdf (ca_c p)) j rij s with
    | None => None
    | Some (fd, s) => Some (upd rad l fd, s)
    end
  else Some (upd rad l (0, snd (rad l)), s).
(** The loop over the members for a pair.  State: skip, and radjk, dradjk
    ([None]: not yet initialised).  The wide types have no radjk: 1. *)
Definition comp_aux := (bool * option (R * R))%type.
Definition compAng_member (narrow weighted : bool) (j k : nat) (nj nk : neighbor) (rjk rinvijik costijk : R)
           (rad : nat -> R * R) (l : nat) (m : member ca_par) (st : comp_aux * gstate) : option (comp_aux * gstate) :=
  let '((skip, jk), (res, s)) := st in
  let p := m_p m in
  let rij := nb_d nj in
  let rik := nb_d nk in
  let (radij, dradij) := rad l in
  let acostijk := acos costijk in
  if (eqR radij 0 || leR rik (ca_rl p) || leR (ca_rc p) rik
      || (narrow && (leR rjk (ca_rl p) || leR (ca_rc p) rjk))
      || leR acostijk (ca_left p) || leR (ca_right p) acostijk)%bool
  then Some ((true, jk), (res, s))
  else
    match fetch (sf_ci (m_c m) (nb_element nk)) (sf_ci (m_c m) (nb_element nk)) (cp_fdf (ca_c p)) k rik s with
    | None => None
    | Some ((radik, dradik), s) =>
      let (skip, jk) := (if (m_calc m || skip)%bool
                         then (false, if narrow then Some (cp_fdf (ca_c p) rjk) else Some (1, 0))
                         else (skip, jk)) in
      match jk with
      | None => None
      | Some (radjk, dradjk) =>
        let (ang, dang) := cp_fdf (ca_a p) acostijk in
        let z := weight weighted nj nk in
        let ang := z * ang in
        let r := radij * radik * radjk in
        let res := upd res l (res l + r * ang) in
        if derivatives then
          match m_scale m with
          | None => None
          | Some factor =>
            let dacostijk := - (1) / sqrt (1 - costijk * costijk) in
            let dang := dang * dacostijk in
            let rinvij := rinvijik * rik in
            let rinvik := rinvijik * rij in
            let rinvjk := 1 / rjk in
            let phiijik := rinvij * (rinvik - rinvij * costijk) * dang in
            let phiikij := rinvik * (rinvij - rinvik * costijk) * dang in
            let psiijik := rinvijik * dang in
            let chiij := rinvij * dradij * radik * radjk in
            let chiik := rinvik * radij * dradik * radjk in
            let chijk := if narrow then - rinvjk * radij * radik * dradjk else 0 in
            if (negb (eqR dang 0) && negb (eqR r 0))%bool then
              let r := r * (factor * z) in
              let ang := ang * factor in
              Some ((skip, Some (radjk, dradjk)),
                    (res, put_pair (m_c m) j k nj nk (r * phiijik + ang * chiij) (r * phiikij + ang * chiik)
                                   (r * psiijik + ang * chijk) s))
            else if negb (eqR ang 0) then
              let ang := ang * factor in
              Some ((skip, Some (radjk, dradjk)),
                    (res, put_pair (m_c m) j k nj nk (ang * chiij) (ang * chiik) (ang * chijk) s))
            else Some ((skip, Some (radjk, dradjk)), (res, s))
          end
        else Some ((skip, Some (radjk, dradjk)), (res, s))
      end
    end.
Definition compAng_inner (narrow weighted : bool) (rmin rmax : R) (e1 e2 : nat) (ms : list (member ca_par))
           (j : nat) (nj : neighbor) (rad : nat -> R * R) (k : nat) (st : gstate) : option gstate :=
  match nth_error nbs k with
  | None => None
  | Some nk =>
    let rij := nb_d nj in
    let rik := nb_d nk in
    let rjk2 := norm2 (vsub (nb_dr nk) (nb_dr nj)) in
    if ((weighted || pairs_match e1 e2 (nb_element nj) (nb_element nk)) && ltR rik rmax && ltR rmin rik)%bool then
      if (narrow && (leR (rmax * rmax) rjk2 || leR rjk2 (rmin * rmin)))%bool then Some st
      else
        let rinvijik := 1 / (rij * rik) in
        let costijk := dot (nb_dr nj) (nb_dr nk) * rinvijik in
        if (leR costijk (-1) || leR 1 costijk)%bool then Some st
        else
          match each (compAng_member narrow weighted j k nj nk (sqrt rjk2) rinvijik costijk rad) ms
                     ((false, None), st) with
          | None => None
          | Some (_, st) => Some st
          end
    else Some st
  end.
Definition compAng_outer (narrow weighted : bool) (rmin rmax : R) (e1 e2 : nat) (ms : list (member ca_par))
           (numN j : nat) (st : cstate) : option cstate :=
  let '(rad, (res, s)) := st in
  match nth_error nbs j with
  | None => None
  | Some nj =>
    if ((weighted || one_of e1 e2 (nb_element nj)) && ltR (nb_d nj) rmax && ltR rmin (nb_d nj))%bool then
      match each (compAng_radial j nj) ms (rad, s) with
      | None => None
      | Some (rad, s) =>
        match ofold (compAng_inner narrow weighted rmin rmax e1 e2 ms j nj rad) (seq (j + 1) (numN - (j + 1)))
                    (res, s) with
        | None => None
        | Some st => Some (rad, st)
        end
      end
    else Some (rad, (res, s))
  end.
Definition compAng_group (narrow weighted : bool) (rmin rmax : R) (e1 e2 : nat) (ms : list (member ca_par))
           (s : store) : option store :=
  let numN := a_numN a in
  let numN := if Nat.eqb numN 0 then 1%nat else numN in
  match ofold (compAng_outer narrow weighted rmin rmax e1 e2 ms numN) (seq 0 (numN - 1))
              (fun _ => (0, 0), (fun _ => 0, s)) with
  | None => None
  | Some (_, st) => finish (fun _ v => Some v) ms st
  end.

(** SymGrp::calculate (virtual). *)
Definition calculateGroup (g : group) (s : store) : option store :=
  match g with
  | GExpRad w fc rc e1 ms => expRad_group w fc rc e1 ms s
  | GExpAng t fc rc e1 e2 ms => expAng_group t fc rc e1 e2 ms s
  | GCompRad w rmin rmax e1 ms => compRad_group w rmin rmax e1 ms s
  | GCompAng n w rmin rmax e1 e2 ms => compAng_group n w rmin rmax e1 e2 ms s
  end.
(** Element.cpp:449-460 calculateSymmetryFunctionGroups. *)
Definition calculateGroups (gs : list group) (s : store) : option store := ofold calculateGroup gs s.
End Calculate.
