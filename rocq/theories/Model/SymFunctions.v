(** Model of the evaluation of symmetry functions: SymFnc*.cpp
    (src/libnnp), method calculate of each of the eleven types.

    Simplifications: [double] is R; the Vec3D arithmetic written out component
    by component in the code is written with the vector operations of Base/Vec3;
    the compile time switches are the defaults (cache on, sparse derivative
    memory, no improved exponential library). *)
From Coq Require Import Reals ZArith List Bool Arith.
From Verif Require Import Base.Vec3 Base.Loop Model.Strings Model.CutoffFunction Model.CompactScreening
  Model.Scaling Model.NeighborList.
Import ListNotations.
Local Open Scope R_scope.

(** ** Storage written by calculate *)

(** Where a derivative is stored: [LA i] is atom.dGdr[i], [LN j i] is
    atom.neighbors[j].dGdr[i] (Atom.h:79, 290). *)
Inductive loc := LA (i : nat) | LN (j i : nat).
Definition loc_eqb (a b : loc) : bool :=
  match a, b with
  | LA i, LA i' => Nat.eqb i i'
  | LN j i, LN j' i' => (Nat.eqb j j' && Nat.eqb i i')%bool
  | _, _ => false
  end.

(** atom.G, the derivatives and the neighbors' caches (Atom.h:76 cache:
    [st_C s j c] is atom.neighbors[j].cache[c]). *)
Record store := mkStore { st_G : nat -> R; st_D : loc -> vec; st_C : nat -> nat -> R }.

Definition set_G (i : nat) (v : R) (s : store) : store := mkStore (upd (st_G s) i v) (st_D s) (st_C s).
(** dGdr += v at one location. *)
Definition dadd (l : loc) (v : vec) (s : store) : store :=
  mkStore (st_G s) (fun l' => if loc_eqb l' l then vadd (st_D s l') v else st_D s l') (st_C s).
(** dGdr -= v at one location. *)
Definition dsub (l : loc) (v : vec) (s : store) : store :=
  mkStore (st_G s) (fun l' => if loc_eqb l' l then vsub (st_D s l') v else st_D s l') (st_C s).
Definition set_C (j c : nat) (v : R) (s : store) : store :=
  mkStore (st_G s) (st_D s) (upd (st_C s) j (upd (st_C s j) c v)).

(** Atom.cpp:168-240 allocate: zero values and derivatives; the caches are
    filled with -numeric_limits::max() (Atom.cpp:226-227). *)
Definition allocated : store := mkStore (fun _ => 0) (fun _ => vzero) (fun _ _ => - dbl_max).

(** Left fold with a failure (undefined behaviour or exception) outcome. *)
Fixpoint ofold {A S : Type} (f : A -> S -> option S) (l : list A) (s : S) : option S :=
  match l with
  | [] => Some s
  | a :: r => match f a s with None => None | Some s' => ofold f r s' end
  end.

Definition ltR (x y : R) : bool := if Rlt_dec x y then true else false.
Definition leR (x y : R) : bool := if Rle_dec x y then true else false.

(** ** Common members (SymFnc.h, protected) *)
(** index, indexPerElement, cacheIndices (per element), and the scaling
    members. *)
Record sf_common := mkCommon {
  sf_index : nat; sf_perElement : nat -> nat; sf_ci : nat -> list nat; sf_scaling : scaling
}.

(** The recurring cache access, e.g. SymFncExpAngn.cpp:104-112:
      if (cacheIndices[..].size() == 0) fdf(r, f, df);
      else { double& c0 = n.cache[cacheIndices[..][0]]; double& c1 = ...[1];
             if (c0 < 0) fdf(r, c0, c1); f = c0; df = c1; }
    [test] is the index list whose size is tested, [use] the one accessed;
    [None] = access beyond the end of [use] (undefined behaviour, or an
    exception where at() is used). *)
Definition fetch (test use : list nat) (fdf : R -> R * R) (j : nat) (r : R) (s : store)
  : option ((R * R) * store) :=
  match test with
  | [] => Some (fdf r, s)
  | _ :: _ =>
    match use with
    | c0 :: c1 :: _ =>
      let s := if ltR (st_C s j c0) 0
               then let (f, df) := fdf r in set_C j c1 df (set_C j c0 f s)
               else s in
      Some ((st_C s j c0, st_C s j c1), s)
    | _ => None
    end
  end.

(** ** Radial functions: common loop *)
(** What differs between the radial types: the cutoff whose stored neighbor
    count bounds the loop (None: all neighbors), the test on a neighbor, the
    cached function, the contribution to the result and the derivative factor. *)
Record rad_body := mkRB {
  rb_stored : option R;
  rb_guard : neighbor -> bool;
  rb_fdf : R -> R * R;
  rb_val : neighbor -> R * R -> R;
  rb_p1 : neighbor -> R * R -> R
}.

(** One pass of the neighbor loop (SymFncExpRad.cpp:139-180,
    SymFncExpRadWeighted.cpp:123-166, SymFncCompRad.cpp:141-178,
    SymFncCompRadWeighted.cpp:124-162). *)
Definition rad_step (c : sf_common) (b : rad_body) (nbs : list neighbor) (derivatives : bool)
           (j : nat) (st : R * store) : option (R * store) :=
  let (result, s) := st in
  match nth_error nbs j with
  | None => None
  | Some n =>
    if rb_guard b n then
      match fetch (sf_ci c (nb_element n)) (sf_ci c (nb_element n)) (rb_fdf b) j (nb_d n) s with
      | None => None
      | Some (fd, s) =>
        let result := result + rb_val b n fd in
        if derivatives then
          let dij := smul (rb_p1 b n fd) (nb_dr n) in
          Some (result, dsub (LN j (sf_perElement c (nb_element n))) dij (dadd (LA (sf_index c)) dij s))
        else Some (result, s)
      end
    else Some (result, s)
  end.

Definition bound (a : atom) (stored : option R) : nat :=
  match stored with Some rc => getStoredMinNumNeighbors a rc | None => a_numN a end.

(** The whole of calculate for the radial types. *)
Definition rad_calc (c : sf_common) (b : rad_body) (a : atom) (derivatives : bool) (s : store) : option store :=
  match ofold (rad_step c b (a_nbs a) derivatives) (seq 0 (bound a (rb_stored b))) (0, s) with
  | None => None
  | Some (result, s) => Some (set_G (sf_index c) (scale (sf_scaling c) result) s)
  end.

(** ** Angular functions: common loop *)
Record ang_body := mkAB {
  ab_stored : option R;
  ab_guardj : neighbor -> bool;
  ab_guardk : neighbor -> neighbor -> bool;
  (** true: the size test for neighbor k looks at the element of neighbor j *)
  ab_test_j : bool;
  ab_fdf : R -> R * R;
  (** contribution and the three derivative factors; None: continue *)
  ab_pair : neighbor -> neighbor -> R * R -> R * R -> option (R * (R * R * R));
  ab_norm : R
}.

(** Body of the inner loop (e.g. SymFncExpAngn.cpp:116-211). *)
Definition ang_step (c : sf_common) (b : ang_body) (nbs : list neighbor) (derivatives : bool)
           (j : nat) (nj : neighbor) (fij : R * R) (k : nat) (st : R * store) : option (R * store) :=
  let (result, s) := st in
  match nth_error nbs k with
  | None => None
  | Some nk =>
    if ab_guardk b nj nk then
      match fetch (sf_ci c (if ab_test_j b then nb_element nj else nb_element nk)) (sf_ci c (nb_element nk))
                  (ab_fdf b) k (nb_d nk) s with
      | None => None
      | Some (fik, s) =>
        match ab_pair b nj nk fij fik with
        | None => Some (result, s)
        | Some (v, (p1, p2, p3)) =>
          let result := result + v in
          if derivatives then
            let drij := smul p1 (nb_dr nj) in
            let drik := smul p2 (nb_dr nk) in
            let drjk := smul p3 (vsub (nb_dr nk) (nb_dr nj)) in
            Some (result,
              dsub (LN k (sf_perElement c (nb_element nk))) (vsub drik drjk)
              (dsub (LN j (sf_perElement c (nb_element nj))) (vadd drij drjk)
              (dadd (LA (sf_index c)) (vadd drij drik) s)))
          else Some (result, s)
        end
      end
    else Some (result, s)
  end.

(** Body of the outer loop (e.g. SymFncExpAngn.cpp:91-214). *)
Definition ang_outer (c : sf_common) (b : ang_body) (nbs : list neighbor) (derivatives : bool) (numN : nat)
           (j : nat) (st : R * store) : option (R * store) :=
  let (result, s) := st in
  match nth_error nbs j with
  | None => None
  | Some nj =>
    if ab_guardj b nj then
      match fetch (sf_ci c (nb_element nj)) (sf_ci c (nb_element nj)) (ab_fdf b) j (nb_d nj) s with
      | None => None
      | Some (fij, s) =>
        ofold (ang_step c b nbs derivatives j nj fij) (seq (j + 1) (numN - (j + 1))) (result, s)
      end
    else Some (result, s)
  end.

(** The whole of calculate for the angular types, including the guard for an
    empty list (e.g. SymFncExpAngn.cpp:85-89). *)
Definition ang_calc (c : sf_common) (b : ang_body) (a : atom) (derivatives : bool) (s : store) : option store :=
  let numN := bound a (ab_stored b) in
  let numN := if Nat.eqb numN 0 then 1%nat else numN in
  match ofold (ang_outer c b (a_nbs a) derivatives numN) (seq 0 (numN - 1)) (0, s) with
  | None => None
  | Some (result, s) =>
    let result := result * ab_norm b in
    Some (set_G (sf_index c) (scale (sf_scaling c) result) s)
  end.

(** ** The eleven types *)
(** SymFncExpRad.h, SymFncExpRadWeighted.h (e1 unused there). *)
Record er_par := mkER { er_e1 : nat; er_eta : R; er_rs : R; er_rc : R; er_fc : cutoff_function }.
(** SymFncBaseExpAng.h, SymFncExpAngnWeighted.h (e1, e2 unused there). *)
Record ea_par := mkEA {
  ea_e1 : nat; ea_e2 : nat; ea_eta : R; ea_rs : R; ea_lambda : R; ea_zeta : R;
  ea_zetaInt : Z; ea_useIntegerPow : bool; ea_rc : R; ea_fc : cutoff_function
}.
(** SymFncBaseComp.h (e1 unused in the weighted type). *)
Record cr_par := mkCR { cr_e1 : nat; cr_rl : R; cr_rc : R; cr_c : compact_function }.
(** SymFncBaseCompAng.h, SymFncBaseCompAngWeighted.h; angles in radians. *)
Record ca_par := mkCA {
  ca_e1 : nat; ca_e2 : nat; ca_rl : R; ca_rc : R; ca_left : R; ca_right : R;
  ca_c : compact_function; ca_a : compact_function
}.

(** Types 2, 12, 3, 9, 13, 20, 23, 21, 22, 24, 25 (Element.cpp:88-134). *)
Inductive kind :=
  ExpRad (p : er_par) | ExpRadWeighted (p : er_par)
| ExpAngn (p : ea_par) | ExpAngw (p : ea_par) | ExpAngnWeighted (p : ea_par)
| CompRad (p : cr_par) | CompRadWeighted (p : cr_par)
| CompAngn (p : ca_par) | CompAngw (p : ca_par) | CompAngnWeighted (p : ca_par) | CompAngwWeighted (p : ca_par).

Record symfnc := mkSF { sf_c : sf_common; sf_kind : kind }.

(** [factor] is scalingFactor; [Z e] is elementMap.atomicNumber(e). *)

(** SymFncExpRad.cpp:142-172. *)
Definition expRad_body (factor : R) (p : er_par) : rad_body :=
  mkRB (Some (er_rc p))
    (fun n => (Nat.eqb (er_e1 p) (nb_element n) && ltR (nb_d n) (er_rc p))%bool)
    (cf_fdf (er_fc p))
    (fun n fd => let rij := nb_d n in
       let pexp := exp (- er_eta p * (rij - er_rs p) * (rij - er_rs p)) in pexp * fst fd)
    (fun n fd => let rij := nb_d n in
       let pexp := exp (- er_eta p * (rij - er_rs p) * (rij - er_rs p)) in
       factor * (snd fd - 2 * er_eta p * (rij - er_rs p) * fst fd) * pexp / rij).

(** SymFncExpRadWeighted.cpp:126-158. *)
Definition expRadW_body (Z : nat -> R) (factor : R) (p : er_par) : rad_body :=
  mkRB None
    (fun n => ltR (nb_d n) (er_rc p))
    (cf_fdf (er_fc p))
    (fun n fd => let rij := nb_d n in
       let pexp := Z (nb_element n) * exp (- er_eta p * (rij - er_rs p) * (rij - er_rs p)) in pexp * fst fd)
    (fun n fd => let rij := nb_d n in
       let pexp := Z (nb_element n) * exp (- er_eta p * (rij - er_rs p) * (rij - er_rs p)) in
       factor * (snd fd - 2 * er_eta p * (rij - er_rs p) * fst fd) * pexp / rij).

(** SymFncCompRad.cpp:144-171. *)
Definition compRad_body (factor : R) (p : cr_par) : rad_body :=
  mkRB None
    (fun n => (Nat.eqb (cr_e1 p) (nb_element n) && ltR (cr_rl p) (nb_d n) && ltR (nb_d n) (cr_rc p))%bool)
    (cp_fdf (cr_c p))
    (fun n fd => fst fd)
    (fun n fd => factor * snd fd / nb_d n).

(** SymFncCompRadWeighted.cpp:127-155. *)
Definition compRadW_body (Z : nat -> R) (factor : R) (p : cr_par) : rad_body :=
  mkRB None
    (fun n => (ltR (cr_rl p) (nb_d n) && ltR (nb_d n) (cr_rc p))%bool)
    (cp_fdf (cr_c p))
    (fun n fd => fst fd * Z (nb_element n))
    (fun n fd => factor * Z (nb_element n) * snd fd / nb_d n).

(** The power of an angular term (SymFncExpAngn.cpp:170-180 and the same lines
    of the other types): plambda^(zeta - 1), by pow_int or std::pow.  The
    failure of [pow_int] is unreachable for 32 bit exponents (C05). *)
Definition zeta_pow (p : ea_par) (x : R) : R :=
  if ea_useIntegerPow p
  then match pow_int x (ea_zetaInt p - 1) with Some v => v | None => 0 end
  else Rpower x (ea_zeta p - 1).

Definition pairs_match (e1 e2 ej ek : nat) : bool :=
  ((Nat.eqb e1 ej && Nat.eqb e2 ek) || (Nat.eqb e2 ej && Nat.eqb e1 ek))%bool.
Definition one_of (e1 e2 e : nat) : bool := (Nat.eqb e1 e || Nat.eqb e2 e)%bool.

(** SymFncExpAngn.cpp:146-204 with prefactor [w] of the exponential (1, or the
    product of atomic numbers in SymFncExpAngnWeighted.cpp:211-267). *)
Definition angn_pair (w : neighbor -> neighbor -> R) (factor : R) (p : ea_par)
           (nj nk : neighbor) (fij fik : R * R) : option (R * (R * R * R)) :=
  let (pfcij, pdfcij) := fij in
  let (pfcik, pdfcik) := fik in
  let pnorm := Rpower 2 (1 - ea_zeta p) in
  let pzl := ea_zeta p * ea_lambda p in
  let rij := nb_d nj in
  let rik := nb_d nk in
  let r2ij := rij * rij in
  let drjk := vsub (nb_dr nk) (nb_dr nj) in
  let rjk := sqrt (norm2 drjk) in
  let (pfcjk, pdfcjk) := cf_fdf (ea_fc p) rjk in
  let rinvijik := 1 / rij / rik in
  let costijk := dot (nb_dr nj) (nb_dr nk) * rinvijik in
  let pfc := pfcij * pfcik * pfcjk in
  let r2ik := rik * rik in
  let rijs := rij - ea_rs p in
  let riks := rik - ea_rs p in
  let rjks := rjk - ea_rs p in
  let pexp := w nj nk * exp (- ea_eta p * (rijs * rijs + riks * riks + rjks * rjks)) in
  let plambda := 1 + ea_lambda p * costijk in
  let fg := if leR plambda 0 then 0 else pexp * zeta_pow p plambda in
  let v := fg * plambda * pfc in
  let fg := fg * pnorm in
  let rinvijik := rinvijik * pzl in
  let costijk := costijk * pzl in
  let p2etapl := 2 * ea_eta p * plambda in
  let p1 := fg * (pfc * (rinvijik - costijk / r2ij - p2etapl * rijs / rij) + pfcik * pfcjk * pdfcij * plambda / rij) in
  let p2 := fg * (pfc * (rinvijik - costijk / r2ik - p2etapl * riks / rik) + pfcij * pfcjk * pdfcik * plambda / rik) in
  let p3 := fg * (pfc * (rinvijik + p2etapl * rjks / rjk) - pfcij * pfcik * pdfcjk * plambda / rjk) in
  Some (v, (p1 * factor, p2 * factor, p3 * factor)).

(** SymFncExpAngn.cpp:79-220. *)
Definition expAngn_body (factor : R) (p : ea_par) : ang_body :=
  mkAB (Some (ea_rc p))
    (fun nj => (one_of (ea_e1 p) (ea_e2 p) (nb_element nj) && ltR (nb_d nj) (ea_rc p))%bool)
    (fun nj nk => (pairs_match (ea_e1 p) (ea_e2 p) (nb_element nj) (nb_element nk) && ltR (nb_d nk) (ea_rc p)
                   && ltR (norm2 (vsub (nb_dr nk) (nb_dr nj))) (ea_rc p * ea_rc p))%bool)
    true (cf_fdf (ea_fc p)) (angn_pair (fun _ _ => 1) factor p) (Rpower 2 (1 - ea_zeta p)).

(** SymFncExpAngnWeighted.cpp:147-288. *)
Definition expAngnW_body (Z : nat -> R) (factor : R) (p : ea_par) : ang_body :=
  mkAB None
    (fun nj => ltR (nb_d nj) (ea_rc p))
    (fun nj nk => (ltR (nb_d nk) (ea_rc p)
                   && ltR (norm2 (vsub (nb_dr nk) (nb_dr nj))) (ea_rc p * ea_rc p))%bool)
    true (cf_fdf (ea_fc p)) (angn_pair (fun nj nk => Z (nb_element nj) * Z (nb_element nk)) factor p)
    (Rpower 2 (1 - ea_zeta p)).

(** SymFncExpAngw.cpp:144-186. *)
Definition angw_pair (factor : R) (p : ea_par)
           (nj nk : neighbor) (fij fik : R * R) : option (R * (R * R * R)) :=
  let (pfcij, pdfcij) := fij in
  let (pfcik, pdfcik) := fik in
  let pnorm := Rpower 2 (1 - ea_zeta p) in
  let pzl := ea_zeta p * ea_lambda p in
  let rij := nb_d nj in
  let rik := nb_d nk in
  let r2ij := rij * rij in
  let rinvijik := 1 / rij / rik in
  let costijk := dot (nb_dr nj) (nb_dr nk) * rinvijik in
  let pfc := pfcij * pfcik in
  let r2ik := rik * rik in
  let rijs := rij - ea_rs p in
  let riks := rik - ea_rs p in
  let pexp := exp (- ea_eta p * (rijs * rijs + riks * riks)) in
  let plambda := 1 + ea_lambda p * costijk in
  let fg := if leR plambda 0 then 0 else pexp * zeta_pow p plambda in
  let v := fg * plambda * pfc in
  let fg := fg * pnorm in
  let rinvijik := rinvijik * pzl in
  let costijk := costijk * pzl in
  let p2etapl := 2 * ea_eta p * plambda in
  let p1 := fg * (pfc * (rinvijik - costijk / r2ij - p2etapl * rijs / rij) + pfcik * pdfcij * plambda / rij) in
  let p2 := fg * (pfc * (rinvijik - costijk / r2ik - p2etapl * riks / rik) + pfcij * pdfcik * plambda / rik) in
  let p3 := fg * pfc * rinvijik in
  Some (v, (p1 * factor, p2 * factor, p3 * factor)).

(** SymFncExpAngw.cpp:79-208. *)
Definition expAngw_body (factor : R) (p : ea_par) : ang_body :=
  mkAB None
    (fun nj => (one_of (ea_e1 p) (ea_e2 p) (nb_element nj) && ltR (nb_d nj) (ea_rc p))%bool)
    (fun nj nk => (pairs_match (ea_e1 p) (ea_e2 p) (nb_element nj) (nb_element nk) && ltR (nb_d nk) (ea_rc p))%bool)
    true (cf_fdf (ea_fc p)) (angw_pair factor p) (Rpower 2 (1 - ea_zeta p)).

(** SymFncCompAngn.cpp:144-203 with prefactor [w] of the angular function (1,
    or the product of atomic numbers in SymFncCompAngnWeighted.cpp:137-196). *)
Definition compn_pair (w : neighbor -> neighbor -> R) (factor : R) (p : ca_par)
           (nj nk : neighbor) (fij fik : R * R) : option (R * (R * R * R)) :=
  let (radij, dradij) := fij in
  let (radik, dradik) := fik in
  let rij := nb_d nj in
  let rik := nb_d nk in
  let rjk := sqrt (norm2 (vsub (nb_dr nk) (nb_dr nj))) in
  let (radjk, dradjk) := cp_fdf (ca_c p) rjk in
  let rinvijik := 1 / rij / rik in
  let costijk := dot (nb_dr nj) (nb_dr nk) * rinvijik in
  if (leR costijk (-1) || leR 1 costijk)%bool then None
  else
    let acostijk := acos costijk in
    if (ltR acostijk (ca_left p) || ltR (ca_right p) acostijk)%bool then None
    else
      let (ang, dang) := cp_fdf (ca_a p) acostijk in
      let rad := radij * radik * radjk in
      let ang := ang * w nj nk in
      let dacostijk := - (1) / sqrt (1 - costijk * costijk) in
      let dang := dang * dacostijk * w nj nk in
      let rinvij := rinvijik * rik in
      let rinvik := rinvijik * rij in
      let rinvjk := 1 / rjk in
      let phiijik := rinvij * (rinvik - rinvij * costijk) * dang in
      let phiikij := rinvik * (rinvij - rinvik * costijk) * dang in
      let psiijik := rinvijik * dang in
      let chiij := rinvij * dradij * radik * radjk in
      let chiik := rinvik * radij * dradik * radjk in
      let chijk := - rinvjk * radij * radik * dradjk in
      let p1 := rad * phiijik + ang * chiij in
      let p2 := rad * phiikij + ang * chiik in
      let p3 := rad * psiijik + ang * chijk in
      Some (rad * ang, (p1 * factor, p2 * factor, p3 * factor)).

(** SymFncCompAngw.cpp:135-187 with prefactor [w] (SymFncCompAngwWeighted.cpp:128-182). *)
Definition compw_pair (w : neighbor -> neighbor -> R) (factor : R) (p : ca_par)
           (nj nk : neighbor) (fij fik : R * R) : option (R * (R * R * R)) :=
  let (radij, dradij) := fij in
  let (radik, dradik) := fik in
  let rij := nb_d nj in
  let rik := nb_d nk in
  let rinvijik := 1 / rij / rik in
  let costijk := dot (nb_dr nj) (nb_dr nk) * rinvijik in
  if (leR costijk (-1) || leR 1 costijk)%bool then None
  else
    let acostijk := acos costijk in
    if (ltR acostijk (ca_left p) || ltR (ca_right p) acostijk)%bool then None
    else
      let (ang, dang) := cp_fdf (ca_a p) acostijk in
      let rad := radij * radik in
      let ang := ang * w nj nk in
      let dacostijk := - (1) / sqrt (1 - costijk * costijk) in
      let dang := dang * dacostijk * w nj nk in
      let rinvij := rinvijik * rik in
      let rinvik := rinvijik * rij in
      let phiijik := rinvij * (rinvik - rinvij * costijk) * dang in
      let phiikij := rinvik * (rinvij - rinvik * costijk) * dang in
      let psiijik := rinvijik * dang in
      let chiij := rinvij * radik * dradij in
      let chiik := rinvik * radij * dradik in
      let p1 := rad * phiijik + ang * chiij in
      let p2 := rad * phiikij + ang * chiik in
      let p3 := rad * psiijik in
      Some (rad * ang, (p1 * factor, p2 * factor, p3 * factor)).

Definition in_shell (p : ca_par) (r : R) : bool := (ltR r (ca_rc p) && ltR (ca_rl p) r)%bool.
(** SymFncCompAngn.cpp:78-80, 124: not (rjk >= r2c || rjk <= r2l) on squares. *)
Definition jk_inside (p : ca_par) (nj nk : neighbor) : bool :=
  let r2l := if Rlt_dec 0 (ca_rl p) then ca_rl p * ca_rl p else 0 in
  let r2c := ca_rc p * ca_rc p in
  let rjk := norm2 (vsub (nb_dr nk) (nb_dr nj)) in
  negb (leR r2c rjk || leR rjk r2l)%bool.

(** SymFncCompAngn.cpp:76-216. *)
Definition compAngn_body (factor : R) (p : ca_par) : ang_body :=
  mkAB None
    (fun nj => (one_of (ca_e1 p) (ca_e2 p) (nb_element nj) && in_shell p (nb_d nj))%bool)
    (fun nj nk => (pairs_match (ca_e1 p) (ca_e2 p) (nb_element nj) (nb_element nk) && in_shell p (nb_d nk)
                   && jk_inside p nj nk)%bool)
    false (cp_fdf (ca_c p)) (compn_pair (fun _ _ => 1) factor p) 1.
(** SymFncCompAngw.cpp:76-200. *)
Definition compAngw_body (factor : R) (p : ca_par) : ang_body :=
  mkAB None
    (fun nj => (one_of (ca_e1 p) (ca_e2 p) (nb_element nj) && in_shell p (nb_d nj))%bool)
    (fun nj nk => (pairs_match (ca_e1 p) (ca_e2 p) (nb_element nj) (nb_element nk) && in_shell p (nb_d nk))%bool)
    false (cp_fdf (ca_c p)) (compw_pair (fun _ _ => 1) factor p) 1.
(** SymFncCompAngnWeighted.cpp:72-214. *)
Definition compAngnW_body (Z : nat -> R) (factor : R) (p : ca_par) : ang_body :=
  mkAB None
    (fun nj => in_shell p (nb_d nj))
    (fun nj nk => (in_shell p (nb_d nk) && jk_inside p nj nk)%bool)
    false (cp_fdf (ca_c p)) (compn_pair (fun nj nk => Z (nb_element nj) * Z (nb_element nk)) factor p) 1.
(** SymFncCompAngwWeighted.cpp:72-202. *)
Definition compAngwW_body (Z : nat -> R) (factor : R) (p : ca_par) : ang_body :=
  mkAB None
    (fun nj => in_shell p (nb_d nj))
    (fun nj nk => in_shell p (nb_d nk))
    false (cp_fdf (ca_c p)) (compw_pair (fun nj nk => Z (nb_element nj) * Z (nb_element nk)) factor p) 1.

Inductive body := RB (b : rad_body) | AB (b : ang_body).
Definition body_of (Z : nat -> R) (factor : R) (k : kind) : body :=
  match k with
  | ExpRad p => RB (expRad_body factor p)
  | ExpRadWeighted p => RB (expRadW_body Z factor p)
  | ExpAngn p => AB (expAngn_body factor p)
  | ExpAngw p => AB (expAngw_body factor p)
  | ExpAngnWeighted p => AB (expAngnW_body Z factor p)
  | CompRad p => RB (compRad_body factor p)
  | CompRadWeighted p => RB (compRadW_body Z factor p)
  | CompAngn p => AB (compAngn_body factor p)
  | CompAngw p => AB (compAngw_body factor p)
  | CompAngnWeighted p => AB (compAngnW_body Z factor p)
  | CompAngwWeighted p => AB (compAngwW_body Z factor p)
  end.

(** SymFnc::calculate (virtual). *)
Definition calculate (Z : nat -> R) (f : symfnc) (a : atom) (derivatives : bool) (s : store) : option store :=
  match body_of Z (scalingFactor (sf_scaling (sf_c f))) (sf_kind f) with
  | RB b => rad_calc (sf_c f) b a derivatives s
  | AB b => ang_calc (sf_c f) b a derivatives s
  end.

(** Element.cpp:436-447 calculateSymmetryFunctions: all of them in order. *)
Definition calculateAll (Z : nat -> R) (fs : list symfnc) (a : atom) (derivatives : bool) (s : store)
  : option store :=
  ofold (fun f s => calculate Z f a derivatives s) fs s.
