(** Model of charge equilibration and electrostatics: Structure.cpp (src/libnnp)
    calculateElectrostaticEnergy, calculateScreeningEnergy, calculateDAdrQ,
    calculateDQdChi, calculateDQdJ, calculateDQdr,
    calculateElectrostaticEnergyDerivatives, calculateForceLambdaTotal,
    calculateForceLambdaElec, and Mode.cpp chargeEquilibration and the 4G part of
    calculateForces.

    Simplifications: the loops over atoms are modelled without OpenMP (their
    reductions add the same terms); vectors and matrices are functions of the
    indices (an index below the number of atoms or elements is always in range;
    neighbor tags, which could be out of range, are checked);
    A.colPivHouseholderQr().solve(b) is a function [solve] given as parameter;
    the residual returned by calculateElectrostaticEnergy is left out. *)
From Coq Require Import Reals ZArith List Bool Arith.
From Verif Require Import Base.Vec3 Base.Loop Base.SumR Base.Erf Model.CompactScreening Model.Geometry Model.NeighborList
  Model.Kspace Model.SymFunctions.
Import ListNotations.
Local Open Scope R_scope.

Definition matrix := nat -> nat -> R.
(** A(i, j) = v *)
Definition mat_set (A : matrix) (i j : nat) (v : R) : matrix :=
  fun a b => if (Nat.eqb a i && Nat.eqb b j)%bool then v else A a b.
(** A.colPivHouseholderQr().solve(b) for a system of the given size. *)
Definition solver := nat -> matrix -> (nat -> R) -> nat -> R.

(** Structure.h, Atom.h: what is needed of a structure (for each atom the
    members of NeighborList.v and chi). *)
Record catom := mkCAtom { c_atom : atom; c_chi : R }.
Record cstruct := mkCStruct {
  cs_periodic : bool; cs_box : mat; cs_sorted : bool; cs_atoms : list catom; cs_chargeRef : R
}.
Definition no_catom : catom := mkCAtom (fresh_atom 0 vzero 0) 0.
Definition cat (s : cstruct) (i : nat) : catom := nth i (cs_atoms s) no_catom.
Definition cna (s : cstruct) (i : nat) : atom := c_atom (cat s i).
Definition cel (s : cstruct) (i : nat) : nat := a_element (cna s i).
Definition cpos (s : cstruct) (i : nat) : vec := a_r (cna s i).
Definition cnum (s : cstruct) : nat := length (cs_atoms s).

(** Arguments of calculateElectrostaticEnergy: hardness, gammaSqrt2,
    sigmaSqrtPi, fs, fourPiEps. *)
Record epar := mkEPar { ep_hardness : nat -> R; ep_gamma : nat -> nat -> R; ep_sigma : nat -> R; ep_fs : screening_function; ep_eps : R }.
(** EwaldSetup.params: eta, rCut, kCut. *)
Record ewald := mkEwald { ew_eta : R; ew_rCut : R; ew_kCut : R }.
(** Mode.cpp:1759-1773. *)
Definition element_parameters (hardness qsigma : nat -> R) (fs : screening_function) (fourPiEps : R) : epar :=
  mkEPar hardness (fun i j => sqrt (2 * (qsigma i * qsigma i + qsigma j * qsigma j))) (fun i => sqrt PI * qsigma i) fs fourPiEps.

(** n.tag as size_t index of an atom; [None] = out of range. *)
Definition tag_index (N : nat) (n : neighbor) : option nat :=
  if (Z.leb 0 (nb_tag n) && Z.ltb (nb_tag n) (Z.of_nat N))%bool then Some (Z.to_nat (nb_tag n)) else None.

Section Fill.
Variable P : epar.
Variable s : cstruct.
Let N := cnum s.

(** Structure.cpp:673-696, isolated structures. *)
Definition fill_isolated : matrix :=
  for_up N (fun i A =>
    let ei := cel s i in
    let A := mat_set A i i (ep_hardness P ei + 1 / (ep_sigma P ei * ep_eps P)) in
    for_range (i + 1) N (fun j A =>
      let ej := cel s j in
      let rij := norm (vsub (cpos s i) (cpos s j)) in
      let A := mat_set A i j (erf (rij / ep_gamma P ei ej) / (rij * ep_eps P)) in
      mat_set A j i (A i j)) A) (fun _ _ => 0).

Variables (W : ewald) (grid : list kvector).
Let sqrt2eta := sqrt 2 * ew_eta W.
(** Structure.cpp:642-658, real part for neighbor k of atom i. *)
Definition fill_real (i : nat) (k : nat) (st : matrix * erfcbuf) : option (matrix * erfcbuf) :=
  let (A, buf) := st in
  let ei := cel s i in
  match nth_error (a_nbs (cna s i)) k with
  | None => None
  | Some n =>
    match tag_index N n with
    | None => None
    | Some j =>
      if Nat.ltb j i then Some (A, buf)
      else
        let rij := nb_d n in
        let ej := nb_element n in
        match buf_getf i k 0 (rij / sqrt2eta) buf with
        | None => None
        | Some (erfcSqrt2Eta, buf) =>
          match buf_getf i k 1 (rij / ep_gamma P ei ej) buf with
          | None => None
          | Some (erfcGammaSqrt2, buf) =>
            Some (mat_set A i j (A i j + (erfcSqrt2Eta - erfcGammaSqrt2) / (rij * ep_eps P)), buf)
          end
        end
    end
  end.
(** Structure.cpp:663-676, reciprocal part for atoms i and j. *)
Definition fill_reciprocal (i j : nat) (A : matrix) : matrix :=
  let A := fold_left (fun A gv =>
             let dr := vsub (cpos s i) (cpos s j) in
             mat_set A i j (A i j + 2 * kv_coeff gv * cos (dot (kv_k gv) dr) / ep_eps P)) grid A in
  mat_set A j i (A i j).
(** Structure.cpp:630-677, one atom i. *)
Definition fill_row (i : nat) (st : matrix * erfcbuf) : option (matrix * erfcbuf) :=
  let (A, buf) := st in
  let ei := cel s i in
  let A := mat_set A i i (A i i + (ep_hardness P ei + (1 / ep_sigma P ei - 2 / (sqrt2eta * sqrt PI)) / ep_eps P)) in
  match ofold (fill_real i) (seq 0 (getStoredMinNumNeighbors (cna s i) (ew_rCut W))) (A, buf) with
  | None => None
  | Some (A, buf) => Some (for_range i N (fill_reciprocal i) A, buf)
  end.
Definition fill_periodic (buf : erfcbuf) : option (matrix * erfcbuf) :=
  ofold fill_row (seq 0 N) ((fun _ _ => 0), buf).
End Fill.

(** Structure.cpp:703-705: A.col(N), A.row(N) ones, A(N, N) = 0. *)
Definition border (N : nat) (A : matrix) : matrix :=
  fun i j => if (Nat.eqb i N && Nat.eqb j N)%bool then 0 else if (Nat.eqb i N || Nat.eqb j N)%bool then 1 else A i j.

(** Structure.cpp:746-841 calculateScreeningEnergy. *)
Definition screening_pair (P : epar) (s : cstruct) (Q : nat -> R) (i : nat) (k : nat) (E : R) : option R :=
  let ei := cel s i in
  match nth_error (a_nbs (cna s i)) k with
  | None => None
  | Some n =>
    match tag_index (cnum s) n with
    | None => None
    | Some j =>
      if Nat.ltb j i then Some E
      else
        let rij := nb_d n in
        Some (E + Q i * Q j * erf (rij / ep_gamma P ei (nb_element n)) * (sc_f (ep_fs P) rij - 1) / (rij * ep_eps P))
    end
  end.
Definition calculateScreeningEnergy (P : epar) (s : cstruct) (A : matrix) (Q : nat -> R) : option R :=
  let rcutScreen := sc_outer (ep_fs P) in
  if cs_periodic s then
    ofold (fun i E =>
      let E := E + - Q i * Q i / (2 * ep_sigma P (cel s i) * ep_eps P) in
      ofold (screening_pair P s Q i) (seq 0 (getStoredMinNumNeighbors (cna s i) rcutScreen)) E)
      (seq 0 (cnum s)) 0
  else
    Some (for_up (cnum s) (fun i E =>
      let E := E + - Q i * Q i / (2 * ep_sigma P (cel s i) * ep_eps P) in
      for_range (i + 1) (cnum s) (fun j E =>
        let rij := norm (vsub (cpos s i) (cpos s j)) in
        if Rlt_dec rij rcutScreen then E + Q i * Q j * A i j * (sc_f (ep_fs P) rij - 1) else E) E) 0).

(** What calculateElectrostaticEnergy leaves behind: A, charges (as Q(i)),
    lambda, energyElec, the buffer and the grid used. *)
Record eresult := mkERes { er_A : matrix; er_Q : nat -> R; er_lambda : R; er_energy : R; er_buf : erfcbuf; er_grid : list kvector }.

(** Structure.cpp:711-744: solve, store charges, energy. *)
Definition finish (solve : solver) (P : epar) (s : cstruct) (A : matrix) (buf : erfcbuf) (grid : list kvector) : option eresult :=
  let N := cnum s in
  let A := border N A in
  let b := fun i => if Nat.eqb i N then cs_chargeRef s else - c_chi (cat s i) in
  let Q := solve (N + 1)%nat A b in
  let quad := 1 / 2 * sumn N (fun i => sumn N (fun j =>
                Q i * (A i j - (if Nat.eqb i j then ep_hardness P (cel s i) else 0)) * Q j)) in
  match calculateScreeningEnergy P s A Q with
  | None => None
  | Some E => Some (mkERes A Q (Q N) (quad + E) buf grid)
  end.
(** Structure.cpp:588-744 calculateElectrostaticEnergy ([fuel] for the grid). *)
Definition calculateElectrostaticEnergy (solve : solver) (fuel : nat) (W : ewald) (P : epar) (s : cstruct) : option eresult :=
  let buf := buf_reset (map (fun a => a_numN (c_atom a)) (cs_atoms s)) 2 in
  if cs_periodic s then
    if cs_sorted s then
      match grid_setup fuel (cs_box s) (ew_eta W) (ew_kCut W) grid_init with
      | None => None
      | Some g =>
        match fill_periodic P s W (kg_kvectors g) buf with
        | None => None
        | Some (A, buf) => finish solve P s A buf (kg_kvectors g)
        end
      end
    else None
  else finish solve P s (fill_isolated P s) buf [].

(** Structure.cpp:1005-1018 calculateDQdChi: vector i. *)
Definition calculateDQdChi (solve : solver) (s : cstruct) (A : matrix) (i : nat) : nat -> R :=
  solve (cnum s + 1)%nat A (fun j => if Nat.eqb j i then - (1) else 0).
(** Structure.cpp:1020-1037 calculateDQdJ: vector i (element i). *)
Definition calculateDQdJ (solve : solver) (s : cstruct) (A : matrix) (Q : nat -> R) (i : nat) : nat -> R :=
  solve (cnum s + 1)%nat A (fun j => if Nat.ltb j (cnum s) then (if Nat.eqb i (cel s j) then - Q j else 0) else 0).

(** dAdrQ of all atoms: entry (i, j) is atoms[i].dAdrQ[j]. *)
Definition vmatrix := nat -> nat -> vec.
Definition vset (D : vmatrix) (i j : nat) (v : vec) : vmatrix :=
  fun a b => if (Nat.eqb a i && Nat.eqb b j)%bool then v else D a b.

Section Derivatives.
Variable P : epar.
Variable s : cstruct.
Variable Q : nat -> R.
Let N := cnum s.

(** Structure.cpp:964-976: dA_ij/dr_i of isolated structures. *)
Definition dA_isolated (i j : nat) : vec :=
  let ei := cel s i in let ej := cel s j in
  let dr := vsub (cpos s i) (cpos s j) in
  let rij := norm dr in
  vdiv (smul (2 / (sqrt PI * ep_gamma P ei ej) * exp (- ((rij / ep_gamma P ei ej) * (rij / ep_gamma P ei ej)))
              - erf (rij / ep_gamma P ei ej) / rij) (vdiv dr (rij * rij))) (ep_eps P).
(** Structure.cpp:949-991. *)
Definition calculateDAdrQ_isolated (D : vmatrix) : vmatrix :=
  for_up N (fun i D =>
    for_range (i + 1) N (fun j D =>
      let dA := dA_isolated i j in
      let D := vset D i i (vadd (D i i) (smul (Q j) dA)) in
      let D := vset D i j (smul (Q i) dA) in
      let D := vset D j i (smul (Q j) (vopp dA)) in
      vset D j j (vsub (D j j) (smul (Q i) dA))) D) D.

(** Structure.cpp:917-924, 937-944 (with +=). *)
Definition add_pair (i j : nat) (dA : vec) (D : vmatrix) : vmatrix :=
  let D := vset D i i (vadd (D i i) (smul (Q j) dA)) in
  let D := vset D i j (vadd (D i j) (smul (Q i) dA)) in
  let D := vset D j i (vsub (D j i) (smul (Q j) dA)) in
  vset D j j (vsub (D j j) (smul (Q i) dA)).

Variables (W : ewald) (grid : list kvector).
Let sqrt2eta := sqrt 2 * ew_eta W.
(** Structure.cpp:891-924, real part. *)
Definition dAdrQ_real (i k : nat) (st : vmatrix * erfcbuf) : option (vmatrix * erfcbuf) :=
  let (D, buf) := st in
  let ei := cel s i in
  match nth_error (a_nbs (cna s i)) k with
  | None => None
  | Some n =>
    match tag_index N n with
    | None => None
    | Some j =>
      if Nat.leb j i then Some (D, buf)
      else
        let rij := nb_d n in
        let ej := cel s j in
        let g := ep_gamma P ei ej in
        match buf_getf i k 0 (rij / sqrt2eta) buf with
        | None => None
        | Some (erfcSqrt2Eta, buf) =>
          match buf_getf i k 1 (rij / g) buf with
          | None => None
          | Some (erfcGammaSqrt2, buf) =>
            let dA := smul (2 / sqrt PI * (- exp (- ((rij / sqrt2eta) * (rij / sqrt2eta))) / sqrt2eta
                                           + exp (- ((rij / g) * (rij / g))) / g)
                            - 1 / rij * (erfcSqrt2Eta - erfcGammaSqrt2)) (vdiv (nb_dr n) (rij * rij)) in
            Some (add_pair i j (vdiv dA (ep_eps P)) D, buf)
          end
        end
    end
  end.
(** Structure.cpp:927-945, reciprocal part. *)
Definition dAdrQ_reciprocal (i j : nat) (D : vmatrix) : vmatrix :=
  let dr := vsub (cpos s i) (cpos s j) in
  let dA := fold_left (fun v gv => vsub v (smul (2 * kv_coeff gv * sin (dot (kv_k gv) dr)) (kv_k gv))) grid vzero in
  add_pair i j (vdiv dA (ep_eps P)) D.
(** Structure.cpp:883-946. *)
Definition calculateDAdrQ_periodic (D : vmatrix) (buf : erfcbuf) : option (vmatrix * erfcbuf) :=
  ofold (fun i (st : vmatrix * erfcbuf) =>
    match ofold (dAdrQ_real i) (seq 0 (getStoredMinNumNeighbors (cna s i) (ew_rCut W))) st with
    | None => None
    | Some (D, buf) => Some (for_range (i + 1) N (dAdrQ_reciprocal i) D, buf)
    end) (seq 0 N) (D, buf).
(** Structure.cpp:844-1003 calculateDAdrQ; the vectors dAdrQ keep what they
    contain ([D]; zero after construction). *)
Definition calculateDAdrQ (D : vmatrix) (buf : erfcbuf) : option (vmatrix * erfcbuf) :=
  if cs_periodic s then calculateDAdrQ_periodic D buf else Some (calculateDAdrQ_isolated D, buf).
End Derivatives.

(** ** calculateElectrostaticEnergyDerivatives: (pEelecpr, dEelecdQ) of all atoms *)
Section EnergyDerivatives.
Variable P : epar.
Variable s : cstruct.
Variable Q : nat -> R.
Variable A : matrix.
Variable D : vmatrix.
Let N := cnum s.
Definition pd := ((nat -> vec) * (nat -> R))%type.

(** Structure.cpp:1104-1119. *)
Definition derivatives_unscreened (i : nat) (st : pd) : pd :=
  for_up N (fun j (st : pd) =>
    let (pE, dQ) := st in
    let pE := upd pE i (vadd (pE i) (smul (1 / 2 * Q j) (D i j))) in
    if Nat.eqb i j then
      (if cs_periodic s
       then (pE, upd dQ i (dQ i + Q i * (A i i - ep_hardness P (cel s i) - 1 / (ep_sigma P (cel s i) * ep_eps P))))
       else (pE, dQ))
    else (pE, upd dQ i (dQ i + Q j * A i j))) st.
(** Structure.cpp:1132-1151, 1160-1180: correction for a pair of atoms i, j with
    elements ei, ej, relative vector dr and distance rij. *)
Definition screening_correction (i j ei ej : nat) (dr : vec) (rij : R) (st : pd) : pd :=
  let (pE, dQ) := st in
  let g := ep_gamma P ei ej in
  let erfRij := erf (rij / g) in
  let fsRij := sc_f (ep_fs P) rij in
  let T := vdiv (smul (2 / (sqrt PI * g) * exp (- ((rij / g) * (rij / g))) * (fsRij - 1)
                       + erfRij * sc_df (ep_fs P) rij - erfRij * (fsRij - 1) / rij)
                      (vdiv (smul (Q i * Q j) dr) (rij * rij))) (ep_eps P) in
  let pE := upd pE i (vadd (pE i) T) in
  let pE := upd pE j (vsub (pE j) T) in
  let Sij := erfRij * (fsRij - 1) / rij / ep_eps P in
  let dQ := upd dQ i (dQ i + Q j * Sij) in
  let dQ := upd dQ j (dQ j + Q i * Sij) in
  (pE, dQ).
(** Structure.cpp:1123-1152, the loop over the neighbors with its break. *)
Fixpoint derivatives_neighbors (i : nat) (l : list neighbor) (st : pd) : option pd :=
  match l with
  | [] => Some st
  | n :: r =>
    match tag_index N n with
    | None => None
    | Some j =>
      if Nat.ltb j i then derivatives_neighbors i r st
      else if Rge_dec (nb_d n) (sc_outer (ep_fs P)) then Some st
      else derivatives_neighbors i r (screening_correction i j (cel s i) (cel s j) (nb_dr n) (nb_d n) st)
    end
  end.
(** Structure.cpp:1154-1181. *)
Definition derivatives_pairs (i : nat) (st : pd) : pd :=
  for_range (i + 1) N (fun j st =>
    let dr := vsub (cpos s i) (cpos s j) in
    let rij := norm dr in
    if Rge_dec rij (sc_outer (ep_fs P)) then st
    else screening_correction i j (cel s i) (cel s j) dr rij st) st.
(** Structure.cpp:1083-1186. *)
Definition calculateElectrostaticEnergyDerivatives : option pd :=
  ofold (fun i st =>
    let st := derivatives_unscreened i st in
    if cs_periodic s then derivatives_neighbors i (a_nbs (cna s i)) st
    else Some (derivatives_pairs i st)) (seq 0 N) ((fun _ => vzero), (fun _ => 0)).
End EnergyDerivatives.

(** Mode.cpp:1754-1801 chargeEquilibration with derivatives, for a structure
    whose atoms have empty dAdrQ: result and (dAdrQ, pEelecpr, dEelecdQ). *)
Definition chargeEquilibration (solve : solver) (fuel : nat) (W : ewald) (P : epar) (s : cstruct)
  : option (eresult * vmatrix * pd) :=
  match calculateElectrostaticEnergy solve fuel W P s with
  | None => None
  | Some r =>
    match calculateDAdrQ P s (er_Q r) W (er_grid r) (fun _ _ => vzero) (er_buf r) with
    | None => None
    | Some (D, _) =>
      match calculateElectrostaticEnergyDerivatives P s (er_Q r) (er_A r) D with
      | None => None
      | Some d => Some (r, D, d)
      end
    end
  end.

(** Structure.cpp:1188-1199 calculateForceLambdaTotal, for dEdG.back() of each
    atom (derivative of the atomic energy with respect to the charge). *)
Definition calculateForceLambdaTotal (solve : solver) (s : cstruct) (A : matrix) (dEelecdQ dEshortdQ : nat -> R) : nat -> R :=
  solve (cnum s + 1)%nat A (fun i => - (if Nat.ltb i (cnum s) then dEelecdQ i + dEshortdQ i else 0)).
(** Structure.cpp:1201-1212 calculateForceLambdaElec. *)
Definition calculateForceLambdaElec (solve : solver) (s : cstruct) (A : matrix) (dEelecdQ : nat -> R) : nat -> R :=
  solve (cnum s + 1)%nat A (fun i => - (if Nat.ltb i (cnum s) then dEelecdQ i else 0)).
(** Mode.cpp:1921-1957, the 4G part of calculateForces for atom i: force f and
    fElec; [fshort] is the force calculated before, [dChidr j i] the result of
    atoms[j].calculateDChidr(i). *)
Definition forces4G (N : nat) (lambdaTotal lambdaElec : nat -> R) (pE : nat -> vec) (D : vmatrix) (dChidr : nat -> nat -> vec)
           (fshort : nat -> vec) (i : nat) : vec * vec :=
  for_up N (fun j (ff : vec * vec) =>
    let (f, fElec) := ff in
    (vsub f (smul (lambdaTotal j) (vadd (D i j) (dChidr j i))),
     vsub fElec (smul (lambdaElec j) (vadd (D i j) (dChidr j i)))))
    (vsub (fshort i) (pE i), vopp (pE i)).

(** Structure.cpp:1039-1080 calculateDQdr for one atom [i] and component [c]:
    the entries a.dQdr[j][c]. *)
Definition calculateDQdr (solve : solver) (s : cstruct) (A : matrix) (D : vmatrix) (dChidr : nat -> nat -> vec) (i c : nat) : nat -> R :=
  solve (cnum s + 1)%nat A (fun j => if Nat.ltb j (cnum s) then 0 - comp (dChidr j i) c - comp (D i j) c else 0).
