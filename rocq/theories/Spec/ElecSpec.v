(** Charge equilibration and electrostatics (C40 - C42). *)
From Coq Require Import Reals ZArith List Bool Arith Sorted.
From Coquelicot Require Import Coquelicot.
From Coq Require Import List.
From Verif Require Import Base.Vec3 Base.Erf Base.SumR Model.CompactScreening Model.Geometry Model.NeighborList Model.Electrostatics
  Spec.GeometrySpec Spec.KspaceSpec.
Import ListNotations.
Local Open Scope R_scope.

(** ** Charge equilibration for [N] charges with electronegativities [chi],
    hardnesses [J] and mutual interaction [U]. *)
Definition qeq_energy (N : nat) (chi J : nat -> R) (U : nat -> nat -> R) (q : nat -> R) : R :=
  sumn N (fun i => chi i * q i) + 1 / 2 * sumn N (fun i => J i * q i * q i)
  + 1 / 2 * sumn N (fun i => sumn N (fun j => q i * U i j * q j)).
(** Derivative of the energy with respect to charge i. *)
Definition electronegativity (N : nat) (chi J : nat -> R) (U : nat -> nat -> R) (q : nat -> R) (i : nat) : R :=
  chi i + J i * q i + sumn N (fun j => U i j * q j).
(** The charges are determined by total charge and equal electronegativity. *)
Definition well_posed (N : nat) (J : nat -> R) (U : nat -> nat -> R) : Prop :=
  forall d l, sumn N d = 0 -> (forall i, (i < N)%nat -> electronegativity N (fun _ => 0) J U d i = l) ->
  forall i, (i < N)%nat -> d i = 0.
(** Redistributing charge in a neutral system costs energy. *)
Definition positive (N : nat) (J : nat -> R) (U : nat -> nat -> R) : Prop :=
  forall d, sumn N d = 0 -> (exists i, (i < N)%nat /\ d i <> 0) -> 0 < qeq_energy N (fun _ => 0) J U d.

(** ** Interaction of Gaussian charges of widths s1, s2 at distance r. *)
Definition gaussian_coulomb (s1 s2 eps r : R) : R := erf (r / sqrt (2 * (s1 * s1 + s2 * s2))) / (r * eps).
Definition distance (s : cstruct) (i j : nat) : R := norm (vsub (cpos s i) (cpos s j)).
Definition separated (s : cstruct) : Prop :=
  forall i j, (i < cnum s)%nat -> (j < cnum s)%nat -> i <> j -> cpos s i <> cpos s j.
Definition chi_of (s : cstruct) (i : nat) : R := c_chi (cat s i).
Definition J_of (hardness : nat -> R) (s : cstruct) (i : nat) : R := hardness (cel s i).
(** Isolated structures; the diagonal is the self-interaction of a Gaussian charge. *)
Definition isolated_U (sigma : nat -> R) (eps : R) (s : cstruct) (i j : nat) : R :=
  if Nat.eqb i j then 1 / (sqrt PI * sigma (cel s i) * eps)
  else gaussian_coulomb (sigma (cel s i)) (sigma (cel s j)) eps (distance s i j).
(** Electrostatic energy: pairs i < j, screened at short distances. *)
Definition isolated_energy (sigma : nat -> R) (eps : R) (fs : screening_function) (s : cstruct) (q : nat -> R) : R :=
  sumn (cnum s) (fun i => sumn (cnum s) (fun j =>
    if Nat.ltb i j then q i * q j * gaussian_coulomb (sigma (cel s i)) (sigma (cel s j)) eps (distance s i j) * sc_f fs (distance s i j)
    else 0)).

(** ** Ewald summation for periodic structures *)
Definition neighbors_within (a : atom) (rc : R) : list neighbor := firstn (getStoredMinNumNeighbors a rc) (a_nbs a).
Definition images_of (j : nat) (l : list neighbor) : list neighbor := filter (fun n => Z.eqb (nb_tag n) (Z.of_nat j)) l.
Definition ewald_real (sigma : nat -> R) (eps : R) (W : ewald) (s : cstruct) (i j : nat) : R :=
  rsum (map (fun n => (erfc (nb_d n / (sqrt 2 * ew_eta W))
                       - erfc (nb_d n / sqrt (2 * (sigma (cel s i) * sigma (cel s i) + sigma (cel s j) * sigma (cel s j)))))
                      / (nb_d n * eps))
            (images_of j (neighbors_within (cna s i) (ew_rCut W)))).
(** [L]: the reciprocal lattice vectors in the cutoff sphere. *)
Definition ewald_reciprocal (eps volume : R) (W : ewald) (L : list vec) (s : cstruct) (i j : nat) : R :=
  rsum (map (fun k => 4 * PI / volume * exp (- (ew_eta W * ew_eta W * norm2 k / 2)) / norm2 k
                      * cos (dot k (vsub (cpos s i) (cpos s j))) / eps) L).
Definition ewald_U (sigma : nat -> R) (eps volume : R) (W : ewald) (L : list vec) (s : cstruct) (i j : nat) : R :=
  let a := Nat.min i j in let b := Nat.max i j in
  (if Nat.eqb i j then (1 / (sqrt PI * sigma (cel s i)) - 2 / (sqrt 2 * ew_eta W * sqrt PI)) / eps else 0)
  + ewald_real sigma eps W s a b + ewald_reciprocal eps volume W L s a b.
(** Neighbor lists point to atoms of the structure and know their elements. *)
Definition neighbors_valid (s : cstruct) : Prop :=
  forall i n, (i < cnum s)%nat -> In n (a_nbs (cna s i)) ->
    exists j, (j < cnum s)%nat /\ nb_tag n = Z.of_nat j /\ nb_element n = cel s j.
(** Number of neighbors and cutoff table fit the list. *)
Definition counts_valid (s : cstruct) : Prop :=
  forall i, (i < cnum s)%nat -> a_numN (cna s i) = length (a_nbs (cna s i)) /\
    forall rc, (getStoredMinNumNeighbors (cna s i) rc <= length (a_nbs (cna s i)))%nat.
(** Pairs of atoms (i, image of j): every pair once for i < j, own images half
    (they occur in pairs). *)
Definition pair_weight (i : nat) (n : neighbor) : R :=
  if Z.ltb (Z.of_nat i) (nb_tag n) then 1 else if Z.eqb (Z.of_nat i) (nb_tag n) then 1 / 2 else 0.
(** Screened electrostatic energy: the Ewald energy without self-interaction,
    with the interaction of near pairs multiplied by the screening function. *)
Definition periodic_energy (sigma : nat -> R) (eps volume : R) (W : ewald) (L : list vec) (fs : screening_function) (s : cstruct) (q : nat -> R) : R :=
  1 / 2 * sumn (cnum s) (fun i => sumn (cnum s) (fun j => q i * ewald_U sigma eps volume W L s i j * q j))
  - sumn (cnum s) (fun i => 1 / 2 * (q i * q i / (sqrt PI * sigma (cel s i) * eps)))
  + sumn (cnum s) (fun i => rsum (map (fun n => pair_weight i n * (q i * q (Z.to_nat (nb_tag n))
        * gaussian_coulomb (sigma (cel s i)) (sigma (nb_element n)) eps (nb_d n) * (sc_f fs (nb_d n) - 1)))
      (neighbors_within (cna s i) (sc_outer fs)))).
(** Everything assumed of a periodic structure. *)
Definition periodic_input (s : cstruct) (W : ewald) (L : list vec) : Prop :=
  cs_periodic s = true /\ cs_sorted s = true /\ neighbors_valid s /\ counts_valid s /\ det (cs_box s) <> 0 /\ 0 <= ew_kCut W /\
  NoDup L /\ (forall k, In k L <-> reciprocal (cs_box s) k /\ k <> vzero /\ norm k < ew_kCut W).


(** ** Changed structures (C41, C42) *)
(** Other electronegativities. *)
Definition with_chi (chi : nat -> R) (s : cstruct) : cstruct :=
  mkCStruct (cs_periodic s) (cs_box s) (cs_sorted s) (mapi (fun i a => mkCAtom (c_atom a) (chi i)) (cs_atoms s)) (cs_chargeRef s).
(** Every atom i moved by t v_i; vectors to neighbors change accordingly. *)
Definition moved_neighbor (v : nat -> vec) (t : R) (i : nat) (n : neighbor) : neighbor :=
  let dr := vadd (nb_dr n) (smul t (vsub (v i) (v (Z.to_nat (nb_tag n))))) in
  mkNb (nb_index n) (nb_tag n) (nb_element n) (norm dr) dr.
Definition moved_atom (v : nat -> vec) (t : R) (i : nat) (a : atom) : atom :=
  mkAtom (a_element a) (vadd (a_r a) (smul t (v i))) (a_hasNL a) (a_sorted a) (a_numN a) (a_numU a) (a_perEl a) (a_unique a)
    (map (moved_neighbor v t i) (a_nbs a)) (a_cutoffs a).
Definition moved (v : nat -> vec) (t : R) (chi : nat -> R) (s : cstruct) : cstruct :=
  mkCStruct (cs_periodic s) (cs_box s) (cs_sorted s) (mapi (fun i a => mkCAtom (moved_atom v t i (c_atom a)) (chi i)) (cs_atoms s)) (cs_chargeRef s).

(** [Es t q]: energy along a path with charges q; it depends differentiably on
    both, with rate [rate] along the path and derivatives [dQ] with respect to
    the charges at q0. *)
Definition differentiable_energy (N : nat) (Es : R -> (nat -> R) -> R) (q0 : nat -> R) (rate : R) (dQ : nat -> R) : Prop :=
  forall (q : R -> nat -> R) (q' : nat -> R), (forall i, (i < N)%nat -> q 0 i = q0 i) ->
  (forall i, (i < N)%nat -> is_derive (fun t => q t i) 0 (q' i)) ->
  is_derive (fun t => Es t (q t)) 0 (rate + sumn N (fun i => dQ i * q' i)).
(** Work of forces f for velocities v. *)
Definition power (N : nat) (f v : nat -> vec) : R := sumn N (fun a => dot (f a) (v a)).
(** Charges and energies of a structure as functions. *)
Definition charges (solve : solver) (fuel : nat) (W : ewald) (P : epar) (s : cstruct) : nat -> R :=
  match calculateElectrostaticEnergy solve fuel W P s with Some r => er_Q r | None => fun _ => 0 end.
Definition electrostatic_energy (solve : solver) (fuel : nat) (W : ewald) (P : epar) (s : cstruct) : R :=
  match calculateElectrostaticEnergy solve fuel W P s with Some r => er_energy r | None => 0 end.
(** Distances of neighbors are the lengths of their vectors. *)
Definition distances_valid (s : cstruct) : Prop :=
  forall i n, (i < cnum s)%nat -> In n (a_nbs (cna s i)) -> nb_d n = norm (nb_dr n).
(** Neighbors in order of distance; those beyond the stored number for a cutoff
    are not closer than the cutoff. *)
Definition sorted_by_distance (s : cstruct) : Prop :=
  forall i, (i < cnum s)%nat -> StronglySorted (fun m n => nb_d m <= nb_d n) (a_nbs (cna s i)).
Definition complete_within (s : cstruct) (rc : R) : Prop :=
  forall i n, (i < cnum s)%nat -> In n (skipn (getStoredMinNumNeighbors (cna s i) rc) (a_nbs (cna s i))) -> rc <= nb_d n.
(** ** Responses (C41) *)
(** [y] solves the equilibration system [A] differentiated with respect to a
    parameter: the total charge is fixed and all electronegativities change by the
    same amount; [source k] is the explicit change of the k-th one. *)
Definition response_of (N : nat) (A : matrix) (source y : nat -> R) : Prop :=
  sumn N y = 0 /\ exists l, forall k, (k < N)%nat -> source k + sumn N (fun j => A k j * y j) = l.
(** One electronegativity changed. *)
Definition shift_chi (s : cstruct) (i : nat) (t : R) : cstruct :=
  with_chi (fun k => chi_of s k + (if Nat.eqb k i then t else 0)) s.
(** Hardness of one element changed. *)
Definition shift_hardness (hardness : nat -> R) (e : nat) (t : R) : nat -> R :=
  fun k => hardness k + (if Nat.eqb k e then t else 0).
(** One atom moved along component c. *)
Definition unit_vector (c : nat) : vec :=
  mkVec (if Nat.eqb c 0 then 1 else 0) (if Nat.eqb c 1 then 1 else 0) (if Nat.eqb c 2 then 1 else 0).
Definition one_atom (i c : nat) : nat -> vec := fun k => if Nat.eqb k i then unit_vector c else vzero.
