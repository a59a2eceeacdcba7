(** What the symmetry functions are supposed to be (C26-C28): sums over the
    neighbours, or over unordered pairs of neighbours, of an atom. *)
From Coq Require Import Reals ZArith List Bool Arith.
From Verif Require Import Base.Vec3 Base.SumR Model.CoreFunction Model.CutoffFunction Model.CompactScreening
  Model.Strings Model.Scaling Model.NeighborList Model.SymFunctions Spec.CompactSpec.
Import ListNotations.
Local Open Scope R_scope.

(** An environment: element and relative vector of each neighbour. *)
Definition env := list (nat * vec).
Definition env_of (nbs : list neighbor) : env := map (fun n => (nb_element n, nb_dr n)) nbs.

(** Sum over unordered pairs. *)
Fixpoint pair_sum {A} (f : A -> A -> R) (l : list A) : R :=
  match l with [] => 0 | x :: r => rsum (map (f x) r) + pair_sum f r end.

Definition cos_angle (x y : vec) : R := dot x y / (norm x * norm y).
(** x^zeta, zero for non-positive x. *)
Definition clipped_power (x zeta : R) : R := if Rle_dec x 0 then 0 else Rpower x zeta.

Definition radial_gauss (p : er_par) (r : R) : R :=
  exp (- er_eta p * (r - er_rs p) ^ 2) * cf_f (er_fc p) r.

Definition angular_gauss_wide (p : ea_par) (x y : vec) : R :=
  clipped_power (1 + ea_lambda p * cos_angle x y) (ea_zeta p)
  * exp (- ea_eta p * ((norm x - ea_rs p) ^ 2 + (norm y - ea_rs p) ^ 2))
  * (cf_f (ea_fc p) (norm x) * cf_f (ea_fc p) (norm y)).
Definition angular_gauss_narrow (p : ea_par) (x y : vec) : R :=
  let z := norm (vsub x y) in
  clipped_power (1 + ea_lambda p * cos_angle x y) (ea_zeta p)
  * exp (- ea_eta p * ((norm x - ea_rs p) ^ 2 + (norm y - ea_rs p) ^ 2 + (z - ea_rs p) ^ 2))
  * (cf_f (ea_fc p) (norm x) * cf_f (ea_fc p) (norm y) * cf_f (ea_fc p) z).

Definition radial_compact (p : cr_par) (r : R) : R := on_support (cr_rl p) (cr_rc p) (cp_f (cr_c p)) r.
Definition rad_compact (p : ca_par) (r : R) : R := on_support (ca_rl p) (ca_rc p) (cp_f (ca_c p)) r.
Definition ang_compact (p : ca_par) (x y : vec) : R :=
  on_support (ca_left p) (ca_right p) (cp_f (ca_a p)) (acos (cos_angle x y)).
Definition angular_compact_wide (p : ca_par) (x y : vec) : R :=
  rad_compact p (norm x) * rad_compact p (norm y) * ang_compact p x y.
Definition angular_compact_narrow (p : ca_par) (x y : vec) : R :=
  rad_compact p (norm x) * rad_compact p (norm y) * rad_compact p (norm (vsub x y)) * ang_compact p x y.

(** The neighbours (pairs) with the required elements. *)
Definition only (e : nat) (v : vec -> R) (n : nat * vec) : R :=
  if Nat.eqb (fst n) e then v (snd n) else 0.
Definition only_pair (e1 e2 : nat) (v : vec -> vec -> R) (n m : nat * vec) : R :=
  if ((Nat.eqb (fst n) e1 && Nat.eqb (fst m) e2) || (Nat.eqb (fst n) e2 && Nat.eqb (fst m) e1))%bool
  then v (snd n) (snd m) else 0.
(** Weights: atomic numbers. *)
Definition weighted (Z : nat -> R) (v : vec -> R) (n : nat * vec) : R := Z (fst n) * v (snd n).
Definition weighted_pair (Z : nat -> R) (v : vec -> vec -> R) (n m : nat * vec) : R :=
  Z (fst n) * Z (fst m) * v (snd n) (snd m).

Definition radial_sum (t : nat * vec -> R) (e : env) : R := rsum (map t e).

(** The value of a symmetry function in an environment. *)
Definition sf_value (Z : nat -> R) (k : kind) (e : env) : R :=
  match k with
  | ExpRad p => radial_sum (only (er_e1 p) (fun x => radial_gauss p (norm x))) e
  | ExpRadWeighted p => radial_sum (weighted Z (fun x => radial_gauss p (norm x))) e
  | CompRad p => radial_sum (only (cr_e1 p) (fun x => radial_compact p (norm x))) e
  | CompRadWeighted p => radial_sum (weighted Z (fun x => radial_compact p (norm x))) e
  | ExpAngn p => Rpower 2 (1 - ea_zeta p) * pair_sum (only_pair (ea_e1 p) (ea_e2 p) (angular_gauss_narrow p)) e
  | ExpAngw p => Rpower 2 (1 - ea_zeta p) * pair_sum (only_pair (ea_e1 p) (ea_e2 p) (angular_gauss_wide p)) e
  | ExpAngnWeighted p => Rpower 2 (1 - ea_zeta p) * pair_sum (weighted_pair Z (angular_gauss_narrow p)) e
  | CompAngn p => pair_sum (only_pair (ca_e1 p) (ca_e2 p) (angular_compact_narrow p)) e
  | CompAngw p => pair_sum (only_pair (ca_e1 p) (ca_e2 p) (angular_compact_wide p)) e
  | CompAngnWeighted p => pair_sum (weighted_pair Z (angular_compact_narrow p)) e
  | CompAngwWeighted p => pair_sum (weighted_pair Z (angular_compact_wide p)) e
  end.

(** Move the central atom by t*u and the j-th neighbour by t*(v j): the vectors
    from the neighbours to the central atom. *)
Definition displace (u : vec) (v : nat -> vec) (t : R) (e : env) : env :=
  map (fun jn => (fst (snd jn), vadd (snd (snd jn)) (smul t (vsub u (v (fst jn))))))
      (List.combine (seq 0 (length e)) e).

(** ** Admissible parameters: what setParameters produces *)
Definition dbl_min : R := / 2 ^ 1022.
(** SymFncBaseExpAng.cpp:82-90 (zetaInt is the rounded zeta); 32 bit int. *)
Definition zeta_setup (p : ea_par) : Prop :=
  (- 2 ^ 31 + 1 < ea_zetaInt p < 2 ^ 31)%Z /\
  (ea_useIntegerPow p = true -> ea_zeta p = IZR (ea_zetaInt p)).
Definition cutoff_setup (fc : cutoff_function) (rc : R) : Prop :=
  0 < rc /\ exists t alpha, cf_configure t rc alpha = Some fc.
Definition compact_setup (c : compact_function) (l r : R) : Prop :=
  exists k asym, compact_config k asym l r = Some c.
Definition admissible (k : kind) : Prop :=
  match k with
  | ExpRad p | ExpRadWeighted p => cutoff_setup (er_fc p) (er_rc p)
  | ExpAngn p | ExpAngw p | ExpAngnWeighted p => cutoff_setup (ea_fc p) (ea_rc p) /\ zeta_setup p
  | CompRad p | CompRadWeighted p => compact_setup (cr_c p) (cr_rl p) (cr_rc p)
  | CompAngn p | CompAngw p | CompAngnWeighted p | CompAngwWeighted p =>
      compact_setup (ca_c p) (ca_rl p) (ca_rc p) /\ compact_setup (ca_a p) (ca_left p) (ca_right p)
  end.

(** The list is the relative positions of the neighbours and the distances are
    consistent; a stored count for a cutoff only leaves out neighbours beyond it
    (established by setupNeighborCutoffMap, C24). *)
Definition good_list (a : atom) : Prop :=
  a_numN a = length (a_nbs a) /\
  (forall n, In n (a_nbs a) -> nb_d n = norm (nb_dr n)) /\
  (forall rc, (getStoredMinNumNeighbors a rc <= a_numN a)%nat /\
     forall j n, (getStoredMinNumNeighbors a rc <= j)%nat -> nth_error (a_nbs a) j = Some n -> rc <= nb_d n).

(** Points where the mathematical function is smooth. *)
Definition not_hard (fc : cutoff_function) : Prop := cf_type fc <> CT_HARD.
Definition smooth_power (p : ea_par) (x y : vec) : Prop :=
  1 + ea_lambda p * cos_angle x y <> 0 \/ 1 < ea_zeta p \/ (ea_zeta p = 1 /\ Rabs (ea_lambda p) <= 1).
(** Not exactly on the boundary of the angular window of an exponential core
    (where the code divides by zero). *)
Definition off_boundary (p : ca_par) (x y : vec) : Prop :=
  core_type (cp_core (ca_a p)) = CK_EXP ->
  acos (cos_angle x y) <> ca_left p /\ acos (cos_angle x y) <> ca_right p.
Definition on_pairs (P : vec -> vec -> Prop) (e : env) : Prop :=
  forall j k n m, (j < k)%nat -> nth_error e j = Some n -> nth_error e k = Some m -> P (snd n) (snd m).
(** Where the value is defined as a real number. *)
Definition evaluable (k : kind) (e : env) : Prop :=
  (forall n, In n e -> snd n <> vzero) /\
  match k with
  | CompAngw p | CompAngwWeighted p =>
      on_pairs (fun x y => off_boundary p x y /\ -1 < cos_angle x y < 1) e
  | CompAngn p | CompAngnWeighted p =>
      on_pairs (fun x y => x <> y /\ off_boundary p x y /\ -1 < cos_angle x y < 1) e
  | _ => True
  end.
Definition smooth_at (k : kind) (e : env) : Prop :=
  evaluable k e /\
  match k with
  | ExpRad p | ExpRadWeighted p => not_hard (er_fc p)
  | ExpAngn p | ExpAngnWeighted p =>
      not_hard (ea_fc p) /\ on_pairs (fun x y => x <> y /\ smooth_power p x y) e
  | ExpAngw p => not_hard (ea_fc p) /\ on_pairs (smooth_power p) e
  | _ => True
  end.

(** ** Memory layout *)
(** Elements of neighbours whose position enters the function. *)
Definition depends (k : kind) (e : nat) : bool :=
  match k with
  | ExpRad p => Nat.eqb e (er_e1 p)
  | CompRad p => Nat.eqb e (cr_e1 p)
  | ExpAngn p | ExpAngw p => (Nat.eqb e (ea_e1 p) || Nat.eqb e (ea_e2 p))%bool
  | CompAngn p | CompAngw p => (Nat.eqb e (ca_e1 p) || Nat.eqb e (ca_e2 p))%bool
  | _ => true
  end.

(** ** Cache contents *)
(** [asg e c0 c1 F]: for neighbours of element e the slots c0, c1 are meant to
    hold value and derivative of F at the neighbour's distance. *)
Definition assignment := nat -> nat -> nat -> (R -> R * R) -> Prop.
Definition consistent (asg : assignment) : Prop :=
  forall e c0 c1 F d0 d1 H, asg e c0 c1 F -> asg e d0 d1 H ->
    c0 <> c1 /\
    ((c0 = d0 /\ c1 = d1 /\ forall r, F r = H r) \/ (c0 <> d0 /\ c0 <> d1 /\ c1 <> d0 /\ c1 <> d1)).
(** The function a kind keeps in the cache. *)
Definition cached_function (k : kind) : R -> R * R :=
  match k with
  | ExpRad p | ExpRadWeighted p => cf_fdf (er_fc p)
  | ExpAngn p | ExpAngw p | ExpAngnWeighted p => cf_fdf (ea_fc p)
  | CompRad p | CompRadWeighted p => cp_fdf (cr_c p)
  | CompAngn p | CompAngw p | CompAngnWeighted p | CompAngwWeighted p => cp_fdf (ca_c p)
  end.
(** The exponential angular functions test the size of one element's index
    list and use another's (SymFncExpAngn.cpp:134, SymFncExpAngw.cpp:128,
    SymFncExpAngnWeighted.cpp:198): a caching pair of elements must both have
    slots.  Only elements present among the neighbours [nbs] matter. *)
Definition tests_other_element (k : kind) : bool :=
  match k with ExpAngn _ | ExpAngw _ | ExpAngnWeighted _ => true | _ => false end.
Definition both_cached (nbs : list neighbor) (f : symfnc) : Prop :=
  tests_other_element (sf_kind f) = true -> forall n n', In n nbs -> In n' nbs ->
   depends (sf_kind f) (nb_element n) = true -> depends (sf_kind f) (nb_element n') = true ->
   sf_ci (sf_c f) (nb_element n) <> [] -> sf_ci (sf_c f) (nb_element n') <> [].
Definition slots_ok (asg : assignment) (nbs : list neighbor) (f : symfnc) : Prop :=
  (forall e, depends (sf_kind f) e = true -> sf_ci (sf_c f) e = [] \/
     exists c0 c1 r, sf_ci (sf_c f) e = c0 :: c1 :: r /\ asg e c0 c1 (cached_function (sf_kind f))) /\
  both_cached nbs f.
(** Every slot is either empty (negative) or holds what it is meant to hold. *)
Definition coherent (asg : assignment) (nbs : list neighbor) (s : store) : Prop :=
  forall j n c0 c1 F, nth_error nbs j = Some n -> asg (nb_element n) c0 c1 F ->
    st_C s j c0 < 0 \/ (st_C s j c0, st_C s j c1) = F (nb_d n).

(** ** Derivatives *)
(** Directional derivative assembled from stored derivatives: the central atom
    moves by u, the j-th neighbour by v j; the derivative with respect to the
    j-th neighbour is in that neighbour's table at the entry which the function
    uses for the neighbour's element. *)
Definition directional (c : sf_common) (nbs : list neighbor) (D : loc -> vec) (u : vec) (v : nat -> vec) : R :=
  dot (D (LA (sf_index c))) u +
  rsum (map (fun jn => dot (D (LN (fst jn) (sf_perElement c (nb_element (snd jn))))) (v (fst jn)))
            (List.combine (seq 0 (length nbs)) nbs)).
(** The entries a function may write: its own entry of the atom's table, and its
    entry in the tables of neighbours of the elements it depends on. *)
Definition own_entry (f : symfnc) (nbs : list neighbor) (l : loc) : Prop :=
  l = LA (sf_index (sf_c f)) \/
  exists j n, nth_error nbs j = Some n /\ depends (sf_kind f) (nb_element n) = true /\
    l = LN j (sf_perElement (sf_c f) (nb_element n)).
(** Scaling as constructed (SymFnc.cpp:134-150: none, factor 1) or as set by
    setScalingType. *)
Definition scaling_setup (s : scaling) : Prop :=
  (scalingType s = ST_NONE /\ scalingFactor s = 1) \/
  exists ec i s0 t l Smin Smax, setScalingType ec i s0 t l Smin Smax = Some s.

(** Sum of all derivatives stored for a function: its entry of the atom's table
    plus its entry in the table of each neighbour. *)
Definition derivative_sum (c : sf_common) (nbs : list neighbor) (D : loc -> vec) : vec :=
  vadd (D (LA (sf_index c)))
    (fold_right vadd vzero (map (fun jn => D (LN (fst jn) (sf_perElement c (nb_element (snd jn)))))
       (List.combine (seq 0 (length nbs)) nbs))).

(** ** Radial and angular types *)
Definition radial (k : kind) : Prop :=
  match k with ExpRad _ | ExpRadWeighted _ | CompRad _ | CompRadWeighted _ => True | _ => False end.
Definition angular (k : kind) : Prop := ~ radial k.

(** ** Rigid motions (C28) *)
(** Neighbours given by element and position, seen from position c. *)
Definition env_at (c : vec) (ps : list (nat * vec)) : env := map (fun p => (fst p, vsub c (snd p))) ps.
Definition isometry (g : vec -> vec) : Prop := forall x y, norm (vsub (g x) (g y)) = norm (vsub x y).
Definition moved (g : vec -> vec) (ps : list (nat * vec)) : list (nat * vec) := map (fun p => (fst p, g (snd p))) ps.

(** ** Cache (C32) *)
(** No cache slots: caching is switched off for the function. *)
Definition no_slots (f : symfnc) : Prop := forall e, sf_ci (sf_c f) e = [].
Definition numbered (fs : list symfnc) : Prop := forall j f, nth_error fs j = Some f -> sf_index (sf_c f) = j.
(** Caches just allocated: every slot is empty. *)
Definition fresh (s : store) : Prop := forall j c, st_C s j c < 0.
(** Equal up to the cache slots. *)
Definition same_function (f g : symfnc) : Prop :=
  sf_index (sf_c f) = sf_index (sf_c g) /\ sf_perElement (sf_c f) = sf_perElement (sf_c g) /\
  sf_scaling (sf_c f) = sf_scaling (sf_c g) /\ sf_kind f = sf_kind g.

(** The numbers printed in a function's identifiers. *)
Definition printed (conv : R) (k : kind) : list R :=
  match k with
  | ExpRad p | ExpRadWeighted p => [cf_alpha (er_fc p); er_rc p / conv]
  | ExpAngn p | ExpAngw p | ExpAngnWeighted p => [cf_alpha (ea_fc p); ea_rc p / conv]
  | CompRad p | CompRadWeighted p => [cr_rl p / conv; cr_rc p / conv]
  | CompAngn p | CompAngw p | CompAngnWeighted p | CompAngwWeighted p => [ca_rl p / conv; ca_rc p / conv]
  end.

(** The digits of "%16.8E" for a number between 1 and 10 (and for 0). *)
Definition digits (r : R) : Z := Int_part (r * 10 ^ 8 + 1/2).
