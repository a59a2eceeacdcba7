(** What the distribution functions of a data set are (C89, C90). *)
From Coq Require Import Reals ZArith Bool Arith List.
From Verif Require Import Base.Vec3 Base.SumR Model.NeighborList Model.Distribution Spec.GeometrySpec Spec.NeighborSpec.
Import ListNotations.
Local Open Scope R_scope.

(** Atom [a] has element [e]. *)
Definition of_kind (s : structure) (a e : nat) : Prop := exists x, nth_error (s_atoms s) a = Some x /\ a_element x = e.
(** [v] points from image [m] of atom [b] to atom [a]. *)
Definition separation (s : structure) (a b : nat) (m : image) (v : vec) : Prop :=
  exists x y, nth_error (s_atoms s) a = Some x /\ nth_error (s_atoms s) b = Some y /\ v = displacement s x y m.
(** Number of pairs: an atom of element [i] and an atom (or image) of element [j],
    within the cutoff, at a distance in [lo, hi). *)
Definition pairs_between (s : structure) (rc : R) (i j : nat) (lo hi : R) (c : nat) : Prop :=
  exists L, NoDup L /\ length L = c /\
    forall a b m, In (a, b, m) L <->
      in_range s rc a b m /\ of_kind s a i /\ of_kind s b j /\ exists v, separation s a b m v /\ lo <= norm v < hi.
(** Angle in degrees. *)
Definition angle (u v : vec) : R := acos (dot u v / (norm u * norm v)) * 180 / PI.
(** Number of triples: an atom of element [i] with two different neighbors, the
    first of element [j] and the second of element [k], with an angle in [P]. *)
Definition triples_with (s : structure) (rc : R) (i j k : nat) (P : R -> Prop) (c : nat) : Prop :=
  exists L, NoDup L /\ length L = c /\
    forall a b m b' m', In (a, (b, m), (b', m')) L <->
      in_range s rc a b m /\ in_range s rc a b' m' /\ (b, m) <> (b', m') /\ of_kind s a i /\ of_kind s b j /\ of_kind s b' k /\
      exists u v, separation s a b m u /\ separation s a b' m' v /\ P (angle u v).
(** Bin [n] of [N] between 0 and 180 degrees; 180 itself belongs to the last one. *)
Definition in_angle_bin (N n : nat) (x : R) : Prop :=
  INR n * (180 / INR N) <= x /\ (x < INR (n + 1) * (180 / INR N) \/ (n + 1)%nat = N /\ x = 180).
Definition cell_volume (s : structure) : R := Rabs (det (s_box s)).
Definition atoms_of (s : structure) (e : nat) : nat := length (filter (fun a => Nat.eqb (a_element a) e) (s_atoms s)).
(** No pair exactly at the cutoff. *)
Definition none_at_cutoff (s : structure) (rc : R) : Prop :=
  forall a b m v, in_range s rc a b m -> separation s a b m v -> norm v <> rc.
(** No two atoms at the same place. *)
Definition apart (s : structure) : Prop :=
  forall a b m v, (s_periodic s = false -> m = (0, 0, 0)%Z) -> (a, (0, 0, 0)%Z) <> (b, m) -> separation s a b m v -> norm v <> 0.
(** A structure as read by the program. *)
Definition readable (numElements : nat) (s : structure) : Prop :=
  no_list s /\ wrapped s /\ s_maxrc s = 0 /\ s_numElements s = numElements.
(** Contribution of one structure to bin [n] of [N] of the radial distribution
    function: pairs per volume of the spherical shell, for periodic structures
    relative to the mean density. *)
Definition radial (s : structure) (rc : R) (i j N n : nat) (x : R) : Prop :=
  exists c, pairs_between s rc i j (INR n * (rc / INR N)) (INR (n + 1) * (rc / INR N)) c /\
    x = INR c * (if s_periodic s then cell_volume s / (INR (atoms_of s i) * INR (atoms_of s j)) else 1)
        / (4 * PI * ((INR n + 1 / 2) * (rc / INR N)) ^ 2 * (rc / INR N)).
(** Contribution to the angular distribution function: fraction of the triples
    per degree; nothing if there is none. *)
Definition angular (s : structure) (rc : R) (i j k N n : nat) (x : R) : Prop :=
  exists c t, triples_with s rc i j k (in_angle_bin N n) c /\ triples_with s rc i j k (fun _ => True) t /\
    x = if Nat.eqb t 0 then 0 else INR c / INR t / (180 / INR N).
Definition mean (xs : list R) : R := rsum xs / INR (length xs).

(** ** Files *)
(** Column 3 of an RDF file. *)
Definition rdf_rows (structures : list structure) (rc : R) (i j N : nat) (rows : list rdf_row) : Prop :=
  length rows = N /\
  forall n row, nth_error rows n = Some row ->
    rr_low row = INR n * (rc / INR N) /\ rr_high row = INR (n + 1) * (rc / INR N) /\
    exists xs, Forall2 (fun s x => radial s rc i j N n x) structures xs /\ rr_rdf row = mean xs.
(** Column 4: column 3 divided by its largest value. *)
Definition maximum_one (column : list (R * option R)) : Prop :=
  (exists v, In v column /\ 0 < fst v) ->
  exists top, In top column /\ (forall v, In v column -> fst v <= fst top) /\ forall v, In v column -> snd v = Some (fst v / fst top).
(** Column 5: trapezoidal sums of 4 pi r^2 rho_j g(r), only if all structures are
    periodic. *)
Definition coordination (structures : list structure) (rc : R) (j N : nat) (rows : list rdf_row) : Prop :=
  let w := rc / INR N in
  let g m := nth m (map rr_rdf rows) 0 in
  let rho := mean (map (fun s => INR (atoms_of s j) / cell_volume s) structures) in
  ((forall s, In s structures -> s_periodic s = true) ->
     forall n row, nth_error rows n = Some row ->
       rr_cn row = Some (sumn n (fun m => 4 * PI * ((INR (m + 1) + 1 / 2) * w) ^ 2 * rho * ((g m + g (m + 1)%nat) / 2) * w))) /\
  ((exists s, In s structures /\ s_periodic s = false) -> forall row, In row rows -> rr_cn row = None).
Definition adf_rows (structures : list structure) (rc : R) (i j k N : nat) (rows : list adf_row) : Prop :=
  length rows = N /\
  forall n row, nth_error rows n = Some row ->
    ar_low row = INR n * (180 / INR N) /\ ar_high row = INR (n + 1) * (180 / INR N) /\
    exists xs, Forall2 (fun s x => angular s rc i j k N n x) structures xs /\ ar_adf row = mean xs.
