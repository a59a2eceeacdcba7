(** Model of nnp-dist (src/application/nnp-dist.cpp): radial and angular
    distribution functions of a data set.

    Reading the structures is Model/StructureFile.v; here a run starts with the
    list of structures read, each without neighbor list.  numAtomsPerElement and
    volume are those of Structure::readFromFile: numbers of atoms of each element
    and the absolute value of the determinant of the box.  The maps of pointers
    share the vectors of (i, j) and (j, i): one vector with the ordered pair as
    key.  Log output and file headers are left out. *)
From Coq Require Import Reals ZArith Bool Arith List.
From Verif Require Import Base.Vec3 Model.Geometry Model.NeighborList Model.SymLines.
Import ListNotations.
Local Open Scope R_scope.

Definition key := (nat * nat)%type.
Definition pair_key (i j : nat) : key := if Nat.leb i j then (i, j) else (j, i).
Definition key_eqb (a b : key) : bool := (Nat.eqb (fst a) (fst b) && Nat.eqb (snd a) (snd b))%bool.
(** v->at(i) += x; out_of_range if there is no such entry. *)
Fixpoint bump (v : list R) (i : nat) (x : R) : outcome (list R) :=
  match v, i with
  | [], _ => Thrown
  | y :: v, O => Done (y + x :: v)
  | y :: v, S i => w <- bump v i x; Done (y :: w)
  end.
Definition histograms := key -> list R.
Definition bump_at (h : histograms) (k : key) (i : nat) (x : R) : outcome histograms :=
  v <- bump (h k) i x; Done (fun k' => if key_eqb k k' then v else h k').
(** (size_t)floor(x) for x >= 0. *)
Definition floor_size (x : R) : nat := Z.to_nat (Int_part x).

Section Run.
Variables (numElements numBins : nat) (rc : R) (calcAdf : bool).
(** nnp-dist.cpp:98, 101. *)
Definition dr : R := rc / INR numBins.
Definition da : R := 180 / INR numBins.

(** nnp-dist.cpp:185-203: the bin of the angle between two neighbors.  With
    distance 0 the quotient is not a number. *)
Definition angle_bin (nj nk : neighbor) : outcome nat :=
  if Req_EM_T (nb_d nj * nb_d nk) 0 then Undefined
  else
    let theta := dot (nb_dr nj) (nb_dr nk) / (nb_d nj * nb_d nk) in
    if Rle_dec 1 theta then Done 0%nat
    else if Rle_dec theta (- 1) then Done (numBins - 1)%nat
    else Done (floor_size (acos theta * 180 / PI / da)).
(** nnp-dist.cpp:178-205, loop over k. *)
Definition fill_angles (ei : nat) (nj : neighbor) (rest : list neighbor) (ah : nat -> histograms) : outcome (nat -> histograms) :=
  foldo (fun nk ah =>
    b <- angle_bin nj nk;
    h <- bump_at (ah ei) (pair_key (nb_element nj) (nb_element nk)) b 1;
    Done (fun i => if Nat.eqb ei i then h else ah i)) rest ah.
(** nnp-dist.cpp:163-206, loop over j: the neighbors of one atom. *)
Fixpoint fill_neighbors (ei : nat) (nbs : list neighbor) (st : histograms * (nat -> histograms)) : outcome (histograms * (nat -> histograms)) :=
  match nbs with
  | [] => Done st
  | nj :: rest =>
      let (rh, ah) := st in
      rh <- bump_at rh (pair_key ei (nb_element nj)) (floor_size (nb_d nj / dr)) (if Nat.eqb ei (nb_element nj) then 1 else 1 / 2);
      ah <- (if calcAdf then fill_angles ei nj rest ah else Done ah);
      fill_neighbors ei rest (rh, ah)
  end.
(** nnp-dist.cpp:160-207, loop over the atoms. *)
Definition fill_atoms (atoms : list atom) (st : histograms * (nat -> histograms)) : outcome (histograms * (nat -> histograms)) :=
  foldo (fun a st => fill_neighbors (a_element a) (a_nbs a) st) atoms st.

(** Structure.cpp:80-95, 581-586: numAtomsPerElement, volume. *)
Definition number_of (s : structure) (e : nat) : nat := length (filter (fun a => Nat.eqb (a_element a) e) (s_atoms s)).
Definition volume (s : structure) : R := Rabs (dot (m0 (s_box s)) (cross (m1 (s_box s)) (m2 (s_box s)))).

Record dist := mkDist {
  d_rhist : histograms; d_rdf : histograms; d_ahist : nat -> histograms; d_adf : nat -> histograms;
  d_count : nat; d_countPeriodic : nat; d_density : nat -> R
}.
(** nnp-dist.cpp:105-147. *)
Definition zeros : list R := repeat 0 numBins.
Definition dist_init : dist := mkDist (fun _ => zeros) (fun _ => zeros) (fun _ _ => zeros) (fun _ _ => zeros) 0 0 (fun _ => 0).
(** v1->at(n) += f(n, v2->at(n)) for all n. *)
Definition accumulate (v1 v2 : list R) (f : nat -> R -> R) : list R :=
  map (fun n => nth n v1 0 + f n (nth n v2 0)) (seq 0 numBins).
(** nnp-dist.cpp:218-235: pairs i <= j of elements which both occur; the
    histogram is cleared. *)
Definition present (s : structure) (k : key) : bool :=
  (Nat.leb (fst k) (snd k) && Nat.ltb (snd k) numElements && negb (Nat.eqb (number_of s (fst k)) 0) && negb (Nat.eqb (number_of s (snd k)) 0))%bool.
Definition rdf_step (s : structure) (rh rdf : histograms) : histograms * histograms :=
  (fun k => if present s k then zeros else rh k,
   fun k => if present s k
            then accumulate (rdf k) (rh k) (fun n x =>
                   let r := (INR n + 1 / 2) * dr in
                   (if s_periodic s then x * (volume s / INR (number_of s (fst k) * number_of s (snd k))) else x) / (4 * PI * r * r * dr))
            else rdf k).
(** nnp-dist.cpp:237-264. *)
Definition total (v : list R) : R := fold_left (fun s n => s + nth n v 0) (seq 0 numBins) 0.
Definition in_loop (i : nat) (k : key) : bool :=
  (Nat.ltb i numElements && Nat.leb (fst k) (snd k) && Nat.ltb (snd k) numElements)%bool.
Definition adf_step (ah adf : nat -> histograms) : (nat -> histograms) * (nat -> histograms) :=
  (fun i k => if in_loop i k then zeros else ah i k,
   fun i k => if in_loop i k
              then if Rlt_dec 0 (total (ah i k)) then accumulate (adf i k) (ah i k) (fun _ x => x / total (ah i k) / da) else adf i k
              else adf i k).
(** nnp-dist.cpp:148-269, one structure.  [None] from the neighbor list is
    excluded by [fuel] (Model/NeighborList.v). *)
Definition dist_structure (nsort : list neighbor -> list neighbor) (fuel : nat) (s : structure) (d : dist) : outcome dist :=
  match calculateNeighborList nsort fuel rc false s with
  | None => Undefined
  | Some s' =>
      st <- fill_atoms (s_atoms s') (d_rhist d, d_ahist d);
      let (rh, ah) := st in
      let (rh, rdf) := rdf_step s rh (d_rdf d) in
      let (ah, adf) := if calcAdf then adf_step ah (d_adf d) else (ah, d_adf d) in
      Done (mkDist rh rdf ah adf (d_count d + 1) (d_countPeriodic d + (if s_periodic s then 1 else 0))
              (fun i => if (s_periodic s && Nat.ltb i numElements)%bool then d_density d i + INR (number_of s i) / volume s else d_density d i))
  end.

(** nnp-dist.cpp:275-276, 395-420: the rows of an RDF file: bin limits, RDF, RDF divided by
    its maximum (not a number if that is 0), coordination number if all structures
    are periodic. *)
Definition max_element (v : list R) : R := fold_left Rmax v (hd 0 v).
Definition quotient (x y : R) : option R := if Req_EM_T y 0 then None else Some (x / y).
Record rdf_row := mkRdfRow { rr_low : R; rr_high : R; rr_rdf : R; rr_max1 : option R; rr_cn : option R }.
Definition cn_step (d : dist) (k : key) (n : nat) (integral : R) : R :=
  let pre := 4 * PI * dr * (1 / 2) / INR (d_count d) / INR (d_count d) in
  let center := (INR n + 1 / 2) * dr in
  if Nat.ltb 0 n then integral + pre * center * center * d_density d (snd k) * (nth (n - 1) (d_rdf d k) 0 + nth n (d_rdf d k) 0) else integral.
Definition rdf_file (d : dist) (k : key) : list rdf_row :=
  map (fun n =>
    mkRdfRow (INR n * dr) (INR (n + 1) * dr) (nth n (d_rdf d k) 0 / INR (d_count d)) (quotient (nth n (d_rdf d k) 0) (max_element (d_rdf d k)))
      (if Nat.eqb (d_count d) (d_countPeriodic d) then Some (fold_left (fun x n => cn_step d k n x) (seq 0 (n + 1)) 0) else None))
    (seq 0 numBins).
(** nnp-dist.cpp:478-491. *)
Record adf_row := mkAdfRow { ar_low : R; ar_high : R; ar_adf : R; ar_max1 : option R }.
Definition adf_file (d : dist) (i : nat) (k : key) : list adf_row :=
  map (fun n => mkAdfRow (INR n * da) (INR (n + 1) * da) (nth n (d_adf d i k) 0 / INR (d_count d)) (quotient (nth n (d_adf d i k) 0) (max_element (d_adf d i k))))
      (seq 0 numBins).
(** nnp-dist.cpp:35-507: the files of all element combinations.  Without bins
    max_element is dereferenced at the end; without structures the quotients are
    not numbers. *)
Record distributions := mkDistributions { o_rdf : list (key * list rdf_row); o_adf : list (nat * key * list adf_row) }.
Definition element_pairs : list key := flat_map (fun i => map (fun j => (i, j)) (seq i (numElements - i))) (seq 0 numElements).
Definition nnp_dist (nsort : list neighbor -> list neighbor) (fuel : nat) (structures : list structure) : outcome distributions :=
  if (Nat.eqb numBins 0 || Nat.eqb numElements 0)%bool then Undefined
  else
    d <- foldo (dist_structure nsort fuel) structures dist_init;
    if Nat.eqb (d_count d) 0 then Undefined
    else Done (mkDistributions (map (fun k => (k, rdf_file d k)) element_pairs)
                (if calcAdf then flat_map (fun i => map (fun k => (i, k, adf_file d i k)) element_pairs) (seq 0 numElements) else [])).
End Run.
