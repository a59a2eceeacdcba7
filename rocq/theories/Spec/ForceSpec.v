(** What energy and forces of a short-range potential are supposed to be (C34,
    C35). *)
From Coq Require Import Reals List Arith.
From Verif Require Import Base.Vec3 Base.SumR Model.NeuralNetwork Model.Scaling Model.NeighborList Model.SymFunctions
  Spec.NetworkSpec Spec.GeometrySpec Spec.NeighborSpec Spec.SymSpec.
Import ListNotations.
Local Open Scope R_scope.

(** The environment of atom i: all atoms and periodic images within rc (each
    once, in any order), with element and relative vector. *)
Definition seen_from (s : structure) (i : nat) (p : nat * image) (n : nat * vec) : Prop :=
  exists ai aj, nth_error (s_atoms s) i = Some ai /\ nth_error (s_atoms s) (fst p) = Some aj /\
    n = (a_element aj, displacement s ai aj (snd p)).
Definition neighbourhood (s : structure) (rc : R) (i : nat) (e : env) : Prop :=
  exists L, NoDup L /\ (forall j m, In (j, m) L <-> in_range s rc i j m) /\ Forall2 (seen_from s i) L e.

(** Scaled symmetry functions in an environment. *)
Definition sf_input (Z : nat -> R) (fs : list symfnc) (e : env) (k : nat) : R :=
  match nth_error fs k with
  | Some f => scale (sf_scaling (sf_c f)) (sf_value Z (sf_kind f) e)
  | None => 0
  end.
(** Energy of an atom: network output for these inputs. *)
Definition atomic_energy (Z : nat -> R) (fs : list symfnc) (net : network) (e : env) : R :=
  getOutput (NetworkSpec.evaluate net (sf_input Z fs e)) 0.

(** Symmetry functions and network of each element. *)
Record potential := mkPotential { p_fs : nat -> list symfnc; p_net : nat -> network; p_weight : nat -> R }.

(** The energy of a structure. *)
Definition has_energy (P : potential) (rc : R) (s : structure) (E : R) : Prop :=
  exists es, length es = length (s_atoms s) /\
    (forall i e, nth_error es i = Some e -> neighbourhood s rc i e) /\
    E = rsum (map (fun p => atomic_energy (p_weight P) (p_fs P (a_element (fst p))) (p_net P (a_element (fst p))) (snd p))
                  (List.combine (s_atoms s) es)).

(** Atom i displaced by t times u i. *)
Definition displaced (u : nat -> vec) (t : R) (s : structure) : structure :=
  set_atoms s (mapi (fun i a => mkAtom (a_element a) (vadd (a_r a) (smul t (u i))) (a_hasNL a) (a_sorted a) (a_numN a)
                                  (a_numU a) (a_perEl a) (a_unique a) (a_nbs a) (a_cutoffs a)) (s_atoms s)).

(** Cutoff radius of a symmetry function. *)
Definition cutoff_of (k : kind) : R :=
  match k with
  | ExpRad p | ExpRadWeighted p => er_rc p
  | CompRad p | CompRadWeighted p => cr_rc p
  | ExpAngn p | ExpAngw p | ExpAngnWeighted p => ea_rc p
  | CompAngn p | CompAngw p | CompAngnWeighted p | CompAngwWeighted p => ca_rc p
  end.

(** A proper cell or no cell; the elements of all atoms are known. *)
Definition proper (s : structure) : Prop :=
  (s_periodic s = true -> det (s_box s) <> 0) /\
  forall a, In a (s_atoms s) -> (a_element a < s_numElements s)%nat.
(** No atom sees one of its own periodic images. *)
Definition no_self_image (s : structure) (rc : R) : Prop := forall i m, ~ in_range s rc i i m.

(** The functions of an element are numbered in order, admissible, not cached,
    with cutoffs up to rc. *)
Definition usable (rc : R) (fs : list symfnc) : Prop :=
  fs <> [] /\ numbered fs /\
  forall f, In f fs -> no_slots f /\ admissible (sf_kind f) /\ scaling_setup (sf_scaling (sf_c f)) /\
                       cutoff_of (sf_kind f) <= rc.

(** The potential can be used for N elements: as many network inputs as symmetry
    functions. *)
Definition sensible (N : nat) (rc : R) (P : potential) : Prop :=
  forall e, (e < N)%nat -> usable rc (p_fs P e) /\ well_formed (p_net P e) /\ acts_known (p_net P e) /\
    numNeurons (p_net P e) 0 = length (p_fs P e).
(** A structure as read from file: no neighbor list yet, atoms in the cell. *)
Definition unprocessed (rc : R) (s : structure) : Prop :=
  no_list s /\ zero_counters s /\ no_cutoff_map s /\ wrapped s /\ s_maxrc s <= rc.
(** Something holds for each symmetry function and each environment in the
    structure. *)
Definition everywhere (P : potential) (rc : R) (s : structure) (Q : kind -> env -> Prop) : Prop :=
  forall i a e f, nth_error (s_atoms s) i = Some a -> neighbourhood s rc i e -> In f (p_fs P (a_element a)) -> Q (sf_kind f) e.
(** The networks are differentiable at the inputs of the structure. *)
Definition regular_networks (P : potential) (rc : R) (s : structure) : Prop :=
  forall i a e, nth_error (s_atoms s) i = Some a -> neighbourhood s rc i e ->
    every_neuron regular (evaluate (p_net P (a_element a)) (sf_input (p_weight P) (p_fs P (a_element a)) e)).
