(** Conditions under which a potential can be evaluated with symmetry function
    cache and groups (C34, C35). *)
From Coq Require Import Reals List Arith.
From Verif Require Import Base.Vec3 Model.Scaling Model.NeighborList Model.SymFunctions
  Spec.SymSpec Spec.GroupSpec Spec.ForceSpec.
Import ListNotations.
Local Open Scope R_scope.

(** The potential with the scaling [sc e i] for function i of element e. *)
Definition with_function_scaling (sc : scaling) (f : symfnc) : symfnc :=
  mkSF (mkCommon (sf_index (sf_c f)) (sf_perElement (sf_c f)) (sf_ci (sf_c f)) sc) (sf_kind f).
Definition scaled_potential (sc : nat -> nat -> scaling) (P : potential) : potential :=
  mkPotential (fun e => map (fun f => with_function_scaling (sc e (sf_index (sf_c f))) f) (p_fs P e)) (p_net P) (p_weight P).

(** The functions of an element can be evaluated in groups. *)
Definition groupable (sc : nat -> scaling) (fs : list symfnc) : Prop :=
  (forall f, In f fs -> groupable_parameters (scalingFactor (sc (sf_index (sf_c f)))) (sf_kind f)) /\
  (forall f h, In f fs -> In h fs -> same_radial_part (sf_kind f) (sf_kind h)).

(** The numbers which describe the cutoff functions are different if their
    printed texts ([fmt]) are. *)
Definition distinguishable {T} (fmt : R -> T) (conv : R) (fs : list symfnc) : Prop :=
  forall f g x y, In f fs -> In g fs -> In x (printed conv (sf_kind f)) -> In y (printed conv (sf_kind g)) ->
    fmt x = fmt y -> x = y.

(** A weighted exponential angular function shares the cutoff function with
    another function either for neighbours of all elements or for none. *)
Definition cutoff_shared {K} (key : symfnc -> K) (fs : list symfnc) (f : symfnc) (e : nat) : Prop :=
  exists g, In g fs /\ sf_index (sf_c g) <> sf_index (sf_c f) /\ key g = key f /\ depends (sf_kind g) e = true.
Definition evenly_shared {K} (key : symfnc -> K) (N : nat) (fs : list symfnc) : Prop :=
  forall f, In f fs ->
    match sf_kind f with
    | ExpAngnWeighted _ => forall e e', (e < N)%nat -> (e' < N)%nat -> cutoff_shared key fs f e -> cutoff_shared key fs f e'
    | _ => True
    end.

(** All conditions for N elements. *)
Definition cached_and_grouped {K T} (key : symfnc -> K) (fmt : R -> T) (conv : R) (sc : nat -> nat -> scaling) (N : nat)
           (P : potential) : Prop :=
  forall e, (e < N)%nat -> groupable (sc e) (p_fs P e) /\ distinguishable fmt conv (p_fs P e) /\ evenly_shared key N (p_fs P e).
