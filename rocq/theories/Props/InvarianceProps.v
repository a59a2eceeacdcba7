(** Properties C68-C70: energies and forces do not depend on the way in which the
    same atoms are described; supercells; groups of atoms out of reach. *)
From Coq Require Import Reals ZArith Bool Arith Permutation.
From Coq Require Import List.
From Verif Require Import Base.Vec3 Base.SumR Model.NeuralNetwork Model.Scaling Model.NeighborList Model.SymFunctions Model.SymCache Model.SymSetup Model.SymGroups Model.Forces Model.GroupEvaluation
  Spec.NetworkSpec Spec.GeometrySpec Spec.NeighborSpec Spec.SymSpec Spec.SetupSpec Spec.GroupSpec Spec.ForceSpec Spec.EvaluationSpec Spec.InvarianceSpec
  Proofs.ForceExamples Proofs.GroupForceExamples Proofs.Invariance Proofs.InvarianceExamples Proofs.SupercellProofs Proofs.SeparateProofs.
Import ListNotations.
Local Open Scope R_scope.

(** Two descriptions of the same atoms ([same_system]: moved rigidly, renumbered
    by p, with other cell vectors, wrapped differently): the same energy, the same
    energy of each atom, and forces turned with the structure. *)
Theorem C68_same_energy_and_forces : forall N rc P g p s1 s2 nsort fuel1 fuel2 s1' s2',
  sensible N rc P -> 0 <= rc -> is_sort nsort -> same_system g p s1 s2 ->
  s_numElements s1 = N -> unprocessed rc s1 -> calculateNeighborList nsort fuel1 rc false s1 = Some s1' ->
  s_numElements s2 = N -> unprocessed rc s2 -> calculateNeighborList nsort fuel2 rc false s2 = Some s2' ->
  everywhere P rc s1 evaluable ->
  exists E ys1 ys2,
    evaluateNNP nsort fuel1 (p_weight P) (setupMemoryAll N (map (p_fs P) (seq 0 N))) (p_net P) rc s1 = Some (E, ys1) /\
    evaluateNNP nsort fuel2 (p_weight P) (setupMemoryAll N (map (p_fs P) (seq 0 N))) (p_net P) rc s2 = Some (E, ys2) /\
    length ys1 = length (s_atoms s1) /\
    (forall i y, nth_error ys1 i = Some y ->
       exists y', nth_error ys2 (p i) = Some y' /\ e_energy y' = e_energy y /\ e_f y' = linear_part g (e_f y)).
Proof. exact invariant_energy. Qed.
Print Assumptions C68_same_energy_and_forces.

(** A periodic chain whose atoms see their own images, with an angular function:
    turned, renumbered, with a sheared cell. *)
Example C68_nonvacuous : sensible 2 chain_rc (chain_pot chain_ang 0) /\ same_system quarter swap chain turned /\
  unprocessed chain_rc chain /\ unprocessed chain_rc turned /\
  (exists nsort fuel s' t', is_sort nsort /\ calculateNeighborList nsort fuel chain_rc false chain = Some s' /\
     calculateNeighborList nsort fuel chain_rc false turned = Some t') /\
  everywhere (chain_pot chain_ang 0) chain_rc chain evaluable /\ in_range chain chain_rc 0 0 (1, 0, 0)%Z.
Proof. exact turned_ok. Qed.

(** With cache and groups, as in the default build. *)
Theorem C68_default_same_energy_and_forces : forall T (T_dec : forall a b : T, {a = b} + {a <> b}) fmt conv gsort msort N rc P sc g p s1 s2 nsort fuel1 fuel2 s1' s2',
  (forall l, Permutation l (gsort l)) -> (forall l, Permutation l (msort l)) -> conv <> 0 ->
  sensible N rc (scaled_potential sc P) -> cached_and_grouped (text_of T fmt conv) fmt conv sc N P -> 0 <= rc -> is_sort nsort -> same_system g p s1 s2 ->
  s_numElements s1 = N -> unprocessed rc s1 -> calculateNeighborList nsort fuel1 rc false s1 = Some s1' ->
  s_numElements s2 = N -> unprocessed rc s2 -> calculateNeighborList nsort fuel2 rc false s2 = Some s2' ->
  everywhere (scaled_potential sc P) rc s1 evaluable -> everywhere (scaled_potential sc P) rc s1 distinct_neighbors ->
  exists es E ys1 ys2, setupAll (text T) (text_dec T_dec) (text_of T fmt conv) gsort msort N true (map (p_fs P) (seq 0 N)) = Some es /\
    evaluateGroups nsort fuel1 (p_weight P) (setupScaling sc es) (p_net P) rc s1 = Some (E, ys1) /\
    evaluateGroups nsort fuel2 (p_weight P) (setupScaling sc es) (p_net P) rc s2 = Some (E, ys2) /\
    length ys1 = length (s_atoms s1) /\
    (forall i y, nth_error ys1 i = Some y ->
       exists y', nth_error ys2 (p i) = Some y' /\ e_energy y' = e_energy y /\ e_f y' = linear_part g (e_f y)).
Proof. exact invariant_default. Qed.
Print Assumptions C68_default_same_energy_and_forces.

Example C68_default_nonvacuous : sensible 2 chain_rc (scaled_potential duo_sc duo) /\ cached_and_grouped (text_of R (fun x => x) 1) (fun x => x) 1 duo_sc 2 duo /\
  same_system quarter cycle three three_turned /\ unprocessed chain_rc three /\ unprocessed chain_rc three_turned /\
  (exists nsort fuel s' t', is_sort nsort /\ calculateNeighborList nsort fuel chain_rc false three = Some s' /\
     calculateNeighborList nsort fuel chain_rc false three_turned = Some t') /\
  everywhere (scaled_potential duo_sc duo) chain_rc three evaluable /\ everywhere (scaled_potential duo_sc duo) chain_rc three distinct_neighbors /\
  in_range three chain_rc 0 1 (0, 0, 0)%Z /\ in_range three chain_rc 0 2 (0, 0, 0)%Z.
Proof. exact three_turned_ok. Qed.

(** ** C69 *)
(** Copy number k of atom j is atom k * (number of atoms) + j of the supercell.
    Missing for the full claim: forces in cells so small that atoms see their own
    images while angular functions are used (see C34). *)
Theorem C69_supercell_partial : forall N rc P n1 n2 n3 s nsort fuel fuel' s1 s1', (0 < n1 /\ 0 < n2 /\ 0 < n3)%nat -> sensible N rc P -> 0 <= rc -> is_sort nsort ->
  s_periodic s = true -> s_numElements s = N -> unprocessed rc s ->
  calculateNeighborList nsort fuel rc false s = Some s1 -> calculateNeighborList nsort fuel' rc false (supercell n1 n2 n3 s) = Some s1' ->
  everywhere P rc s evaluable ->
  exists E ys ys',
    evaluateNNP nsort fuel (p_weight P) (setupMemoryAll N (map (p_fs P) (seq 0 N))) (p_net P) rc s = Some (E, ys) /\
    evaluateNNP nsort fuel' (p_weight P) (setupMemoryAll N (map (p_fs P) (seq 0 N))) (p_net P) rc (supercell n1 n2 n3 s) = Some (INR (n1 * n2 * n3) * E, ys') /\
    length ys = length (s_atoms s) /\
    (forall k j y, (k < n1 * n2 * n3)%nat -> nth_error ys j = Some y ->
       exists y', nth_error ys' (k * length (s_atoms s) + j) = Some y' /\ e_energy y' = e_energy y) /\
    ((no_self_image s rc \/ forall e f, In f (p_fs P e) -> radial (sf_kind f)) ->
     forall k j y y', (k < n1 * n2 * n3)%nat -> nth_error ys j = Some y -> nth_error ys' (k * length (s_atoms s) + j) = Some y' -> e_f y' = e_f y).
Proof. exact supercell_energy. Qed.
Print Assumptions C69_supercell_partial.

(** A chain of atoms which see their own images, and 3 x 2 x 1 copies. *)
Example C69_nonvacuous : sensible 2 chain_rc (chain_pot chain_rad 1) /\ s_periodic chain = true /\ unprocessed chain_rc chain /\
  (exists nsort fuel s' t', is_sort nsort /\ calculateNeighborList nsort fuel chain_rc false chain = Some s' /\
     calculateNeighborList nsort fuel chain_rc false (supercell 3 2 1 chain) = Some t') /\
  everywhere (chain_pot chain_rad 1) chain_rc chain evaluable /\
  (forall e f, In f (p_fs (chain_pot chain_rad 1) e) -> radial (sf_kind f)) /\ in_range chain chain_rc 0 0 (1, 0, 0)%Z.
Proof. exact chain_super_ok. Qed.

Theorem C69_default_supercell_partial : forall T (T_dec : forall a b : T, {a = b} + {a <> b}) fmt conv gsort msort N rc P sc n1 n2 n3 s nsort fuel fuel' s1 s1',
  (forall l, Permutation l (gsort l)) -> (forall l, Permutation l (msort l)) -> conv <> 0 -> (0 < n1 /\ 0 < n2 /\ 0 < n3)%nat ->
  sensible N rc (scaled_potential sc P) -> cached_and_grouped (text_of T fmt conv) fmt conv sc N P -> 0 <= rc -> is_sort nsort ->
  s_periodic s = true -> s_numElements s = N -> unprocessed rc s ->
  calculateNeighborList nsort fuel rc false s = Some s1 -> calculateNeighborList nsort fuel' rc false (supercell n1 n2 n3 s) = Some s1' ->
  everywhere (scaled_potential sc P) rc s evaluable -> everywhere (scaled_potential sc P) rc s distinct_neighbors ->
  exists es E ys ys', setupAll (text T) (text_dec T_dec) (text_of T fmt conv) gsort msort N true (map (p_fs P) (seq 0 N)) = Some es /\
    evaluateGroups nsort fuel (p_weight P) (setupScaling sc es) (p_net P) rc s = Some (E, ys) /\
    evaluateGroups nsort fuel' (p_weight P) (setupScaling sc es) (p_net P) rc (supercell n1 n2 n3 s) = Some (INR (n1 * n2 * n3) * E, ys') /\
    length ys = length (s_atoms s) /\
    (forall k j y, (k < n1 * n2 * n3)%nat -> nth_error ys j = Some y ->
       exists y', nth_error ys' (k * length (s_atoms s) + j) = Some y' /\ e_energy y' = e_energy y) /\
    ((no_self_image s rc \/ forall e f, In f (p_fs P e) -> radial (sf_kind f)) ->
     forall k j y y', (k < n1 * n2 * n3)%nat -> nth_error ys j = Some y -> nth_error ys' (k * length (s_atoms s) + j) = Some y' -> e_f y' = e_f y).
Proof. exact supercell_default. Qed.
Print Assumptions C69_default_supercell_partial.

Example C69_default_nonvacuous : sensible 2 chain_rc (scaled_potential duo_sc trio) /\ cached_and_grouped (text_of R (fun x => x) 1) (fun x => x) 1 duo_sc 2 trio /\
  s_periodic chain = true /\ unprocessed chain_rc chain /\
  (exists nsort fuel s' t', is_sort nsort /\ calculateNeighborList nsort fuel chain_rc false chain = Some s' /\
     calculateNeighborList nsort fuel chain_rc false (supercell 3 2 1 chain) = Some t') /\
  everywhere (scaled_potential duo_sc trio) chain_rc chain evaluable /\ everywhere (scaled_potential duo_sc trio) chain_rc chain distinct_neighbors /\
  (forall e f, In f (p_fs trio e) -> radial (sf_kind f)) /\ in_range chain chain_rc 0 0 (1, 0, 0)%Z.
Proof. exact trio_super_ok. Qed.

(** Where atoms see their own images and angular functions are used, the forces
    in the cell are not those in the supercell. *)
Theorem C69_own_images_refuted : exists P rc s nsort fuel fuel' E ys ys', sensible 2 rc P /\ unprocessed rc s /\ s_periodic s = true /\ is_sort nsort /\
  everywhere P rc s smooth_at /\ regular_networks P rc s /\
  evaluateNNP nsort fuel (p_weight P) (setupMemoryAll 2 (map (p_fs P) (seq 0 2))) (p_net P) rc s = Some (E, ys) /\
  evaluateNNP nsort fuel' (p_weight P) (setupMemoryAll 2 (map (p_fs P) (seq 0 2))) (p_net P) rc (supercell 3 1 1 s) = Some (INR 3 * E, ys') /\
  ~ (forall k j y y', (k < 3)%nat -> nth_error ys j = Some y -> nth_error ys' (k * length (s_atoms s) + j) = Some y' -> e_f y' = e_f y).
Proof. exact own_images_supercell. Qed.
Print Assumptions C69_own_images_refuted.

(** ** C70 *)
(** Energies and forces of the atoms of both groups, in the order of
    [together]. *)
Theorem C70_groups_of_atoms : forall N rc P s t nsort fuel1 fuel2 fuel3 s1 t1 w1, sensible N rc P -> 0 <= rc -> is_sort nsort -> out_of_reach rc s t ->
  s_numElements s = N -> unprocessed rc s -> calculateNeighborList nsort fuel1 rc false s = Some s1 ->
  s_numElements t = N -> unprocessed rc t -> calculateNeighborList nsort fuel2 rc false t = Some t1 ->
  calculateNeighborList nsort fuel3 rc false (together s t) = Some w1 ->
  everywhere P rc s evaluable -> everywhere P rc t evaluable ->
  exists E1 E2 xs ys zs,
    evaluateNNP nsort fuel1 (p_weight P) (setupMemoryAll N (map (p_fs P) (seq 0 N))) (p_net P) rc s = Some (E1, xs) /\
    evaluateNNP nsort fuel2 (p_weight P) (setupMemoryAll N (map (p_fs P) (seq 0 N))) (p_net P) rc t = Some (E2, ys) /\
    evaluateNNP nsort fuel3 (p_weight P) (setupMemoryAll N (map (p_fs P) (seq 0 N))) (p_net P) rc (together s t) = Some (E1 + E2, zs) /\
    map e_energy zs = map e_energy xs ++ map e_energy ys /\
    map e_f zs = map e_f xs ++ map e_f ys.
Proof. exact separate_energy. Qed.
Print Assumptions C70_groups_of_atoms.

Theorem C70_default_groups_of_atoms : forall T (T_dec : forall a b : T, {a = b} + {a <> b}) fmt conv gsort msort N rc P sc s t nsort fuel1 fuel2 fuel3 s1 t1 w1,
  (forall l, Permutation l (gsort l)) -> (forall l, Permutation l (msort l)) -> conv <> 0 ->
  sensible N rc (scaled_potential sc P) -> cached_and_grouped (text_of T fmt conv) fmt conv sc N P -> 0 <= rc -> is_sort nsort -> out_of_reach rc s t ->
  s_numElements s = N -> unprocessed rc s -> calculateNeighborList nsort fuel1 rc false s = Some s1 ->
  s_numElements t = N -> unprocessed rc t -> calculateNeighborList nsort fuel2 rc false t = Some t1 ->
  calculateNeighborList nsort fuel3 rc false (together s t) = Some w1 ->
  everywhere (scaled_potential sc P) rc s evaluable -> everywhere (scaled_potential sc P) rc s distinct_neighbors ->
  everywhere (scaled_potential sc P) rc t evaluable -> everywhere (scaled_potential sc P) rc t distinct_neighbors ->
  exists es E1 E2 xs ys zs, setupAll (text T) (text_dec T_dec) (text_of T fmt conv) gsort msort N true (map (p_fs P) (seq 0 N)) = Some es /\
    evaluateGroups nsort fuel1 (p_weight P) (setupScaling sc es) (p_net P) rc s = Some (E1, xs) /\
    evaluateGroups nsort fuel2 (p_weight P) (setupScaling sc es) (p_net P) rc t = Some (E2, ys) /\
    evaluateGroups nsort fuel3 (p_weight P) (setupScaling sc es) (p_net P) rc (together s t) = Some (E1 + E2, zs) /\
    map e_energy zs = map e_energy xs ++ map e_energy ys /\
    map e_f zs = map e_f xs ++ map e_f ys.
Proof. exact separate_default. Qed.
Print Assumptions C70_default_groups_of_atoms.

Example C70_nonvacuous : sensible 2 chain_rc (scaled_potential duo_sc duo) /\ cached_and_grouped (text_of R (fun x => x) 1) (fun x => x) 1 duo_sc 2 duo /\
  out_of_reach chain_rc three far /\ unprocessed chain_rc three /\ unprocessed chain_rc far /\
  (exists nsort fuel1 fuel2 fuel3 s1 t1 w1, is_sort nsort /\ calculateNeighborList nsort fuel1 chain_rc false three = Some s1 /\
    calculateNeighborList nsort fuel2 chain_rc false far = Some t1 /\ calculateNeighborList nsort fuel3 chain_rc false (together three far) = Some w1) /\
  everywhere (scaled_potential duo_sc duo) chain_rc three evaluable /\ everywhere (scaled_potential duo_sc duo) chain_rc three distinct_neighbors /\
  everywhere (scaled_potential duo_sc duo) chain_rc far evaluable /\ everywhere (scaled_potential duo_sc duo) chain_rc far distinct_neighbors /\
  in_range three chain_rc 0 1 (0, 0, 0)%Z.
Proof. exact far_ok. Qed.
