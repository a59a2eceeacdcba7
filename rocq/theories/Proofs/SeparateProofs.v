(** Evaluation of groups of atoms out of each other's reach (C70). *)
From Coq Require Import Reals Lra Lia ZArith List Permutation Bool Arith.
From Coquelicot Require Import Coquelicot.
From Coq Require Import List.
From Verif Require Import Base.Vec3 Base.SumR Model.NeuralNetwork Model.Scaling Model.NeighborList Model.SymFunctions Model.SymCache Model.SymSetup
  Model.SymGroups Model.Forces Model.GroupEvaluation
  Spec.NetworkSpec Spec.GeometrySpec Spec.NeighborSpec Spec.SymSpec Spec.GroupSpec Spec.ForceSpec Spec.EvaluationSpec Spec.InvarianceSpec
  Proofs.NeighborProofs Proofs.NeighborMore Proofs.KspaceProofs Proofs.ForceProofs Proofs.ForceExamples Proofs.SetupProofs Proofs.GroupForces Proofs.GroupForceExamples Proofs.Isometry Proofs.SameSystem
  Proofs.Outcome Proofs.Invariance Proofs.InvarianceExamples Proofs.Separate.
Import ListNotations.
Local Open Scope R_scope.

Lemma together_unprocessed rc s t : s_numElements t = s_numElements s -> s_periodic t = s_periodic s -> s_box t = s_box s ->
  unprocessed rc s -> unprocessed rc t -> unprocessed rc (together s t).
Proof.
  intros HN Hp Hb (U1 & U2 & U3 & U4 & U5) (V1 & V2 & V3 & V4 & _).
  assert (X : forall a, In a (s_atoms (together s t)) -> In a (s_atoms s) \/ In a (s_atoms t)) by (intros a; cbn [together s_atoms]; apply in_app_or).
  split; [|split; [|split; [|split]]].
  - intros a Ha. cbn [together s_numElements]. destruct (X a Ha) as [H|H]; [exact (U1 a H)|]. rewrite <- HN. exact (V1 a H).
  - intros a Ha. cbn [together s_numElements]. destruct (X a Ha) as [H|H]; [exact (U2 a H)|]. rewrite <- HN. exact (V2 a H).
  - intros a Ha. destruct (X a Ha) as [H|H]; [exact (U3 a H)|exact (V3 a H)].
  - intros H0. cbn [together s_periodic s_box] in *. destruct (U4 H0) as (D & W). split; auto. intros a Ha.
    destruct (X a Ha) as [H|H]; [exact (W a H)|]. rewrite <- Hb. unfold wrapped in V4. rewrite Hp in V4. apply (proj2 (V4 H0) a H).
  - exact U5.
Qed.
(** Energies and forces of all atoms from those of the groups. *)
Lemma separate_lists rc P s t E1 E2 E3 xs ys zs : parts rc s t (together s t) -> nice s -> outcome P rc s E1 xs -> outcome P rc t E2 ys -> outcome P rc (together s t) E3 zs ->
  map e_energy zs = map e_energy xs ++ map e_energy ys /\
  map e_f zs = map e_f xs ++ map e_f ys.
Proof.
  intros HW Hn A1 A2 A3.
  assert (Lx : length xs = length (s_atoms s)) by apply A1. assert (Ly : length ys = length (s_atoms t)) by apply A2.
  assert (Lz : length zs = (length (s_atoms s) + length (s_atoms t))%nat) by (destruct A3 as (_ & -> & _); exact (proj1 HW)).
  assert (G : forall (T : Type) (h : eatom -> T), (forall i x z, nth_error xs i = Some x -> nth_error zs i = Some z -> h z = h x) ->
    (forall i y z, nth_error ys i = Some y -> nth_error zs (length (s_atoms s) + i) = Some z -> h z = h y) -> map h zs = map h xs ++ map h ys).
  { intros T h H1 H2. rewrite <- map_app. apply list_nth_ext. intros i. rewrite !nth_error_map.
    destruct (le_lt_dec (length xs) i) as [Hi|Hi].
    - rewrite nth_error_app2 by auto. destruct (nth_error zs i) as [z|] eqn:Ez, (nth_error ys (i - length xs)) as [y|] eqn:Ey; cbn; auto.
      + f_equal. apply (H2 (i - length xs)%nat); auto. rewrite <- Lx. now replace (length xs + (i - length xs))%nat with i by lia.
      + apply nth_error_None in Ey. assert (i < length zs)%nat by (apply nth_error_Some; congruence). lia.
      + apply nth_error_None in Ez. assert (i - length xs < length ys)%nat by (apply nth_error_Some; congruence). lia.
    - rewrite nth_error_app1 by auto. destruct (nth_error zs i) as [z|] eqn:Ez, (nth_error xs i) as [x|] eqn:Ex; cbn; auto.
      + f_equal. now apply (H1 i).
      + apply nth_error_None in Ex. lia.
      + apply nth_error_None in Ez. lia. }
  split.
  - apply G.
    + intros i x z Hx Hz. destruct (two_at_first rc s t _ HW Hn P _ _ _ _ A1 A3 i x Hx) as (z' & Ez & <-). congruence.
    + intros i y z Hy Hz. destruct (two_at_second rc s t _ HW Hn P _ _ _ _ A2 A3 i y Hy) as (z' & Ez & <-). congruence.
  - apply G; intros i; intros; [eapply two_force_first; eauto|eapply two_force_second; eauto].
Qed.
Theorem separate_energy N rc P s t nsort fuel1 fuel2 fuel3 s1 t1 w1 : sensible N rc P -> 0 <= rc -> is_sort nsort -> out_of_reach rc s t ->
  s_numElements s = N -> unprocessed rc s -> calculateNeighborList nsort fuel1 rc false s = Some s1 ->
  s_numElements t = N -> unprocessed rc t -> calculateNeighborList nsort fuel2 rc false t = Some t1 ->
  calculateNeighborList nsort fuel3 rc false (together s t) = Some w1 ->
  everywhere P rc s evaluable -> everywhere P rc t evaluable ->
  exists E1 E2 xs ys zs,
    evaluateNNP nsort fuel1 (p_weight P) (setupMemoryAll N (map (p_fs P) (seq 0 N))) (p_net P) rc s = Some (E1, xs) /\
    evaluateNNP nsort fuel2 (p_weight P) (setupMemoryAll N (map (p_fs P) (seq 0 N))) (p_net P) rc t = Some (E2, ys) /\
    evaluateNNP nsort fuel3 (p_weight P) (setupMemoryAll N (map (p_fs P) (seq 0 N))) (p_net P) rc (together s t) = Some (E1 + E2, zs) /\
    map e_energy zs = map e_energy xs ++ map e_energy ys /\
    map e_f zs = map e_f xs ++ map e_f ys.
Proof.
  intros HP Hrc Hsort Ho N1 U1 L1 N2 U2 L2 L3 Ev1 Ev2. assert (HW := together_parts rc s t Ho). destruct Ho as (O1 & O2 & O3).
  assert (Hn := unprocessed_nice _ _ U1). assert (HN : s_numElements t = s_numElements s) by congruence.
  assert (Uw := together_unprocessed rc s t HN O1 O2 U1 U2).
  destruct (evaluation_outcome N rc P s nsort fuel1 s1 HP Hrc N1 U1 Hsort L1 Ev1) as (E1 & xs & R1 & A1).
  destruct (evaluation_outcome N rc P t nsort fuel2 t1 HP Hrc N2 U2 Hsort L2 Ev2) as (E2 & ys & R2 & A2).
  destruct (evaluation_outcome N rc P (together s t) nsort fuel3 w1 HP Hrc N1 Uw Hsort L3) as (E3 & zs & R3 & A3).
  { eapply two_everywhere; eauto. }
  exists E1, E2, xs, ys, zs. split; auto. split; auto. split; [rewrite R3; do 2 f_equal; eapply two_total; eauto|].
  eapply separate_lists; eauto.
Qed.
Theorem separate_default T (T_dec : forall a b : T, {a = b} + {a <> b}) fmt conv gsort msort N rc P sc s t nsort fuel1 fuel2 fuel3 s1 t1 w1 :
  (forall l, Permutation l (gsort l)) -> (forall l, Permutation l (msort l)) -> conv <> 0 ->
  sensible N rc (scaled_potential sc P) -> cached_and_grouped (text_of T fmt conv) fmt conv sc N P -> 0 <= rc -> is_sort nsort -> out_of_reach rc s t ->
  s_numElements s = N -> unprocessed rc s -> calculateNeighborList nsort fuel1 rc false s = Some s1 ->
  s_numElements t = N -> unprocessed rc t -> calculateNeighborList nsort fuel2 rc false t = Some t1 ->
  calculateNeighborList nsort fuel3 rc false (together s t) = Some w1 ->
  everywhere (scaled_potential sc P) rc s evaluable -> everywhere (scaled_potential sc P) rc s distinct_neighbors ->
  everywhere (scaled_potential sc P) rc t evaluable -> everywhere (scaled_potential sc P) rc t distinct_neighbors ->
  exists es E1 E2 xs ys zs, setupAll (text T) (text_dec T_dec) (text_of T fmt conv) gsort msort N true (map (p_fs P) (seq 0 N)) = Some es /\
    evaluateGroups nsort fuel1 (p_weight P) (setupScaling sc es) (p_net P) rc s = Some (E1, xs) /\
    evaluateGroups nsort fuel2 (p_weight P) (setupScaling sc es) (p_net P) rc t = Some (E2, ys) /\
    evaluateGroups nsort fuel3 (p_weight P) (setupScaling sc es) (p_net P) rc (together s t) = Some (E1 + E2, zs) /\
    map e_energy zs = map e_energy xs ++ map e_energy ys /\
    map e_f zs = map e_f xs ++ map e_f ys.
Proof.
  intros HG HM Hc HP HK Hrc Hsort Ho N1 U1 L1 N2 U2 L2 L3 Ev1 Di1 Ev2 Di2. assert (HW := together_parts rc s t Ho). destruct Ho as (O1 & O2 & O3).
  assert (Hn := unprocessed_nice _ _ U1). assert (HN : s_numElements t = s_numElements s) by congruence.
  assert (Uw := together_unprocessed rc s t HN O1 O2 U1 U2).
  destruct (grouped_outcome T T_dec fmt conv gsort msort N rc P sc s nsort fuel1 s1 HG HM Hc HP HK Hrc N1 U1 Hsort L1 Ev1 Di1) as (es & E1 & xs & Ees & R1 & A1).
  destruct (grouped_outcome T T_dec fmt conv gsort msort N rc P sc t nsort fuel2 t1 HG HM Hc HP HK Hrc N2 U2 Hsort L2 Ev2 Di2) as (es2 & E2 & ys & Ees2 & R2 & A2).
  destruct (grouped_outcome T T_dec fmt conv gsort msort N rc P sc (together s t) nsort fuel3 w1 HG HM Hc HP HK Hrc N1 Uw Hsort L3) as (es3 & E3 & zs & Ees3 & R3 & A3).
  { eapply two_everywhere; eauto. }
  { eapply two_everywhere; eauto. }
  rewrite Ees in Ees2, Ees3. injection Ees2 as <-. injection Ees3 as <-.
  exists es, E1, E2, xs, ys, zs. split; auto. split; auto. split; auto. split; [rewrite R3; do 2 f_equal; eapply two_total; eauto|].
  eapply separate_lists; eauto.
Qed.

(** ** A concrete case: the three atoms and a copy of them far away *)
Definition far_shift (v : vec) : vec := vadd v (mkVec 100 0 0).
Definition far : structure :=
  mkStruct false chain_box [fresh_atom 0 (mkVec 100 0 0) 2; fresh_atom 0 (mkVec 104 0 0) 2; fresh_atom 1 (mkVec 100 3 0) 2] 2 false false 0.
Lemma far_same : same_system far_shift (fun i => i) three far.
Proof.
  split; [intros x y; f_equal; unfold far_shift; vring|]. split; [reflexivity|]. split; [discriminate|]. split; [reflexivity|]. split; [auto|].
  intros [|[|[|i]]] a E; [| | |destruct i; discriminate]; injection E as <-; eexists; exists (0, 0, 0)%Z;
    (split; [reflexivity|]; split; [reflexivity|]; split; [|reflexivity]); unfold far_shift, lattice, GeometrySpec.combine; apply vec_eq; cbn; lra.
Qed.
Lemma far_unprocessed : unprocessed chain_rc far.
Proof.
  split; [|split; [|split; [|split]]].
  - intros a [<-|[<-|[<-|[]]]]; cbn; auto 10.
  - intros a [<-|[<-|[<-|[]]]]; reflexivity.
  - intros a [<-|[<-|[<-|[]]]]; reflexivity.
  - discriminate.
  - cbn. unfold chain_rc. lra.
Qed.
Lemma far_out : out_of_reach chain_rc three far.
Proof.
  split; [reflexivity|]. split; [reflexivity|]. intros a b m Ha Hb Hm. rewrite (Hm eq_refl), lattice_0.
  apply Rnot_le_lt. intros H. apply norm_le_iff in H; [|unfold chain_rc; lra]. unfold chain_rc in H. revert H.
  destruct Ha as [<-|[<-|[<-|[]]]], Hb as [<-|[<-|[<-|[]]]]; unfold norm2, vsub, vadd, vzero; cbn; intros H; lra.
Qed.
Lemma nice_open s : s_periodic s = false -> nice s. Proof. unfold nice. congruence. Qed.
Lemma three_listed rc s t w : unprocessed rc s -> unprocessed rc t -> unprocessed rc w -> exists nsort fuel1 fuel2 fuel3 s1 t1 w1, is_sort nsort /\
  calculateNeighborList nsort fuel1 rc false s = Some s1 /\ calculateNeighborList nsort fuel2 rc false t = Some t1 /\ calculateNeighborList nsort fuel3 rc false w = Some w1.
Proof.
  intros (U1 & _ & _ & W1 & _) (U2 & _ & _ & W2 & _) (U3 & _ & _ & W3 & _). destruct id_sort_exists as [nsort Hs].
  destruct (list_terminates nsort rc false s) as (f1 & F1); [exact U1|intros H; now apply W1|].
  destruct (list_terminates nsort rc false t) as (f2 & F2); [exact U2|intros H; now apply W2|].
  destruct (list_terminates nsort rc false w) as (f3 & F3); [exact U3|intros H; now apply W3|].
  destruct (F1 f1 (le_n _)) as (s1 & E1). destruct (F2 f2 (le_n _)) as (t1 & E2). destruct (F3 f3 (le_n _)) as (w1 & E3).
  exists nsort, f1, f2, f3, s1, t1, w1. auto.
Qed.
Lemma far_ok : sensible 2 chain_rc (scaled_potential duo_sc duo) /\ cached_and_grouped (text_of R (fun x => x) 1) (fun x => x) 1 duo_sc 2 duo /\
  out_of_reach chain_rc three far /\ unprocessed chain_rc three /\ unprocessed chain_rc far /\
  (exists nsort fuel1 fuel2 fuel3 s1 t1 w1, is_sort nsort /\ calculateNeighborList nsort fuel1 chain_rc false three = Some s1 /\
    calculateNeighborList nsort fuel2 chain_rc false far = Some t1 /\ calculateNeighborList nsort fuel3 chain_rc false (together three far) = Some w1) /\
  everywhere (scaled_potential duo_sc duo) chain_rc three evaluable /\ everywhere (scaled_potential duo_sc duo) chain_rc three distinct_neighbors /\
  everywhere (scaled_potential duo_sc duo) chain_rc far evaluable /\ everywhere (scaled_potential duo_sc duo) chain_rc far distinct_neighbors /\
  in_range three chain_rc 0 1 (0, 0, 0)%Z.
Proof.
  destruct duo_ok as (H1 & H2 & H3 & _ & H4 & H5 & H6 & H7 & H8 & H9 & _).
  assert (D : nice three) by now apply nice_open. assert (D' : nice far) by now apply nice_open.
  assert (S : everywhere (scaled_potential duo_sc duo) chain_rc far smooth_at).
  { apply (same_everywhere _ _ three far far_same D D'); [apply smooth_congruent|exact H4]. }
  split; [exact H1|]. split; [exact H2|]. split; [exact far_out|]. split; [exact H3|]. split; [exact far_unprocessed|].
  split; [apply three_listed; [exact H3|exact far_unprocessed|apply together_unprocessed; auto using far_unprocessed]|].
  split; [now apply smooth_evaluable|]. split; [exact H5|]. split; [now apply smooth_evaluable|]. split; [exact (smooth_distinct _ _ _ S)|exact H8].
Qed.
