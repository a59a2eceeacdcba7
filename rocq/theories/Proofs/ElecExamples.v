(** Examples for C41 and C42. *)
From Coq Require Import Reals ZArith List Bool Arith Lia Lra Sorted.
From Coquelicot Require Import Coquelicot.
From Coq Require Import List.
From Verif Require Import Base.Vec3 Base.Loop Base.SumR Base.Erf Base.Linear Model.CoreFunction Model.CompactScreening Model.Geometry Model.NeighborList
  Model.Kspace Model.SymFunctions Model.Electrostatics Spec.CompactSpec Spec.ElecSpec Proofs.CompactProofs Proofs.SymTerms Proofs.NeighborProofs Proofs.ElecCore Proofs.ElecFill
  Proofs.ElecQeq Proofs.ElecPeriodic Proofs.ElecProofs Proofs.KspaceProofs Proofs.ElecLoops Proofs.ElecDerive Proofs.ElecForces Proofs.ElecIsolated Proofs.ElecPerForces.
Import ListNotations.
Local Open Scope R_scope.

Lemma derivatives_some P s Q A D : (cs_periodic s = true -> neighbors_valid s) -> exists d, calculateElectrostaticEnergyDerivatives P s Q A D = Some d.
Proof.
  intros Hnb. unfold calculateElectrostaticEnergyDerivatives.
  match goal with |- exists d, ofold ?f (seq 0 ?n) ?z = Some d => destruct (ofold_seq_inv (fun _ _ => True) f n z) as (d & E & _) end; eauto.
  intros i st Hi _. cbv zeta. destruct (cs_periodic s); [|eauto].
  assert (G : forall l st, (forall n, In n l -> In n (a_nbs (cna s i))) -> exists st', derivatives_neighbors P s Q i l st = Some st').
  { induction l as [|n l IH]; intros st0 Hl; cbn [derivatives_neighbors]; [eauto|].
    destruct (Hnb eq_refl i n Hi (Hl n (or_introl eq_refl))) as (j & Hj & Et & _). rewrite (tag_index_ok s n j Hj Et).
    destruct (Nat.ltb j i); [apply IH; intros; apply Hl; now right|]. destruct (Rge_dec _ _); [eauto|]. apply IH; intros; apply Hl; now right. }
  destruct (G (a_nbs (cna s i)) (derivatives_unscreened P s Q A D i st) (fun n H => H)) as (st' & E). eauto.
Qed.
Lemma isolated_succeeds solve fuel W P s r : cs_periodic s = false -> calculateElectrostaticEnergy solve fuel W P s = Some r ->
  exists D d, chargeEquilibration solve fuel W P s = Some (r, D, d).
Proof.
  intros Hper E. unfold chargeEquilibration. rewrite E. unfold calculateDAdrQ. rewrite Hper.
  destruct (derivatives_some P s (er_Q r) (er_A r) (calculateDAdrQ_isolated P s (er_Q r) (fun _ _ => vzero))) as (d & ->). { congruence. } eauto.
Qed.
Lemma periodic_succeeds solve hardness sigma fs eps s W fuel r : 0 < eps -> (forall e, 0 < sigma e) ->
  cs_periodic s = true -> cs_sorted s = true -> neighbors_valid s -> counts_valid s ->
  calculateElectrostaticEnergy solve fuel W (element_parameters hardness sigma fs eps) s = Some r ->
  exists D d, chargeEquilibration solve fuel W (element_parameters hardness sigma fs eps) s = Some (r, D, d).
Proof.
  intros He Hsg Hper Hsrt Hnb Hct E1.
  assert (G : exists g, grid_setup fuel (cs_box s) (ew_eta W) (ew_kCut W) grid_init = Some g).
  { unfold calculateElectrostaticEnergy in E1. rewrite Hper, Hsrt in E1. destruct (grid_setup _ _ _ _ _); [eauto|discriminate]. }
  destruct G as (g & Hg).
  destruct (periodic_run hardness sigma fs eps He Hsg solve fuel W g s Hper Hsrt Hnb Hct Hg) as (HA & r' & Er & EA & EQ & Eg & Hb & _).
  rewrite E1 in Er. injection Er as ->. unfold chargeEquilibration. rewrite E1.
  destruct (periodic_dAdrQ_rate hardness sigma fs eps W g s (fun _ => vzero) Hnb Hct (er_Q r') (er_buf r') Hb) as (D' & b' & ED & _).
  unfold calculateDAdrQ. rewrite Hper, Eg, ED.
  destruct (derivatives_some (element_parameters hardness sigma fs eps) s (er_Q r') (er_A r') D') as (d & ->); eauto.
Qed.
Lemma ex_isolated_response : forall fs W, exists r D d,
  chargeEquilibration gauss_solve 0 W (element_parameters (fun _ => 1) (fun _ => 1) fs 1) ex_isolated = Some (r, D, d) /\
  nonsingular (cnum ex_isolated + 1) (er_A r) /\ separated ex_isolated /\ distances_valid ex_isolated /\ cs_periodic ex_isolated = false.
Proof.
  intros fs W. destruct ex_isolated_ok as (H1 & H2 & H3 & _ & Hw).
  destruct (isolated_run (fun _ => 1) (fun _ => 1) fs 1 Rlt_0_1 (fun _ => Rlt_0_1) gauss_solve 0 W ex_isolated H1) as (r & E & EA & _).
  destruct (isolated_succeeds _ _ _ _ _ r H1 E) as (D & d & EC). exists r, D, d. split; auto. split; [|split; [auto|split; [|auto]]].
  - rewrite EA. apply (border_nonsingular _ (J_of (fun _ => 1) ex_isolated) (isolated_U (fun _ => 1) 1 ex_isolated)); auto.
    intros i j Hi Hj. apply fill_isolated_U; auto; intros; lra.
  - intros i n Hi Hn. exfalso. change (cnum ex_isolated) with 2%nat in Hi. assert (C : i = 0%nat \/ i = 1%nat) by lia. destruct C as [-> | ->]; destruct Hn.
Qed.
Lemma ex_periodic_response : exists h W fuel r D d, 0 < h /\ 0 < ew_eta W /\
  chargeEquilibration gauss_solve fuel W (element_parameters (fun _ => h) (fun _ => 1) ex_fs 1) ex_periodic = Some (r, D, d) /\
  nonsingular (cnum ex_periodic + 1) (er_A r) /\ cs_periodic ex_periodic = true /\ cs_sorted ex_periodic = true /\
  neighbors_valid ex_periodic /\ counts_valid ex_periodic /\ distances_valid ex_periodic /\
  (forall i n, (i < cnum ex_periodic)%nat -> In n (a_nbs (cna ex_periodic i)) -> nb_dr n <> vzero) /\
  sorted_by_distance ex_periodic /\ complete_within ex_periodic (sc_outer ex_fs) /\ screening_config CK_POLY2 1 6 = Some ex_fs.
Proof.
  destruct ex_periodic_input as (L & HP).
  set (sg := fun _ : nat => 1). set (U := ewald_U sg 1 (calculateVolume (cs_box ex_periodic)) ex_W L ex_periodic).
  set (h := Rabs (U 0%nat 0%nat + U 1%nat 1%nat - U 0%nat 1%nat - U 1%nat 0%nat) + 1).
  assert (Hh : 0 < h) by (unfold h; pose proof (Rabs_pos (U 0%nat 0%nat + U 1%nat 1%nat - U 0%nat 1%nat - U 1%nat 0%nat)); lra).
  assert (Hw : well_posed (cnum ex_periodic) (J_of (fun _ => h) ex_periodic) U).
  { apply two_well_posed. unfold J_of. assert (A := Rle_abs (- (U 0%nat 0%nat + U 1%nat 1%nat - U 0%nat 1%nat - U 1%nat 0%nat))). rewrite Rabs_Ropp in A. unfold h in *. lra. }
  destruct (HP) as (H1 & H2 & H3 & H4 & H5 & H6 & H7 & H8).
  destruct (grid_terminates (cs_box ex_periodic) (ew_eta ex_W) (ew_kCut ex_W) H5) as (fuel & F). destruct (F fuel (le_n _)) as (g & Hg).
  destruct (periodic_run (fun _ => h) sg ex_fs 1 Rlt_0_1 (fun _ => Rlt_0_1) gauss_solve fuel ex_W g ex_periodic H1 H2 H3 H4 Hg) as (HA & r & E & EA & _).
  destruct (periodic_succeeds gauss_solve (fun _ => h) sg ex_fs 1 ex_periodic ex_W fuel r Rlt_0_1 (fun _ => Rlt_0_1) H1 H2 H3 H4 E) as (D & d & EC).
  assert (C : forall i, (i < cnum ex_periodic)%nat -> i = 0%nat \/ i = 1%nat) by (unfold cnum; simpl; intros; lia).
  exists h, ex_W, fuel, r, D, d. split; auto. split; [simpl; lra|]. split; auto. split; [|split; auto; split; auto; split; auto; split; auto; split; [|split; [|split; [|split; [|apply ex_fs_config]]]]].
  - rewrite EA. apply (border_nonsingular _ (J_of (fun _ => h) ex_periodic) U); auto.
    + intros i j Hi Hj. rewrite HA by auto. f_equal. unfold perU.
      rewrite (per_val_U (fun _ => h) sg ex_fs 1 ex_periodic ex_W fuel L) by auto. fold U. ring.
    + unfold cnum; simpl; lia.
  - intros i n Hi Hn. assert (N4 : forall x, x = 4 \/ x = -4 -> norm (mkVec x 0 0) = 4).
    { intros x Hx. unfold norm. replace (norm2 (mkVec x 0 0)) with (4 * 4) by (unfold norm2; simpl; destruct Hx as [-> | ->]; ring). rewrite sqrt_square; lra. }
    destruct (C i Hi) as [-> | ->]; simpl in Hn; destruct Hn as [<-|[<-|[]]]; simpl; rewrite N4; auto.
  - intros i n Hi Hn. destruct (C i Hi) as [-> | ->]; simpl in Hn; destruct Hn as [<-|[<-|[]]]; simpl; intros X; injection X; lra.
  - intros i Hi. destruct (C i Hi) as [-> | ->]; simpl; repeat constructor; simpl; lra.
  - intros i n Hi Hn. destruct (C i Hi) as [-> | ->]; simpl in Hn; destruct Hn.
Qed.
(** A charge dependent energy: the sum of the squares of the charges, plus the path parameter. *)
Lemma ex_energy N q0 : differentiable_energy N (fun t q => 3 * t + sumn N (fun i => q i * q i)) q0 3 (fun i => 2 * q0 i).
Proof.
  intros q q' H0 Hq. eapply is_derive_eq.
  - apply (is_derive_plus (fun t => 3 * t) (fun t => sumn N (fun i => q t i * q t i))).
    + apply (is_derive_scal (fun t => t) 0 3 1). apply (is_derive_id 0).
    + apply (is_derive_sumn N (fun i t => q t i * q t i) (fun i => q' i * q 0 i + q 0 i * q' i)). intros i Hi. apply (is_derive_prod (fun t => q t i) (fun t => q t i)); auto.
  - unfold plus; simpl. replace (3 * 1) with 3 by ring. f_equal. apply sumn_ext. intros i Hi. rewrite <- H0 by auto. ring.
Qed.
