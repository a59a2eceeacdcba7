(** Theorems on charge equilibration and examples. *)
From Coq Require Import Reals ZArith List Bool Arith Lia Lra.
From Coq Require Import List.
From Verif Require Import Base.Vec3 Base.Loop Base.SumR Base.Erf Base.Linear Model.CoreFunction Model.CompactScreening Model.Geometry Model.NeighborList
  Model.Kspace Model.SymFunctions Model.Electrostatics Spec.CompactSpec Spec.GeometrySpec Spec.KspaceSpec Spec.ElecSpec Proofs.UnitsProofs Proofs.KspaceProofs
  Proofs.CompactProofs Proofs.ElecFill Proofs.ElecQeq Proofs.ElecPeriodic.
Import ListNotations.
Local Open Scope R_scope.

Lemma periodic_equilibrium : forall solve hardness sigma fs eps s W L, exact_solver solve -> 0 < eps -> (forall e, 0 < sigma e) ->
  periodic_input s W L -> (0 < cnum s)%nat ->
  well_posed (cnum s) (J_of hardness s) (ewald_U sigma eps (calculateVolume (cs_box s)) W L s) ->
  exists fuel, forall fuel', (fuel <= fuel')%nat ->
  exists r, calculateElectrostaticEnergy solve fuel' W (element_parameters hardness sigma fs eps) s = Some r /\
    sumn (cnum s) (er_Q r) = cs_chargeRef s /\
    (forall i, (i < cnum s)%nat -> electronegativity (cnum s) (chi_of s) (J_of hardness s)
       (ewald_U sigma eps (calculateVolume (cs_box s)) W L s) (er_Q r) i = - er_lambda r) /\
    ((forall i n, (i < cnum s)%nat -> In n (neighbors_within (cna s i) (sc_outer fs)) -> nb_tag n <> Z.of_nat i) ->
     er_energy r = periodic_energy sigma eps (calculateVolume (cs_box s)) W L fs s (er_Q r)).
Proof.
  intros solve hardness sigma fs eps s W L Hsol He Hsg (H1 & H2 & H3 & H4 & H5 & H6 & H7 & H8) HN Hw.
  destruct (grid_terminates (cs_box s) (ew_eta W) (ew_kCut W) H5) as (fuel & F). exists fuel. intros fuel' Hf.
  destruct (periodic_equilibrium_coded hardness sigma fs eps s W fuel' L He Hsg H1 H2 H3 H4 H5 H6 H7 H8 solve Hsol HN Hw (F fuel' Hf)) as (r & E & A & B & C).
  exists r. split; auto. split; auto. split; auto. intros Hown. rewrite C, coded_energy_excess.
  rewrite (sumn_zero (cnum s) (fun i => rsum (map (pair_corr sigma fs eps s (er_Q r) i) (own_images fs s i)))); [ring|].
  intros i Hi. apply rsum_zero. intros n Hn. exfalso. unfold own_images in Hn. apply images_in in Hn. destruct Hn as [Hn Et]. exact (Hown i n Hi Hn Et).
Qed.
Lemma gaussian_pos s1 s2 eps r : 0 < s1 -> 0 < s2 -> 0 < eps -> 0 < r -> 0 < gaussian_coulomb s1 s2 eps r.
Proof.
  intros H1 H2 He Hr. unfold gaussian_coulomb. apply Rdiv_lt_0_compat; [|nra]. apply erf_pos. apply Rdiv_lt_0_compat; auto.
  apply sqrt_lt_R0. nra.
Qed.
Lemma own_image_energy : forall solve hardness sigma fs eps s W L k a b, exact_solver solve -> 0 < eps -> (forall e, 0 < sigma e) ->
  screening_config k a b = Some fs ->
  periodic_input s W L -> (forall i n, (i < cnum s)%nat -> In n (a_nbs (cna s i)) -> 0 < nb_d n) ->
  well_posed (cnum s) (J_of hardness s) (ewald_U sigma eps (calculateVolume (cs_box s)) W L s) ->
  forall fuel r, calculateElectrostaticEnergy solve fuel W (element_parameters hardness sigma fs eps) s = Some r ->
  forall i n, (i < cnum s)%nat -> er_Q r i <> 0 -> In n (neighbors_within (cna s i) (sc_outer fs)) -> nb_tag n = Z.of_nat i ->
  sc_f fs (nb_d n) < 1 ->
  er_energy r < periodic_energy sigma eps (calculateVolume (cs_box s)) W L fs s (er_Q r).
Proof.
  intros solve hardness sigma fs eps s W L k a b Hsol He Hsg Hfs (H1 & H2 & H3 & H4 & H5 & H6 & H7 & H8) Hd Hw fuel r Er i n Hi HQ Hn Et Hf.
  assert (HN : (0 < cnum s)%nat) by lia.
  assert (G : exists g, grid_setup fuel (cs_box s) (ew_eta W) (ew_kCut W) grid_init = Some g).
  { unfold calculateElectrostaticEnergy in Er. rewrite H1, H2 in Er. destruct (grid_setup _ _ _ _ _); [eauto|discriminate]. }
  destruct (periodic_equilibrium_coded hardness sigma fs eps s W fuel L He Hsg H1 H2 H3 H4 H5 H6 H7 H8 solve Hsol HN Hw G) as (r' & E & _ & _ & C).
  rewrite Er in E. injection E as <-. rewrite C, coded_energy_excess.
  assert (T : forall j m, (j < cnum s)%nat -> In m (own_images fs s j) -> pair_corr sigma fs eps s (er_Q r) j m <= 0).
  { intros j m Hj Hm. unfold own_images in Hm. apply images_in in Hm. destruct Hm as [Hm Etm]. unfold pair_corr. rewrite Etm, Nat2Z.id.
    assert (P := gaussian_pos (sigma (cel s j)) (sigma (nb_element m)) eps (nb_d m) (Hsg _) (Hsg _) He (Hd j m Hj (neighbors_within_in _ _ _ Hm))).
    pose proof (screening_range k a b fs Hfs (nb_d m)). assert (0 <= er_Q r j * er_Q r j) by nra. assert (0 <= er_Q r j * er_Q r j * gaussian_coulomb (sigma (cel s j)) (sigma (nb_element m)) eps (nb_d m)) by nra. nra. }
  assert (S : forall j l, (forall m, In m l -> pair_corr sigma fs eps s (er_Q r) j m <= 0) -> rsum (map (pair_corr sigma fs eps s (er_Q r) j) l) <= 0).
  { intros j l Hl. induction l; simpl; [lra|]. pose proof (Hl a0 (or_introl eq_refl)). assert (rsum (map (pair_corr sigma fs eps s (er_Q r) j) l) <= 0) by (apply IHl; intros; apply Hl; right; auto). lra. }
  assert (Strict : rsum (map (pair_corr sigma fs eps s (er_Q r) i) (own_images fs s i)) < 0).
  { assert (Hin : In n (own_images fs s i)). { unfold own_images, images_of. apply filter_In. split; auto. rewrite Et. apply Z.eqb_refl. }
    apply in_split in Hin. destruct Hin as (l1 & l2 & El).
    assert (T' := fun m => T i m Hi). rewrite El in *. rewrite map_app, rsum_app. cbn [map rsum].
    assert (rsum (map (pair_corr sigma fs eps s (er_Q r) i) l1) <= 0) by (apply S; intros; apply T'; apply in_or_app; auto).
    assert (rsum (map (pair_corr sigma fs eps s (er_Q r) i) l2) <= 0) by (apply S; intros; apply T'; apply in_or_app; right; right; auto).
    assert (pair_corr sigma fs eps s (er_Q r) i n < 0); [|lra]. unfold pair_corr. rewrite Et, Nat2Z.id.
    assert (P := gaussian_pos (sigma (cel s i)) (sigma (nb_element n)) eps (nb_d n) (Hsg _) (Hsg _) He (Hd i n Hi (neighbors_within_in _ _ _ Hn))).
    assert (0 < er_Q r i * er_Q r i) by (apply Rsqr_pos_lt in HQ; exact HQ). assert (0 < er_Q r i * er_Q r i * gaussian_coulomb (sigma (cel s i)) (sigma (nb_element n)) eps (nb_d n)) by nra. nra. }
  assert (Tot : sumn (cnum s) (fun i => rsum (map (pair_corr sigma fs eps s (er_Q r) i) (own_images fs s i))) < 0).
  { rewrite (sumn_ext _ _ (fun j => (if Nat.eqb j i then rsum (map (pair_corr sigma fs eps s (er_Q r) i) (own_images fs s i)) else 0)
       + (if Nat.eqb j i then 0 else rsum (map (pair_corr sigma fs eps s (er_Q r) j) (own_images fs s j))))).
    2:{ intros j Hj. destruct (Nat.eqb_spec j i) as [->|]; ring. }
    rewrite sumn_plus. rewrite (sumn_single _ (fun j => if Nat.eqb j i then _ else 0) i Hi), Nat.eqb_refl.
    2:{ intros j Hj Hne. destruct (Nat.eqb_spec j i); [congruence|auto]. }
    assert (Q0 : forall m, (m <= cnum s)%nat -> sumn m (fun j => if Nat.eqb j i then 0 else rsum (map (pair_corr sigma fs eps s (er_Q r) j) (own_images fs s j))) <= 0).
    { induction m; intros Hm; [rewrite sumn_0; lra|]. rewrite sumn_S. specialize (IHm ltac:(lia)). destruct (Nat.eqb m i); [lra|].
      assert (rsum (map (pair_corr sigma fs eps s (er_Q r) m) (own_images fs s m)) <= 0) by (apply S; intros; apply T; auto; lia). lra. }
    specialize (Q0 (cnum s) (le_n _)). lra. }
  lra.
Qed.

(** ** Example: two atoms in a narrow cell *)
Definition ex_nbs (i : nat) : list neighbor :=
  [mkNb i (Z.of_nat i) 0 4 (mkVec 4 0 0); mkNb i (Z.of_nat i) 0 4 (mkVec (-4) 0 0)].
Definition ex_atom (i : nat) (r : vec) : atom := mkAtom 0 r true true 2 1 [2%nat] [i] (ex_nbs i) [].
Definition ex_periodic : cstruct :=
  mkCStruct true (mkMat (mkVec 4 0 0) (mkVec 0 100 0) (mkVec 0 0 100)) true
    [mkCAtom (ex_atom 0 (mkVec 0 0 0)) 0; mkCAtom (ex_atom 1 (mkVec 2 50 50)) 1] 0.
Definition ex_W : ewald := mkEwald 1 5 1.
Lemma ex_det : det (cs_box ex_periodic) <> 0.
Proof. unfold det, dot, cross; simpl. lra. Qed.
Lemma ex_periodic_input : exists L, periodic_input ex_periodic ex_W L.
Proof.
  destruct (sphere_enumerable (cs_box ex_periodic) (ew_kCut ex_W) ex_det) as (L & A & B). { simpl. lra. }
  assert (C : forall i, (i < cnum ex_periodic)%nat -> i = 0%nat \/ i = 1%nat) by (unfold cnum; simpl; intros; lia).
  exists L. split; [reflexivity|]. split; [reflexivity|]. split; [|split; [|split; [apply ex_det|split; [simpl; lra|split; auto]]]].
  - intros i n Hi Hn. 
    destruct (C i Hi) as [-> | ->]; simpl in Hn; destruct Hn as [<-|[<-|[]]]; [exists 0%nat|exists 0%nat|exists 1%nat|exists 1%nat]; unfold cnum; simpl; auto.
  - intros i Hi. destruct (C i Hi) as [-> | ->]; split; intros; simpl; auto.
Qed.
Lemma two_well_posed J (U : nat -> nat -> R) : 0 < J 0%nat + J 1%nat + U 0%nat 0%nat + U 1%nat 1%nat - U 0%nat 1%nat - U 1%nat 0%nat -> well_posed 2 J U.
Proof.
  intros H d l Hs He i Hi. unfold sumn in Hs; simpl in Hs. 
  assert (E0 := He 0%nat ltac:(lia)). assert (E1 := He 1%nat ltac:(lia)). unfold electronegativity, sumn in E0, E1; simpl in E0, E1.
  assert (D : d 1%nat = - d 0%nat) by lra. rewrite D in *.
  assert (Z : d 0%nat * (J 0%nat + J 1%nat + U 0%nat 0%nat + U 1%nat 1%nat - U 0%nat 1%nat - U 1%nat 0%nat) = 0) by lra.
  apply Rmult_integral in Z. assert (d 0%nat = 0) by (destruct Z; lra). assert (C : i = 0%nat \/ i = 1%nat) by lia. destruct C as [-> | ->]; lra.
Qed.
Definition ex_fs : screening_function := mkScreen 1 6 (1 / (6 - 1)) (core_config CK_POLY2 false).
Lemma ex_fs_config : screening_config CK_POLY2 1 6 = Some ex_fs.
Proof. unfold screening_config, sc_setInnerOuter. destruct (Rge_dec 1 6); [lra|]. reflexivity. Qed.
Lemma own_images_refuted : exists hardness sigma eps s W L fs fuel r,
  periodic_input s W L /\ 0 < eps /\ (forall e, 0 < sigma e) /\ (forall e, 0 < hardness e) /\ cs_chargeRef s = 0 /\
  screening_config CK_POLY2 1 6 = Some fs /\
  well_posed (cnum s) (J_of hardness s) (ewald_U sigma eps (calculateVolume (cs_box s)) W L s) /\
  calculateElectrostaticEnergy gauss_solve fuel W (element_parameters hardness sigma fs eps) s = Some r /\
  er_energy r <> periodic_energy sigma eps (calculateVolume (cs_box s)) W L fs s (er_Q r).
Proof.
  destruct ex_periodic_input as (L & HP).
  set (sg := fun _ : nat => 1). set (U := ewald_U sg 1 (calculateVolume (cs_box ex_periodic)) ex_W L ex_periodic).
  set (h := Rabs (U 0%nat 0%nat + U 1%nat 1%nat - U 0%nat 1%nat - U 1%nat 0%nat) + 1).
  assert (Hh : 0 < h) by (unfold h; pose proof (Rabs_pos (U 0%nat 0%nat + U 1%nat 1%nat - U 0%nat 1%nat - U 1%nat 0%nat)); lra).
  assert (Hw : well_posed (cnum ex_periodic) (J_of (fun _ => h) ex_periodic) U).
  { apply two_well_posed. unfold J_of. assert (A := Rle_abs (- (U 0%nat 0%nat + U 1%nat 1%nat - U 0%nat 1%nat - U 1%nat 0%nat))). rewrite Rabs_Ropp in A. unfold h in *. lra. }
  destruct (periodic_equilibrium gauss_solve (fun _ => h) sg ex_fs 1 ex_periodic ex_W L gauss_solve_exact Rlt_0_1 (fun _ => Rlt_0_1) HP ltac:(unfold cnum; simpl; lia) Hw) as (fuel & F).
  destruct (F fuel (le_n _)) as (r & E & S & N & _).
  exists (fun _ => h), sg, 1, ex_periodic, ex_W, L, ex_fs, fuel, r.
  split; auto. split; [lra|]. split; [intros; unfold sg; lra|]. split; auto. split; [reflexivity|]. split; [apply ex_fs_config|]. split; auto. split; auto.
  apply Rlt_not_eq.
  assert (Q0 : er_Q r 0%nat <> 0).
  { intros Z. change (cnum ex_periodic) with 2%nat in *. unfold sumn in S; simpl in S.
    assert (E0 := N 0%nat ltac:(lia)). assert (E1 := N 1%nat ltac:(lia)). fold U in E0, E1. unfold electronegativity, sumn, chi_of in E0, E1; simpl in E0, E1.
    assert (er_Q r 1%nat = 0) by lra. rewrite Z, H in *. lra. }
  apply (own_image_energy gauss_solve (fun _ => h) sg ex_fs 1 ex_periodic ex_W L CK_POLY2 1 6 gauss_solve_exact Rlt_0_1 (fun _ => Rlt_0_1) ex_fs_config HP) with (fuel := fuel) (i := 0%nat) (n := mkNb 0 0%Z 0 4 (mkVec 4 0 0)); auto.
  - intros i n Hi Hn. change (cnum ex_periodic) with 2%nat in *. assert (C : i = 0%nat \/ i = 1%nat) by lia.
    destruct C as [-> | ->]; simpl in Hn; destruct Hn as [<-|[<-|[]]]; simpl; lra.
  - unfold cnum; simpl; lia.
  - unfold neighbors_within. simpl. auto.
  - simpl nb_d. unfold ex_fs, sc_f; cbn [sc_outer sc_inner sc_scale sc_core]. destruct (Rge_dec 4 6); [lra|]. destruct (Rle_dec 4 1); [lra|].
    unfold core_f, core_config; simpl. lra.
Qed.

(** ** Example: two isolated atoms *)
Definition ex_isolated : cstruct :=
  mkCStruct false (mkMat vzero vzero vzero) false
    [mkCAtom (fresh_atom 0 (mkVec 0 0 0) 1) 0; mkCAtom (fresh_atom 0 (mkVec 2 0 0) 1) 1] 0.
Lemma ex_isolated_positive : positive 2 (J_of (fun _ => 1) ex_isolated) (isolated_U (fun _ => 1) 1 ex_isolated).
Proof.
  intros d Hs (i & Hi & Hd). unfold sumn in Hs; simpl in Hs. assert (D : d 1%nat = - d 0%nat) by lra.
  assert (Hd0 : d 0%nat <> 0). { intros Z. assert (C : i = 0%nat \/ i = 1%nat) by lia. destruct C as [-> | ->]; lra. }
  set (u := isolated_U (fun _ => 1) 1 ex_isolated).
  assert (E : qeq_energy 2 (fun _ => 0) (J_of (fun _ => 1) ex_isolated) u d = d 0%nat * d 0%nat * (1 + (u 0%nat 0%nat + u 1%nat 1%nat - u 0%nat 1%nat - u 1%nat 0%nat) / 2)).
  { unfold qeq_energy, sumn, J_of; simpl. rewrite D. field. }
  rewrite E. assert (0 < d 0%nat * d 0%nat) by (apply Rsqr_pos_lt in Hd0; exact Hd0).
  assert (B : u 0%nat 1%nat <= 1 / sqrt PI).
  { unfold u, isolated_U; simpl. unfold gaussian_coulomb.
    assert (Dd : distance ex_isolated 0 1 = 2).
    { unfold distance, norm. replace (norm2 (vsub (cpos ex_isolated 0) (cpos ex_isolated 1))) with (2 * 2) by (unfold norm2, dot, vsub, cpos; simpl; ring). apply sqrt_square; lra. }
    rewrite Dd. replace (2 * (1 * 1 + 1 * 1)) with (2 * 2) by ring. rewrite sqrt_square by lra.
    replace (2 / 2) with 1 by field. pose proof (erf_linear_bound 1 ltac:(lra)). unfold Rdiv in *. lra. }
  assert (u 1%nat 0%nat = u 0%nat 1%nat) by apply isolated_U_sym.
  assert (V0 : u 0%nat 0%nat = 1 / sqrt PI). { unfold u, isolated_U; simpl. f_equal. ring. }
  assert (V1 : u 1%nat 1%nat = 1 / sqrt PI). { unfold u, isolated_U; simpl. f_equal. ring. }
  nra.
Qed.
Lemma ex_isolated_ok : cs_periodic ex_isolated = false /\ (0 < cnum ex_isolated)%nat /\ separated ex_isolated /\
  positive (cnum ex_isolated) (J_of (fun _ => 1) ex_isolated) (isolated_U (fun _ => 1) 1 ex_isolated) /\
  well_posed (cnum ex_isolated) (J_of (fun _ => 1) ex_isolated) (isolated_U (fun _ => 1) 1 ex_isolated).
Proof.
  split; auto. split; [unfold cnum; simpl; lia|]. split; [|split].
  - intros i j Hi Hj Hne. unfold cnum in *; simpl in Hi, Hj. assert (C : (i = 0 /\ j = 1)%nat \/ (i = 1 /\ j = 0)%nat) by lia.
    destruct C as [[-> ->] | [-> ->]]; unfold cpos; simpl; intros [=]; lra.
  - exact ex_isolated_positive.
  - apply positive_well_posed, ex_isolated_positive.
Qed.

(** ** The minimum *)
Lemma isolated_minimum : forall solve hardness sigma fs eps s fuel W, exact_solver solve -> 0 < eps -> (forall e, 0 < sigma e) ->
  cs_periodic s = false -> (0 < cnum s)%nat -> separated s -> positive (cnum s) (J_of hardness s) (isolated_U sigma eps s) ->
  exists r, calculateElectrostaticEnergy solve fuel W (element_parameters hardness sigma fs eps) s = Some r /\
    sumn (cnum s) (er_Q r) = cs_chargeRef s /\
    forall p, sumn (cnum s) p = cs_chargeRef s -> (exists i, (i < cnum s)%nat /\ p i <> er_Q r i) ->
    qeq_energy (cnum s) (chi_of s) (J_of hardness s) (isolated_U sigma eps s) (er_Q r)
    < qeq_energy (cnum s) (chi_of s) (J_of hardness s) (isolated_U sigma eps s) p.
Proof.
  intros solve hardness sigma fs eps s fuel W Hsol He Hsg Hp HN _ Hpos.
  destruct (isolated_equilibrium hardness sigma fs eps s He Hsg Hp solve fuel W Hsol HN) as (r & E & S & Eq & _).
  { now apply positive_well_posed. }
  exists r. split; auto. split; auto. intros p Hps Hd.
  apply (equilibrium_minimises (cnum s) (chi_of s) (J_of hardness s) (isolated_U sigma eps s)) with (l := - er_lambda r); auto.
  - intros. apply isolated_U_sym.
  - congruence.
Qed.
Lemma periodic_minimum : forall solve hardness sigma fs eps s W L, exact_solver solve -> 0 < eps -> (forall e, 0 < sigma e) ->
  periodic_input s W L -> (0 < cnum s)%nat ->
  positive (cnum s) (J_of hardness s) (ewald_U sigma eps (calculateVolume (cs_box s)) W L s) ->
  exists fuel, forall fuel', (fuel <= fuel')%nat ->
  exists r, calculateElectrostaticEnergy solve fuel' W (element_parameters hardness sigma fs eps) s = Some r /\
    sumn (cnum s) (er_Q r) = cs_chargeRef s /\
    forall p, sumn (cnum s) p = cs_chargeRef s -> (exists i, (i < cnum s)%nat /\ p i <> er_Q r i) ->
    qeq_energy (cnum s) (chi_of s) (J_of hardness s) (ewald_U sigma eps (calculateVolume (cs_box s)) W L s) (er_Q r)
    < qeq_energy (cnum s) (chi_of s) (J_of hardness s) (ewald_U sigma eps (calculateVolume (cs_box s)) W L s) p.
Proof.
  intros solve hardness sigma fs eps s W L Hsol He Hsg Hp HN Hpos.
  destruct (periodic_equilibrium solve hardness sigma fs eps s W L Hsol He Hsg Hp HN) as (fuel & F).
  { now apply positive_well_posed. }
  exists fuel. intros fuel' Hf. destruct (F fuel' Hf) as (r & E & S & Eq & _).
  exists r. split; auto. split; auto. intros p Hps Hd.
  apply (equilibrium_minimises (cnum s) (chi_of s) (J_of hardness s) (ewald_U sigma eps (calculateVolume (cs_box s)) W L s)) with (l := - er_lambda r); auto.
  - intros. apply ewald_U_sym.
  - congruence.
Qed.
