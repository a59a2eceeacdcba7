(** Evaluation of supercells (C69). *)
From Coq Require Import Reals Lra Lia ZArith List Permutation Bool Arith.
From Coquelicot Require Import Coquelicot.
From Coq Require Import List.
From Verif Require Import Base.Vec3 Base.SumR Model.NeuralNetwork Model.Scaling Model.NeighborList Model.SymFunctions Model.SymCache Model.SymSetup
  Model.SymGroups Model.Forces Model.GroupEvaluation
  Spec.NetworkSpec Spec.GeometrySpec Spec.NeighborSpec Spec.SymSpec Spec.GroupSpec Spec.ForceSpec Spec.EvaluationSpec Spec.InvarianceSpec
  Proofs.NeighborProofs Proofs.NeighborMore Proofs.ForceProofs Proofs.ForceExamples Proofs.GroupForces Proofs.GroupForceExamples Proofs.Outcome Proofs.InvarianceExamples Proofs.Supercell.
Import ListNotations.
Local Open Scope R_scope.

Lemma supercell_unprocessed rc n1 n2 n3 s : (0 < n1 /\ 0 < n2 /\ 0 < n3)%nat -> s_periodic s = true -> unprocessed rc s -> unprocessed rc (supercell n1 n2 n3 s).
Proof.
  intros Pos Hp (U1 & U2 & U3 & U4 & U5).
  assert (X : forall a, In a (s_atoms (supercell n1 n2 n3 s)) -> exists c b, In c (cells n1 n2 n3) /\ In b (s_atoms s) /\ a = moved_to (s_box s) c b).
  { intros a Ha. cbn [supercell s_atoms] in Ha. apply in_flat_map in Ha as (c & Hc & Ha). apply in_map_iff in Ha as (b & <- & Hb). eauto. }
  split; [|split; [|split; [|split]]].
  - intros a Ha. destruct (X a Ha) as (c & b & _ & Hb & ->). exact (U1 b Hb).
  - intros a Ha. destruct (X a Ha) as (c & b & _ & Hb & ->). exact (U2 b Hb).
  - intros a Ha. destruct (X a Ha) as (c & b & _ & Hb & ->). exact (U3 b Hb).
  - intros _. destruct (U4 Hp) as (D & W). split; [apply (cov_nice' n1 n2 n3 Pos s (supercell n1 n2 n3 s)); auto using supercell_covers|].
    intros a Ha. destruct (X a Ha) as ([[i j] k] & b & Hc & Hb & ->). destruct (W b Hb) as (f & Hf & Eb). apply in_cells in Hc as (H1 & H2 & H3).
    destruct Pos as (P1 & P2 & P3). apply lt_0_INR in P1, P2, P3.
    exists (mkVec ((vx f + IZR i) / INR n1) ((vy f + IZR j) / INR n2) ((vz f + IZR k) / INR n3)). split.
    + assert (B : forall n z x, 0 < INR n -> (0 <= z < Z.of_nat n)%Z -> 0 <= x < 1 -> 0 <= (x + IZR z) / INR n < 1).
      { intros n z x Hn [Z1 Z2] Hx. assert (0 <= IZR z) by (apply IZR_le; lia). assert (IZR z + 1 <= INR n).
        { rewrite INR_IZR_INZ, <- plus_IZR. apply IZR_le. lia. }
        split; [apply Rmult_le_pos; [lra|apply Rlt_le, Rinv_0_lt_compat; auto]|]. apply (Rmult_lt_reg_r (INR n)); auto. unfold Rdiv. rewrite Rmult_assoc, Rinv_l by lra. lra. }
      destruct Hf as (F1 & F2 & F3). split; [|split]; cbn; apply B; auto.
    + cbn [moved_to a_r]. rewrite Eb. unfold lattice, combine, supercell, stretched. cbn [s_box m0 m1 m2 vx vy vz]. apply vec_eq; cbn; field; lra.
  - exact U5.
Qed.

Theorem supercell_energy N rc P n1 n2 n3 s nsort fuel fuel' s1 s1' : (0 < n1 /\ 0 < n2 /\ 0 < n3)%nat -> sensible N rc P -> 0 <= rc -> is_sort nsort ->
  s_periodic s = true -> s_numElements s = N -> unprocessed rc s ->
  calculateNeighborList nsort fuel rc false s = Some s1 -> calculateNeighborList nsort fuel' rc false (supercell n1 n2 n3 s) = Some s1' ->
  everywhere P rc s evaluable ->
  exists E ys ys',
    evaluateNNP nsort fuel (p_weight P) (setupMemoryAll N (map (p_fs P) (seq 0 N))) (p_net P) rc s = Some (E, ys) /\
    evaluateNNP nsort fuel' (p_weight P) (setupMemoryAll N (map (p_fs P) (seq 0 N))) (p_net P) rc (supercell n1 n2 n3 s) = Some (INR (n1 * n2 * n3) * E, ys') /\
    length ys = length (s_atoms s) /\
    (forall k j y, (k < n1 * n2 * n3)%nat -> nth_error ys j = Some y ->
       exists y', nth_error ys' (k * length (s_atoms s) + j) = Some y' /\ e_energy y' = e_energy y) /\
    ((no_self_image s rc \/ forall e f, In f (p_fs P e) -> radial (sf_kind f)) ->
     forall k j y y', (k < n1 * n2 * n3)%nat -> nth_error ys j = Some y -> nth_error ys' (k * length (s_atoms s) + j) = Some y' -> e_f y' = e_f y).
Proof.
  intros Pos HP Hrc Hsort Hper HN U L L' Hev. assert (HC := supercell_covers n1 n2 n3 s Hper).
  assert (Hdet : det (s_box s) <> 0) by (destruct U as (_ & _ & _ & W & _); now apply W).
  destruct (evaluation_outcome N rc P s nsort fuel s1 HP Hrc HN U Hsort L Hev) as (E & ys & Ev & O).
  destruct (evaluation_outcome N rc P (supercell n1 n2 n3 s) nsort fuel' s1' HP Hrc HN (supercell_unprocessed rc n1 n2 n3 s Pos Hper U) Hsort L') as (E' & ys' & Ev' & O').
  { eapply cover_everywhere; eauto. }
  exists E, ys, ys'. split; auto. split; [rewrite Ev'; do 2 f_equal; eapply super_energy; eauto|]. split; [apply O|]. split.
  - intros k j y. eapply super_at; eauto.
  - intros Hh. eapply super_force; eauto.
Qed.
Theorem supercell_default T (T_dec : forall a b : T, {a = b} + {a <> b}) fmt conv gsort msort N rc P sc n1 n2 n3 s nsort fuel fuel' s1 s1' :
  (forall l, Permutation l (gsort l)) -> (forall l, Permutation l (msort l)) -> conv <> 0 -> (0 < n1 /\ 0 < n2 /\ 0 < n3)%nat ->
  sensible N rc (scaled_potential sc P) -> cached_and_grouped (text_of T fmt conv) fmt conv sc N P -> 0 <= rc -> is_sort nsort ->
  s_periodic s = true -> s_numElements s = N -> unprocessed rc s ->
  calculateNeighborList nsort fuel rc false s = Some s1 -> calculateNeighborList nsort fuel' rc false (supercell n1 n2 n3 s) = Some s1' ->
  everywhere (scaled_potential sc P) rc s evaluable -> everywhere (scaled_potential sc P) rc s distinct_neighbors ->
  exists es E ys ys', setupAll (text T) (text_dec T_dec) (text_of T fmt conv) gsort msort N true (map (p_fs P) (seq 0 N)) = Some es /\
    evaluateGroups nsort fuel (p_weight P) (setupScaling sc es) (p_net P) rc s = Some (E, ys) /\
    evaluateGroups nsort fuel' (p_weight P) (setupScaling sc es) (p_net P) rc (supercell n1 n2 n3 s) = Some (INR (n1 * n2 * n3) * E, ys') /\
    length ys = length (s_atoms s) /\
    (forall k j y, (k < n1 * n2 * n3)%nat -> nth_error ys j = Some y ->
       exists y', nth_error ys' (k * length (s_atoms s) + j) = Some y' /\ e_energy y' = e_energy y) /\
    ((no_self_image s rc \/ forall e f, In f (p_fs P e) -> radial (sf_kind f)) ->
     forall k j y y', (k < n1 * n2 * n3)%nat -> nth_error ys j = Some y -> nth_error ys' (k * length (s_atoms s) + j) = Some y' -> e_f y' = e_f y).
Proof.
  intros HG HM Hc Pos HP HK Hrc Hsort Hper HN U L L' Hev Hdi. assert (HC := supercell_covers n1 n2 n3 s Hper).
  assert (Hdet : det (s_box s) <> 0) by (destruct U as (_ & _ & _ & W & _); now apply W).
  destruct (grouped_outcome T T_dec fmt conv gsort msort N rc P sc s nsort fuel s1 HG HM Hc HP HK Hrc HN U Hsort L Hev Hdi) as (es & E & ys & Ees & Ev & O).
  destruct (grouped_outcome T T_dec fmt conv gsort msort N rc P sc (supercell n1 n2 n3 s) nsort fuel' s1' HG HM Hc HP HK Hrc HN (supercell_unprocessed rc n1 n2 n3 s Pos Hper U) Hsort L') as (es' & E' & ys' & Ees' & Ev' & O').
  { eapply cover_everywhere; eauto. }
  { eapply cover_everywhere; eauto. }
  rewrite Ees in Ees'. injection Ees' as <-.
  exists es, E, ys, ys'. split; auto. split; auto. split; [rewrite Ev'; do 2 f_equal; eapply super_energy; eauto|]. split; [apply O|]. split.
  - intros k j y. eapply super_at; eauto.
  - intros Hh. eapply super_force; eauto. destruct Hh as [H|H]; [now left|right].
    intros e f Hf. cbn in Hf. apply in_map_iff in Hf as (h & <- & Hh'). exact (H e h Hh').
Qed.

(** ** Concrete cases *)
Lemma chain_super_ok : sensible 2 chain_rc (chain_pot chain_rad 1) /\ s_periodic chain = true /\ unprocessed chain_rc chain /\
  (exists nsort fuel s' t', is_sort nsort /\ calculateNeighborList nsort fuel chain_rc false chain = Some s' /\
     calculateNeighborList nsort fuel chain_rc false (supercell 3 2 1 chain) = Some t') /\
  everywhere (chain_pot chain_rad 1) chain_rc chain evaluable /\
  (forall e f, In f (p_fs (chain_pot chain_rad 1) e) -> radial (sf_kind f)) /\ in_range chain chain_rc 0 0 (1, 0, 0)%Z.
Proof.
  destruct chain_ok as (H1 & H2 & _ & H3 & _ & H5). split; [exact H1|]. split; [reflexivity|]. split; [exact H2|].
  split; [apply both_listed; [exact H2|apply supercell_unprocessed; [repeat split; lia|reflexivity|exact H2]]|]. split; [now apply smooth_evaluable|exact H5].
Qed.
Lemma trio_scaled e : p_fs (scaled_potential duo_sc trio) e = p_fs trio e.
Proof. cbn. destruct (Nat.eqb e 0); reflexivity. Qed.
Lemma trio_everywhere s Q : everywhere trio chain_rc s Q -> everywhere (scaled_potential duo_sc trio) chain_rc s Q.
Proof. intros H i a e f H1 H2 H3. rewrite trio_scaled in H3. eauto. Qed.
Lemma trio_super_ok : sensible 2 chain_rc (scaled_potential duo_sc trio) /\ cached_and_grouped (text_of R (fun x => x) 1) (fun x => x) 1 duo_sc 2 trio /\
  s_periodic chain = true /\ unprocessed chain_rc chain /\
  (exists nsort fuel s' t', is_sort nsort /\ calculateNeighborList nsort fuel chain_rc false chain = Some s' /\
     calculateNeighborList nsort fuel chain_rc false (supercell 3 2 1 chain) = Some t') /\
  everywhere (scaled_potential duo_sc trio) chain_rc chain evaluable /\ everywhere (scaled_potential duo_sc trio) chain_rc chain distinct_neighbors /\
  (forall e f, In f (p_fs trio e) -> radial (sf_kind f)) /\ in_range chain chain_rc 0 0 (1, 0, 0)%Z.
Proof.
  destruct chain_super_ok as (H1 & H2 & H3 & H4 & _ & H7 & H8).
  assert (S : everywhere (scaled_potential duo_sc trio) chain_rc chain smooth_at) by (apply trio_everywhere, chain_smooth; auto).
  split; [intros e He; rewrite trio_scaled; exact (H1 e He)|]. split.
  { intros e He. assert (A : forall f, In f (p_fs trio e) -> f = chain_rad) by (intros f; cbn; destruct (Nat.eqb e 0); cbn; intuition).
    split; [split|split].
    - intros f Hf. rewrite (A f Hf). cbn; auto.
    - intros f h Hf Hh. rewrite (A f Hf), (A h Hh). exact Logic.I.
    - intros f g x y _ _ _ _ H. exact H.
    - intros f Hf. rewrite (A f Hf). exact Logic.I. }
  split; [exact H2|]. split; [exact H3|]. split; [exact H4|]. split; [now apply smooth_evaluable|]. split; [exact (smooth_distinct _ _ _ S)|]. auto.
Qed.

(** ** Own images *)
Lemma long_no_self : no_self_image (supercell 3 1 1 chain) chain_rc.
Proof.
  intros i m (ai & aj & Ei & Ej & _ & Hne & Hr). rewrite Ei in Ej. injection Ej as <-. apply Hne. f_equal.
  apply norm_le_iff in Hr; [|unfold chain_rc; lra]. destruct m as [[a b] c].
  replace (displacement _ ai ai _) with (mkVec (12 * IZR a) (100 * IZR b) (100 * IZR c)) in Hr.
  2:{ unfold displacement, position_of_image, lattice, GeometrySpec.combine, supercell, stretched. cbn [s_box chain chain_box m0 m1 m2 vx vy vz]. apply vec_eq; cbn; ring. }
  unfold norm2 in Hr. cbn [vx vy vz] in Hr. unfold chain_rc in Hr.
  assert (Z0 : forall z, IZR z * IZR z < 1 -> z = 0%Z).
  { intros z Hz. assert (-1 < z < 1)%Z; [|lia]. split; apply lt_IZR; nra. }
  assert (A := Rle_0_sqr (IZR a)). assert (B := Rle_0_sqr (IZR b)). assert (C := Rle_0_sqr (IZR c)). unfold Rsqr in *.
  f_equal; [f_equal|]; symmetry; apply Z0; lra.
Qed.
Theorem own_images_supercell : exists P rc s nsort fuel fuel' E ys ys', sensible 2 rc P /\ unprocessed rc s /\ s_periodic s = true /\ is_sort nsort /\
  everywhere P rc s smooth_at /\ regular_networks P rc s /\
  evaluateNNP nsort fuel (p_weight P) (setupMemoryAll 2 (map (p_fs P) (seq 0 2))) (p_net P) rc s = Some (E, ys) /\
  evaluateNNP nsort fuel' (p_weight P) (setupMemoryAll 2 (map (p_fs P) (seq 0 2))) (p_net P) rc (supercell 3 1 1 s) = Some (INR 3 * E, ys') /\
  ~ (forall k j y y', (k < 3)%nat -> nth_error ys j = Some y -> nth_error ys' (k * length (s_atoms s) + j) = Some y' -> e_f y' = e_f y).
Proof.
  destruct own_images as (nsort & fuel & E & ys & Hsort & Ev & HE & HF). set (P := chain_pot chain_ang 0) in *.
  assert (HP : sensible 2 chain_rc P) by (apply chain_sensible; auto). assert (Hsm := chain_smooth chain_ang 0 (or_introl eq_refl)).
  assert (Hrc : 0 <= chain_rc) by (unfold chain_rc; lra). assert (Pos : (0 < 3 /\ 0 < 1 /\ 0 < 1)%nat) by lia.
  assert (U' := supercell_unprocessed chain_rc 3 1 1 chain Pos eq_refl chain_unprocessed).
  assert (L : exists s1, calculateNeighborList nsort fuel chain_rc false chain = Some s1).
  { unfold evaluateNNP in Ev. destruct (calculateNeighborList nsort fuel chain_rc false chain) as [s1|]; [eauto|discriminate]. }
  destruct L as (s1 & L).
  assert (L' : exists fuel' s1', calculateNeighborList nsort fuel' chain_rc false (supercell 3 1 1 chain) = Some s1').
  { destruct (list_terminates nsort chain_rc false (supercell 3 1 1 chain)) as (f & F); [apply U'|intros H; now apply U'|].
    destruct (F f (le_n _)) as (s1' & X). eauto. }
  destruct L' as (fuel' & s1' & L').
  assert (Hev : everywhere P chain_rc chain evaluable) by (intros i a e f A B C; apply (Hsm i a e f A B C)).
  destruct (supercell_energy 2 chain_rc P 3 1 1 chain nsort fuel fuel' s1 s1' Pos HP Hrc Hsort eq_refl eq_refl chain_unprocessed L L' Hev)
    as (E0 & ys0 & ys' & Ev0 & Ev' & Ly & Hat & _).
  change (p_weight P) with (fun _ : nat => 1) in *. rewrite Ev in Ev0. injection Ev0 as <- <-.
  assert (HC := supercell_covers 3 1 1 chain eq_refl). assert (Hdet : det (s_box chain) <> 0) by (cbn [chain s_box]; rewrite chain_det; lra).
  exists P, chain_rc, chain, nsort, fuel, fuel', E, ys, ys'. change (p_weight P) with (fun _ : nat => 1).
  split; [exact HP|]. split; [exact chain_unprocessed|]. split; [reflexivity|]. split; [exact Hsort|]. split; [exact Hsm|].
  split; [apply chain_regular|]. split; [exact Ev|]. split; [exact Ev'|]. intros Same.
  destruct (forces_balanced 2 chain_rc P (supercell 3 1 1 chain) nsort fuel' s1' HP Hrc eq_refl U' Hsort L') as (E2 & ys2 & Ev2 & Hb).
  { eapply cover_everywhere; eauto. }
  { left. exact long_no_self. }
  change (p_weight P) with (fun _ : nat => 1) in Ev2. rewrite Ev' in Ev2. injection Ev2 as _ <-. specialize (Hb chain_w).
  assert (Ly' : length ys' = 6%nat).
  { destruct (evaluation_outcome 2 chain_rc P (supercell 3 1 1 chain) nsort fuel' s1' HP Hrc eq_refl U' Hsort L') as (E3 & ys3 & Ev3 & O3).
    { eapply cover_everywhere; eauto. }
    change (p_weight P) with (fun _ : nat => 1) in Ev3. rewrite Ev' in Ev3. injection Ev3 as _ <-. destruct O3 as (_ & -> & _). reflexivity. }
  change (length (s_atoms chain)) with 2%nat in *.
  destruct ys as [|x [|y [|]]]; try discriminate. destruct ys' as [|a [|b [|c [|d [|e [|f [|]]]]]]]; try discriminate.
  assert (Ea := Same 0%nat 0%nat x a ltac:(lia) eq_refl eq_refl). assert (Eb := Same 0%nat 1%nat y b ltac:(lia) eq_refl eq_refl).
  assert (Ec := Same 1%nat 0%nat x c ltac:(lia) eq_refl eq_refl). assert (Ed := Same 1%nat 1%nat y d ltac:(lia) eq_refl eq_refl).
  assert (Ee := Same 2%nat 0%nat x e ltac:(lia) eq_refl eq_refl). assert (Ef := Same 2%nat 1%nat y f ltac:(lia) eq_refl eq_refl).
  cbn [map rsum fold_right] in *. rewrite Ea, Eb, Ec, Ed, Ee, Ef in Hb. lra.
Qed.
