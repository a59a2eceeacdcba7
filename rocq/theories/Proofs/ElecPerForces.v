(** Forces of periodic structures with charge equilibration. *)
From Coq Require Import Reals ZArith List Bool Arith Lia Lra Sorted.
From Coquelicot Require Import Coquelicot.
From Coq Require Import List.
From Verif Require Import Base.Vec3 Base.Loop Base.SumR Base.Erf Base.Linear Model.CoreFunction Model.CompactScreening Model.Geometry Model.NeighborList
  Model.Kspace Model.SymFunctions Model.Electrostatics Spec.CompactSpec Spec.ElecSpec Proofs.CompactProofs Proofs.SymTerms Proofs.NeighborProofs Proofs.ElecCore Proofs.ElecFill
  Proofs.ElecQeq Proofs.ElecPeriodic Proofs.ElecLoops Proofs.ElecDerive Proofs.ElecForces Proofs.SetupProofs Proofs.ElecIsolated.
Import ListNotations.
Local Open Scope R_scope.

Lemma images_map v t i j l : images_of j (map (moved_neighbor v t i) l) = map (moved_neighbor v t i) (images_of j l).
Proof. unfold images_of. induction l as [|n l IH]; auto. cbn [map filter]. cbn [nb_tag moved_neighbor]. destruct (Z.eqb (nb_tag n) (Z.of_nat j)); cbn [map]; now rewrite IH. Qed.
Lemma regroup N l (G : nat -> neighbor -> R) : (forall n, In n l -> exists j, (j < N)%nat /\ nb_tag n = Z.of_nat j) ->
  sumn N (fun j => rsum (map (G j) (images_of j l))) = rsum (map (fun n => G (Z.to_nat (nb_tag n)) n) l).
Proof.
  induction l as [|n l IH]; intros H.
  - apply sumn_zero. auto.
  - cbn [map rsum]. rewrite <- IH by (intros; apply H; right; auto). destruct (H n (or_introl eq_refl)) as (j & Hj & Et).
    rewrite Et, Nat2Z.id. rewrite Rplus_comm. apply (sumn_switch N _ _ j); auto.
    + unfold images_of. cbn [filter]. rewrite Et, Z.eqb_refl. cbn [map rsum]. ring.
    + intros i Hi Hne. unfold images_of. cbn [filter]. rewrite Et. destruct (Z.eqb_spec (Z.of_nat j) (Z.of_nat i)); [lia|]. reflexivity.
Qed.
Lemma pair_sum (s : cstruct) (z Q : nat -> R) (c : nat -> nat -> R) : let N := cnum s in (forall i j, (i < N)%nat -> (j < N)%nat -> c i j = c j i) -> (forall i, (i < N)%nat -> c i i = 0) ->
  sumn N (fun b => z b * sumn N (fun k => c b k * Q k)) = sumn N (fun i => sumn N (fun j => if Nat.ltb i j then c i j * (z i * Q j + z j * Q i) else 0)).
Proof.
  intros N Hs H0.
  assert (D := double_sum s (fun i j => 1 / 2 * c i j * (z i * Q j + z j * Q i))).
  rewrite (sumn_ext N (fun b => z b * sumn N (fun k => c b k * Q k)) (fun i => sumn N (fun j => z i * (c i j * Q j)))) by (intros; now rewrite sumn_scal).
  assert (E : sumn N (fun i => sumn N (fun j => z i * (c i j * Q j))) = sumn N (fun i => sumn N (fun j => 1 / 2 * c i j * (z i * Q j + z j * Q i)))).
  { assert (S : sumn N (fun i => sumn N (fun j => z i * (c i j * Q j))) = sumn N (fun i => sumn N (fun j => z j * (c i j * Q i)))).
    { rewrite sumn_swap. apply sumn_ext. intros j Hj. apply sumn_ext. intros i Hi. rewrite (Hs i j) by auto. ring. }
    assert (T : sumn N (fun i => sumn N (fun j => 1 / 2 * c i j * (z i * Q j + z j * Q i))) =
      1 / 2 * (sumn N (fun i => sumn N (fun j => z i * (c i j * Q j))) + sumn N (fun i => sumn N (fun j => z j * (c i j * Q i))))).
    { rewrite <- sumn_plus, <- sumn_scal. apply sumn_ext. intros i Hi. rewrite <- sumn_plus, <- sumn_scal. apply sumn_ext. intros. ring. }
    rewrite T, <- S. field. }
  fold N in D. rewrite E, D.
  - rewrite sumn_zero by (intros i Hi; rewrite H0 by auto; ring). rewrite Rplus_0_l, <- sumn_scal. apply sumn_ext. intros i Hi. rewrite <- sumn_scal.
    apply sumn_ext. intros j Hj. destruct (Nat.ltb i j); field.
  - intros i j Hi Hj. rewrite (Hs i j) by auto. ring.
Qed.

Section Periodic.
Variables (hardness sigma : nat -> R) (fs : screening_function) (eps : R).
Let P := element_parameters hardness sigma fs eps.
Hypothesis Heps : 0 < eps.
Hypothesis Hsig : forall e, 0 < sigma e.
Variables (solve : solver) (fuel : nat) (W : ewald) (g : kspace_grid).
Let grid := kg_kvectors g.
Definition perU (s : cstruct) i j := per_val P s W grid (Nat.min i j) (Nat.max i j) - (if Nat.eqb i j then J_of hardness s i else 0).
Definition per_matrix (s : cstruct) : matrix :=
  match fill_periodic P s W grid (buf_reset (map (fun a => a_numN (c_atom a)) (cs_atoms s)) 2) with Some (A, _) => A | None => fun _ _ => 0 end.
Lemma periodic_run s : cs_periodic s = true -> cs_sorted s = true -> neighbors_valid s -> counts_valid s ->
  grid_setup fuel (cs_box s) (ew_eta W) (ew_kCut W) grid_init = Some g ->
  let A := per_matrix s in (forall i j, (i < cnum s)%nat -> (j < cnum s)%nat -> A i j = (if Nat.eqb i j then J_of hardness s i else 0) + perU s i j) /\
  let N := cnum s in
  let Q := solve (N + 1)%nat (border N A) (fun i => if Nat.eqb i N then cs_chargeRef s else - c_chi (cat s i)) in
  exists r, calculateElectrostaticEnergy solve fuel W P s = Some r /\ er_A r = border N A /\ er_Q r = Q /\ er_grid r = grid /\
    buf_fits (numNs s) (garg P s W) (er_buf r) /\ 
    er_energy r = 1 / 2 * sumn N (fun i => sumn N (fun j => Q i * perU s i j * Q j))
      - sumn N (fun i => 1 / 2 * (1 / (sqrt PI * sigma (cel s i) * eps) * Q i * Q i))
      + sumn N (fun i => rsum (map (fun n => coded_weight i n * pair_corr sigma fs eps s Q i n) (neighbors_within (cna s i) (sc_outer fs)))).
Proof.
  intros Hper Hsrt Hnb Hct Hg. unfold calculateElectrostaticEnergy. rewrite Hper, Hsrt, Hg. fold grid.
  destruct (fill_periodic_entry P s W grid Hnb Hct (buf_reset (map (fun a => a_numN (c_atom a)) (cs_atoms s)) 2)) as (A & bf & E & Hbf & HA0).
  { apply buf_fits_reset. }
  unfold per_matrix. rewrite E.
  assert (HA : forall i j, (i < cnum s)%nat -> (j < cnum s)%nat -> A i j = (if Nat.eqb i j then J_of hardness s i else 0) + perU s i j).
  { intros i j Hi Hj. rewrite HA0 by auto. unfold perU. ring. }
  cbv zeta. split; auto. set (N := cnum s). set (Q := solve (N + 1)%nat (border N A) (fun i => if Nat.eqb i N then cs_chargeRef s else - c_chi (cat s i))). cbv zeta. unfold finish. fold N. fold Q. unfold P.
  rewrite (screening_periodic hardness sigma fs eps s Heps Hsig Hper Hnb Hct). fold P.
  eexists. split; [reflexivity|]. cbn [er_A er_Q er_energy er_grid er_buf]. split; auto. split; auto. split; auto. split; auto. fold N.
  assert (BA : forall i j, (i < N)%nat -> (j < N)%nat -> border N A i j = A i j).
  { intros i j Hi Hj. unfold border. destruct (Nat.eqb_spec i N), (Nat.eqb_spec j N); try lia. auto. }
  rewrite (sumn_ext N (fun i => sumn N (fun j => Q i * (border N A i j - (if Nat.eqb i j then ep_hardness P (cel s i) else 0)) * Q j))
     (fun i => sumn N (fun j => Q i * perU s i j * Q j))).
  2:{ intros i Hi. apply sumn_ext. intros j Hj. rewrite BA, HA by auto. simpl ep_hardness. unfold J_of. destruct (Nat.eqb i j); ring. }
  rewrite sumn_plus.
  rewrite (sumn_ext N (fun i => - (1 / 2 * (Q i * Q i / (sqrt PI * sigma (cel s i) * eps)))) (fun i => (- (1)) * (1 / 2 * (1 / (sqrt PI * sigma (cel s i) * eps) * Q i * Q i)))) by (intros; unfold Rdiv; ring).
  rewrite sumn_scal. ring.
Qed.

Variables (s : cstruct) (v : nat -> vec) (chi : R -> nat -> R).
Hypothesis Hper : cs_periodic s = true.
Hypothesis Hsrt : cs_sorted s = true.
Hypothesis Hnb : neighbors_valid s.
Hypothesis Hct : counts_valid s.
Hypothesis Hg : grid_setup fuel (cs_box s) (ew_eta W) (ew_kCut W) grid_init = Some g.
Hypothesis Hdist : distances_valid s.
Hypothesis Hdr : forall i n, (i < cnum s)%nat -> In n (a_nbs (cna s i)) -> nb_dr n <> vzero.
Hypothesis Heta : 0 < ew_eta W.
Hypothesis Hchi0 : forall i, (i < cnum s)%nat -> chi 0 i = chi_of s i.
Let N := cnum s.
Let m t := moved v t (chi t) s.
Let se := sqrt 2 * ew_eta W.
Lemma pm_zero : m 0 = s.
Proof. apply moved_zero; auto. Qed.
Lemma m_within t i rc : (i < N)%nat -> neighbors_within (cna (m t) i) rc = map (moved_neighbor v t i) (neighbors_within (cna s i) rc).
Proof. intros Hi. unfold m. rewrite moved_cna by auto. unfold neighbors_within, getStoredMinNumNeighbors, moved_atom; cbn [a_nbs a_cutoffs a_numN]. apply firstn_map. Qed.
Lemma m_valid t : neighbors_valid (m t).
Proof.
  intros i n Hi Hn. unfold m in *. rewrite moved_num in *. rewrite moved_cna in Hn by auto. cbn [a_nbs moved_atom] in Hn. apply in_map_iff in Hn. destruct Hn as (n0 & <- & Hn).
  destruct (Hnb i n0 Hi Hn) as (j & Hj & Et & Ee). exists j. split; auto. cbn [nb_tag nb_element moved_neighbor]. split; auto. now rewrite moved_cel.
Qed.
Lemma m_counts t : counts_valid (m t).
Proof.
  intros i Hi. unfold m in *. rewrite moved_num in *. rewrite moved_cna by auto. unfold getStoredMinNumNeighbors. cbn [a_nbs a_numN a_cutoffs moved_atom]. rewrite map_length. apply (Hct i Hi).
Qed.
(** Vectors of the code. *)
Definition realvec (i : nat) (n : neighbor) : vec :=
  let r := nb_d n in let gm := ep_gamma P (cel s i) (nb_element n) in
  vdiv (smul (2 / sqrt PI * (- exp (- ((r / se) * (r / se))) / se + exp (- ((r / gm) * (r / gm))) / gm) - 1 / r * (erfc (r / se) - erfc (r / gm)))
    (vdiv (nb_dr n) (r * r))) eps.
Definition recipvec (i j : nat) : vec :=
  vdiv (fold_left (fun u gv => vsub u (smul (2 * kv_coeff gv * sin (dot (kv_k gv) (vsub (cpos s i) (cpos s j)))) (kv_k gv))) grid vzero) eps.
Lemma recip_derive i j : (i < N)%nat -> (j < N)%nat -> is_derive (fun t => recip_val P (m t) grid i j) 0 (dot (recipvec i j) (vsub (v i) (v j))).
Proof.
  intros Hi Hj. set (x := vsub (cpos s i) (cpos s j)). set (w := vsub (v i) (v j)).
  apply (is_derive_ext (fun t => rsum (map (fun gv => 2 * kv_coeff gv / eps * cos (dot (kv_k gv) (line x w t))) grid))).
  { intros t. unfold recip_val, m. rewrite moved_diff by auto. apply rsum_ext. intros gv _. simpl ep_eps. unfold x, w, Rdiv. ring. }
  eapply is_derive_eq.
  - apply (is_derive_rsum (fun gv t => 2 * kv_coeff gv / eps * cos (dot (kv_k gv) (line x w t)))
      (fun gv => dot (smul (- (2 * kv_coeff gv / eps * sin (dot (kv_k gv) x))) (kv_k gv)) w)). intros gv _. apply cos_pair.
  - unfold recipvec. fold x. rewrite dot_vdiv.
    assert (F : forall l u, dot (fold_left (fun u gv => vsub u (smul (2 * kv_coeff gv * sin (dot (kv_k gv) x)) (kv_k gv))) l u) w =
       dot u w + eps * rsum (map (fun gv => dot (smul (- (2 * kv_coeff gv / eps * sin (dot (kv_k gv) x))) (kv_k gv)) w) l)).
    { induction l as [|gv l IH]; intros u; cbn [fold_left map rsum]; [ring|]. rewrite IH, dot_vsub_l, !dot_smul_l. field. lra. }
    rewrite F, dot_vzero_l. field. lra.
Qed.
Lemma real_derive i n : (i < N)%nat -> In n (a_nbs (cna s i)) ->
  is_derive (fun t => real_val P (m t) W i (moved_neighbor v t i n)) 0 (dot (realvec i n) (vsub (v i) (v (Z.to_nat (nb_tag n))))).
Proof.
  intros Hi Hn. set (w := vsub (v i) (v (Z.to_nat (nb_tag n)))). set (gm := ep_gamma P (cel s i) (nb_element n)).
  assert (Hgm : 0 < gm). { unfold gm. simpl. apply sqrt_lt_R0. pose proof (Hsig (cel s i)). pose proof (Hsig (nb_element n)). nra. }
  assert (Hse : 0 < se). { unfold se. apply Rmult_lt_0_compat; auto. apply sqrt_lt_R0. lra. }
  assert (E := ewald_pair (nb_dr n) w gm se eps (Hdr i n Hi Hn) Hgm Hse Heps). cbv zeta in E. rewrite <- (Hdist i n Hi Hn) in E.
  refine (is_derive_ext _ _ _ _ _ (is_derive_eq _ _ _ _ E _)).
  - intros t. unfold real_val, m. rewrite moved_cel by auto. reflexivity.
  - reflexivity.
Qed.
Definition per_rate a b : R :=
  rsum (map (fun n => dot (realvec a n) (vsub (v a) (v b))) (images_of b (neighbors_within (cna s a) (ew_rCut W)))) + dot (recipvec a b) (vsub (v a) (v b)).
Definition per_dU i j : R := per_rate (Nat.min i j) (Nat.max i j).
Lemma perU_derive i j : (i < N)%nat -> (j < N)%nat -> is_derive (fun t => perU (m t) i j) 0 (per_dU i j).
Proof.
  intros Hi Hj. unfold per_dU. set (a := Nat.min i j). set (b := Nat.max i j). assert (Ha : (a < N)%nat) by lia. assert (Hb : (b < N)%nat) by lia.
  apply (is_derive_ext (fun t => ((if Nat.eqb a b then diag_val P s W a else 0) - (if Nat.eqb i j then J_of hardness s i else 0))
     + (rsum (map (fun n => real_val P (m t) W a (moved_neighbor v t a n)) (images_of b (neighbors_within (cna s a) (ew_rCut W)))) + recip_val P (m t) grid a b))).
  { intros t. unfold perU. fold a b. unfold per_val. rewrite m_within by auto. rewrite images_map, map_map.
    replace (J_of hardness (m t) i) with (J_of hardness s i) by (unfold J_of, m; now rewrite moved_cel).
    replace (diag_val P (m t) W a) with (diag_val P s W a) by (unfold diag_val, m; now rewrite moved_cel). match goal with |- ?x = ?y => change (@eq R x y) end. ring. }
  eapply is_derive_eq.
  - apply (is_derive_plus (fun _ => (if Nat.eqb a b then diag_val P s W a else 0) - (if Nat.eqb i j then J_of hardness s i else 0))
      (fun t => rsum (map (fun n => real_val P (m t) W a (moved_neighbor v t a n)) (images_of b (neighbors_within (cna s a) (ew_rCut W)))) + recip_val P (m t) grid a b)).
    + apply is_derive_const'.
    + apply (is_derive_plus (fun t => rsum (map (fun n => real_val P (m t) W a (moved_neighbor v t a n)) (images_of b (neighbors_within (cna s a) (ew_rCut W))))) (fun t => recip_val P (m t) grid a b)).
      * apply (is_derive_rsum (fun n t => real_val P (m t) W a (moved_neighbor v t a n)) (fun n => dot (realvec a n) (vsub (v a) (v b)))).
        intros n Hn. apply images_in in Hn. destruct Hn as [Hn Et]. apply neighbors_within_in in Hn.
        eapply is_derive_eq. apply (real_derive a n Ha Hn). now rewrite Et, Nat2Z.id.
      * now apply recip_derive.
  - unfold plus; simpl. unfold per_rate. ring.
Qed.
Lemma per_dU_sym i j : per_dU i j = per_dU j i.
Proof. unfold per_dU. now rewrite Nat.min_comm, Nat.max_comm. Qed.
Lemma vsub_same x : vsub x x = vzero.
Proof. vring. Qed.
Lemma dot_vzero_r x : dot x vzero = 0.
Proof. unfold dot, vzero; simpl. ring. Qed.
Lemma per_dU_diag i : per_dU i i = 0.
Proof.
  unfold per_dU, per_rate. rewrite Nat.min_id, Nat.max_id, vsub_same, dot_vzero_r. rewrite rsum_zero; [ring|]. intros; apply dot_vzero_r.
Qed.
Lemma perU_sym t i j : (i < N)%nat -> (j < N)%nat -> perU (m t) i j = perU (m t) j i.
Proof.
  intros _ _. unfold perU. rewrite (Nat.min_comm j i), (Nat.max_comm j i). destruct (Nat.eqb_spec i j), (Nat.eqb_spec j i); subst; auto; congruence.
Qed.
(** ** dAdrQ *)
Variables (k : core_kind) (ia ib : R).
Hypothesis Hfs : screening_config k ia ib = Some fs.
Hypothesis Hord : sorted_by_distance s.
Hypothesis Hcomp : complete_within s (sc_outer fs).
Section Charges.
Variable Q : nat -> R.
Definition psi (z : nat -> R) (D : vmatrix) : R := sumn N (fun b => z b * rowrate N v D b).
Lemma psi_pair z i j dA D : (i < N)%nat -> (j < N)%nat -> i <> j ->
  psi z (add_pair Q i j dA D) = psi z D + dot dA (vsub (v i) (v j)) * (z i * Q j + z j * Q i).
Proof.
  intros Hi Hj Hne. unfold psi.
  rewrite (sumn_ext N _ (fun b => z b * rowrate N v D b + (ind (Nat.eqb b i) (z i * (dot dA (vsub (v i) (v j)) * Q j)) + ind (Nat.eqb b j) (z j * (dot dA (vsub (v i) (v j)) * Q i))))).
  - rewrite !sumn_plus. rewrite (sumn_single N (fun b => ind (Nat.eqb b i) _) i Hi), (sumn_single N (fun b => ind (Nat.eqb b j) _) j Hj), !Nat.eqb_refl.
    + unfold ind. ring.
    + intros b Hb Hnb'. destruct (Nat.eqb_spec b j); [congruence|reflexivity].
    + intros b Hb Hnb'. destruct (Nat.eqb_spec b i); [congruence|reflexivity].
  - intros b Hb. rewrite add_pair_rate by auto. destruct (Nat.eqb_spec b i), (Nat.eqb_spec b j); subst; unfold ind; ring.
Qed.
Definition nb_gain (z : nat -> R) (i : nat) (n : neighbor) : R :=
  let j := Z.to_nat (nb_tag n) in
  if Nat.ltb i j then dot (realvec i n) (vsub (v i) (v j)) * (z i * Q j + z j * Q i) else 0.
Lemma real_loop z i c D buf : (i < N)%nat -> (c <= length (a_nbs (cna s i)))%nat -> buf_fits (numNs s) (garg P s W) buf ->
  exists D' buf', ofold (dAdrQ_real P s Q W i) (seq 0 c) (D, buf) = Some (D', buf') /\ buf_fits (numNs s) (garg P s W) buf' /\
    psi z D' = psi z D + rsum (map (nb_gain z i) (firstn c (a_nbs (cna s i)))).
Proof.
  intros Hi Hc Hb.
  destruct (ofold_seq_inv (fun c0 (st : vmatrix * erfcbuf) => buf_fits (numNs s) (garg P s W) (snd st) /\
     psi z (fst st) = psi z D + rsum (map (nb_gain z i) (firstn c0 (a_nbs (cna s i))))) (dAdrQ_real P s Q W i) c (D, buf)) as ((D' & buf') & E & H1 & H2).
  - split; auto. cbn [fst firstn map rsum]. ring.
  - intros c0 (D0 & b0) Hc0 [Hb0 HD0]. cbn [fst snd] in *. unfold dAdrQ_real.
    destruct (nth_error (a_nbs (cna s i)) c0) as [n|] eqn:En. 2:{ apply nth_error_None in En. lia. }
    destruct (Hnb i n Hi (nth_error_In _ _ En)) as (j & Hj & Et & Ee). rewrite (tag_index_ok s n j Hj Et).
    rewrite (firstn_snoc _ _ _ En), map_app, rsum_app. cbn [map rsum].
    assert (G : nb_gain z i n = if Nat.ltb i j then dot (realvec i n) (vsub (v i) (v j)) * (z i * Q j + z j * Q i) else 0) by (unfold nb_gain; now rewrite Et, Nat2Z.id).
    rewrite G. destruct (Nat.leb_spec j i).
    + destruct (Nat.ltb_spec i j); [lia|]. eexists. split; [reflexivity|]. cbn [fst snd]. split; auto. rewrite HD0. ring.
    + destruct (Nat.ltb_spec i j); [|lia].
      assert (G0 : garg P s W i c0 0 = nb_d n / se) by (unfold garg; now rewrite En).
      assert (G1 : garg P s W i c0 1 = nb_d n / ep_gamma P (cel s i) (cel s j)) by (unfold garg; rewrite En, Ee; auto).
      destruct (buf_fits_get _ _ b0 i c0 0 (length (a_nbs (cna s i))) Hb0 (numNs_nth s Hct i Hi)) as (b1 & E1 & F1); [lia|lia|].
      destruct (buf_fits_get _ _ b1 i c0 1 (length (a_nbs (cna s i))) F1 (numNs_nth s Hct i Hi)) as (b2 & E2 & F2); [lia|lia|].
      rewrite G0 in E1. rewrite G1 in E2. fold se. rewrite E1, E2. eexists. split; [reflexivity|]. cbn [fst snd]. split; auto.
      rewrite psi_pair by lia. rewrite HD0. unfold realvec. cbv zeta. rewrite Ee. simpl ep_eps. ring.
  - exists D', buf'. auto.
Qed.
Lemma periodic_dAdrQ_rate buf : buf_fits (numNs s) (garg P s W) buf ->
  exists D buf', calculateDAdrQ_periodic P s Q W grid (fun _ _ => vzero) buf = Some (D, buf') /\
    forall b, (b < N)%nat -> rowrate N v D b = sumn N (fun k => per_dU b k * Q k).
Proof.
  intros Hb.
  assert (L : exists D buf', calculateDAdrQ_periodic P s Q W grid (fun _ _ => vzero) buf = Some (D, buf') /\
     forall z, psi z D = sumn N (fun i => rsum (map (nb_gain z i) (neighbors_within (cna s i) (ew_rCut W)))
       + sumn N (fun j => if Nat.ltb i j then dot (recipvec i j) (vsub (v i) (v j)) * (z i * Q j + z j * Q i) else 0))).
  { unfold calculateDAdrQ_periodic. fold N.
    match goal with |- context [ofold ?f (seq 0 N) ?st0] =>
      destruct (ofold_seq_inv (fun i0 (st : vmatrix * erfcbuf) => buf_fits (numNs s) (garg P s W) (snd st) /\
       forall z, psi z (fst st) = sumn i0 (fun i => rsum (map (nb_gain z i) (neighbors_within (cna s i) (ew_rCut W)))
       + sumn N (fun j => if Nat.ltb i j then dot (recipvec i j) (vsub (v i) (v j)) * (z i * Q j + z j * Q i) else 0))) f N st0) as ((D' & buf') & E & H1 & H2) end.
    - split; auto. intros z. cbn [fst]. rewrite sumn_0. apply sumn_zero. intros b Hb'. unfold rowrate. rewrite sumn_zero; [ring|]. intros; apply dot_vzero_l.
    - intros i (D0 & b0) Hi [Hb0 HD0]. cbn [fst snd] in *.
      destruct (real_loop (fun _ => 0) i (getStoredMinNumNeighbors (cna s i) (ew_rCut W)) D0 b0 Hi (proj2 (Hct i Hi) _) Hb0) as (D1 & b1 & E1 & F1 & _).
      rewrite E1. eexists. split; [reflexivity|]. cbn [fst snd]. split; auto. intros z.
      destruct (real_loop z i (getStoredMinNumNeighbors (cna s i) (ew_rCut W)) D0 b0 Hi (proj2 (Hct i Hi) _) Hb0) as (D1' & b1' & E1' & _ & P1).
      rewrite E1 in E1'. injection E1' as <- <-. rewrite sumn_S, <- HD0.
      rewrite (range_gain N (psi z) i (dAdrQ_reciprocal P s Q grid i) (fun j => dot (recipvec i j) (vsub (v i) (v j)) * (z i * Q j + z j * Q i))); auto.
      + rewrite P1. fold (neighbors_within (cna s i) (ew_rCut W)). ring.
      + intros j D' Hj. unfold dAdrQ_reciprocal. cbv zeta. rewrite psi_pair by lia. reflexivity.
    - exists D', buf'. split; auto. }
  destruct L as (D & buf' & E & HD). exists D, buf'. split; auto.
  intros b Hb'. assert (H := HD (fun x => ind (Nat.eqb x b) 1)).
  assert (L1 : psi (fun x => ind (Nat.eqb x b) 1) D = rowrate N v D b).
  { unfold psi. rewrite (sumn_single N _ b Hb'). rewrite Nat.eqb_refl; unfold ind; ring. intros i Hi Hne. destruct (Nat.eqb_spec i b); [congruence|]. unfold ind; ring. }
  rewrite L1 in H. rewrite H.
  assert (L2 : sumn N (fun x => ind (Nat.eqb x b) 1 * sumn N (fun k => per_dU x k * Q k)) = sumn N (fun k => per_dU b k * Q k)).
  { rewrite (sumn_single N _ b Hb'). rewrite Nat.eqb_refl; unfold ind; ring. intros i Hi Hne. destruct (Nat.eqb_spec i b); [congruence|]. unfold ind; ring. }
  rewrite <- L2. unfold N. rewrite (pair_sum s) by (intros; auto using per_dU_sym, per_dU_diag).
  apply sumn_ext. intros i Hi.
  set (z := fun x => ind (Nat.eqb x b) 1).
  transitivity (sumn N (fun j => rsum (map (fun n => if Nat.ltb i j then dot (realvec i n) (vsub (v i) (v j)) * (z i * Q j + z j * Q i) else 0) (images_of j (neighbors_within (cna s i) (ew_rCut W))))
      + (if Nat.ltb i j then dot (recipvec i j) (vsub (v i) (v j)) * (z i * Q j + z j * Q i) else 0))).
  - rewrite sumn_plus. f_equal. symmetry.
    apply (regroup N (neighbors_within (cna s i) (ew_rCut W)) (fun j n => if Nat.ltb i j then dot (realvec i n) (vsub (v i) (v j)) * (z i * Q j + z j * Q i) else 0)).
    intros n Hn. apply neighbors_within_in in Hn. destruct (Hnb i n Hi Hn) as (j & Hj & Et & _). eauto.
  - apply sumn_ext. intros j Hj. destruct (Nat.ltb_spec i j).
    + unfold per_dU. rewrite Nat.min_l, Nat.max_r by lia. unfold per_rate. rewrite (rsum_ext _ (fun n => (z i * Q j + z j * Q i) * dot (realvec i n) (vsub (v i) (v j)))) by (intros; ring). rewrite rsum_scal.
      unfold z. ring.
    + rewrite rsum_zero; auto. ring.
Qed.

(** ** Screening *)
Definition per_c (i : nat) (n : neighbor) (t : R) : R :=
  let d := nb_d (moved_neighbor v t i n) in gaussian_coulomb (sigma (cel s i)) (sigma (nb_element n)) eps d * (sc_f fs d - 1).
Definition nvec (i : nat) (n : neighbor) : vec := cvec P Q i (Z.to_nat (nb_tag n)) (cel s i) (nb_element n) (nb_dr n) (nb_d n).
Lemma per_c_derive i n : (i < N)%nat -> In n (a_nbs (cna s i)) -> exists c', is_derive (per_c i n) 0 c' /\
  Q i * Q (Z.to_nat (nb_tag n)) * c' = dot (nvec i n) (vsub (v i) (v (Z.to_nat (nb_tag n)))).
Proof.
  intros Hi Hn. set (j := Z.to_nat (nb_tag n)). set (w := vsub (v i) (v j)).
  destruct (screened_pair (nb_dr n) w (sigma (cel s i)) (sigma (nb_element n)) eps k ia ib fs (Q i * Q j) Hfs (Hdr i n Hi Hn) (Hsig _) (Hsig _) Heps) as (c' & H1 & H2).
  exists c'. split.
  - refine (is_derive_ext _ _ _ _ _ H1). intros t. reflexivity.
  - rewrite H2. unfold nvec, cvec. cbv zeta. rewrite (Hdist i n Hi Hn). reflexivity.
Qed.
Definition per_d (i : nat) (n : neighbor) : R := Derive (per_c i n) 0.
Lemma per_d_spec i n : (i < N)%nat -> In n (a_nbs (cna s i)) -> is_derive (per_c i n) 0 (per_d i n) /\
  Q i * Q (Z.to_nat (nb_tag n)) * per_d i n = dot (nvec i n) (vsub (v i) (v (Z.to_nat (nb_tag n)))).
Proof.
  intros Hi Hn. destruct (per_c_derive i n Hi Hn) as (c' & H1 & H2).
  assert (E : per_d i n = c') by (apply is_derive_unique; auto). rewrite E. auto.
Qed.
Definition later (i : nat) (n : neighbor) : bool := negb (Z.ltb (nb_tag n) (Z.of_nat i)).
Definition per_corr (i : nat) (n : neighbor) : corr := mkCorr (Z.to_nat (nb_tag n)) (per_c i n) (per_d i n).
Definition per_cs (i : nat) : list corr := map (per_corr i) (filter (later i) (neighbors_within (cna s i) (sc_outer fs))).
Lemma per_c_zero i n : (i < N)%nat -> In n (a_nbs (cna s i)) -> per_c i n 0 = gaussian_coulomb (sigma (cel s i)) (sigma (nb_element n)) eps (nb_d n) * (sc_f fs (nb_d n) - 1).
Proof.
  intros Hi Hn. unfold per_c. cbn [nb_d moved_neighbor].
  replace (vadd (nb_dr n) (smul 0 (vsub (v i) (v (Z.to_nat (nb_tag n)))))) with (nb_dr n) by vring. now rewrite <- (Hdist i n Hi Hn).
Qed.
Definition gain1 (y : nat -> R) (i : nat) (n : neighbor) : R :=
  let j := Z.to_nat (nb_tag n) in Q i * Q j * per_d i n + (y i * Q j + Q i * y j) * per_c i n 0.
Lemma gain1_value y i n : (i < N)%nat -> In n (a_nbs (cna s i)) -> gain1 y i n = 
  dot (nvec i n) (vsub (v i) (v (Z.to_nat (nb_tag n)))) + (Q (Z.to_nat (nb_tag n)) * y i + Q i * y (Z.to_nat (nb_tag n))) *
   (erf (nb_d n / ep_gamma P (cel s i) (nb_element n)) * (sc_f (ep_fs P) (nb_d n) - 1) / nb_d n / ep_eps P).
Proof.
  intros Hi Hn. unfold gain1. cbv zeta. rewrite (proj2 (per_d_spec i n Hi Hn)), (per_c_zero i n Hi Hn). unfold gaussian_coulomb. simpl ep_gamma. simpl ep_fs. simpl ep_eps.
  unfold Rdiv. rewrite Rinv_mult. ring.
Qed.
Lemma gain1_far y i n : (i < N)%nat -> In n (a_nbs (cna s i)) -> sc_outer fs <= nb_d n -> gain1 y i n = 0.
Proof.
  intros Hi Hn Hd. rewrite gain1_value by auto.
  assert (F1 : sc_f fs (nb_d n) = 1). { unfold sc_f. destruct (Rge_dec _ _); [auto|lra]. }
  assert (F2 : sc_df fs (nb_d n) = 0). { unfold sc_df. destruct (Rge_dec _ _); [auto|lra]. }
  unfold nvec, cvec. cbv zeta. simpl ep_fs. rewrite F1, F2, dot_vdiv, dot_smul_l. unfold Rdiv. ring.
Qed.
Lemma neighbors_gain y i l st st' : (i < N)%nat -> (forall n, In n l -> In n (a_nbs (cna s i))) -> StronglySorted (fun m n => nb_d m <= nb_d n) l ->
  derivatives_neighbors P s Q i l st = Some st' -> phi N v y st' = phi N v y st + rsum (map (gain1 y i) (filter (later i) l)).
Proof.
  intros Hi. revert st. induction l as [|n l IH]; intros st Hl Hs E.
  - cbn [derivatives_neighbors] in E. injection E as <-. simpl. ring.
  - cbn [derivatives_neighbors] in E. pose proof (Hl n (or_introl eq_refl)) as Hn. destruct (Hnb i n Hi Hn) as (j & Hj & Et & Ee).
    rewrite (tag_index_ok s n j Hj Et) in E. inversion Hs as [|? ? Hs' Hfa]; subst.
    assert (LT : later i n = negb (Nat.ltb j i)).
    { unfold later. rewrite Et. destruct (Nat.ltb_spec j i), (Z.ltb_spec (Z.of_nat j) (Z.of_nat i)); auto; lia. }
    cbn [filter]. rewrite LT. destruct (Nat.ltb_spec j i); cbn [negb].
    + apply IH; auto. intros; apply Hl; now right.
    + destruct (Rge_dec (nb_d n) (sc_outer (ep_fs P))) as [Hge|Hlt].
      * injection E as <-. cbn [map rsum]. simpl ep_fs in Hge. rewrite (gain1_far y i n Hi Hn) by lra. rewrite rsum_zero; [ring|].
        intros m' Hm. apply filter_In in Hm. destruct Hm as [Hm _]. apply gain1_far; auto. { apply Hl; now right. }
        rewrite List.Forall_forall in Hfa. specialize (Hfa m' Hm). lra.
      * cbn [map rsum]. rewrite (IH _ (fun x Hx => Hl x (or_intror Hx)) Hs' E). rewrite correction_gain by auto.
        rewrite (gain1_value y i n Hi Hn). unfold nvec. rewrite Et, Nat2Z.id, <- Ee. ring.
Qed.
Lemma atom_gain y i st st' : (i < N)%nat -> derivatives_neighbors P s Q i (a_nbs (cna s i)) st = Some st' ->
  phi N v y st' = phi N v y st + rsum (map (fun x => Q i * Q (co_j x) * co_d x + (y i * Q (co_j x) + Q i * y (co_j x)) * co_c x 0) (per_cs i)).
Proof.
  intros Hi E. rewrite (neighbors_gain y i _ st st' Hi (fun n H => H) (Hord i Hi) E). f_equal.
  unfold per_cs. rewrite map_map. cbn [co_j co_c co_d per_corr].
  change (fun x => Q i * Q (Z.to_nat (nb_tag x)) * per_d i x + (y i * Q (Z.to_nat (nb_tag x)) + Q i * y (Z.to_nat (nb_tag x))) * per_c i x 0) with (gain1 y i).
  unfold neighbors_within. rewrite <- (firstn_skipn (getStoredMinNumNeighbors (cna s i) (sc_outer fs)) (a_nbs (cna s i))) at 1.
  rewrite filter_app, map_app, rsum_app. rewrite (rsum_zero (gain1 y i) (filter (later i) (skipn _ _))); [ring|].
  intros n Hn. apply filter_In in Hn. destruct Hn as [Hn _]. apply gain1_far; auto.
  - rewrite <- (firstn_skipn (getStoredMinNumNeighbors (cna s i) (sc_outer fs)) (a_nbs (cna s i))). apply in_or_app. now right.
  - apply (Hcomp i n Hi Hn).
Qed.
End Charges.

Lemma per_energy t : electrostatic_energy solve fuel W P (m t) =
  energy N (fun t => perU (m t)) (fun i => 1 / (sqrt PI * sigma (cel s i) * eps)) per_cs t (charges solve fuel W P (m t)).
Proof.
  unfold electrostatic_energy, charges. destruct (periodic_run (m t) Hper Hsrt (m_valid t) (m_counts t) Hg) as (_ & r & E & _ & EQ & _ & _ & Ee).
  rewrite E, Ee. rewrite <- EQ. unfold energy. unfold m. rewrite moved_num. fold N. fold (m t). f_equal; [f_equal|].
  - apply sumn_ext. intros i Hi. unfold m. now rewrite !moved_cel.
  - apply sumn_ext. intros i Hi. rewrite m_within by auto. unfold per_cs. rewrite !map_map, rsum_filter. apply rsum_ext. intros n Hn. apply neighbors_within_in in Hn.
    unfold coded_weight, later, pair_corr, per_corr, per_c. cbn [nb_tag nb_element moved_neighbor co_j co_c]. unfold m at 1. rewrite moved_cel by auto.
    destruct (Z.ltb (nb_tag n) (Z.of_nat i)); cbn [negb]; [ring|]. cbn [nb_d]. ring.
Qed.
Lemma per_charges t : charges solve fuel W P (m t) =
  solve (N + 1)%nat (border N (per_matrix (m t))) (fun i => if Nat.eqb i N then cs_chargeRef s else - c_chi (cat (m t) i)).
Proof.
  unfold charges. destruct (periodic_run (m t) Hper Hsrt (m_valid t) (m_counts t) Hg) as (HA & r & E & EA & EQ & _).
  rewrite E, EQ. assert (EN : cnum (m t) = N) by (unfold m; apply moved_num). now rewrite EN.
Qed.
Lemma per_matrix_entry t i j : (i < N)%nat -> (j < N)%nat -> per_matrix (m t) i j = (if Nat.eqb i j then J_of hardness s i else 0) + perU (m t) i j.
Proof.
  intros Hi Hj. destruct (periodic_run (m t) Hper Hsrt (m_valid t) (m_counts t) Hg) as (HA & _).
  rewrite HA by (unfold m; now rewrite moved_num). f_equal. unfold J_of, m. now rewrite moved_cel.
Qed.
Lemma per_diag i : (i < N)%nat -> perU s i i = own_term P s (per_matrix s) i + 1 / (sqrt PI * sigma (cel s i) * eps).
Proof.
  intros Hi. destruct (periodic_run s Hper Hsrt Hnb Hct Hg) as (HA & _). unfold own_term. rewrite Hper, HA, Nat.eqb_refl by auto.
  simpl ep_hardness. simpl ep_sigma. simpl ep_eps. unfold J_of. replace (1 / (sqrt PI * sigma (cel s i) * eps)) with (1 / (sigma (cel s i) * sqrt PI * eps)); [ring|].
  f_equal. ring.
Qed.
Theorem periodic_forces r D pE dQ dChi Es fshort dEs : exact_solver solve ->
  chargeEquilibration solve fuel W P s = Some (r, D, (pE, dQ)) -> nonsingular (N + 1) (er_A r) ->
  (forall j, (j < N)%nat -> is_derive (fun t => chi t j) 0 (sumn N (fun a => dot (dChi j a) (v a)))) ->
  differentiable_energy N Es (er_Q r) (- power N fshort v) dEs ->
  let F := forces4G N (calculateForceLambdaTotal solve s (er_A r) dQ dEs) (calculateForceLambdaElec solve s (er_A r) dQ) pE D dChi fshort in
  is_derive (fun t => electrostatic_energy solve fuel W P (m t) + Es t (charges solve fuel W P (m t))) 0 (- power N (fun i => fst (F i)) v) /\
  is_derive (fun t => electrostatic_energy solve fuel W P (m t)) 0 (- power N (fun i => snd (F i)) v).
Proof.
  intros Hsol Hce Hns Hchi HEs F.
  unfold chargeEquilibration in Hce. destruct (periodic_run s Hper Hsrt Hnb Hct Hg) as (HA & r' & E & EA & EQ & Eg & Hb & _). rewrite E in Hce.
  unfold calculateDAdrQ in Hce. rewrite Hper, Eg in Hce.
  destruct (periodic_dAdrQ_rate (er_Q r') (er_buf r') Hb) as (D' & b' & ED & HDr). rewrite ED in Hce.
  destruct (calculateElectrostaticEnergyDerivatives P s (er_Q r') (er_A r') D') as [d|] eqn:Ed; [|discriminate].
  injection Hce as <- <- ->. fold N in EA, EQ.
  assert (Q0 : er_Q r' = charges solve fuel W P (m 0)). { rewrite pm_zero. unfold charges. now rewrite E. }
  assert (Q0' := per_charges 0). rewrite <- Q0 in Q0'.
  assert (M := forces_core N solve (fun t => per_matrix (m t)) (fun t => perU (m t)) per_dU (J_of hardness s) (fun i => 1 / (sqrt PI * sigma (cel s i) * eps)) per_cs
     (fun t i => c_chi (cat (m t) i)) dChi (cs_chargeRef s) v D' pE dQ Hsol).
  cbv beta in M. rewrite <- Q0', pm_zero in M.
  destruct (M ltac:(now rewrite EA in Hns)) with (Es := Es) (fshort := fshort) (dEs := dEs) as [M1 M2]; clear M; auto.
  - intros; now apply per_matrix_entry.
  - intros; now apply perU_derive.
  - intros i j Hi Hj. rewrite <- pm_zero. now apply perU_sym.
  - intros i x Hi Hx. unfold per_cs in Hx. apply in_map_iff in Hx. destruct Hx as (n & <- & Hn). apply filter_In in Hn. destruct Hn as [Hn _]. apply neighbors_within_in in Hn.
    destruct (Hnb i n Hi Hn) as (j & Hj & Et & _). cbn [co_j co_c co_d per_corr]. split; [rewrite Et, Nat2Z.id; auto|]. apply (per_d_spec (fun _ => 0) i n Hi Hn).
  - intros j Hj. apply (is_derive_ext (fun t => chi t j)); auto. intros t. unfold m. now rewrite moved_chi.
  - intros y. rewrite (derivatives_total N v y P s (er_Q r') (er_A r') D' eq_refl
       (fun i => rsum (map (fun x => er_Q r' i * er_Q r' (co_j x) * co_d x + (y i * er_Q r' (co_j x) + er_Q r' i * y (co_j x)) * co_c x 0) (per_cs i))) pE dQ).
    3: exact Ed.
    2:{ intros i st st' Hi. rewrite Hper. intros Hst. now apply atom_gain. }
    rewrite !sumn_plus. apply f_equal2; [apply f_equal2|auto].
    + rewrite sumn_swap. apply sumn_ext. intros j Hj. rewrite sumn_scal. fold (rowrate N v D' j). rewrite HDr by auto. ring.
    + apply sumn_ext. intros i Hi. apply Rmult_eq_compat_l. symmetry.
      set (c := 1 / (sqrt PI * sigma (cel s i) * eps)).
      assert (SI : c * er_Q r' i = sumn N (fun j => if Nat.eqb i j then c * er_Q r' i else 0)).
      { rewrite (sumn_single N _ i Hi); [now rewrite Nat.eqb_refl|]. intros j Hj Hne. destruct (Nat.eqb_spec i j); [congruence|auto]. }
      rewrite SI, <- sumn_minus. apply sumn_ext. intros j Hj.
      assert (BA : forall a b, (a < N)%nat -> (b < N)%nat -> er_A r' a b = per_matrix s a b).
      { intros a b Ha Hb'. rewrite EA. unfold border. destruct (Nat.eqb_spec a N), (Nat.eqb_spec b N); try lia. auto. }
      destruct (Nat.eqb_spec i j) as [Eij|Hne].
      * rewrite <- Eij. rewrite per_diag by auto. fold c. replace (own_term P s (er_A r') i) with (own_term P s (per_matrix s) i); [ring|].
        unfold own_term. now rewrite BA.
      * rewrite BA, HA by auto. destruct (Nat.eqb_spec i j); [congruence|]. ring.
  - split.
    + refine (is_derive_ext _ _ _ _ _ (is_derive_eq _ _ _ _ M1 _)).
      * intros t. cbv beta. rewrite <- per_charges, <- per_energy. reflexivity.
      * unfold F, calculateForceLambdaTotal, calculateForceLambdaElec. rewrite EA. reflexivity.
    + refine (is_derive_ext _ _ _ _ _ (is_derive_eq _ _ _ _ M2 _)).
      * intros t. cbv beta. rewrite <- per_charges, <- per_energy. reflexivity.
      * unfold F, calculateForceLambdaTotal, calculateForceLambdaElec. rewrite EA. reflexivity.
Qed.
End Periodic.
