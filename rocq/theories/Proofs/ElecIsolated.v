(** Charges and forces of isolated structures along a path. *)
From Coq Require Import Reals ZArith List Bool Arith Lia Lra FunctionalExtensionality.
From Coquelicot Require Import Coquelicot.
From Coq Require Import List.
From Verif Require Import Base.Vec3 Base.Loop Base.SumR Base.Erf Base.Linear Model.CoreFunction Model.CompactScreening Model.Geometry Model.NeighborList
  Model.Kspace Model.SymFunctions Model.Electrostatics Spec.CompactSpec Spec.ElecSpec Proofs.CompactProofs Proofs.SymTerms Proofs.NeighborProofs Proofs.ElecCore Proofs.ElecFill
  Proofs.ElecQeq Proofs.ElecLoops Proofs.ElecDerive Proofs.ElecForces Proofs.SetupProofs.
Import ListNotations.
Local Open Scope R_scope.

(** ** Moved structures *)
Lemma moved_num v t chi s : cnum (moved v t chi s) = cnum s.
Proof. unfold cnum, moved; cbn [cs_atoms]. apply mapi_length. Qed.
Lemma moved_cat v t chi s i : (i < cnum s)%nat -> cat (moved v t chi s) i = mkCAtom (moved_atom v t i (cna s i)) (chi i).
Proof.
  intros Hi. unfold cat, cna, cat, moved; cbn [cs_atoms]. unfold cnum in Hi.
  erewrite nth_error_nth; [reflexivity|]. rewrite nth_error_mapi.
  rewrite (nth_error_nth' _ no_catom Hi). reflexivity.
Qed.
Lemma moved_cna v t chi s i : (i < cnum s)%nat -> cna (moved v t chi s) i = moved_atom v t i (cna s i).
Proof. intros Hi. unfold cna at 1. now rewrite moved_cat. Qed.
Lemma moved_cel v t chi s i : (i < cnum s)%nat -> cel (moved v t chi s) i = cel s i.
Proof. intros Hi. unfold cel. now rewrite moved_cna. Qed.
Lemma moved_cpos v t chi s i : (i < cnum s)%nat -> cpos (moved v t chi s) i = vadd (cpos s i) (smul t (v i)).
Proof. intros Hi. unfold cpos. now rewrite moved_cna. Qed.
Lemma moved_chi v t chi s i : (i < cnum s)%nat -> c_chi (cat (moved v t chi s) i) = chi i.
Proof. intros Hi. now rewrite moved_cat. Qed.
Lemma moved_diff v t chi s i j : (i < cnum s)%nat -> (j < cnum s)%nat ->
  vsub (cpos (moved v t chi s) i) (cpos (moved v t chi s) j) = line (vsub (cpos s i) (cpos s j)) (vsub (v i) (v j)) t.
Proof. intros Hi Hj. rewrite !moved_cpos by auto. unfold line. vring. Qed.
Lemma moved_distance v t chi s i j : (i < cnum s)%nat -> (j < cnum s)%nat ->
  distance (moved v t chi s) i j = norm (line (vsub (cpos s i) (cpos s j)) (vsub (v i) (v j)) t).
Proof. intros Hi Hj. unfold distance. now rewrite moved_diff. Qed.
Lemma moved_zero v chi s : distances_valid s -> (forall i, (i < cnum s)%nat -> chi i = chi_of s i) -> moved v 0 chi s = s.
Proof.
  intros Hd Hc. destruct s as [p b st l q]. unfold moved; cbn [cs_periodic cs_box cs_sorted cs_atoms cs_chargeRef]. f_equal.
  apply SetupProofs.list_nth_ext. intros i. rewrite nth_error_mapi. destruct (nth_error l i) as [a|] eqn:E; auto. f_equal.
  assert (Hi : (i < cnum (mkCStruct p b st l q))%nat) by (apply nth_error_Some; unfold cnum in *; cbn [cs_atoms]; congruence).
  assert (Ea : cat (mkCStruct p b st l q) i = a). { unfold cat; cbn [cs_atoms]. now apply nth_error_nth. }
  specialize (Hc i Hi). unfold chi_of in Hc. rewrite Ea in Hc. rewrite Hc. destruct a as [a x]. cbn [c_chi c_atom] in *. f_equal.
  assert (Hn : forall n, In n (a_nbs a) -> nb_d n = norm (nb_dr n)). { intros n Hn. apply (Hd i n Hi). unfold cna. now rewrite Ea. }
  unfold moved_atom. destruct a as [el r h so nN nU pe un nbs cut]; cbn [a_element a_r a_hasNL a_sorted a_numN a_numU a_perEl a_unique a_nbs a_cutoffs] in *. f_equal.
  - vring.
  - rewrite <- (map_id nbs) at 2. apply map_ext_in. intros n Hin. specialize (Hn n Hin). unfold moved_neighbor.
    replace (vadd (nb_dr n) (smul 0 (vsub (v i) (v (Z.to_nat (nb_tag n)))))) with (nb_dr n) by vring.
    rewrite <- Hn. destruct n; reflexivity.
Qed.

(** ** Isolated structures *)
Section Isolated.
Variables (hardness sigma : nat -> R) (fs : screening_function) (eps : R).
Let P := element_parameters hardness sigma fs eps.
Hypothesis Heps : 0 < eps.
Hypothesis Hsig : forall e, 0 < sigma e.
Variables (solve : solver) (fuel : nat) (W : ewald).
Lemma isolated_run s : cs_periodic s = false -> let N := cnum s in let A := fill_isolated P s in
  let Q := solve (N + 1)%nat (border N A) (fun i => if Nat.eqb i N then cs_chargeRef s else - c_chi (cat s i)) in
  exists r, calculateElectrostaticEnergy solve fuel W P s = Some r /\ er_A r = border N A /\ er_Q r = Q /\
    er_energy r = 1 / 2 * sumn N (fun i => sumn N (fun j => Q i * isolated_U sigma eps s i j * Q j))
      - sumn N (fun i => 1 / 2 * (isolated_U sigma eps s i i * Q i * Q i))
      + sumn N (fun i => sumn N (fun j => if Nat.ltb i j then Q i * Q j * isolated_U sigma eps s i j * (sc_f fs (distance s i j) - 1) else 0)).
Proof.
  intros Hper N A Q. unfold calculateElectrostaticEnergy. rewrite Hper. unfold finish. fold N A. fold Q.
  assert (BA : forall i j, (i < N)%nat -> (j < N)%nat -> border N A i j = A i j).
  { intros i j Hi Hj. unfold border. destruct (Nat.eqb_spec i N), (Nat.eqb_spec j N); try lia. auto. }
  assert (HA : forall i j, (i < N)%nat -> (j < N)%nat -> A i j = (if Nat.eqb i j then J_of hardness s i else 0) + isolated_U sigma eps s i j).
  { intros i j Hi Hj. apply fill_isolated_U; auto. }
  unfold P. rewrite (screening_isolated hardness sigma fs eps s Heps Hsig Hper).
  2:{ intros i j Hi Hj Hne. rewrite BA, HA by auto. destruct (Nat.eqb_spec i j); [congruence|]. ring. }
  eexists. split; [reflexivity|]. cbn [er_A er_Q er_energy]. split; auto. split; auto. fold N.
  rewrite (sumn_ext N (fun i => sumn N (fun j => Q i * (border N A i j - (if Nat.eqb i j then ep_hardness (element_parameters hardness sigma fs eps) (cel s i) else 0)) * Q j))
     (fun i => sumn N (fun j => Q i * isolated_U sigma eps s i j * Q j))).
  2:{ intros i Hi. apply sumn_ext. intros j Hj. rewrite BA, HA by auto. simpl ep_hardness. unfold J_of. destruct (Nat.eqb i j); ring. }
  rewrite sumn_plus. 
  rewrite (sumn_ext N (fun i => - (1 / 2 * (Q i * isolated_U sigma eps s i i * Q i))) (fun i => (-1) * (1 / 2 * (isolated_U sigma eps s i i * Q i * Q i)))) by (intros; ring).
  rewrite sumn_scal. ring.
Qed.

Variables (s : cstruct) (v : nat -> vec) (chi : R -> nat -> R).
Hypothesis Hper : cs_periodic s = false.
Hypothesis Hsep : separated s.
Hypothesis Hdist : distances_valid s.
Hypothesis Hchi0 : forall i, (i < cnum s)%nat -> chi 0 i = chi_of s i.
Let N := cnum s.
Let m t := moved v t (chi t) s.
Lemma m_zero : m 0 = s.
Proof. apply moved_zero; auto. Qed.
Lemma sep_diff i j : (i < N)%nat -> (j < N)%nat -> i <> j -> vsub (cpos s i) (cpos s j) <> vzero.
Proof.
  intros Hi Hj Hne E. apply (Hsep i j Hi Hj Hne). destruct (cpos s i), (cpos s j). unfold vsub, vzero in E; simpl in E. injection E as E1 E2 E3. f_equal; lra.
Qed.
Definition isoU t i j := isolated_U sigma eps (m t) i j.
Definition iso_dU i j := if Nat.eqb i j then 0 else iso_rate P s v i j.
Lemma isoU_derive i j : (i < N)%nat -> (j < N)%nat -> is_derive (fun t => isoU t i j) 0 (iso_dU i j).
Proof.
  intros Hi Hj. unfold isoU, isolated_U, iso_dU. destruct (Nat.eqb_spec i j) as [E|Hne].
  - apply (is_derive_ext (fun _ => 1 / (sqrt PI * sigma (cel s i) * eps))). { intros t. unfold m. now rewrite moved_cel. }
    apply is_derive_const'.
  - apply (is_derive_ext (fun t => gaussian_coulomb (sigma (cel s i)) (sigma (cel s j)) eps (norm (line (vsub (cpos s i) (cpos s j)) (vsub (v i) (v j)) t)))).
    { intros t. unfold m. rewrite !moved_cel, moved_distance by auto. reflexivity. }
    apply (gaussian_pair (vsub (cpos s i) (cpos s j)) (vsub (v i) (v j)) (sigma (cel s i)) (sigma (cel s j)) eps); auto. now apply sep_diff.
Qed.
Lemma iso_rate_sym i j : iso_rate P s v i j = iso_rate P s v j i.
Proof.
  unfold iso_rate, dA_isolated. cbv zeta.
  assert (G : ep_gamma P (cel s i) (cel s j) = ep_gamma P (cel s j) (cel s i)). { simpl. f_equal. ring. }
  rewrite G. replace (norm (vsub (cpos s i) (cpos s j))) with (norm (vsub (cpos s j) (cpos s i))) by apply (distance_sym s j i).
  generalize (norm (vsub (cpos s j) (cpos s i))) as r. intros r.
  rewrite !dot_vdiv, !dot_smul_l, !dot_vdiv, !dot_vsub_l, !dot_vsub_r. unfold Rdiv. ring.
Qed.
(** The screening corrections. *)
Definition iso_c i j t := isoU t i j * (sc_f fs (distance (m t) i j) - 1).
Variables (k : core_kind) (ia ib : R).
Hypothesis Hfs : screening_config k ia ib = Some fs.
Definition cutvec (Q : nat -> R) (i j : nat) : vec :=
  cvec P Q i j (cel s i) (cel s j) (vsub (cpos s i) (cpos s j)) (norm (vsub (cpos s i) (cpos s j))).
Lemma iso_c_derive i j : (i < N)%nat -> (j < N)%nat -> i <> j -> exists c', is_derive (iso_c i j) 0 c' /\
  forall Q, Q i * Q j * c' = dot (cutvec Q i j) (vsub (v i) (v j)).
Proof.
  intros Hi Hj Hne. set (x := vsub (cpos s i) (cpos s j)). set (w := vsub (v i) (v j)).
  destruct (screened_pair x w (sigma (cel s i)) (sigma (cel s j)) eps k ia ib fs 1 Hfs (sep_diff i j Hi Hj Hne) (Hsig _) (Hsig _) Heps) as (c' & H1 & H2).
  exists c'. split.
  - refine (is_derive_ext _ _ _ _ _ H1). intros t. unfold iso_c, isoU, isolated_U, m. destruct (Nat.eqb_spec i j); [congruence|].
    rewrite !moved_cel, !moved_distance by auto. reflexivity.
  - intros Q. replace (Q i * Q j * c') with (Q i * Q j * (1 * c')) by ring. rewrite H2. unfold cutvec, cvec. cbv zeta. fold x.
    rewrite !dot_vdiv, !dot_smul_l, !dot_vdiv, !dot_smul_l. simpl ep_gamma. simpl ep_fs. simpl ep_eps. unfold Rdiv. ring.
Qed.
Definition iso_d i j : R := Derive (iso_c i j) 0.
Lemma iso_d_spec i j : (i < N)%nat -> (j < N)%nat -> i <> j -> is_derive (iso_c i j) 0 (iso_d i j) /\ forall Q, Q i * Q j * iso_d i j = dot (cutvec Q i j) (vsub (v i) (v j)).
Proof.
  intros Hi Hj Hne. destruct (iso_c_derive i j Hi Hj Hne) as (c' & H1 & H2).
  assert (E : iso_d i j = c') by (apply is_derive_unique; auto). rewrite E. auto.
Qed.
Definition iso_cs i := map (fun j => mkCorr j (iso_c i j) (iso_d i j)) (filter (fun j => Nat.ltb i j) (seq 0 N)).
Lemma iso_cs_sum i F : rsum (map F (iso_cs i)) = sumn N (fun j => if Nat.ltb i j then F (mkCorr j (iso_c i j) (iso_d i j)) else 0).
Proof. unfold iso_cs. rewrite map_map, rsum_filter. reflexivity. Qed.
Lemma iso_energy t : electrostatic_energy solve fuel W P (m t) = energy N isoU (fun i => isoU 0 i i) iso_cs t (charges solve fuel W P (m t)).
Proof.
  unfold electrostatic_energy, charges. destruct (isolated_run (m t)) as (r & E & _ & EQ & Ee). { exact Hper. }
  rewrite E, Ee. rewrite <- EQ. unfold energy. unfold m. rewrite moved_num. fold N. fold (m t). f_equal; [f_equal|].
  - apply sumn_ext. intros i Hi. assert (X : isoU 0 i i = isolated_U sigma eps (m t) i i); [|now rewrite X].
    unfold isoU, isolated_U. rewrite Nat.eqb_refl. unfold m. now rewrite !moved_cel.
  - apply sumn_ext. intros i Hi. rewrite iso_cs_sum. apply sumn_ext. intros j Hj. destruct (Nat.ltb i j); auto. cbn [co_j co_c]. unfold iso_c, isoU. ring.
Qed.
Lemma iso_charges t : charges solve fuel W P (m t) =
  solve (N + 1)%nat (border N (fill_isolated P (m t))) (fun i => if Nat.eqb i N then cs_chargeRef s else - c_chi (cat (m t) i)).
Proof.
  unfold charges. destruct (isolated_run (m t)) as (r & E & _ & EQ & _). { exact Hper. } rewrite E, EQ. unfold m. now rewrite moved_num.
Qed.

Lemma iso_gain Q y i st : (i < N)%nat -> phi N v y (derivatives_pairs P s Q i st) =
  phi N v y st + sumn N (fun j => if Nat.ltb i j then Q i * Q j * iso_d i j + (y i * Q j + Q i * y j) * iso_c i j 0 else 0).
Proof.
  intros Hi. unfold derivatives_pairs. fold N. apply range_gain; auto. intros j z Hj.
  assert (C0 : iso_c i j 0 = gaussian_coulomb (sigma (cel s i)) (sigma (cel s j)) eps (norm (vsub (cpos s i) (cpos s j))) * (sc_f fs (norm (vsub (cpos s i) (cpos s j))) - 1)).
  { unfold iso_c, isoU. rewrite m_zero. unfold isolated_U. destruct (Nat.eqb_spec i j); [lia|]. reflexivity. }
  destruct (iso_d_spec i j) as [_ Hd]; [lia|lia|lia|]. rewrite Hd, C0. cbv zeta.
  destruct (Rge_dec (norm (vsub (cpos s i) (cpos s j))) (sc_outer (ep_fs P))) as [Hge|Hlt].
  - simpl ep_fs in Hge.
    assert (F1 : sc_f fs (norm (vsub (cpos s i) (cpos s j))) = 1). { unfold sc_f. destruct (Rge_dec _ _); [auto|lra]. }
    assert (F2 : sc_df fs (norm (vsub (cpos s i) (cpos s j))) = 0). { unfold sc_df. destruct (Rge_dec _ _); [auto|lra]. }
    rewrite F1. unfold cutvec, cvec. cbv zeta. simpl ep_fs. rewrite F1, F2, dot_vdiv, dot_smul_l. unfold Rdiv. ring.
  - rewrite correction_gain by lia. fold (cutvec Q i j). unfold gaussian_coulomb. simpl ep_gamma. simpl ep_fs. simpl ep_eps. unfold Rdiv. rewrite Rinv_mult. ring.
Qed.
Theorem isolated_forces r D pE dQ dChi Es fshort dEs : exact_solver solve ->
  chargeEquilibration solve fuel W P s = Some (r, D, (pE, dQ)) -> nonsingular (N + 1) (er_A r) ->
  (forall j, (j < N)%nat -> is_derive (fun t => chi t j) 0 (sumn N (fun a => dot (dChi j a) (v a)))) ->
  differentiable_energy N Es (er_Q r) (- power N fshort v) dEs ->
  let F := forces4G N (calculateForceLambdaTotal solve s (er_A r) dQ dEs) (calculateForceLambdaElec solve s (er_A r) dQ) pE D dChi fshort in
  is_derive (fun t => electrostatic_energy solve fuel W P (m t) + Es t (charges solve fuel W P (m t))) 0 (- power N (fun i => fst (F i)) v) /\
  is_derive (fun t => electrostatic_energy solve fuel W P (m t)) 0 (- power N (fun i => snd (F i)) v).
Proof.
  intros Hsol Hce Hns Hchi HEs F.
  unfold chargeEquilibration in Hce. destruct (isolated_run s Hper) as (r' & E & EA & EQ & _). rewrite E in Hce.
  unfold calculateDAdrQ in Hce. rewrite Hper in Hce. cbv beta iota in Hce.
  destruct (calculateElectrostaticEnergyDerivatives P s (er_Q r') (er_A r') (calculateDAdrQ_isolated P s (er_Q r') (fun _ _ => vzero))) as [d|] eqn:Ed; [|discriminate].
  injection Hce as <- <- ->. fold N in EA, EQ.
  assert (Q0 : er_Q r' = charges solve fuel W P (m 0)). { rewrite m_zero. unfold charges. now rewrite E. }
  assert (Q0' := iso_charges 0). rewrite <- Q0 in Q0'.
  assert (BA : forall i j, (i < N)%nat -> (j < N)%nat -> er_A r' i j = (if Nat.eqb i j then J_of hardness s i else 0) + isoU 0 i j).
  { intros i j Hi Hj. rewrite EA. unfold border. destruct (Nat.eqb_spec i N), (Nat.eqb_spec j N); try lia. cbn [andb orb]. unfold isoU. rewrite m_zero. now apply fill_isolated_U. }
  assert (HDr : forall b, (b < N)%nat -> rowrate N v (calculateDAdrQ_isolated P s (er_Q r') (fun _ _ => vzero)) b = sumn N (fun k => iso_dU b k * er_Q r' k)).
  { intros b Hb. unfold N. rewrite dAdrQ_isolated_rate by (auto; intros; apply iso_rate_sym). apply sumn_ext. intros j Hj. unfold iso_dU.
    rewrite (Nat.eqb_sym b j). destruct (Nat.eqb_spec j b); unfold ind; cbn [negb]; ring. }
  assert (M := forces_core N solve (fun t => fill_isolated P (m t)) isoU iso_dU (J_of hardness s) (fun i => isoU 0 i i) iso_cs
     (fun t i => c_chi (cat (m t) i)) dChi (cs_chargeRef s) v (calculateDAdrQ_isolated P s (er_Q r') (fun _ _ => vzero)) pE dQ Hsol).
  cbv beta in M. rewrite <- Q0', m_zero in M.
  destruct (M ltac:(now rewrite EA in Hns)) with (Es := Es) (fshort := fshort) (dEs := dEs) as [M1 M2]; clear M; auto.
  - intros t i j Hi Hj. unfold P. rewrite fill_isolated_U by (unfold m; now rewrite moved_num). f_equal. unfold J_of, m. now rewrite moved_cel.
  - intros; now apply isoU_derive.
  - intros. apply isolated_U_sym.
  - intros i x Hi Hx. unfold iso_cs in Hx. apply in_map_iff in Hx. destruct Hx as (j & <- & Hj). apply filter_In in Hj. destruct Hj as [Hj Hlt]. apply in_seq in Hj. apply Nat.ltb_lt in Hlt.
    cbn [co_j co_c co_d]. split; [lia|]. apply iso_d_spec; lia.
  - intros j Hj. apply (is_derive_ext (fun t => chi t j)); auto. intros t. unfold m. now rewrite moved_chi.
  - intros y. rewrite (derivatives_total N v y P s (er_Q r') (er_A r') (calculateDAdrQ_isolated P s (er_Q r') (fun _ _ => vzero)) eq_refl
       (fun i => sumn N (fun j => if Nat.ltb i j then er_Q r' i * er_Q r' j * iso_d i j + (y i * er_Q r' j + er_Q r' i * y j) * iso_c i j 0 else 0)) pE dQ).
    3: exact Ed.
    2:{ intros i st st' Hi. rewrite Hper. intros [= <-]. now apply iso_gain. }
    rewrite !sumn_plus. apply f_equal2; [apply f_equal2|].
    + rewrite sumn_swap. apply sumn_ext. intros j Hj. rewrite sumn_scal. fold (rowrate N v (calculateDAdrQ_isolated P s (er_Q r') (fun _ _ => vzero)) j).
      rewrite HDr by auto. ring.
    + apply sumn_ext. intros i Hi. apply Rmult_eq_compat_l. symmetry.
      assert (SI : isoU 0 i i * er_Q r' i = sumn N (fun j => if Nat.eqb i j then isoU 0 i i * er_Q r' i else 0)).
      { rewrite (sumn_single N _ i Hi); [now rewrite Nat.eqb_refl|]. intros j Hj Hne. destruct (Nat.eqb_spec i j); [congruence|auto]. }
      rewrite SI, <- sumn_minus. apply sumn_ext. intros j Hj. rewrite BA by auto. unfold own_term. rewrite Hper.
      destruct (Nat.eqb_spec i j) as [->|]; ring.
    + apply sumn_ext. intros i Hi. rewrite iso_cs_sum. apply sumn_ext. intros j Hj. destruct (Nat.ltb i j); auto.
  - assert (EL : forall t, electrostatic_energy solve fuel W P (m t) = energy N isoU (fun i => isoU 0 i i) iso_cs t (charges solve fuel W P (m t))) by (intros; apply iso_energy).
    split.
    + refine (is_derive_ext _ _ _ _ _ (is_derive_eq _ _ _ _ M1 _)).
      * intros t. cbv beta. rewrite <- iso_charges, <- EL. reflexivity.
      * unfold F, calculateForceLambdaTotal, calculateForceLambdaElec. rewrite EA. reflexivity.
    + refine (is_derive_ext _ _ _ _ _ (is_derive_eq _ _ _ _ M2 _)).
      * intros t. cbv beta. rewrite <- iso_charges, <- EL. reflexivity.
      * unfold F, calculateForceLambdaTotal, calculateForceLambdaElec. rewrite EA. reflexivity.
Qed.
End Isolated.
