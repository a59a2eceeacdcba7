(** C75: charges and energies of a 4G potential exist and are unique; total force. *)
From Coq Require Import Reals Lra ZArith List Lia Bool Arith Permutation.
From Coquelicot Require Import Coquelicot.
From Coq Require Import List.
From Verif Require Import Base.RealBase Base.Vec3 Base.SumR Base.Linear Model.NeuralNetwork Model.NeighborList Model.SymFunctions Model.SymSetup
  Model.Forces Model.CompactScreening Model.Electrostatics Model.Evaluation4G
  Spec.NetworkSpec Spec.GeometrySpec Spec.NeighborSpec Spec.SymSpec Spec.SetupSpec Spec.ForceSpec Spec.CompactSpec Spec.ElecSpec Spec.Evaluation4GSpec
  Proofs.NeighborProofs Proofs.ForceLocal Proofs.Curves4G Proofs.ElecCore Proofs.ElecFill Proofs.ElecQeq Proofs.ElecIsolated Proofs.Evaluation4GProofs.
Import ListNotations.
Local Open Scope R_scope.

Lemma chi_permut P el e e' : Permutation e e' -> atom_chi P el e = atom_chi P el e'.
Proof. intros H. unfold atom_chi. f_equal. apply evaluate_ext. intros k. now apply sf_input_permut. Qed.
Lemma energy_permut P el e e' q : Permutation e e' -> atom_energy P el e q = atom_energy P el e' q.
Proof.
  intros H. unfold atom_energy. apply evaluate_ext. intros k. unfold charge_input. destruct (Nat.ltb k _); auto. now apply sf_input_permut.
Qed.

(** ** Environments in isolated structures, as a function *)
Definition iso_list (rc : R) (s : structure) (i : nat) : list (nat * image) :=
  map (fun j => (j, (0, 0, 0)%Z)) (filter (fun j => (negb (Nat.eqb i j) && (if Rle_dec (norm (displacement s (at_ s i) (at_ s j) (0, 0, 0)%Z)) rc then true else false))%bool)
    (seq 0 (length (s_atoms s)))).
Lemma iso_list_spec rc s i j m : s_periodic s = false -> (i < length (s_atoms s))%nat -> In (j, m) (iso_list rc s i) <-> in_range s rc i j m.
Proof.
  intros Hper Hi. unfold iso_list. rewrite in_map_iff. split.
  - intros (k & E & Hk). injection E as <- <-. apply filter_In in Hk as [Hk Hb]. apply in_seq in Hk. apply andb_prop in Hb as [B1 B2].
    destruct (Rle_dec _ _) as [B3|]; [|discriminate]. destruct (Nat.eqb_spec i k) as [|B4]; [discriminate|].
    destruct (nth_error (s_atoms s) i) as [ai|] eqn:Ei; [|apply nth_error_None in Ei; lia].
    destruct (nth_error (s_atoms s) k) as [ak|] eqn:Ek; [|apply nth_error_None in Ek; lia].
    rewrite (at_nth s i ai Ei), (at_nth s k ak Ek) in B3. exists ai, ak. repeat split; auto. congruence.
  - intros (ai & aj & Ei & Ej & H1 & H2 & H3). rewrite (H1 Hper) in *. exists j. split; auto. apply filter_In. split.
    + apply in_seq. cbn. split; [lia|]. apply nth_error_Some. congruence.
    + rewrite (at_nth s i ai Ei), (at_nth s j aj Ej). destruct (Nat.eqb_spec i j) as [->|]; [congruence|]. destruct (Rle_dec _ _); auto; lra.
Qed.
Definition iso_env (rc : R) (s : structure) (i : nat) : env := map (view s i) (iso_list rc s i).
Lemma iso_env_ok rc s i : s_periodic s = false -> (i < length (s_atoms s))%nat -> neighbourhood s rc i (iso_env rc s i).
Proof.
  intros Hper Hi. exists (iso_list rc s i). split; [|split].
  - unfold iso_list. apply NoDup_map_inj; [congruence|]. apply NoDup_filter, seq_NoDup.
  - intros j m. now apply iso_list_spec.
  - apply (view_seen s rc). intros [j m] Hp. now apply iso_list_spec.
Qed.

(** Energies and charges as functions of the structure. *)
Definition solved_charges (Q : potential4) (rc Qref : R) (s : structure) : nat -> R :=
  let n := length (s_atoms s) in
  gauss_solve (n + 1) (border n (fun i j => (if Nat.eqb i j then J_of (q_hardness Q) (charge_sites s) i else 0)
      + isolated_U (q_sigma Q) (q_eps Q) (charge_sites s) i j))
    (fun i => if Nat.eqb i n then Qref else - atom_chi Q (element_of s i) (nth i (map (iso_env rc s) (seq 0 n)) [])).
Theorem energy4_functions Q rc Qref : exists (E Eel : structure -> R) (q : structure -> nat -> R),
  forall s, s_periodic s = false -> chargeable Q s -> has_energy4 Q rc Qref s (E s) (Eel s) (q s).
Proof.
  set (q := solved_charges Q rc Qref). set (Eel := fun s => isolated_energy (q_sigma Q) (q_eps Q) (q_screening Q) (charge_sites s) (q s)).
  exists (fun s => sumn (length (s_atoms s)) (fun i => atom_energy Q (element_of s i) (nth i (map (iso_env rc s) (seq 0 (length (s_atoms s)))) []) (q s i)) + Eel s), Eel, q.
  intros s Hper (Hn & Hw). set (n := length (s_atoms s)) in *.
  exists (map (iso_env rc s) (seq 0 n)). split; [now rewrite map_length, seq_length|]. split; [|split; [|split; reflexivity]].
  - intros i e Hi. rewrite nth_error_map in Hi. destruct (nth_error (seq 0 n) i) as [k|] eqn:Ek; [|discriminate]. injection Hi as <-.
    assert (Hi : (i < n)%nat). { rewrite <- (seq_length n 0). apply nth_error_Some. congruence. }
    rewrite (nth_error_nth' (seq 0 n) 0%nat) in Ek by now rewrite seq_length. rewrite seq_nth in Ek by auto. injection Ek as <-. now apply iso_env_ok.
  - set (chi := fun i => atom_chi Q (element_of s i) (nth i (map (iso_env rc s) (seq 0 n)) [])).
    set (J := J_of (q_hardness Q) (charge_sites s)) in *. set (U := isolated_U (q_sigma Q) (q_eps Q) (charge_sites s)) in *.
    set (A := fun i j => (if Nat.eqb i j then J i else 0) + U i j).
    assert (HA : forall i j, (i < n)%nat -> (j < n)%nat -> A i j = (if Nat.eqb i j then J i else 0) + U i j) by reflexivity.
    assert (X : solution (n + 1) (border n A) (fun i => if Nat.eqb i n then Qref else - chi i) (q s)).
    { apply (gauss_solve_exact (n + 1)%nat). apply (border_nonsingular n J U A); auto. }
    destruct (border_sol n J U A HA chi Qref (q s) X) as (X1 & X2).
    split; [exact X1|]. exists (- q s n). exact X2.
Qed.
Theorem energy4_unique Q rc Qref s E Eel q E' Eel' q' : chargeable Q s ->
  has_energy4 Q rc Qref s E Eel q -> has_energy4 Q rc Qref s E' Eel' q' ->
  E = E' /\ Eel = Eel' /\ forall i, (i < length (s_atoms s))%nat -> q i = q' i.
Proof.
  intros (Hn & Hw). set (n := length (s_atoms s)) in *.
  intros (es & L & F & (S1 & l & S2) & S3 & S4) (es' & L' & F' & (S1' & l' & S2') & S3' & S4'). fold n in L, L', S1, S2, S4, S1', S2', S4'.
  assert (HP : forall i, (i < n)%nat -> Permutation (nth i es []) (nth i es' [])).
  { intros i Hi. eapply neighbourhood_unique; [apply F|apply F']; apply nth_error_nth'; lia. }
  assert (Hq : forall i, (i < n)%nat -> q i = q' i).
  { refine (posed_unique n _ _ _ Qref q q' l l' Hw S1 S1' S2 _). intros i Hi. rewrite <- (S2' i Hi). apply electronegativity_ext; auto. apply chi_permut. auto. }
  assert (HE : Eel = Eel').
  { rewrite S3, S3'. apply same_energy; [split; auto|]. intros i Hi. rewrite sites_num in Hi. auto. }
  split; [|split; auto]. rewrite S4, S4', HE. f_equal. apply sumn_ext. intros i Hi. rewrite (Hq i Hi). apply energy_permut. auto.
Qed.

(** Charges stay determined when atoms move a little. *)
Lemma moved_sites u t s : same_sites (charge_sites (displaced u t s)) (moved u t (fun _ => 0) (charge_sites s)).
Proof.
  split; [rewrite moved_num, !sites_num; apply displaced_length|]. intros i Hi. rewrite sites_num, displaced_length in Hi.
  assert (Hi' : (i < cnum (charge_sites s))%nat) by now rewrite sites_num. rewrite moved_cel, moved_cpos by auto.
  destruct (nth_error (s_atoms s) i) as [ai|] eqn:Ei; [|apply nth_error_None in Ei; lia].
  pose proof (displaced_atom u t s i) as DA. rewrite Ei in DA. cbn [option_map] in DA. unfold cel, cpos. rewrite (sites_at _ i _ DA), (sites_at _ i _ Ei). auto.
Qed.
Lemma same_sites_sym a b : same_sites a b -> same_sites b a.
Proof. intros [A B]. split; auto. intros i Hi. rewrite <- A in Hi. destruct (B i Hi). auto. Qed.
Theorem chargeable_near Q s u : 0 < q_eps Q -> (forall e, 0 < q_sigma Q e) -> chargeable Q s -> separated (charge_sites s) ->
  locally 0 (fun t => chargeable Q (displaced u t s)).
Proof.
  intros He Hsg (Hn & Hw) Hsep. set (n := length (s_atoms s)) in *. set (cs := charge_sites s) in *.
  assert (Nc : cnum cs = n) by apply sites_num.
  set (E := element_parameters (q_hardness Q) (q_sigma Q) (q_screening Q) (q_eps Q)). set (m := fun t => moved u t (fun _ => 0) cs).
  assert (Nm : forall t, cnum (m t) = n) by (intros t; unfold m; now rewrite moved_num).
  assert (HF : forall t i j, (i < n)%nat -> (j < n)%nat -> fill_isolated E (m t) i j = (if Nat.eqb i j then J_of (q_hardness Q) (m t) i else 0) + isolated_U (q_sigma Q) (q_eps Q) (m t) i j).
  { intros t i j Hi Hj. apply fill_isolated_U; now rewrite Nm. }
  assert (HL : locally 0 (fun t => nonsingular (n + 1) (border n (fill_isolated E (m t))))).
  { apply (regular_near n (fun t => fill_isolated E (m t)) (iso_dU (q_hardness Q) (q_sigma Q) (q_screening Q) (q_eps Q) cs u)).
    - apply (border_nonsingular n (J_of (q_hardness Q) (m 0)) (isolated_U (q_sigma Q) (q_eps Q) (m 0))); auto.
      rewrite <- (Nm 0). apply (same_posed _ _ _ cs); [|now rewrite Nc].
      split; [now rewrite Nm|]. intros i Hi. unfold m. rewrite moved_cel, moved_cpos by auto. split; auto. vring.
    - intros i j Hi Hj. rewrite <- Nc in Hi, Hj.
      apply (is_derive_ext (fun t => (if Nat.eqb i j then J_of (q_hardness Q) cs i else 0) + isoU (q_sigma Q) (q_eps Q) cs u (fun _ _ => 0) t i j)).
      { intros t. rewrite HF by (now rewrite <- Nc). f_equal. unfold J_of, m. now rewrite moved_cel. }
      eapply is_derive_eq; [apply (is_derive_plus (fun _ => if Nat.eqb i j then J_of (q_hardness Q) cs i else 0) (fun t => isoU (q_sigma Q) (q_eps Q) cs u (fun _ _ => 0) t i j))|].
      + apply is_derive_const.
      + apply (isoU_derive (q_hardness Q) (q_sigma Q) (q_screening Q) (q_eps Q) He Hsg cs u (fun _ _ => 0) Hsep); auto.
      + cbn. unfold plus, zero; cbn. ring. }
  generalize HL. apply filter_imp. intros t Ht. split; [now rewrite displaced_length|]. rewrite <- sites_num.
  apply (same_posed _ _ _ (m t)); [apply same_sites_sym, moved_sites|]. rewrite Nm.
  apply (nonsingular_posed n _ _ (fill_isolated E (m t))); auto.
Qed.

(** ** Moving all atoms together *)
Lemma translated_neighbourhood s rc i e w t : neighbourhood s rc i e -> neighbourhood (displaced (fun _ => w) t s) rc i e.
Proof.
  assert (D : forall ai aj m, displacement (displaced (fun _ => w) t s)
     (mkAtom (a_element ai) (vadd (a_r ai) (smul t w)) (a_hasNL ai) (a_sorted ai) (a_numN ai) (a_numU ai) (a_perEl ai) (a_unique ai) (a_nbs ai) (a_cutoffs ai))
     (mkAtom (a_element aj) (vadd (a_r aj) (smul t w)) (a_hasNL aj) (a_sorted aj) (a_numN aj) (a_numU aj) (a_perEl aj) (a_unique aj) (a_nbs aj) (a_cutoffs aj)) m
     = displacement s ai aj m).
  { intros ai aj m. unfold displacement, position_of_image. cbn [displaced set_atoms s_box a_r]. vring. }
  intros (Ls & N1 & N2 & N3). exists Ls. split; auto. split.
  - intros j m. rewrite N2. unfold in_range. cbn [displaced set_atoms s_periodic]. split.
    + intros (ai & aj & Ei & Ej & R1 & R2 & R3).
      pose proof (displaced_atom (fun _ => w) t s i) as Xi. pose proof (displaced_atom (fun _ => w) t s j) as Xj. rewrite Ei in Xi. rewrite Ej in Xj.
      do 2 eexists. split; [exact Xi|]. split; [exact Xj|]. split; auto. split; auto. rewrite D. auto.
    + intros (ai & aj & Ei & Ej & R1 & R2 & R3).
      pose proof (displaced_atom (fun _ => w) t s i) as Xi. pose proof (displaced_atom (fun _ => w) t s j) as Xj. rewrite Xi in Ei. rewrite Xj in Ej.
      destruct (nth_error (s_atoms s) i) as [bi|]; [|discriminate]. destruct (nth_error (s_atoms s) j) as [bj|]; [|discriminate].
      cbn in Ei, Ej. injection Ei as <-. injection Ej as <-. exists bi, bj. rewrite D in R3. auto.
  - clear - N3 D. induction N3 as [|p x Ls e Hx _ IH]; constructor; auto.
    destruct Hx as (ai & aj & Ei & Ej & ->).
    pose proof (displaced_atom (fun _ => w) t s i) as Xi. pose proof (displaced_atom (fun _ => w) t s (fst p)) as Xj. rewrite Ei in Xi. rewrite Ej in Xj.
    do 2 eexists. split; [exact Xi|]. split; [exact Xj|]. rewrite D. reflexivity.
Qed.
Lemma displaced_element u t s i : element_of (displaced u t s) i = element_of s i.
Proof.
  unfold element_of. destruct (nth_error (s_atoms s) i) as [ai|] eqn:Ei; pose proof (displaced_atom u t s i) as DA; rewrite Ei in DA; cbn [option_map] in DA.
  - now rewrite (nth_error_nth _ _ _ DA), (nth_error_nth _ _ _ Ei).
  - apply nth_error_None in DA, Ei. now rewrite !nth_overflow.
Qed.
Theorem energy4_translated Q rc Qref s E Eel q w t : has_energy4 Q rc Qref s E Eel q -> has_energy4 Q rc Qref (displaced (fun _ => w) t s) E Eel q.
Proof.
  assert (HD : forall i, (i < length (s_atoms s))%nat -> cel (charge_sites (displaced (fun _ => w) t s)) i = cel (charge_sites s) i /\
    cpos (charge_sites (displaced (fun _ => w) t s)) i = vadd (cpos (charge_sites s) i) (smul t w)).
  { intros i Hi. destruct (moved_sites (fun _ => w) t s) as [_ B]. destruct (B i) as [B1 B2]; [now rewrite sites_num, displaced_length|].
    rewrite B1, B2. assert (Hi' : (i < cnum (charge_sites s))%nat) by now rewrite sites_num. now rewrite moved_cel, moved_cpos. }
  assert (HR : forall i j, (i < length (s_atoms s))%nat -> (j < length (s_atoms s))%nat ->
    distance (charge_sites (displaced (fun _ => w) t s)) i j = distance (charge_sites s) i j).
  { intros i j Hi Hj. unfold distance. destruct (HD i Hi) as [_ ->], (HD j Hj) as [_ ->]. f_equal. vring. }
  intros (es & L & F & (S1 & l & S2) & S3 & S4). exists es. rewrite displaced_length. split; auto.
  split; [intros i e Hi; apply translated_neighbourhood; auto|]. split; [|split].
  - split; rewrite displaced_length; auto. exists l. intros i Hi. rewrite <- (S2 i Hi). apply electronegativity_ext; auto.
    + now rewrite displaced_element.
    + unfold J_of. now destruct (HD i Hi) as [-> _].
    + intros j Hj. unfold isolated_U. destruct (HD i Hi) as [-> _], (HD j Hj) as [-> _]. now rewrite HR.
  - rewrite S3. unfold isolated_energy. rewrite !sites_num, displaced_length. apply sumn_ext. intros i Hi. apply sumn_ext. intros j Hj.
    destruct (HD i Hi) as [-> _], (HD j Hj) as [-> _]. now rewrite HR.
  - rewrite S4. f_equal. apply sumn_ext. intros i Hi. now rewrite displaced_element.
Qed.

(** ** Consequences for the evaluation *)
Theorem curves_exist Q rc Qref s u : 0 < q_eps Q -> (forall e, 0 < q_sigma Q e) -> s_periodic s = false -> chargeable Q s -> separated (charge_sites s) ->
  exists E Eel q, locally 0 (fun t => has_energy4 Q rc Qref (displaced u t s) (E t) (Eel t) (q t)).
Proof.
  intros He Hsg Hper Hch Hsep. destruct (energy4_functions Q rc Qref) as (E & Eel & q & H).
  exists (fun t => E (displaced u t s)), (fun t => Eel (displaced u t s)), (fun t => q (displaced u t s)).
  generalize (chargeable_near Q s u He Hsg Hch Hsep). apply filter_imp. intros t Ht. apply H; auto.
Qed.
Theorem evaluation4G_balanced N rc Q s nsort solve fuel W cutoffs Qref (normalize : bool) convEnergy convCharge :
  sensible4 N rc Q -> 0 <= rc -> s_numElements s = N -> unprocessed rc s -> is_sort nsort -> exact_solver solve -> (N <= length cutoffs)%nat ->
  s_periodic s = false -> chargeable Q s -> q_unit Q = negativity normalize convEnergy convCharge 1 -> everywhere4 Q rc s smooth_at -> separated (charge_sites s) ->
  exists r, evaluateNNP4G nsort solve fuel W (element_parameters (q_hardness Q) (q_sigma Q) (q_screening Q) (q_eps Q)) (q_weight Q)
      (setupMemoryAll N (map (q_fs Q) (seq 0 N))) (q_elec Q) (q_short Q) (negativity normalize convEnergy convCharge) rc cutoffs Qref s = Some r /\
    (regular_networks4 Q rc s (fun i => nth i (map f_charge (r4_atoms r)) 0) ->
     forall w, work_rate (map (fun x => e_f (f_e x)) (r4_atoms r)) (fun _ => w) = 0 /\ work_rate (map f_fElec (r4_atoms r)) (fun _ => w) = 0).
Proof.
  intros HQ Hrc HN Hs Hsort Hsolve Hcut Hper Hch Hunit Hsm Hsep.
  destruct (evaluation4G_isolated N rc Q s nsort solve fuel W cutoffs Qref normalize convEnergy convCharge HQ Hrc HN Hs Hsort Hsolve Hcut Hper Hch) as (r & Er & _ & _ & HE & HG); auto.
  { intros i a e f Hi He Hf. apply (Hsm i a e f Hi He Hf). }
  exists r. split; auto. intros Hreg w.
  destruct (HG Hsm Hreg Hsep (fun _ => w) (fun _ => r4_energy r) (fun _ => r4_energyElec r) (fun _ i => nth i (map f_charge (r4_atoms r)) 0)) as (D1 & D2).
  { apply filter_forall. intros t. now apply energy4_translated. }
  pose proof (is_derive_unique _ _ _ D1) as U1. pose proof (is_derive_unique _ _ _ D2) as U2. rewrite Derive_const in U1, U2. lra.
Qed.
