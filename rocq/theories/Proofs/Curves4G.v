(** Electronegativities and short-range energies of a 4G potential along a path,
    and their derivatives; charges as functions of positions. *)
From Coq Require Import Reals Lra ZArith List Lia Bool Arith Permutation Sorted.
From Coquelicot Require Import Coquelicot.
From Coq Require Import List.
From Verif Require Import Base.RealBase Base.Loop Base.Vec3 Base.SumR Base.Linear Base.Implicit Model.NeuralNetwork Model.Scaling Model.NeighborList Model.SymFunctions
  Model.SymSetup Model.Forces Model.CompactScreening Model.Electrostatics Model.Evaluation4G
  Spec.NetworkSpec Spec.GeometrySpec Spec.NeighborSpec Spec.SymSpec Spec.SetupSpec Spec.ForceSpec Spec.ElecSpec Spec.Evaluation4GSpec
  Proofs.NetForward Proofs.NeighborProofs Proofs.SymInv Proofs.SymGrad Proofs.SetupProofs Proofs.ForceNet Proofs.ForceLocal Proofs.ForceAssembly Proofs.ForceProofs
  Proofs.Truncate Proofs.LongLists Proofs.CutForces Proofs.ChiForces Proofs.Stages4G Proofs.ElecQeq.
Import ListNotations.
Local Open Scope R_scope.

(** ** Structures with the same charges sites *)
Definition same_sites (a b : cstruct) : Prop :=
  cnum a = cnum b /\ forall i, (i < cnum a)%nat -> cel a i = cel b i /\ cpos a i = cpos b i.
Lemma same_U sigma eps a b i j : same_sites a b -> (i < cnum a)%nat -> (j < cnum a)%nat -> isolated_U sigma eps a i j = isolated_U sigma eps b i j.
Proof.
  intros [_ H] Hi Hj. destruct (H i Hi) as [E1 E2], (H j Hj) as [E3 E4]. unfold isolated_U, distance. now rewrite E1, E2, E3, E4.
Qed.
Lemma same_J hardness a b i : same_sites a b -> (i < cnum a)%nat -> J_of hardness a i = J_of hardness b i.
Proof. intros [_ H] Hi. destruct (H i Hi) as [E1 E2]. unfold J_of. now rewrite E1. Qed.
Lemma same_energy sigma eps fs a b p q : same_sites a b -> (forall i, (i < cnum a)%nat -> p i = q i) ->
  isolated_energy sigma eps fs a p = isolated_energy sigma eps fs b q.
Proof.
  intros [HN H] Hq. unfold isolated_energy. rewrite <- HN. apply sumn_ext. intros i Hi. apply sumn_ext. intros j Hj.
  destruct (H i Hi) as [E1 E2], (H j Hj) as [E3 E4]. unfold distance. now rewrite E1, E2, E3, E4, (Hq i Hi), (Hq j Hj).
Qed.
Lemma same_separated a b : same_sites a b -> separated a -> separated b.
Proof.
  intros [HN H] Hs i j Hi Hj Hne. rewrite <- HN in *. destruct (H i Hi) as [_ E2], (H j Hj) as [_ E4]. rewrite <- E2, <- E4. auto.
Qed.
Lemma electronegativity_ext n chi chi' J J' U U' q q' i : (i < n)%nat -> chi i = chi' i -> J i = J' i -> (forall j, (j < n)%nat -> U i j = U' i j) ->
  (forall j, (j < n)%nat -> q j = q' j) -> electronegativity n chi J U q i = electronegativity n chi' J' U' q' i.
Proof.
  intros Hi H1 H2 H3 H4. unfold electronegativity. rewrite H1, H2, (H4 i Hi). f_equal. apply sumn_ext. intros j Hj. now rewrite H3, H4.
Qed.
Lemma same_posed hardness sigma eps a b : same_sites a b -> well_posed (cnum a) (J_of hardness a) (isolated_U sigma eps a) ->
  well_posed (cnum b) (J_of hardness b) (isolated_U sigma eps b).
Proof.
  intros H Hw d l H1 H2. destruct H as [HN H]. rewrite <- HN in *. apply (Hw d l H1). intros i Hi. rewrite <- (H2 i Hi).
  apply electronegativity_ext; auto; [apply same_J|intros; apply same_U]; auto; split; auto.
Qed.
(** A regular system determines the charges. *)
Lemma nonsingular_posed n J U A : (forall i j, (i < n)%nat -> (j < n)%nat -> A i j = (if Nat.eqb i j then J i else 0) + U i j) ->
  nonsingular (n + 1) (border n A) -> well_posed n J U.
Proof.
  intros HA Hns d l H1 H2 i Hi. set (x := fun k => if Nat.eqb k n then - l else d k).
  assert (X : forall k, (k < n)%nat -> x k = d k). { intros k Hk. unfold x. destruct (Nat.eqb_spec k n); auto; lia. }
  rewrite <- (X i Hi). apply Hns; [|lia]. intros k Hk. destruct (Nat.eq_dec k n) as [->|Hne].
  - rewrite mv_border_last, <- H1. now apply sumn_ext.
  - assert (Hk' : (k < n)%nat) by lia. rewrite (mv_border n J U A HA x k Hk').
    rewrite (electronegativity_ext n _ (fun _ => 0) J J U U x d k Hk') by auto. rewrite (H2 k Hk'). unfold x. rewrite Nat.eqb_refl. lra.
Qed.
Lemma posed_unique n chi J U Qt p q l l' : well_posed n J U -> sumn n p = Qt -> sumn n q = Qt ->
  (forall i, (i < n)%nat -> electronegativity n chi J U p i = l) -> (forall i, (i < n)%nat -> electronegativity n chi J U q i = l') ->
  forall i, (i < n)%nat -> p i = q i.
Proof.
  intros Hw Hp Hq Ep Eq i Hi. enough (p i - q i = 0) by lra. revert i Hi. apply (Hw (fun i => p i - q i) (l - l')).
  - rewrite sumn_minus. lra.
  - intros i Hi. rewrite <- (Ep i Hi), <- (Eq i Hi). unfold electronegativity.
    rewrite (sumn_ext n (fun j => U i j * (p j - q j)) (fun j => U i j * p j - U i j * q j)) by (intros; ring). rewrite sumn_minus. ring.
Qed.

(** ** Curves *)
Lemma z_layers net : well_formed net -> exists LT, numLayers net = S LT.
Proof. intros [H _]. destruct (numLayers net) as [|LT]; [lia|eauto]. Qed.
Section Curves.
Variables (N : nat) (rc : R) (Q : potential4) (s s' : structure) (neg : R -> R) (q0 : nat -> R) (zs : list fatom).
Hypothesis HQ : sensible4 N rc Q.
Hypothesis HN : s_numElements s = N.
Hypothesis Hs : unprocessed rc s.
Let n := length (s_atoms s).
Hypothesis Hzlen : length zs = n.
Hypothesis Hz : forall i z, nth_error zs i = Some z -> zprep N rc Q s s' neg q0 i z.
Hypothesis Hneg : forall x, neg x = q_unit Q * x.
Let Xs := map (chi_atom rc) zs.
Let P := Pe Q.
Definition zel (z : fatom) : nat := a_element (e_atom (f_e z)).
Definition zenv (z : fatom) : env := env_of (near rc (e_atom (f_e z))).
Lemma z_at j z : nth_error zs j = Some z -> forall d, nth j Xs d = chi_atom rc z.
Proof. intros H d. unfold Xs. apply nth_error_nth. now rewrite nth_error_map, H. Qed.
Lemma z_lt j z : nth_error zs j = Some z -> (j < n)%nat.
Proof. intros H. rewrite <- Hzlen. apply nth_error_Some. congruence. Qed.
Lemma z_ex j : (j < n)%nat -> exists z, nth_error zs j = Some z.
Proof. intros H. destruct (nth_error zs j) as [z|] eqn:E; eauto. apply nth_error_None in E. lia. Qed.
Lemma z_el j z : nth_error zs j = Some z -> (zel z < N)%nat.
Proof. intros H. destruct (Hz j z H) as ((ai & _ & _ & _ & _ & A & _) & _). exact A. Qed.
Lemma z_near j z : nth_error zs j = Some z -> neighbourhood s rc j (zenv z).
Proof. intros H. destruct (Hz j z H) as ((ai & A & _ & _ & _ & _ & _ & _ & B & _) & _). exact (listed_neighbourhood N rc s j ai _ A B). Qed.
Lemma z_element j z : nth_error zs j = Some z -> exists ai, nth_error (s_atoms s) j = Some ai /\ a_element ai = zel z /\ element_of s j = zel z.
Proof.
  intros H. destruct (Hz j z H) as ((ai & A & _ & _ & E & _) & _). exists ai. split; auto. split; auto. unfold element_of.
  rewrite (nth_error_nth _ _ _ A). auto.
Qed.
Lemma z_G j z : nth_error zs j = Some z -> forall k, (k < length (q_fs Q (zel z)))%nat ->
  st_G (e_store (f_e z)) k = sf_input (q_weight Q) (q_fs Q (zel z)) (zenv z) k.
Proof.
  intros H k Hk. destruct (Hz j z H) as ((ai & _ & _ & _ & _ & _ & _ & _ & _ & (_ & D)) & _).
  destruct (nth_error (q_fs Q (zel z)) k) as [f|] eqn:Ef; [|apply nth_error_None in Ef; lia].
  destruct (D k f Ef) as (f' & _ & _ & _ & _ & G & _). unfold sf_input. rewrite Ef. exact G.
Qed.
Lemma Xs_len : length Xs = n.
Proof. unfold Xs. now rewrite map_length. Qed.
Lemma Xs_prep i x : nth_error Xs i = Some x -> with_functions N rc P s i x.
Proof.
  intros H. unfold Xs in H. rewrite nth_error_map in H. destruct (nth_error zs i) as [z|] eqn:E; [|discriminate]. injection H as <-.
  apply (z_with N rc Q s s' neg q0 i z). auto.
Qed.

Variable u : nat -> vec.
Hypothesis Hsmooth : everywhere4 Q rc s smooth_at.
Definition curve (j : nat) (z : fatom) (t : R) : env := displace (u j) (everyone Xs u j) t (zenv z).
Lemma curve_0 j z : curve j z 0 = zenv z.
Proof. apply displace_0. Qed.
Definition rate (j c : nat) : R := TD N P Xs j c (u j) (everyone Xs u j).
Lemma input_derive j z c : nth_error zs j = Some z -> (c < length (q_fs Q (zel z)))%nat ->
  is_derive (fun t => sf_input (q_weight Q) (q_fs Q (zel z)) (curve j z t) c) 0 (rate j c).
Proof.
  intros Hj Hc. destruct (nth_error (q_fs Q (zel z)) c) as [f|] eqn:Ef; [|apply nth_error_None in Ef; lia].
  pose proof (TD_directional N rc P s HN Xs Xs_len Xs_prep j c f (z_lt j z Hj)) as T. cbv beta zeta in T. rewrite !(z_at j z Hj) in T.
  destruct (T Ef) as (f' & K & Sc & D). unfold rate. rewrite D. unfold curve, sf_input. rewrite Ef, <- K, <- Sc.
  destruct (Hz j z Hj) as ((ai & A1 & _ & _ & A3 & A4 & _ & _ & A2 & _) & _).
  pose proof HQ as (_ & _ & _ & HQe). destruct (HQe _ A4) as ((_ & _ & Hf) & _). destruct (Hf f (nth_error_In _ _ Ef)) as (_ & F1 & F2 & _).
  refine (contributions_gradient (q_weight Q) f' (cut_atom rc (e_atom (f_e z))) (u j) (everyone Xs u j) _ _ _ _).
  - apply A2.
  - now rewrite K.
  - rewrite K. apply (Hsmooth j ai); auto; [exact (z_near j z Hj)|]. rewrite <- A3. apply (nth_error_In _ _ Ef).
  - now rewrite Sc.
Qed.

Hypothesis Hreg : regular_networks4 Q rc s q0.
Definition chi_t (j : nat) (t : R) : R :=
  match nth_error zs j with Some z => atom_chi Q (zel z) (curve j z t) | None => 0 end.
Lemma chi_derive j z : nth_error zs j = Some z ->
  is_derive (chi_t j) 0 (sumn (length (q_fs Q (zel z))) (fun c => f_dChidG z c * rate j c)).
Proof.
  intros Hj. pose proof HQ as (_ & _ & _ & HQe). destruct (HQe _ (z_el j z Hj)) as (_ & (Hwf & Hact & HI) & _). unfold chi_t. rewrite Hj.
  destruct (z_layers _ Hwf) as (LT & EL). destruct (z_element j z Hj) as (ai & A & B & _).
  pose proof (network_curve (q_elec Q (zel z)) (fun t => sf_input (q_weight Q) (q_fs Q (zel z)) (curve j z t)) (rate j) 0 Hwf) as D.
  cbv beta in D. rewrite curve_0, HI in D. destruct (Hreg j ai (zenv z) A (z_near j z Hj)) as [R1 _]. rewrite B in R1.
  specialize (D R1 (fun c Hc => input_derive j z c Hj Hc)). unfold atom_chi.
  apply (is_derive_scal _ _ (q_unit Q)) in D. eapply is_derive_eq; [exact D|].
  rewrite <- sumn_scal. apply sumn_ext. intros c Hc. destruct (Hz j z Hj) as (_ & _ & _ & Hd & _). fold (zel z) in Hd. rewrite Hd by auto. rewrite Hneg.
  rewrite (alike_DEdG _ _ (st_G (e_store (f_e z))) (sf_input (q_weight Q) (q_fs Q (zel z)) (zenv z)) (alike_refl _) Hwf Hact) with (LT := LT); auto.
  - cbn. ring.
  - intros k Hk. apply (z_G j z Hj). congruence.
  - congruence.
Qed.
Definition short_t (t : R) (q : nat -> R) : R :=
  sumn n (fun j => match nth_error zs j with Some z => atom_energy Q (zel z) (curve j z t) (q j) | None => 0 end).
Lemma short_derive : let elems := setupMemoryAll N (map (q_fs Q) (seq 0 N)) in
  differentiable_energy n short_t q0
    (sumn n (fun j => match nth_error zs j with Some z => sumn (length (q_fs Q (zel z))) (fun c => e_dEdG (f_e z) c * rate j c) | None => 0 end))
    (dEdQ elems zs).
Proof.
  intros elems q q' E0 Dq. eapply is_derive_eq.
  - apply (is_derive_sumn n (fun j t => match nth_error zs j with Some z => atom_energy Q (zel z) (curve j z t) (q t j) | None => 0 end)
      (fun j => match nth_error zs j with Some z => sumn (length (q_fs Q (zel z))) (fun c => e_dEdG (f_e z) c * rate j c) | None => 0 end + dEdQ elems zs j * q' j)).
    intros j Hj. destruct (z_ex j Hj) as (z & Ez). unfold dEdQ. rewrite Ez.
    destruct (Hz j z Ez) as (_ & _ & _ & _ & _ & Hd & HnG). fold (zel z) in Hd, HnG. unfold elems. rewrite HnG.
    pose proof HQ as (_ & _ & _ & HQe). destruct (HQe _ (z_el j z Ez)) as (_ & _ & (Hwf & Hact & HI)).
    destruct (z_layers _ Hwf) as (LT & EL). destruct (z_element j z Ez) as (ai & A & B & _).
    destruct (Hreg j ai (zenv z) A (z_near j z Ez)) as [_ R2]. rewrite B in R2.
    set (g := fun c => if Nat.ltb c (length (q_fs Q (zel z))) then rate j c else q' j).
    pose proof (network_curve (q_short Q (zel z)) (fun t => charge_input Q (zel z) (curve j z t) (q t j)) g 0 Hwf) as D.
    cbv beta in D. rewrite curve_0, E0, HI in D by auto. specialize (D R2).
    eapply is_derive_eq; [apply D|].
    + intros c Hc. unfold charge_input, g. destruct (Nat.ltb_spec c (length (q_fs Q (zel z)))) as [Hlt|Hge].
      * now apply (input_derive j z).
      * now apply Dq.
    + rewrite sumn_S.
      assert (DE : forall c, (c <= length (q_fs Q (zel z)))%nat -> calculateDEdG (evaluate (q_short Q (zel z)) (charge_input Q (zel z) (zenv z) (q0 j))) c = e_dEdG (f_e z) c).
      { intros c Hc. rewrite Hd by auto. symmetry. apply (alike_DEdG _ _ _ _ (alike_refl _) Hwf Hact) with (LT := LT); auto; [|lia].
        intros k Hk. unfold with_charge, charge_input. destruct (Nat.ltb_spec k (length (q_fs Q (zel z)))); auto. now apply (z_G j z). }
      rewrite DE by auto. unfold g at 2. destruct (Nat.ltb_spec (length (q_fs Q (zel z))) (length (q_fs Q (zel z)))) as [|_]; [lia|]. f_equal.
      apply sumn_ext. intros c Hc. rewrite DE by lia. unfold g. destruct (Nat.ltb_spec c (length (q_fs Q (zel z)))); [auto|lia].
  - rewrite sumn_plus. reflexivity.
Qed.

(** Near the start the symmetry functions of displaced structures are these. *)
Lemma near_inputs : (s_periodic s = true -> det (s_box s) <> 0) -> exists d, 0 < d /\
  forall t es, Rabs t < d -> (forall i e, nth_error es i = Some e -> neighbourhood (displaced u t s) rc i e) ->
  forall j z e, nth_error zs j = Some z -> nth_error es j = Some e -> forall c,
    sf_input (q_weight Q) (q_fs Q (zel z)) e c = sf_input (q_weight Q) (q_fs Q (zel z)) (curve j z t) c.
Proof.
  intros Hd. destruct (near_environment u s rc Hd) as (d & Hd0 & H). exists d. split; auto. intros t es Ht Hes j z e Ez Ee c. unfold sf_input.
  destruct (nth_error (q_fs Q (zel z)) c) as [f|] eqn:Ef; auto. f_equal.
  destruct (Hz j z Ez) as ((ai & A1 & _ & _ & _ & A4 & _ & _ & A2 & _) & _). 
  pose proof HQ as (_ & _ & _ & HQe). destruct (HQe _ A4) as ((_ & _ & Hf) & _). destruct (Hf f (nth_error_In _ _ Ef)) as (_ & Ha & _ & Hc).
  pose proof (moved_displace N s HN Xs Xs_len u t j) as M. cbv beta zeta in M. rewrite !(z_at j z Ez) in M. cbn [chi_atom e_atom cut_atom a_nbs] in M.
  unfold curve, zenv. rewrite <- M. destruct A2 as (_ & _ & _ & _ & (L & L1 & L2 & L3) & _).
  cbn [cut_atom a_nbs] in L3. rewrite (stored_view u t s j ai L _ A1 L3). rewrite (sf_value_within _ _ rc (map _ L) Ha Hc).
  apply sf_value_permut. apply (H t Ht j L _ (z_lt j z Ez) L1 L2). now apply Hes.
Qed.
End Curves.
