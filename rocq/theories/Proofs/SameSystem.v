(** Two descriptions of the same atoms (C68). *)
From Coq Require Import Reals Lra Lia ZArith List Permutation Bool Arith FunctionalExtensionality.
From Coquelicot Require Import Coquelicot.
From Coq Require Import List.
From Verif Require Import Base.Vec3 Base.SumR Model.NeuralNetwork Model.Geometry Model.NeighborList Model.SymFunctions
  Spec.NetworkSpec Spec.GeometrySpec Spec.NeighborSpec Spec.SymSpec Spec.GroupSpec Spec.ForceSpec Spec.InvarianceSpec
  Proofs.GeometryProofs Proofs.NeighborProofs Proofs.NeighborMore Proofs.KspaceProofs Proofs.SymGrad Proofs.SymInv Proofs.ForceLocal Proofs.ForceProofs Proofs.Isometry Proofs.Covering.
Import ListNotations.
Local Open Scope R_scope.

Definition iadd (a b : image) : image := let '(x, y, z) := a in let '(u, v, w) := b in (x + u, y + v, z + w)%Z.
Definition isub (a b : image) : image := let '(x, y, z) := a in let '(u, v, w) := b in (x - u, y - v, z - w)%Z.
Lemma lattice_iadd box a b : lattice box (iadd a b) = vadd (lattice box a) (lattice box b).
Proof. destruct a as [[x y] z], b as [[u v] w]. unfold lattice, iadd, combine; cbn. rewrite !plus_IZR. vring. Qed.
Lemma lattice_isub box a b : lattice box (isub a b) = vsub (lattice box a) (lattice box b).
Proof. destruct a as [[x y] z], b as [[u v] w]. unfold lattice, isub, combine; cbn. rewrite !minus_IZR. vring. Qed.
Lemma view_fst s i q : fst (view s i q) = a_element (at_ s (fst q)).
Proof. reflexivity. Qed.
Lemma view_snd s i q : snd (view s i q) = vadd (vsub (a_r (at_ s i)) (a_r (at_ s (fst q)))) (lattice (s_box s) (snd q)).
Proof. unfold view, displacement, position_of_image. cbn [snd]. vring. Qed.
Lemma at_some s i : (i < length (s_atoms s))%nat -> nth_error (s_atoms s) i = Some (at_ s i).
Proof. intros H. apply nth_error_nth'. auto. Qed.

(** ** Energies as sums over indices *)
Definition has_atomic_energies (P : potential) (rc : R) (s : structure) (en : nat -> R) : Prop :=
  forall i e, (i < length (s_atoms s))%nat -> neighbourhood s rc i e ->
    en i = atomic_energy (p_weight P) (p_fs P (a_element (at_ s i))) (p_net P (a_element (at_ s i))) e.
Definition nice (s : structure) : Prop := s_periodic s = true -> det (s_box s) <> 0.
Lemma atomic_energies_exist P rc s : nice s -> exists en, has_atomic_energies P rc s en.
Proof.
  intros Hd. destruct (choose_list (neighbourhood s rc) (length (s_atoms s))) as (es & L & F).
  { intros i _. now apply neighbourhood_exists. }
  exists (fun i => atomic_energy (p_weight P) (p_fs P (a_element (at_ s i))) (p_net P (a_element (at_ s i))) (nth i es [])).
  intros i e Hi He. apply atomic_energy_permut. eapply neighbourhood_unique; [|exact He]. apply F. apply nth_error_nth'. lia.
Qed.
Lemma energy_is_sum P rc s en E : has_atomic_energies P rc s en -> has_energy P rc s E -> E = sumn (length (s_atoms s)) en.
Proof.
  intros H (es & L & F & ->). unfold has_atomic_energies in H.
  assert (X : forall i, (i < length (s_atoms s))%nat -> en i = atomic_energy (p_weight P) (p_fs P (a_element (at_ s i))) (p_net P (a_element (at_ s i))) (nth i es [])).
  { intros i Hi. apply H; auto. apply F. apply nth_error_nth'. lia. }
  rewrite (rsum_nth (dflt, []) _ (List.combine (s_atoms s) es)), combine_length, L, Nat.min_id. apply sumn_ext.
  intros i Hi. rewrite combine_nth by auto. cbn [fst snd]. symmetry. apply X. auto.
Qed.
Lemma sum_is_energy P rc s en : nice s -> has_atomic_energies P rc s en -> has_energy P rc s (sumn (length (s_atoms s)) en).
Proof.
  intros Hd H. destruct (energy_exists P rc s Hd) as (E & HE). now rewrite <- (energy_is_sum P rc s en E H HE).
Qed.
Lemma neighbourhood_permut s rc i e e' : neighbourhood s rc i e -> Permutation e e' -> neighbourhood s rc i e'.
Proof.
  intros (L & L1 & L2 & L3) HP. rewrite (seen_view _ _ _ _ L3) in HP. apply Permutation_sym, Permutation_map_inv in HP as (L' & E & HP).
  subst e'. exists L'. split; [eapply Permutation_NoDup; eauto|].
  assert (R' : forall j m, In (j, m) L' <-> in_range s rc i j m).
  { intros j m. rewrite <- L2. split; apply Permutation_in; auto. now apply Permutation_sym. }
  split; auto. apply (view_seen s rc). intros [j m] Hp. now apply R'.
Qed.
Lemma sumn_perm n (f : nat -> R) p : (forall i, (i < n)%nat -> (p i < n)%nat) ->
  (forall i j, (i < n)%nat -> (j < n)%nat -> p i = p j -> i = j) -> sumn n (fun i => f (p i)) = sumn n f.
Proof.
  intros Hp Hi. unfold sumn. rewrite <- (map_map p f). apply rsum_perm, Permutation_map.
  assert (ND : NoDup (map p (seq 0 n))).
  { assert (G : forall l, NoDup l -> (forall x, In x l -> (x < n)%nat) -> NoDup (map p l)).
    { induction 1 as [|x l H1 H2 IH]; intros Hl; cbn; [constructor|]. constructor.
      - intros H. apply in_map_iff in H as (y & E & Hy). apply Hi in E; [congruence| |]; apply Hl; cbn; auto.
      - apply IH. intros; apply Hl. now right. }
    apply G; [apply seq_NoDup|]. intros x Hx. apply in_seq in Hx. lia. }
  apply NoDup_Permutation_bis; auto.
  - rewrite map_length. auto.
  - intros y Hy. apply in_map_iff in Hy as (x & <- & Hx). apply in_seq in Hx. apply in_seq. specialize (Hp x). lia.
Qed.
Lemma onto n p : (forall i, (i < n)%nat -> (p i < n)%nat) -> (forall i j, (i < n)%nat -> (j < n)%nat -> p i = p j -> i = j) ->
  forall k, (k < n)%nat -> exists i, (i < n)%nat /\ p i = k.
Proof.
  intros Hp Hi k Hk.
  assert (G : incl (seq 0 n) (map p (seq 0 n))).
  { apply NoDup_length_incl.
    - assert (G : forall l, NoDup l -> (forall x, In x l -> (x < n)%nat) -> NoDup (map p l)).
      { induction 1 as [|x l H1 H2 IH]; intros Hl; cbn; [constructor|]. constructor.
        - intros H. apply in_map_iff in H as (y & E & Hy). apply Hi in E; [congruence| |]; apply Hl; cbn; auto.
        - apply IH. intros; apply Hl. now right. }
      apply G; [apply seq_NoDup|]. intros x Hx. apply in_seq in Hx. lia.
    - now rewrite map_length.
    - intros y Hy. apply in_map_iff in Hy as (x & <- & Hx). apply in_seq in Hx. apply in_seq. specialize (Hp x). lia. }
  specialize (G k ltac:(apply in_seq; lia)). apply in_map_iff in G as (i & E & Hin). apply in_seq in Hin. exists i. split; [lia|auto].
Qed.

(** ** The same system *)
Section Same.
Variables (g : vec -> vec) (p : nat -> nat) (s s' : structure).
Hypothesis HS : same_system g p s s'.
Hypothesis Hd : nice s.
Hypothesis Hd' : nice s'.
Let n := length (s_atoms s).
Let A := linear_part g.
Lemma same_iso : isometry g. Proof. exact (proj1 HS). Qed.
Lemma same_length : length (s_atoms s') = n. Proof. destruct HS as (_ & _ & _ & H & _). exact H. Qed.
Lemma same_periodic : s_periodic s' = s_periodic s. Proof. exact (proj1 (proj2 HS)). Qed.
Lemma same_inj i j : (i < n)%nat -> (j < n)%nat -> p i = p j -> i = j.
Proof. destruct HS as (_ & _ & _ & _ & H & _). apply H. Qed.
Lemma same_atom_at i : (i < n)%nat -> exists m, (p i < n)%nat /\ a_element (at_ s' (p i)) = a_element (at_ s i) /\
  a_r (at_ s' (p i)) = vadd (g (a_r (at_ s i))) (lattice (s_box s') m) /\ (s_periodic s = false -> m = (0, 0, 0)%Z).
Proof.
  intros Hi. destruct HS as (_ & _ & _ & L & _ & H). destruct (H i _ (at_some s i Hi)) as (a' & m & E & H1 & H2 & H3).
  exists m. rewrite (at_nth s' _ a' E). split; auto. fold n in L. rewrite <- L. apply nth_error_Some. congruence.
Qed.
Lemma same_lt i : (i < n)%nat -> (p i < n)%nat.
Proof. intros Hi. destruct (same_atom_at i Hi) as (m & H & _). auto. Qed.
Lemma same_onto k : (k < n)%nat -> exists i, (i < n)%nat /\ p i = k.
Proof. apply onto; [apply same_lt|apply same_inj]. Qed.

Definition matched (i : nat) (q q' : nat * image) : Prop :=
  site s q /\ site s' q' /\ fst q' = p (fst q) /\ snd (view s' (p i) q') = A (snd (view s i q)).
Lemma image_unique st i j m m' : nice st -> site st (j, m) -> site st (j, m') -> snd (view st i (j, m)) = snd (view st i (j, m')) -> m = m'.
Proof.
  intros Hn [_ S1] [_ S2]. rewrite !view_snd. cbn [fst snd] in *. intros E. unfold nice in Hn. destruct (s_periodic st).
  - apply (lattice_inj (s_box st)); [auto|]. 
    transitivity (vsub (vadd (vsub (a_r (at_ st i)) (a_r (at_ st j))) (lattice (s_box st) m)) (vsub (a_r (at_ st i)) (a_r (at_ st j)))); [vring|].
    rewrite E. vring.
  - now rewrite S1, S2.
Qed.
Section Atom.
Variable i : nat.
Hypothesis Hi : (i < n)%nat.
Lemma matched_total q : site s q -> exists q', matched i q q'.
Proof.
  destruct q as [j m]. intros Hq. assert (Hj := proj1 Hq). assert (Hm := proj2 Hq). cbn [fst snd] in Hj, Hm. fold n in Hj.
  destruct (same_atom_at i Hi) as (ki & _ & _ & Ri & Ki). destruct (same_atom_at j Hj) as (kj & Lj & _ & Rj & Kj).
  assert (X : exists h, lattice (s_box s') h = A (lattice (s_box s) m) /\ (s_periodic s = false -> h = (0, 0, 0)%Z)).
  { destruct (s_periodic s) eqn:Ep.
    - destruct HS as (_ & _ & Hl & _). destruct (proj1 (Hl Ep) m) as (h & Eh). exists h. split; auto. discriminate.
    - exists (0, 0, 0)%Z. rewrite (Hm eq_refl), !lattice_0. split; auto. unfold A. now rewrite lp_zero. }
  destruct X as (h & Eh & Hh). exists (p j, iadd (isub h ki) kj). split; auto. split; [|split; [reflexivity|]].
  - split; cbn [fst snd].
    + now rewrite same_length.
    + intros Ep. rewrite same_periodic in Ep. rewrite (Hh Ep), (Ki Ep), (Kj Ep). reflexivity.
  - rewrite !view_snd. cbn [fst snd]. rewrite lattice_iadd, lattice_isub, Eh, Ri, Rj. unfold A.
    rewrite (lp_add g same_iso), (lp_sub g same_iso). rewrite (g_lp g (a_r (at_ s i))), (g_lp g (a_r (at_ s j))). vring.
Qed.
Lemma matched_onto q' : site s' q' -> exists q, matched i q q'.
Proof.
  destruct q' as [j' m']. intros Hq. assert (Hj := proj1 Hq). assert (Hm := proj2 Hq). cbn [fst snd] in Hj, Hm. rewrite same_length in Hj.
  destruct (same_onto j' Hj) as (j & Lj & <-).
  destruct (same_atom_at i Hi) as (ki & _ & _ & Ri & Ki). destruct (same_atom_at j Lj) as (kj & _ & _ & Rj & Kj).
  assert (X : exists m, lattice (s_box s') (isub (iadd m' ki) kj) = A (lattice (s_box s) m) /\ (s_periodic s = false -> m = (0, 0, 0)%Z)).
  { destruct (s_periodic s) eqn:Ep.
    - destruct HS as (_ & _ & Hl & _). destruct (proj2 (Hl Ep) (isub (iadd m' ki) kj)) as (h & Eh). exists h. split; auto. discriminate.
    - exists (0, 0, 0)%Z. rewrite (Ki eq_refl), (Kj eq_refl), Hm by (now rewrite same_periodic). cbn [iadd isub]. rewrite !lattice_0. split; auto. unfold A. now rewrite lp_zero. }
  destruct X as (m & Eh & Hh). exists (j, m). split; [|split; [auto|split; [reflexivity|]]].
  - split; cbn [fst snd]; auto.
  - rewrite !view_snd. cbn [fst snd]. rewrite lattice_isub, lattice_iadd in Eh. unfold A in *.
    rewrite (lp_add g same_iso), (lp_sub g same_iso), <- Eh, Ri, Rj. rewrite (g_lp g (a_r (at_ s i))), (g_lp g (a_r (at_ s j))). vring.
Qed.
Lemma matched_fun q q1 q2 : matched i q q1 -> matched i q q2 -> q1 = q2.
Proof.
  destruct q as [j m], q1 as [j1 m1], q2 as [j2 m2]. intros (S1 & S2 & E & V) (_ & S2' & E' & V'). cbn [fst] in *. subst j1 j2. f_equal.
  apply (image_unique s' (p i) (p j)); auto. congruence.
Qed.
Lemma matched_inj q1 q2 q' : matched i q1 q' -> matched i q2 q' -> q1 = q2.
Proof.
  destruct q' as [j m], q1 as [j1 m1], q2 as [j2 m2]. intros (S1 & S2 & E & V) (S1' & S2' & E' & V'). cbn [fst] in *.
  assert (j1 = j2). { apply same_inj; [apply S1|apply S1'|congruence]. } subst j2. f_equal.
  apply (image_unique s i j1); auto. apply (lp_inj g same_iso). unfold A in *. congruence.
Qed.
Lemma matched_self : matched i (i, (0, 0, 0)%Z) (p i, (0, 0, 0)%Z).
Proof.
  split; [split; auto|]. split; [split; auto; rewrite same_length; now apply same_lt|]. split; auto.
  rewrite !view_snd. cbn [fst snd]. rewrite !lattice_0, !vsub_self, vadd_0_l. unfold A. now rewrite lp_zero.
Qed.
Lemma matched_same q q' : matched i q q' -> fst (view s' (p i) q') = fst (view s i q) /\ snd (view s' (p i) q') = A (snd (view s i q)).
Proof.
  intros (S1 & S2 & E & V). split; auto. rewrite !view_fst, E. destruct (same_atom_at (fst q) (proj1 S1)) as (m & _ & H & _). auto.
Qed.
Theorem same_neighbourhood rc e : neighbourhood s rc i e -> neighbourhood s' rc (p i) (rotated g e).
Proof.
  apply (match_neighbourhood A s s' i (p i) (matched i)).
  - intros v. apply (lp_norm g same_iso).
  - intros q q' H. split; apply H.
  - apply matched_total.
  - apply matched_onto.
  - apply matched_fun.
  - apply matched_inj.
  - apply matched_self.
  - apply matched_same.
Qed.
Lemma same_self_image rc m : in_range s' rc (p i) (p i) m -> exists m0, in_range s rc i i m0.
Proof.
  intros H. destruct (matched_onto (p i, m)) as ([j m0] & Hm); [eapply in_range_site; eauto|].
  assert (j = i). { destruct Hm as ([Lj _] & _ & E & _). cbn in E. symmetry in E. now apply same_inj in E. } subst j. exists m0.
  apply (match_range A s s' i (p i) (matched i)) with (rc := rc) (q := (i, m0)) (q' := (p i, m)); auto.
  - intros v. apply (lp_norm g same_iso).
  - intros q q' HH. split; apply HH.
  - apply matched_fun.
  - apply matched_inj.
  - apply matched_self.
  - apply matched_same.
Qed.
End Atom.

(** Every environment in s' is one of s, rotated. *)
Lemma same_env_back rc i' e' : (i' < n)%nat -> neighbourhood s' rc i' e' -> exists i e, (i < n)%nat /\ i' = p i /\ neighbourhood s rc i e /\ e' = rotated g e.
Proof.
  intros Hi He. destruct (same_onto i' Hi) as (i & Li & <-). destruct (neighbourhood_exists s rc i Hd) as (e0 & H0).
  assert (H1 := same_neighbourhood i Li rc e0 H0). assert (HP := neighbourhood_unique _ _ _ _ _ H1 He). unfold rotated in HP.
  apply Permutation_sym, Permutation_map_inv in HP as (e & -> & HP). exists i, e. split; auto. split; auto. split; auto.
  eapply neighbourhood_permut; eauto.
Qed.
Lemma same_energies P rc en : has_atomic_energies P rc s (fun i => en (p i)) -> has_atomic_energies P rc s' en.
Proof.
  intros H i' e' Hi He. rewrite same_length in Hi. destruct (same_env_back rc i' e' Hi He) as (i & e & Li & -> & H1 & ->).
  rewrite (H i e Li H1). destruct (same_atom_at i Li) as (m & _ & -> & _).
  apply evaluate_ext. intros k. unfold sf_input. destruct (nth_error _ k) as [f|]; auto. f_equal.
  apply sf_value_congruent, (rotated_congruent g same_iso).
Qed.
Lemma preimage : exists r : nat -> nat, forall i, (i < n)%nat -> r (p i) = i.
Proof.
  destruct (choose_list (fun k i => (i < n)%nat /\ p i = k) n) as (l & L & F).
  { intros k Hk. destruct (same_onto k Hk) as (i & H); eauto. }
  exists (fun k => nth k l 0%nat). intros i Li. assert (Hp := same_lt i Li).
  destruct (F (p i) (nth (p i) l 0%nat)) as [H1 H2]; [apply nth_error_nth'; lia|]. now apply same_inj.
Qed.
Theorem same_energy P rc E : has_energy P rc s E -> has_energy P rc s' E.
Proof.
  intros HE. destruct (atomic_energies_exist P rc s Hd) as (en & Hen). destruct preimage as (r & Hr).
  assert (H' : has_atomic_energies P rc s' (fun k => en (r k))).
  { apply same_energies. intros i e Li He. rewrite (Hr i Li). now apply Hen. }
  assert (Hs := sum_is_energy P rc s' _ Hd' H'). rewrite same_length in Hs.
  replace E with (sumn n (fun k => en (r k))); auto.
  rewrite <- (sumn_perm n (fun k => en (r k)) p); [|apply same_lt|apply same_inj].
  rewrite (energy_is_sum P rc s en E Hen HE). apply sumn_ext. intros i Li. now rewrite (Hr i Li).
Qed.
Lemma same_everywhere P rc (Q : kind -> env -> Prop) : (forall k e e', congruent e e' -> Q k e -> Q k e') -> everywhere P rc s Q -> everywhere P rc s' Q.
Proof.
  intros HQ H i' a' e' f Ei He Hf. assert (Hi : (i' < n)%nat) by (rewrite <- same_length; apply nth_error_Some; congruence).
  destruct (same_env_back rc i' e' Hi He) as (i & e & Li & -> & H1 & ->).
  apply (HQ _ e); [apply rotated_congruent, same_iso|]. apply (H i _ e f (at_some s i Li) H1).
  rewrite <- (at_nth _ _ _ Ei) in Hf. destruct (same_atom_at i Li) as (m & _ & X & _). now rewrite X in Hf.
Qed.
Lemma same_input Z fs e : sf_input Z fs (rotated g e) = sf_input Z fs e.
Proof.
  apply functional_extensionality. intros k. unfold sf_input. destruct (nth_error fs k) as [f|]; auto. f_equal. symmetry.
  apply sf_value_congruent, (rotated_congruent g same_iso).
Qed.
Lemma same_regular P rc : regular_networks P rc s -> regular_networks P rc s'.
Proof.
  intros H i' a' e' Ei He. assert (Hi : (i' < n)%nat) by (rewrite <- same_length; apply nth_error_Some; congruence).
  destruct (same_env_back rc i' e' Hi He) as (i & e & Li & -> & H1 & ->). rewrite same_input.
  rewrite <- (at_nth _ _ _ Ei). destruct (same_atom_at i Li) as (m & _ & -> & _). apply (H i _ e (at_some s i Li) H1).
Qed.
Lemma same_no_self rc : no_self_image s rc -> no_self_image s' rc.
Proof.
  intros H i' m Hr. assert (Hi : (i' < n)%nat) by (rewrite <- same_length; destruct Hr as (a & _ & E & _); apply nth_error_Some; congruence).
  destruct (same_onto i' Hi) as (i & Li & <-). destruct (same_self_image i Li rc m Hr) as (m0 & H0). exact (H i m0 H0).
Qed.
End Same.

(** Moving the atoms of both. *)
Lemma same_displaced g p s s' u u' t : same_system g p s s' -> (forall i, (i < length (s_atoms s))%nat -> u' (p i) = linear_part g (u i)) ->
  same_system g p (displaced u t s) (displaced u' t s').
Proof.
  intros HS Hu. assert (HG := same_iso g p s s' HS). destruct HS as (H1 & H2 & H3 & H4 & H5 & H6).
  split; auto. split; [exact H2|]. split; [exact H3|]. split; [rewrite !displaced_length; auto|]. split; [rewrite displaced_length; auto|].
  intros i a Ha. rewrite displaced_atom in Ha. destruct (nth_error (s_atoms s) i) as [b|] eqn:Eb; [|discriminate]. injection Ha as <-.
  destruct (H6 i b Eb) as (b' & m & Eb' & X1 & X2 & X3). eexists. exists m. rewrite displaced_atom, Eb'. split; [reflexivity|].
  cbn [a_element a_r]. split; auto. split; auto. change (s_box (displaced u' t s')) with (s_box s'). rewrite X2, Hu by (apply nth_error_Some; congruence).
  rewrite (g_lp g (vadd (a_r b) (smul t (u i)))), (lp_add g HG), (lp_smul g HG), (g_lp g (a_r b)). vring.
Qed.
