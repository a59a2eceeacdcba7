(** The LAMMPS interface (C58): energies and forces. *)
From Coq Require Import Reals Lra ZArith List Lia Bool Arith Permutation.
From Coquelicot Require Import Coquelicot.
From Coq Require Import List.
From Verif Require Import Base.RealBase Base.Loop Base.Vec3 Base.SumR Model.NeuralNetwork Model.Geometry Model.NeighborList
  Model.SymFunctions Model.SymSetup Model.Forces Model.Units Model.LammpsInterface
  Spec.NetworkSpec Spec.SymSpec Spec.SetupSpec Spec.UnitsSpec Spec.ForceSpec Spec.LammpsSpec
  Proofs.NeighborProofs Proofs.NeighborMore Proofs.SymGrad Proofs.SymInv Proofs.UnitsProofs Proofs.ForceNet Proofs.ForceLocal Proofs.ForceAssembly Proofs.ForceProofs
  Proofs.LammpsAtom Proofs.LammpsProofs.
Import ListNotations.
Local Open Scope R_scope.

(** ** Lists *)
Lemma nth_Forall2 {A B} (R : A -> B -> Prop) l r : length r = length l ->
  (forall p a, nth_error l p = Some a -> exists b, nth_error r p = Some b /\ R a b) -> Forall2 R l r.
Proof.
  revert r. induction l as [|a l IH]; intros [|b r] L H; cbn in L; try lia; constructor.
  - destruct (H 0%nat a eq_refl) as (b' & E & Q). cbn in E. now injection E as ->.
  - apply IH; [lia|]. intros p c Hp. apply (H (S p) c Hp).
Qed.
Lemma Forall2_nth_l {A B} (R : A -> B -> Prop) l r : Forall2 R l r -> forall p a, nth_error l p = Some a -> exists b, nth_error r p = Some b /\ R a b.
Proof. induction 1; intros [|p] c; cbn; try discriminate; [intros [= <-]; eauto|eauto]. Qed.
Lemma sequence_Forall2 {A B} (f : A -> option B) (Q : A -> B -> Prop) l : (forall a, In a l -> exists b, f a = Some b /\ Q a b) ->
  exists r, sequence (map f l) = Some r /\ Forall2 Q l r.
Proof.
  induction l as [|a l IH]; intros H; cbn.
  - exists []. split; auto.
  - destruct (H a (or_introl eq_refl)) as (b & -> & Hb). destruct IH as (r & -> & F). { intros; apply H; now right. }
    exists (b :: r). split; auto.
Qed.
Lemma Forall2_trans' {A B C} (R : A -> B -> Prop) (S : B -> C -> Prop) (T : A -> C -> Prop) l m n : (forall a b c, R a b -> S b c -> T a c) ->
  Forall2 R l m -> Forall2 S m n -> Forall2 T l n.
Proof. intros H F. revert n. induction F; intros n G; inversion G; subst; constructor; eauto. Qed.
Lemma rsum_Forall2 {A B} (Q : A -> B -> Prop) (f : A -> R) (g : B -> R) l r : Forall2 Q l r -> (forall a b, Q a b -> f a = g b) ->
  rsum (map f l) = rsum (map g r).
Proof. induction 1; intros E; auto. cbn. rewrite (E x y) by auto. f_equal. apply IHForall2. auto. Qed.
Lemma Forall2_len {A B} (R : A -> B -> Prop) l r : Forall2 R l r -> length l = length r.
Proof. induction 1; cbn; auto. Qed.
Lemma Forall2_combine_in {A B} (R : A -> B -> Prop) l r a b : Forall2 R l r -> In (a, b) (List.combine l r) -> R a b.
Proof. induction 1; cbn; [tauto|]. intros [[= <- <-]|Hin]; auto. Qed.
Lemma rsum_fst {A B} (f : A -> R) (l : list A) (r : list B) : length r = length l -> rsum (map f l) = rsum (map (fun p => f (fst p)) (List.combine l r)).
Proof. revert r. induction l as [|a l IH]; intros [|b r] L; cbn in L |- *; try lia; auto. f_equal. apply IH. lia. Qed.
Lemma Forall2_in_l {A B} (R : A -> B -> Prop) l r : Forall2 R l r -> Forall2 (fun a b => In a l /\ R a b) l r.
Proof.
  induction 1 as [|a b l r Hab F IH]; constructor. { split; auto. now left. }
  clear - IH. assert (G : forall l', (forall c, In c l' -> In c l) -> forall l1 r1, Forall2 (fun c d => In c l' /\ R c d) l1 r1 -> Forall2 (fun c d => In c (a :: l) /\ R c d) l1 r1).
  { intros l' Hl l1 r1 F. induction F as [|c d l1 r1 [H1 H2] _ IH1]; constructor; auto. split; auto. right. auto. }
  apply (G l); auto.
Qed.

(** ** Sums over force arrays *)
Definition pairing (n : nat) (f u : nat -> vec) : R := sumn n (fun k => dot (f k) (u k)).
Lemma addTo_pairing n f k v u : (k < n)%nat -> pairing n (addTo f k v) u = pairing n f u + dot v (u k).
Proof.
  intros H. unfold pairing. rewrite (sumn_ext n _ (fun j => dot (f j) (u j) + (if Nat.eqb j k then dot v (u k) else 0))).
  - rewrite sumn_plus. f_equal. rewrite (sumn_single n _ k H).
    + now rewrite Nat.eqb_refl.
    + intros j _ Hj. destruct (Nat.eqb_spec j k); congruence.
  - intros j _. unfold addTo. destruct (Nat.eqb_spec j k) as [->|Hj]; [rewrite upd_same, dot_vadd_l; ring|rewrite upd_other by auto; ring].
Qed.
Lemma ofold_pairing {A} n (ok : nat -> Prop) (g : A -> (nat -> vec) -> option (nat -> vec)) (h : A -> (nat -> vec) -> R) l :
  (forall a f, In a l -> exists f', g a f = Some f' /\ (forall u, pairing n f' u = pairing n f u + h a u) /\ forall k, ~ ok k -> f' k = f k) ->
  forall f, exists f', ofold g l f = Some f' /\ (forall u, pairing n f' u = pairing n f u + rsum (map (fun a => h a u) l)) /\ forall k, ~ ok k -> f' k = f k.
Proof.
  induction l as [|a l IH]; intros H f; cbn [ofold map rsum].
  - exists f. split; auto. split; auto. intros u. cbn. lra.
  - destruct (H a f (or_introl eq_refl)) as (f1 & E & D & K). rewrite E.
    destruct (IH ltac:(intros; apply H; now right) f1) as (f2 & E2 & D2 & K2). exists f2. split; auto. split.
    + intros u. rewrite D2, D. cbn. ring.
    + intros k Hk. rewrite K2, K by auto. reflexivity.
Qed.
Lemma PD_smul e x k m s w : PD e x k m (smul s w) = s * PD e x k m w.
Proof.
  unfold PD. rewrite Ropp_mult_distr_r_reverse, <- sumn_scal. f_equal. apply sumn_ext. intros c _. unfold entry.
  destruct (nth_error _ _); [|ring]. destruct (depends _ _); [|ring]. rewrite dot_comm, dot_smul_l, dot_comm. ring.
Qed.
Lemma atom_work_smul N P x s u v : atom_work N P x (smul s u) (fun k => smul s (v k)) = s * atom_work N P x u v.
Proof.
  unfold atom_work. rewrite dot_comm, dot_smul_l, dot_comm, Rmult_plus_distr_l. f_equal. rewrite <- sumn_scal. apply sumn_ext.
  intros k _. unfold nthR. destruct (nth_error _ _); [|ring]. apply PD_smul.
Qed.

Section Interface.
Variables (I : interface) (P : potential) (types : nat -> nat) (nlocal nall N : nat) (rc : R) (x : nat -> vec) (tags : nat -> Z).
Hypothesis HC : configured I types nlocal nall N.
Hypothesis Hrc : 0 <= rc.
Hypothesis HP : sensible N (rc * length_unit I) P.
Let act := active_atoms I types nlocal.
Let el := element_of I types.
Let elems := setupMemoryAll N (map (p_fs P) (seq 0 N)).
Let nb := nb_of I types x tags.

(** What is stored for atom i. *)
Definition has_neighbors (i : nat) (a : atom) : Prop :=
  a_element a = el i /\ a_numN a = length (a_nbs a) /\ a_cutoffs a = [] /\
  exists l, a_nbs a = map (nb i) l /\ Permutation l (filter (near I types rc x i) (seq 0 nall)).
Lemma has_good i a : has_neighbors i a -> good_list a /\ forall r, getStoredMinNumNeighbors a r = length (a_nbs a).
Proof.
  intros (_ & A & B & l & C & _). assert (G : forall r, getStoredMinNumNeighbors a r = length (a_nbs a)).
  { intros r. unfold getStoredMinNumNeighbors. now rewrite B. }
  split; auto. split; auto. split.
  - intros n. rewrite C. intros Hn. apply in_map_iff in Hn as (j & <- & _). reflexivity.
  - intros r. rewrite G, A. split; auto. intros j n Hj E. apply nth_error_None in Hj. congruence.
Qed.
Lemma has_env i a : has_neighbors i a -> Permutation (env_of (a_nbs a)) (environment I types nall rc x i).
Proof.
  intros (_ & _ & _ & l & C & Pm). rewrite C. unfold env_of, environment. rewrite map_map.
  apply (Permutation_map (fun j => (element_of I types j, smul (length_unit I) (vsub (x i) (x j))))) in Pm. exact Pm.
Qed.
Lemma near_in i j : In j (filter (near I types rc x i) (seq 0 nall)) -> (j < nall)%nat /\ j <> i /\ active I types j = true /\ norm (vsub (x i) (x j)) <= rc.
Proof.
  intros H. apply filter_In in H as [H1 H2]. apply in_seq in H1. unfold near in H2. destruct (Rle_dec _ _); [|discriminate].
  apply andb_true_iff in H2 as [H2 H3]. apply negb_true_iff, Nat.eqb_neq in H2. repeat split; auto. lia.
Qed.
Lemma has_index i a m : has_neighbors i a -> In m (a_nbs a) ->
  (nb_index m < nall)%nat /\ active I types (nb_index m) = true /\ nb_index m <> i /\ nb_element m = el (nb_index m) /\ nb_tag m = tags (nb_index m) /\ (nb_element m < N)%nat.
Proof.
  intros (_ & _ & _ & l & C & Pm). rewrite C. intros H. apply in_map_iff in H as (j & <- & Hj).
  apply (Permutation_in _ Pm) in Hj. apply near_in in Hj as (H1 & H2 & H3 & _). cbn. repeat split; auto.
  destruct HC as (_ & _ & _ & _ & _ & _ & H). now apply H.
Qed.

Hypothesis Hev : all_environments I P types nlocal nall rc x evaluable.
Definition evaluated (i : nat) (y : eatom) : Prop := In i act /\ has_neighbors i (e_atom y) /\ sf_done N P (e_atom y) (e_store y) /\ net_done P y.
Lemma act_element i : In i act -> (el i < N)%nat.
Proof. intros H. apply act_in in H as [H1 H2]. destruct HC as (_ & _ & _ & _ & _ & Hle & H). apply H; auto. lia. Qed.

Lemma stages atoms : Forall2 has_neighbors act atoms -> exists xs ys nets', calculateSymmetryFunctions (p_weight P) elems atoms = Some xs /\
  atomicNetworks (p_net P) xs = (ys, nets') /\ Forall2 evaluated act ys.
Proof.
  intros F. apply Forall2_in_l in F.
  destruct (sequence_Forall2 (sf_atom (p_weight P) elems) (fun a y => e_atom y = a /\ sf_done N P a (e_store y)) atoms) as (xs & Ex & Fx).
  { intros a Ha. destruct (Forall2_in_r _ _ _ a F Ha) as (i & _ & Hi & Hn).
    destruct (has_good i a Hn) as (Hg & _). destruct (sf_stage N (rc * length_unit I) P HP a) as (st & E & D); auto.
    - destruct Hn as (-> & _). now apply act_element.
    - intros m Hm. now apply (has_index i a m Hn).
    - intros f Hf. apply (Hev i); auto.
      + now apply has_env.
      + destruct Hn as (E & _). now rewrite E in Hf.
    - eexists. split; [exact E|]. auto. }
  destruct (atomicNetworks (p_net P) xs) as [ys nets'] eqn:En. exists xs, ys, nets'. split; [exact Ex|]. split; auto.
  set (s0 := mkStruct false (mkMat vzero vzero vzero) [] N false false 0).
  pose proof (net_stage N (rc * length_unit I) P s0 HP eq_refl xs (p_net P) (fun e _ => alike_refl _)) as HN2.
  specialize (HN2 ltac:(intros y Hy; destruct (Forall2_in_r _ _ _ y Fx Hy) as (a & Ha & -> & _);
     destruct (Forall2_in_r _ _ _ a F Ha) as (i & _ & Hi & (-> & _)); now apply act_element) ys nets' En).
  refine (Forall2_trans' _ _ _ _ _ _ _ F (Forall2_trans' _ _ (fun a y => e_atom y = a /\ sf_done N P a (e_store y) /\ net_done P y) _ _ _ _ Fx HN2)).
  - intros i a y [Hi Hn] (<- & S1 & S2). unfold evaluated. auto.
  - intros a b c (<- & S1) (E1 & E2 & _ & S2). rewrite E2. auto.
Qed.

Lemma evaluated_energy i y : evaluated i y ->
  e_energy y = atomic_energy (p_weight P) (p_fs P (el i)) (p_net P (el i)) (environment I types nall rc x i).
Proof.
  intros (Hi & Hn & SD & ND). assert (E : a_element (e_atom y) = el i) by apply Hn.
  rewrite (atom_energy_ok N (rc * length_unit I) P HP y); auto.
  - rewrite E. apply atomic_energy_permut. now apply has_env.
  - rewrite E. now apply act_element.
Qed.

(** ** Forces *)
Definition shift_of (u : nat -> vec) (y : eatom) (k : nat) : vec :=
  match nth_error (a_nbs (e_atom y)) k with Some m => u (nb_index m) | None => vzero end.
Lemma forces_of maxrc i t y f : evaluated i y -> exists f', forcesOf I elems maxrc (i, t, y) f = Some f' /\
  (forall u, pairing nall f' u = pairing nall f u + forceFactor I * atom_work N P y (u i) (shift_of u y)) /\
  (forall k, ~ ((k < nall)%nat /\ active I types k = true) -> f' k = f k).
Proof.
  intros (Hi & Hn & SD & ND). assert (E : a_element (e_atom y) = el i) by apply Hn. pose proof (act_element i Hi) as Hel.
  destruct (has_good _ _ Hn) as (_ & Gs). apply act_in in Hi as [Hi1 Hi2].
  assert (Hi3 : (i < nall)%nat) by (destruct HC as (_ & _ & _ & _ & _ & Hle & _); lia).
  unfold forcesOf. rewrite E. assert (EE := elem_at N P (el i) Hel). fold elems in EE. rewrite EE, Gs.
  destruct (HP _ Hel) as ((_ & Hnum & _) & _).
  destruct (ofold_pairing nall (fun k => (k < nall)%nat /\ active I types k = true)
    (fun k f => match nth_error (a_nbs (e_atom y)) k with
      | None => None
      | Some n => match pairForce (el_of N P (el i)) y k n with
                  | None => None
                  | Some p => Some (addTo f (nb_index n) (smul (forceFactor I) p))
                  end
      end) (fun k u => forceFactor I * nthR (a_nbs (e_atom y)) (fun m => PD (el_of N P (el i)) y k m (shift_of u y k)) k)
      (seq 0 (length (a_nbs (e_atom y)))) ) with (f := addTo f i (smul (forceFactor I) (selfForce (length (el_fs (el_of N P (el i)))) y)))
      as (f' & Ef & D & K).
  { intros k g Hk. apply in_seq in Hk. destruct (nth_error (a_nbs (e_atom y)) k) as [m|] eqn:Em; [|apply nth_error_None in Em; lia].
    destruct (has_index i _ m Hn (nth_error_In _ _ Em)) as (I1 & I2 & _ & _ & _ & I3).
    destruct (pairForce_ok N (p_fs P (el i)) (el_of N P (el i)) y k m Hnum (el_of_memory N P (el i)) I3) as (p & -> & Dp).
    eexists. split; [reflexivity|]. split.
    - intros u. rewrite addTo_pairing by auto. rewrite dot_smul_l, Dp. unfold nthR, shift_of. rewrite Em. reflexivity.
    - intros q Hq. unfold addTo. apply upd_other. intros ->. auto. }
  exists f'. split; [exact Ef|]. split.
  - intros u. rewrite D, addTo_pairing by auto. rewrite dot_smul_l. unfold atom_work. rewrite E. unfold sumn.
    rewrite rsum_scal. ring.
  - intros k Hk. rewrite K by auto. unfold addTo. apply upd_other. intros ->. auto.
Qed.

(** ** Displacements *)
Definition moved (u : nat -> vec) (t : R) : nat -> vec := fun k => vadd (x k) (smul t (u k)).
Lemma near_moved u : exists d, 0 < d /\ forall t, Rabs t < d -> forall i l, (i < nall)%nat ->
  Permutation l (filter (near I types rc x i) (seq 0 nall)) ->
  Permutation (environment I types nall rc (moved u t) i)
    (filter (within (rc * length_unit I)) (map (fun j => (el j, smul (length_unit I) (vsub (moved u t i) (moved u t j)))) l)).
Proof.
  destruct (finite_gap (fun p => norm (vsub (x (fst p)) (x (snd p)))) rc (list_prod (seq 0 nall) (seq 0 nall))) as (g & Hg & G).
  destruct (shift_bound u nall) as (U & HU & HS). exists (g / U). split; [apply Rdiv_lt_0_compat; auto|].
  intros t Ht i l Hi Pm.
  assert (HtU : Rabs t * U < g). { apply (Rmult_lt_compat_r U) in Ht; auto. unfold Rdiv in Ht. rewrite Rmult_assoc, Rinv_l in Ht by lra. lra. }
  set (xt := moved u t) in *. pose proof (unit_pos I types nlocal nall N HC) as Up.
  assert (F : forall (f : nat -> nat * vec) p l, filter p (map f l) = map f (filter (fun x => p (f x)) l)).
  { intros f p k. induction k as [|a k IH]; cbn; auto. destruct (p (f a)); cbn; now rewrite IH. }
  unfold environment. rewrite F. apply Permutation_map. apply NoDup_Permutation.
  - apply NoDup_filter, seq_NoDup.
  - apply NoDup_filter. eapply Permutation_NoDup; [apply Permutation_sym, Pm|]. apply NoDup_filter, seq_NoDup.
  - assert (W : forall j, within (rc * length_unit I) (el j, smul (length_unit I) (vsub (xt i) (xt j))) = true <-> norm (vsub (xt i) (xt j)) <= rc).
    { intros j. rewrite within_true. cbn [snd]. rewrite norm_smul_pos by auto. split; intros H.
      - now apply (Rmult_le_reg_r (length_unit I)).
      - now apply Rmult_le_compat_r; [lra|]. }
    assert (Hin : forall j, In j l <-> In j (filter (near I types rc x i) (seq 0 nall))).
    { intros j. split; apply Permutation_in; auto. now apply Permutation_sym. }
    intros j. rewrite (filter_In _ j l), W, Hin, !filter_In, in_seq. split.
    + intros [Hj Hn]. unfold near in *. destruct (Rle_dec (norm (vsub (xt i) (xt j))) rc) as [Hr|]; [|discriminate].
      split; auto. split; auto. destruct (Rle_dec (norm (vsub (x i) (x j))) rc) as [|Hno]; auto. exfalso.
      specialize (G (i, j)). cbn [fst snd] in G. specialize (G ltac:(apply in_prod; apply in_seq; lia) ltac:(lra)).
      assert (norm (vsub (x i) (x j)) <= norm (vsub (xt i) (xt j)) + Rabs t * U).
      { replace (vsub (x i) (x j)) with (vadd (vsub (xt i) (xt j)) (vopp (smul t (vsub (u i) (u j))))) by (unfold xt, moved; vring).
        eapply Rle_trans; [apply norm_triangle|]. rewrite norm_opp, norm_smul. apply Rplus_le_compat_l.
        apply Rmult_le_compat_l; [apply Rabs_pos|]. apply HS; auto. lia. }
      lra.
    + intros [[Hj Hn] Hr]. split; auto. unfold near in *. destruct (Rle_dec (norm (vsub (x i) (x j))) rc); [|discriminate].
      destruct (Rle_dec (norm (vsub (xt i) (xt j))) rc); [auto|contradiction].
Qed.
Lemma displaced_list u t i l : displace (smul (length_unit I) (u i)) (fun k => match nth_error l k with Some j => smul (length_unit I) (u j) | None => vzero end) t
    (env_of (map (nb i) l)) = map (fun j => (el j, smul (length_unit I) (vsub (moved u t i) (moved u t j)))) l.
Proof.
  unfold displace, env_of. rewrite !map_length, map_map.
  assert (H : forall l o (v : nat -> vec), (forall k j, nth_error l k = Some j -> v (o + k)%nat = smul (length_unit I) (u j)) ->
    map (fun jn => (fst (snd jn), vadd (snd (snd jn)) (smul t (vsub (smul (length_unit I) (u i)) (v (fst jn))))))
       (List.combine (seq o (length l)) (map (fun j => (nb_element (nb i j), nb_dr (nb i j))) l)) =
    map (fun j => (el j, smul (length_unit I) (vsub (moved u t i) (moved u t j)))) l).
  { clear l. induction l as [|j l IH]; intros o v Hv; auto. cbn [map length seq List.combine fst snd]. f_equal.
    - specialize (Hv 0%nat j eq_refl). rewrite Nat.add_0_r in Hv. rewrite Hv. cbn [nb nb_of nb_element nb_dr]. unfold nb, nb_of, moved.
      cbn [nb_element nb_dr]. f_equal. vring.
    - apply IH. intros k m Em. rewrite <- (Hv (S k) m) by exact Em. f_equal. lia. }
  apply (H l 0%nat (fun k => match nth_error l k with Some j => smul (length_unit I) (u j) | None => vzero end)). intros k j Hk. cbn. now rewrite Hk.
Qed.

Hypothesis Hsmooth : all_environments I P types nlocal nall rc x smooth_at.
Hypothesis Hreg : differentiable_networks I P types nlocal nall rc x.
Lemma energy_curve u : exists d, 0 < d /\ forall i y, evaluated i y ->
  (forall t, Rabs t < d -> atomic_energy (p_weight P) (p_fs P (el i)) (p_net P (el i)) (environment I types nall rc (moved u t) i) =
     atomic_energy (p_weight P) (p_fs P (el i)) (p_net P (el i)) (displace (smul (length_unit I) (u i)) (fun k => smul (length_unit I) (shift_of u y k)) t (env_of (a_nbs (e_atom y))))) /\
  is_derive (fun t => atomic_energy (p_weight P) (p_fs P (el i)) (p_net P (el i)) (displace (smul (length_unit I) (u i)) (fun k => smul (length_unit I) (shift_of u y k)) t (env_of (a_nbs (e_atom y))))) 0
    (- (length_unit I * atom_work N P y (u i) (shift_of u y))).
Proof.
  destruct (near_moved u) as (d & Hd & Hm). exists d. split; auto. intros i y Hy. assert (Hy' := Hy). destruct Hy' as (Hi & Hn & SD & ND).
  assert (E : a_element (e_atom y) = el i) by apply Hn. pose proof (act_element i Hi) as Hel.
  split.
  - intros t Ht. apply evaluate_ext. intros c. unfold sf_input. destruct (nth_error (p_fs P (el i)) c) as [f|] eqn:Ef; auto. f_equal.
    destruct (HP _ Hel) as ((_ & _ & Hf) & _). destruct (Hf f (nth_error_In _ _ Ef)) as (_ & Ha & _ & Hc).
    destruct Hn as (_ & _ & _ & l & Cn & Pm).
    assert (ED : displace (smul (length_unit I) (u i)) (fun k => smul (length_unit I) (shift_of u y k)) t (env_of (a_nbs (e_atom y))) =
      map (fun j => (el j, smul (length_unit I) (vsub (moved u t i) (moved u t j)))) l).
    { rewrite <- displaced_list, Cn. unfold displace. apply map_ext_in. intros [k [a b]] Hin. cbn [fst snd]. do 4 f_equal.
      unfold shift_of. rewrite Cn, nth_error_map.
      assert (Hk : (k < length l)%nat). { apply in_combine_l in Hin. unfold env_of in Hin. rewrite !map_length in Hin. apply in_seq in Hin. lia. }
      destruct (nth_error l k) eqn:Ek; [reflexivity|apply nth_error_None in Ek; lia]. }
    rewrite ED, (sf_value_permut _ _ _ _ (Hm t Ht i l ltac:(apply act_in in Hi; destruct HC as (_ & _ & _ & _ & _ & Hle & _); lia) Pm)).
    symmetry. now apply sf_value_within.
  - destruct (has_good _ _ Hn) as (Hg & _).
    pose proof (atom_derive N (rc * length_unit I) P HP y ltac:(rewrite E; exact Hel) Hg SD ND
      (smul (length_unit I) (u i)) (fun k => smul (length_unit I) (shift_of u y k))) as D.
    rewrite E in D. rewrite atom_work_smul in D. apply D.
    + intros f Hf. apply (Hsmooth i); auto. now apply has_env.
    + apply (Hreg i); auto. now apply has_env.
Qed.
End Interface.

(** ** Whole computation *)
Section Compute.
Variables (I : interface) (P : potential) (types : nat -> nat) (nlocal nall N : nat) (rc : R) (x : nat -> vec) (tags : nat -> Z).
Variables (nlist : list (nat * list nat)) (maxrc : R) (f0 : nat -> vec).
Hypothesis HC : configured I types nlocal nall N.
Hypothesis Hrc : 0 <= rc.
Hypothesis HP : sensible N (rc * length_unit I) P.
Hypothesis Hfull : full_list nlocal nall rc x nlist.
Let act := active_atoms I types nlocal.
Let el := element_of I types.
Let elems := setupMemoryAll N (map (p_fs P) (seq 0 N)).

Lemma counts_offset (l : list nat) (offsets : list R) (perEl : list nat) : length perEl = N -> length offsets = N ->
  (forall i, In i l -> (el i < N)%nat) -> (forall e, nth e perEl 0%nat = length (filter (fun i => Nat.eqb (el i) e) l)) ->
  rsum (map (fun p => INR (fst p) * snd p) (List.combine perEl offsets)) = rsum (map (fun i => nth (el i) offsets 0) l).
Proof.
  intros L1 L2 Hel HC'.
  transitivity (sumn N (fun e => INR (nth e perEl 0%nat) * nth e offsets 0)).
  { rewrite (rsum_nth (0%nat, 0)). rewrite combine_length, L1, L2, Nat.min_id. apply sumn_ext. intros e He.
    rewrite combine_nth by congruence. reflexivity. }
  rewrite (sumn_ext N _ (fun e => rsum (map (fun i => if Nat.eqb (el i) e then nth e offsets 0 else 0) l))).
  - clear HC' L1 L2 perEl. unfold sumn. induction l as [|i l IH]; cbn [map rsum fold_right].
    + rewrite rsum_zero; auto.
    + change (rsum (map (fun e => (if Nat.eqb (el i) e then nth e offsets 0 else 0) + rsum (map (fun j => if Nat.eqb (el j) e then nth e offsets 0 else 0) l)) (seq 0 N)) =
        nth (el i) offsets 0 + rsum (map (fun i => nth (el i) offsets 0) l)).
      rewrite rsum_plus, IH by (intros; apply Hel; now right). f_equal.
      change (sumn N (fun e => if Nat.eqb (el i) e then nth e offsets 0 else 0) = nth (el i) offsets 0).
      rewrite (sumn_single N _ (el i)).
      * rewrite Nat.eqb_refl. reflexivity.
      * apply Hel. now left.
      * intros k _ Hk. destruct (Nat.eqb_spec (el i) k); congruence.
  - intros e _. rewrite HC'. clear HC' L1 L2 Hel. induction l as [|i l IH]; cbn [filter map rsum fold_right]; [cbn; ring|].
    destruct (Nat.eqb (el i) e); cbn [length]; [rewrite S_INR|]; fold (rsum (map (fun i => if Nat.eqb (el i) e then nth e offsets 0 else 0) l)); rewrite <- IH; ring.
Qed.

Theorem compute_ok : all_environments I P types nlocal nall rc x evaluable ->
  exists r f', compute I (p_weight P) elems (p_net P) maxrc rc nlocal types tags x nlist f0 =
      Some (r, total_energy I P types nlocal nall rc x, f') /\
    length (lr_atoms r) = length act /\
    (forall p i, nth_error act p = Some i -> listed_atom I P types nall rc x tags r p i) /\
    (forall k, ~ ((k < nall)%nat /\ active I types k = true) -> f' k = f0 k) /\
    (all_environments I P types nlocal nall rc x smooth_at -> differentiable_networks I P types nlocal nall rc x ->
     forall u, is_derive (fun t => total_energy I P types nlocal nall rc (fun k => vadd (x k) (smul t (u k)))) 0
                 (- sumn nall (fun k => dot (vsub (f' k) (f0 k)) (u k)))).
Proof.
  intros Hev. destruct (locals_ok I types nlocal nall N HC) as (s0 & E0 & (A0 & A1 & A2 & A3 & A4)).
  set (per0 := ls_perEl s0) in *. set (map0 := ls_map s0) in *.
  assert (Hmap : forall i, (i < nlocal)%nat -> nth_error map0 i =
    Some (if active I types i then Some (length (filter (active I types) (seq 0 i))) else None)).
  { intros i Hi. rewrite (A2 i Hi). assert (X : Nat.ltb i nlocal = true) by now apply Nat.ltb_lt. now rewrite X. }
  assert (F0 : filled I types nlocal N x tags per0 map0 (fun _ => []) (setLocalTags tags s0)).
  { split; auto. split; auto. unfold setLocalTags. cbn [ls_atoms]. split; [rewrite mapi_length, A0, map_length; reflexivity|].
    intros p i Hp. exists (repeat 0%nat N). split; [apply repeat_length|]. rewrite nth_error_mapi, A0, nth_error_map.
    change (filter (active I types) (seq 0 nlocal)) with (active_atoms I types nlocal). rewrite Hp. reflexivity. }
  pose proof Hfull as Hf2; destruct Hf2 as (N1 & N2 & N3).
  destruct (outer_ok I types nlocal nall N HC rc x tags per0 map0 Hmap nlist N1) with (L := fun _ : nat => @nil nat) (s := setLocalTags tags s0) as (s1 & L' & E1 & F1 & G1 & _); auto.
  { intros i js Hin. split; [apply N2; apply in_map_iff; exists (i, js); auto|]. intros j Hj. now apply (N3 i js Hin). }
  assert (FL : Forall2 (fun i a => la_index a = i /\ has_neighbors I types nall rc x tags i (la_atom a)) act (ls_atoms s1)).
  { destruct F1 as (_ & _ & B1 & B2). apply nth_Forall2; auto. intros p i Hp. destruct (B2 p i Hp) as (per & _ & Eb). eexists. split; [exact Eb|].
    split; [reflexivity|]. split; [reflexivity|]. split; [cbn; now rewrite map_length|]. split; [reflexivity|]. exists (L' i). split; [reflexivity|].
    assert (Hi : In i act) by (eapply nth_error_In; eauto). apply act_in in Hi as [Hi _]. apply N2 in Hi. apply in_map_iff in Hi as ([i' js] & <- & Hin).
    cbn [fst]. rewrite (G1 _ _ Hin). apply (kept_all I types nlocal nall rc x tags Hrc nlist i' js); auto. }
  assert (FA : Forall2 (has_neighbors I types nall rc x tags) act (map la_atom (ls_atoms s1))).
  { clear - FL. induction FL as [|? ? ? ? [_ H]]; constructor; auto. }
  destruct (stages I P types nlocal nall N rc x tags HC HP Hev _ FA) as (xs & ys & nets' & Ex & En & FE).
  destruct F1 as (B0 & B1 & B2 & B3).
  assert (Ly : length ys = length act) by (symmetry; eapply Forall2_len; eauto).
  pose proof (fun i y => evaluated_energy I P types nlocal nall N rc x tags HC HP i y) as EE.
  assert (Hcf : if_cfenergy I <> 0) by apply HC.
  assert (Hcv : if_normalize I = true -> if_convEnergy I <> 0) by (intros H; destruct HC as (_ & _ & H' & _); now apply H').
  set (q := energyStructure (ls_perEl s1) (length (ls_atoms s1)) (calculateEnergy ys)).
  set (q' := if if_normalize I then set_energies q (physicalEnergy (if_mean I) (if_convEnergy I) q false) (qs_energyRef q) else q).
  assert (LO : length (if_offsets I) = N) by apply HC.
  assert (Ep : qs_perElement q' = per0) by (unfold q'; destruct (if_normalize I); cbn; exact B0).
  assert (Eo : addEnergyOffset (if_offsets I) false q' = Some (set_energies q' (qs_energy q' + composition_offset (if_offsets I) q') (qs_energyRef q'))).
  { unfold addEnergyOffset, shift_energy. rewrite (offset_loop_spec Rplus 1); [|intros; ring|rewrite Ep, A3, LO; lia].
    do 3 f_equal. ring. }
  set (r := mkLResult (List.combine (map (fun a => (la_index a, la_tag a)) (ls_atoms s1)) ys) (qs_energy q' + composition_offset (if_offsets I) q')).
  assert (Epr : process I (p_weight P) elems (p_net P) s1 = Some r).
  { unfold process. unfold elems. rewrite Ex, En. fold q. fold q'. rewrite Eo. reflexivity. }
  assert (Hr : forall p i, nth_error act p = Some i -> exists y, nth_error (lr_atoms r) p = Some (i, tags p, y) /\ evaluated I P types nlocal nall N rc x tags i y).
  { intros p i Hp. destruct (Forall2_nth_l _ _ _ FE p i Hp) as (y & Hy & He). exists y. split; auto.
    unfold r. cbn [lr_atoms]. destruct (B3 p i Hp) as (per & _ & Eb).
    assert (G : forall (A B : Type) (l : list A) (m : list B) p a b, nth_error l p = Some a -> nth_error m p = Some b -> nth_error (List.combine l m) p = Some (a, b)).
    { clear. induction l as [|a l IH]; intros [|b m] [|p] c d; cbn; try discriminate; [congruence|apply IH]. }
    apply G; auto. rewrite nth_error_map, Eb. reflexivity. }
  assert (Lr : length (lr_atoms r) = length act) by (unfold r; cbn [lr_atoms]; rewrite combine_length, map_length, B2, Ly; apply Nat.min_id).
  assert (FR : Forall2 (fun i a => exists t y, a = (i, t, y) /\ evaluated I P types nlocal nall N rc x tags i y) act (lr_atoms r)).
  { apply nth_Forall2; auto. intros p i Hp. destruct (Hr p i Hp) as (y & Hy & He). eauto 10. }
  destruct (ofold_pairing nall (fun k => (k < nall)%nat /\ active I types k = true) (forcesOf I elems maxrc)
     (fun a u => forceFactor I * atom_work N P (snd a) (u (fst (fst a))) (shift_of u (snd a))) (lr_atoms r)) with (f := f0) as (f' & Ef & D & K).
  { intros a f Ha. destruct (Forall2_in_r _ _ _ a FR Ha) as (i & _ & t & y & -> & He).
    apply (forces_of I P types nlocal nall N rc x tags HC HP maxrc i t y f He). }
  assert (Etot : getEnergy I r = total_energy I P types nlocal nall rc x).
  { unfold getEnergy, total_energy. fold act. unfold r. cbn [lr_energy]. unfold composition_offset. rewrite Ep.
    rewrite (counts_offset act (if_offsets I) per0 A3 LO); [|intros i Hi; now apply (act_element I types nlocal nall N HC)|exact A4].
    unfold atom_energy. rewrite !rsum_plus. unfold offset_energy.
    rewrite (rsum_ext (fun i => nth (element_of I types i) (if_offsets I) 0 / if_cfenergy I) (fun i => / if_cfenergy I * nth (el i) (if_offsets I) 0)) by (intros; unfold el; field; auto).
    rewrite rsum_scal.
    assert (Ec : qs_energy q' = (if if_normalize I then rsum (map e_energy ys) / if_convEnergy I + INR (length act) * if_mean I else rsum (map e_energy ys))).
    { unfold q', q. unfold calculateEnergy. destruct (if_normalize I); cbn [set_energies energyStructure qs_energy physicalEnergy qs_numAtoms]; rewrite fold_sum, Rplus_0_l, Rplus_0_r; [now rewrite B2|auto]. }
    rewrite Ec.
    rewrite (rsum_Forall2 _ (fun i => atomic_energy (p_weight P) (p_fs P (element_of I types i)) (p_net P (element_of I types i)) (environment I types nall rc x i) / energy_unit I) (fun y => / energy_unit I * e_energy y) act ys FE).
    2:{ intros i y He. rewrite (EE i y He). unfold Rdiv. apply Rmult_comm. }
    rewrite rsum_scal, (rsum_const (mean_energy I)). unfold energy_unit, mean_energy. destruct (if_normalize I); field; auto. }
  exists r, f'. split; [|split; [exact Lr|split; [|split]]].
  - unfold compute. rewrite E0, E1, Epr. unfold getForces. rewrite Ef, Etot. reflexivity.
  - intros p i Hp. destruct (Hr p i Hp) as (y & Hy & He). exists y. assert (Hn := proj1 (proj2 He)). split; auto. split; [apply Hn|]. split; [|split].
    + unfold getAtomicEnergy. rewrite Hy. assert (Eel : a_element (e_atom y) = el i) by apply Hn. rewrite Eel.
      assert (Hi : In i act) by (eapply nth_error_In; eauto).
      rewrite (nth_error_nth' _ 0) by (rewrite LO; now apply (act_element I types nlocal nall N HC)). f_equal.
      unfold atom_energy. rewrite <- (EE i y He). unfold mean_energy, offset_energy, energy_unit. fold el.
      destruct (if_normalize I); field; auto.
    + destruct Hn as (_ & _ & _ & l & -> & Pm). rewrite map_map. cbn [nb_of nb_index]. now rewrite map_id.
    + intros m Hm. destruct (has_index I types nlocal nall N rc x tags HC i _ m Hn Hm) as (_ & _ & _ & H1 & H2 & _). auto.
  - exact K.
  - intros Hsm Hre u. destruct (energy_curve I P types nlocal nall N rc x tags HC HP Hsm Hre u) as (d & Hd & HCu).
    set (G := fun (p : nat * (nat * Z * eatom)) (t : R) => atomic_energy (p_weight P) (p_fs P (el (fst p))) (p_net P (el (fst p)))
        (displace (smul (length_unit I) (u (fst p))) (fun k => smul (length_unit I) (shift_of u (snd (snd p)) k)) t (env_of (a_nbs (e_atom (snd (snd p))))))
        / energy_unit I + mean_energy I + offset_energy I (el (fst p))).
    apply (is_derive_ext_loc (fun t => rsum (map (fun p => G p t) (List.combine act (lr_atoms r))))).
    { exists (mkposreal d Hd). intros t Ht. unfold ball in Ht; cbn in Ht. unfold AbsRing_ball in Ht.
      unfold abs, minus, plus, opp in Ht; cbn in Ht. rewrite Ropp_0, Rplus_0_r in Ht.
      unfold total_energy. fold act. rewrite (rsum_fst _ act (lr_atoms r) Lr). apply rsum_ext. intros [i a] Hin.
      destruct (Forall2_combine_in _ _ _ i a FR Hin) as (tg & y & -> & He). unfold G, atom_energy. cbn [fst snd].
      fold el. destruct (HCu i y He) as (HE & _). unfold moved in HE. fold el in HE. specialize (HE t Ht). fold el in HE. rewrite HE. reflexivity. }
    eapply is_derive_eq.
    + apply (is_derive_rsum (fun p t => G p t) (fun p => - (length_unit I * atom_work N P (snd (snd p)) (u (fst p)) (shift_of u (snd (snd p)))) / energy_unit I)).
      intros [i a] Hin. destruct (Forall2_combine_in _ _ _ i a FR Hin) as (tg & y & -> & He). destruct (HCu i y He) as (_ & HD). cbn [fst snd].
      unfold G. cbn [fst snd]. fold el in HD.
      set (g := fun t => atomic_energy _ _ _ _) in HD.
      apply (is_derive_ext (fun t => plus (scal (/ energy_unit I) (g t)) (mean_energy I + offset_energy I (el i)))).
      { intros t. unfold g, plus, scal; cbn. unfold mult; cbn. unfold Rdiv. ring. }
      eapply is_derive_eq.
      * apply (is_derive_plus (fun t => scal (/ energy_unit I) (g t)) (fun _ => mean_energy I + offset_energy I (el i))).
        -- apply (is_derive_scal g). exact HD.
        -- apply (is_derive_const (mean_energy I + offset_energy I (el i))).
      * unfold plus, zero; cbn. unfold Rdiv. ring.
    + specialize (D u). unfold pairing in D.
      assert (ES : sumn nall (fun k => dot (vsub (f' k) (f0 k)) (u k)) = sumn nall (fun k => dot (f' k) (u k)) - sumn nall (fun k => dot (f0 k) (u k))).
      { unfold Rminus. rewrite <- sumn_opp, <- sumn_plus. apply sumn_ext. intros k _. unfold dot, vsub; cbn; ring. }
      rewrite ES, D. replace (sumn nall (fun k => dot (f0 k) (u k)) + rsum (map (fun a => forceFactor I * atom_work N P (snd a) (u (fst (fst a))) (shift_of u (snd a))) (lr_atoms r)) - sumn nall (fun k => dot (f0 k) (u k)))
        with (rsum (map (fun a => forceFactor I * atom_work N P (snd a) (u (fst (fst a))) (shift_of u (snd a))) (lr_atoms r))) by ring.
      rewrite <- rsum_opp.
      assert (EF : forall w, - (length_unit I * w) / energy_unit I = - (forceFactor I * w)).
      { intros w. unfold length_unit, energy_unit, forceFactor. destruct (if_normalize I); field; auto. }
      assert (EC : rsum (map (fun a => - (forceFactor I * atom_work N P (snd a) (u (fst (fst a))) (shift_of u (snd a)))) (lr_atoms r)) =
        rsum (map (fun p => - (forceFactor I * atom_work N P (snd (snd p)) (u (fst p)) (shift_of u (snd (snd p))))) (List.combine act (lr_atoms r)))).
      { clear - FR. induction FR as [|i a l l' (t & y & -> & _) _ IH]; auto. cbn [map List.combine rsum fold_right fst snd]. f_equal. exact IH. }
      rewrite EC. apply rsum_ext. intros p _. apply EF.
Qed.
End Compute.
