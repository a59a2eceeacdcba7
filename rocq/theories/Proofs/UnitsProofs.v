(** Unit conversions and energy offsets (C36-C38). *)
From Coq Require Import Reals Lra List Bool Arith Lia String.
From Coq Require Import List.
From Verif Require Import Base.Vec3 Base.SumR Model.Strings Model.SymFunctions Model.Units Spec.GeometrySpec Spec.UnitsSpec.
Import ListNotations.
Local Open Scope R_scope.

(** ** Loops over arrays *)
Lemma at_apply_nth {A} (f : A -> A) (l : list A) : forall i, (i < List.length l)%nat -> exists l', at_apply f l i = Some l' /\
  l' = firstn i l ++ match nth_error l i with Some x => [f x] | None => [] end ++ skipn (S i) l.
Proof.
  induction l as [|x l IH]; intros [|i] H; cbn in *; try lia; [eauto|].
  destruct (IH i ltac:(lia)) as (l' & -> & ->). eexists. split; reflexivity.
Qed.
Definition head_map {A} (f : A -> A) (n : nat) (l : list A) : list A := map f (firstn n l) ++ skipn n l.
Lemma head_map_S {A} (f : A -> A) n l : (n < List.length l)%nat -> at_apply f (head_map f n l) n = Some (head_map f (S n) l).
Proof.
  revert n. induction l as [|x l IH]; intros [|n] H; cbn in *; try lia; auto.
  unfold head_map in IH. rewrite IH by lia. reflexivity.
Qed.
Lemma head_map_length {A} (f : A -> A) n l : List.length (head_map f n l) = List.length l.
Proof. unfold head_map. rewrite app_length, map_length, firstn_length, skipn_length. lia. Qed.
Lemma ofold_app {A S} (f : A -> S -> option S) l1 l2 s : ofold f (l1 ++ l2) s = match ofold f l1 s with None => None | Some s' => ofold f l2 s' end.
Proof. revert s. induction l1 as [|a l1 IH]; intros s; cbn; auto. destruct (f a s); auto. Qed.
Lemma own_loop fE fG (e : list R) (g : list vec) n : (n <= List.length e)%nat -> (n <= List.length g)%nat ->
  ofold (fun i st => match at_apply fE (fst st) i with
                             | None => None
                             | Some e => match at_apply fG (snd st) i with None => None | Some g => Some (e, g) end
                             end) (seq 0 n) (e, g) = Some (head_map fE n e, head_map fG n g).
Proof.
  induction n as [|n IH]; intros H1 H2; [reflexivity|]. rewrite seq_S, ofold_app, IH by lia. cbn [ofold Nat.add fst snd].
  rewrite !head_map_S by lia. reflexivity.
Qed.
Lemma head_map_all {A} (f : A -> A) l : head_map f (List.length l) l = map f l.
Proof. unfold head_map. rewrite firstn_all, skipn_all, app_nil_r. reflexivity. Qed.
Lemma head_map_compose {A} (f h : A -> A) n l : (forall x, h (f x) = x) -> head_map h n (head_map f n l) = l.
Proof.
  intros H. revert n. induction l as [|x l IH]; intros [|n]; cbn; auto. unfold head_map in IH. rewrite H, IH. reflexivity.
Qed.
Lemma convert_own_spec fE fG fN a : allocated_atom a ->
  convert_own fE fG fN a = Some (if q_hasSFD a
     then (map fE (firstn (q_numSF a) (q_dEdG a)) ++ (if q_chargeNeuron a then map fN (skipn (q_numSF a) (q_dEdG a)) else []), map fG (q_dGdr a))
     else (q_dEdG a, q_dGdr a)).
Proof.
  unfold convert_own, allocated_atom. destruct (q_hasSFD a); auto. intros H. destruct (H eq_refl) as (L1 & L2).
  rewrite own_loop by lia. assert (HG0 : head_map fG (q_numSF a) (q_dGdr a) = map fG (q_dGdr a)) by (rewrite <- L2; apply head_map_all). rewrite HG0. destruct (q_chargeNeuron a).
  - assert (E : at_apply fN (head_map fE (q_numSF a) (q_dEdG a)) (q_numSF a) = Some (map fE (firstn (q_numSF a) (q_dEdG a)) ++ map fN (skipn (q_numSF a) (q_dEdG a)))).
    { clear - L1. revert L1. generalize (q_numSF a) (q_dEdG a). intros n l. revert n.
      induction l as [|x l IH]; intros [|n] H; cbn in *; try lia.
      - assert (l = []) by (destruct l; cbn in *; auto; lia). subst. reflexivity.
      - unfold head_map in IH. rewrite IH by lia. reflexivity. }
    rewrite E. reflexivity.
  - unfold head_map. rewrite (skipn_all2 (q_dEdG a)) by lia. reflexivity.
Qed.
Lemma iter_S {A} (f : A -> A) n x : Nat.iter (S n) f x = f (Nat.iter n f x).
Proof. reflexivity. Qed.
Lemma iter_commute {A} (f : A -> A) n x : Nat.iter n f (f x) = f (Nat.iter n f x).
Proof. induction n; [reflexivity|]. now rewrite !iter_S, IHn. Qed.
Lemma nbs_loop fd fr (fG : vec -> vec) (b : bool) (l : list qneighbor) : forall g acc,
  fold_left (fun st n => (if b then map fG (fst st) else fst st, snd st ++ [mkQN (fd (qn_d n)) (fr (qn_dr n)) (qn_dGdr n)])) l (g, acc) =
  (if b then map (fun v => Nat.iter (List.length l) fG v) g else g, acc ++ map (fun n => mkQN (fd (qn_d n)) (fr (qn_dr n)) (qn_dGdr n)) l).
Proof.
  induction l as [|n l IH]; intros g acc; cbn [fold_left List.length map].
  - rewrite app_nil_r. destruct b; auto. cbn. now rewrite map_id.
  - rewrite IH. cbn [fst snd]. rewrite <- app_assoc. f_equal. destruct b; auto. rewrite map_map. apply map_ext.
    intros v. rewrite iter_S. apply iter_commute.
Qed.
Lemma convert_nbs_spec fd fr fG a g : convert_nbs fd fr fG a g =
  (if q_hasNL a && q_hasSFD a then map (fun v => Nat.iter (List.length (q_nbs a)) fG v) g else g,
   if q_hasNL a then map (fun n => mkQN (fd (qn_d n)) (fr (qn_dr n)) (qn_dGdr n)) (q_nbs a) else q_nbs a)%bool.
Proof. unfold convert_nbs. destruct (q_hasNL a); auto. rewrite nbs_loop. cbn [andb app]. reflexivity. Qed.

(** ** Single conversion *)
Lemma iter_vdiv c n v : c <> 0 -> Nat.iter n (fun v => vdiv v c) v = smul (/ c ^ n) v.
Proof.
  intros H. induction n; [cbn; rewrite Rinv_1; now rewrite smul_1|]. rewrite iter_S, IHn. cbn [pow]. unfold vdiv, smul; apply vec_eq; cbn; field; split; auto; apply pow_nonzero; auto.
Qed.
Lemma iter_smul c n v : Nat.iter n (smul c) v = smul (c ^ n) v.
Proof. induction n; [now rewrite smul_1|]. rewrite iter_S, IHn. cbn [pow]. vring. Qed.

Definition charge_part (a : qatom) (f : R -> R) : list R := if q_chargeNeuron a then map f (skipn (q_numSF a) (q_dEdG a)) else [].
Definition copies (a : qatom) : nat := if q_hasNL a then List.length (q_nbs a) else O.
Theorem atom_normalized cE cL cQ a : cL <> 0 -> allocated_atom a -> exists a', atom_toNormalized cE cL cQ a = Some a' /\
  q_energy a' = q_energy a * cE /\ q_r a' = smul cL (q_r a) /\ q_f a' = smul (cE / cL) (q_f a) /\ q_fRef a' = smul (cE / cL) (q_fRef a) /\
  q_charge a' = q_charge a * cQ /\ q_chargeRef a' = q_chargeRef a * cQ /\
  q_dEdG a' = (if q_hasSFD a then map (fun x => x * cE) (firstn (q_numSF a) (q_dEdG a)) ++ charge_part a (fun x => x * (cE / cQ)) else q_dEdG a) /\
  q_dGdr a' = (if q_hasSFD a then map (smul (/ cL ^ (1 + copies a))) (q_dGdr a) else q_dGdr a) /\
  q_nbs a' = (if q_hasNL a then map (fun n => mkQN (qn_d n * cL) (smul cL (qn_dr n)) (qn_dGdr n)) (q_nbs a) else q_nbs a) /\
  q_hasNL a' = q_hasNL a /\ q_hasSFD a' = q_hasSFD a /\ q_chargeNeuron a' = q_chargeNeuron a /\ q_numSF a' = q_numSF a /\ allocated_atom a'.
Proof.
  intros HL Ha. unfold atom_toNormalized. rewrite convert_own_spec by auto.
  destruct (q_hasSFD a) eqn:ES.
  - rewrite convert_nbs_spec, ES, andb_true_r. eexists. split; [reflexivity|]. cbn [q_energy q_r q_f q_fRef q_charge q_chargeRef q_dEdG q_dGdr q_nbs q_hasNL q_hasSFD q_chargeNeuron q_numSF].
    do 7 (split; [reflexivity|]). split; [|do 5 (split; [reflexivity|])].
    + unfold copies. destruct (q_hasNL a).
      * rewrite map_map. apply map_ext. intros v. rewrite iter_vdiv by auto. cbn [pow Nat.add].
        unfold vdiv, smul; apply vec_eq; cbn; field; split; auto; apply pow_nonzero; auto.
      * apply map_ext. intros v. cbn. unfold vdiv, smul; apply vec_eq; cbn; field; auto.
    + intros _. cbn [q_dEdG q_dGdr q_numSF q_chargeNeuron]. destruct (Ha ES) as (L1 & L2). split.
      * rewrite app_length, map_length, firstn_length. destruct (q_chargeNeuron a); [rewrite map_length, skipn_length|cbn]; lia.
      * destruct (q_hasNL a); rewrite ?map_length; auto.
  - rewrite convert_nbs_spec, ES, andb_false_r. eexists. split; [reflexivity|]. cbn [q_energy q_r q_f q_fRef q_charge q_chargeRef q_dEdG q_dGdr q_nbs q_hasNL q_hasSFD q_chargeNeuron q_numSF].
    repeat (split; [reflexivity|]). unfold allocated_atom. cbn. discriminate.
Qed.

(** ** Round trip *)
Lemma iter_inverse {A} (f h : A -> A) n x : (forall x, h (f x) = x) -> Nat.iter n h (Nat.iter n f x) = x.
Proof.
  intros H. revert x. induction n; intros x; auto.
  rewrite !iter_S, <- (iter_commute h), H. apply IHn.
Qed.
Lemma iter_inverse' {A} (f h : A -> A) n x : (forall x, h (f x) = x) -> Nat.iter n h (h (Nat.iter n f (f x))) = x.
Proof. intros H. rewrite (iter_commute f), H. rewrite iter_inverse; auto. Qed.
Lemma skipn_map_app {A B} (f : A -> B) l1 (l2 : list B) n : List.length l1 = n -> skipn n (map f l1 ++ l2) = l2 /\ firstn n (map f l1 ++ l2) = map f l1.
Proof.
  intros H. rewrite skipn_app, firstn_app, map_length, H, Nat.sub_diag. split.
  - rewrite skipn_all2 by (rewrite map_length; lia). reflexivity.
  - rewrite firstn_all2 by (rewrite map_length; lia). apply app_nil_r.
Qed.
(** Generic conversion: toPhysicalUnits and toNormalizedUnits only differ in
    the elementary maps. *)
Section RoundTrip.
Variables (fE fE' fN fN' fd fd' : R -> R) (fG fG' fr fr' : vec -> vec).
Hypothesis HE : forall x, fE' (fE x) = x.
Hypothesis HN : forall x, fN' (fN x) = x.
Hypothesis Hd : forall x, fd' (fd x) = x.
Hypothesis HG : forall x, fG' (fG x) = x.
Hypothesis Hr : forall x, fr' (fr x) = x.
Lemma arrays_round_trip a : allocated_atom a -> exists e g g' nbs,
  convert_own fE fG fN a = Some (e, g) /\ convert_nbs fd fr fG a g = (g', nbs) /\
  forall b, q_hasNL b = q_hasNL a -> q_hasSFD b = q_hasSFD a -> q_chargeNeuron b = q_chargeNeuron a -> q_numSF b = q_numSF a ->
    q_dEdG b = e -> q_dGdr b = g' -> q_nbs b = nbs ->
    exists e2 g2, convert_own fE' fG' fN' b = Some (e2, g2) /\ e2 = q_dEdG a /\ convert_nbs fd' fr' fG' b g2 = (q_dGdr a, q_nbs a).
Proof.
  intros Ha. destruct (q_hasSFD a) eqn:ES.
  - destruct (Ha ES) as (L1 & L2). do 4 eexists. split; [rewrite convert_own_spec, ES by auto; reflexivity|]. split; [rewrite convert_nbs_spec; reflexivity|].
    intros b B1 B2 B3 B4 B5 B6 B7. rewrite ES, andb_true_r in B6.
    assert (LF : List.length (firstn (q_numSF a) (q_dEdG a)) = q_numSF a) by (rewrite firstn_length; lia).
    assert (Hb : allocated_atom b).
    { intros _. rewrite B3, B4, B5, B6. split.
      - rewrite app_length, map_length, LF. destruct (q_chargeNeuron a); [rewrite map_length, skipn_length|cbn]; lia.
      - destruct (q_hasNL a); rewrite ?map_length; auto. }
    do 2 eexists. split; [rewrite convert_own_spec, B2 by auto; reflexivity|]. split.
    + rewrite B3, B4, B5. destruct (skipn_map_app fE (firstn (q_numSF a) (q_dEdG a)) (if q_chargeNeuron a then map fN (skipn (q_numSF a) (q_dEdG a)) else []) _ LF) as (-> & ->).
      rewrite map_map, (map_ext _ (fun x => x)), map_id by auto. destruct (q_chargeNeuron a).
      * rewrite map_map, (map_ext _ (fun x => x)), map_id by auto. apply firstn_skipn.
      * rewrite app_nil_r, firstn_all2 by lia. reflexivity.
    + rewrite convert_nbs_spec, B1, B2, B6, B7. cbn [andb]. rewrite andb_true_r. f_equal.
      * destruct (q_hasNL a).
        -- rewrite !map_map, map_length. rewrite (map_ext _ (fun x => x)), map_id; auto. intros v. apply iter_inverse'. auto.
        -- rewrite map_map, (map_ext _ (fun x => x)), map_id; auto.
      * destruct (q_hasNL a); auto. rewrite map_map, (map_ext _ (fun x => x)), map_id; auto. intros [d r G]. cbn. now rewrite Hd, Hr.
  - do 4 eexists. split; [rewrite convert_own_spec, ES by auto; reflexivity|]. split; [rewrite convert_nbs_spec; reflexivity|].
    intros b B1 B2 B3 B4 B5 B6 B7. rewrite ES, andb_false_r in B6.
    assert (Hb : allocated_atom b) by (intros X; congruence).
    do 2 eexists. split; [rewrite convert_own_spec, B2 by auto; reflexivity|]. split; [auto|].
    rewrite convert_nbs_spec, B1, B2, B6, B7, andb_false_r. f_equal.
    destruct (q_hasNL a); auto. rewrite map_map, (map_ext _ (fun x => x)), map_id; auto. intros [d r G]. cbn. now rewrite Hd, Hr.
Qed.
End RoundTrip.

Lemma vdiv_smul c v : c <> 0 -> vdiv (smul c v) c = v.
Proof. intros H. unfold vdiv, smul; apply vec_eq; cbn; field; auto. Qed.
Lemma smul_vdiv c v : c <> 0 -> smul c (vdiv v c) = v.
Proof. intros H. unfold vdiv, smul; apply vec_eq; cbn; field; auto. Qed.
Lemma qatom_eq a b : q_hasNL a = q_hasNL b -> q_hasSFD a = q_hasSFD b -> q_chargeNeuron a = q_chargeNeuron b -> q_numSF a = q_numSF b ->
  q_energy a = q_energy b -> q_r a = q_r b -> q_f a = q_f b -> q_fRef a = q_fRef b -> q_charge a = q_charge b -> q_chargeRef a = q_chargeRef b ->
  q_dEdG a = q_dEdG b -> q_dGdr a = q_dGdr b -> q_nbs a = q_nbs b -> a = b.
Proof. destruct a, b; cbn. intros. subst. reflexivity. Qed.

Lemma div_nz a b : a <> 0 -> b <> 0 -> a / b <> 0.
Proof. intros. unfold Rdiv. apply Rmult_integral_contrapositive_currified; auto. now apply Rinv_neq_0_compat. Qed.
Theorem atom_round_trip cE cL cQ a : cE <> 0 -> cL <> 0 -> cQ <> 0 -> allocated_atom a ->
  exists a', atom_toNormalized cE cL cQ a = Some a' /\ atom_toPhysical cE cL cQ a' = Some a.
Proof.
  intros H1 H2 H3 Ha.
  destruct (arrays_round_trip (fun x => x * cE) (fun x => x / cE) (fun x => x * (cE / cQ)) (fun x => x / (cE / cQ))
    (fun d => d * cL) (fun d => d / cL) (fun v => vdiv v cL) (smul cL) (smul cL) (fun v => vdiv v cL)) with (a := a) as (e & g & g' & nbs & A & B & C); auto;
    try (intros x; cbv beta; first [now apply smul_vdiv | now apply vdiv_smul | field; auto]).
  unfold atom_toNormalized. rewrite A, B. eexists. split; [reflexivity|]. unfold atom_toPhysical.
  match goal with |- match convert_own _ _ _ ?b with _ => _ end = _ => destruct (C b eq_refl eq_refl eq_refl eq_refl eq_refl eq_refl eq_refl) as (e2 & g2 & D & E & F) end.
  rewrite D, F, E. f_equal. apply qatom_eq; cbn; auto; try (field; auto); apply vdiv_smul; auto; apply div_nz; auto.
Qed.
Theorem atom_round_trip' cE cL cQ a : cE <> 0 -> cL <> 0 -> cQ <> 0 -> allocated_atom a ->
  exists a', atom_toPhysical cE cL cQ a = Some a' /\ atom_toNormalized cE cL cQ a' = Some a.
Proof.
  intros H1 H2 H3 Ha.
  destruct (arrays_round_trip (fun x => x / cE) (fun x => x * cE) (fun x => x / (cE / cQ)) (fun x => x * (cE / cQ))
    (fun d => d / cL) (fun d => d * cL) (smul cL) (fun v => vdiv v cL) (fun v => vdiv v cL) (smul cL)) with (a := a) as (e & g & g' & nbs & A & B & C); auto;
    try (intros x; cbv beta; first [now apply smul_vdiv | now apply vdiv_smul | field; auto]).
  unfold atom_toPhysical. rewrite A, B. eexists. split; [reflexivity|]. unfold atom_toNormalized.
  match goal with |- match convert_own _ _ _ ?b with _ => _ end = _ => destruct (C b eq_refl eq_refl eq_refl eq_refl eq_refl eq_refl eq_refl) as (e2 & g2 & D & E & F) end.
  rewrite D, F, E. f_equal. apply qatom_eq; cbn; auto; try (field; auto); apply smul_vdiv; auto; apply div_nz; auto.
Qed.

Lemma omap_round_trip {A} (f h : A -> option A) (P : A -> Prop) : (forall a, P a -> exists b, f a = Some b /\ h b = Some a) ->
  forall l, (forall a, In a l -> P a) -> exists l', omap f l = Some l' /\ omap h l' = Some l.
Proof.
  intros H. induction l as [|a l IH]; intros Hl. { exists []. auto. }
  destruct (H a) as (b & E & F); [apply Hl; now left|]. destruct IH as (l' & E' & F'); [intros; apply Hl; now right|].
  exists (b :: l'). cbn. unfold omap in *. rewrite E, E', F, F'. auto.
Qed.
Lemma mmap_inv (f h : vec -> vec) m : (forall v, h (f v) = v) -> mmap h (mmap f m) = m.
Proof. intros H. unfold mmap. cbn. rewrite !H. now destruct m. Qed.
Lemma qs_eq a b : qs_periodic a = qs_periodic b -> qs_numAtoms a = qs_numAtoms b -> qs_perElement a = qs_perElement b ->
  qs_energy a = qs_energy b -> qs_energyRef a = qs_energyRef b -> qs_charge a = qs_charge b -> qs_chargeRef a = qs_chargeRef b -> qs_volume a = qs_volume b ->
  qs_box a = qs_box b -> qs_invbox a = qs_invbox b -> qs_atoms a = qs_atoms b -> a = b.
Proof. destruct a, b; cbn. intros. subst. reflexivity. Qed.

Theorem structure_round_trip mean cE cL cQ s : cE <> 0 -> cL <> 0 -> cQ <> 0 -> allocated_structure s ->
  (exists s', toNormalizedUnits mean cE cL cQ s = Some s' /\ toPhysicalUnits mean cE cL cQ s' = Some s) /\
  (exists s', toPhysicalUnits mean cE cL cQ s = Some s' /\ toNormalizedUnits mean cE cL cQ s' = Some s).
Proof.
  intros H1 H2 H3 Hs. split.
  - destruct (omap_round_trip (atom_toNormalized cE cL cQ) (atom_toPhysical cE cL cQ) allocated_atom (fun a Ha => atom_round_trip cE cL cQ a H1 H2 H3 Ha) _ Hs) as (l & E & F).
    unfold toNormalizedUnits, toPhysicalUnits. rewrite E. eexists. split; [reflexivity|]. cbn [qs_atoms]. rewrite F. f_equal.
    apply qs_eq; cbn; auto; try (field; auto).
    + destruct (qs_periodic s); auto. apply mmap_inv. intros v. now apply vdiv_smul.
    + destruct (qs_periodic s); auto. apply mmap_inv. intros v. now apply smul_vdiv.
  - destruct (omap_round_trip (atom_toPhysical cE cL cQ) (atom_toNormalized cE cL cQ) allocated_atom (fun a Ha => atom_round_trip' cE cL cQ a H1 H2 H3 Ha) _ Hs) as (l & E & F).
    unfold toNormalizedUnits, toPhysicalUnits. rewrite E. eexists. split; [reflexivity|]. cbn [qs_atoms]. rewrite F. f_equal.
    apply qs_eq; cbn; auto; try (field; auto).
    + destruct (qs_periodic s); auto. apply mmap_inv. intros v. now apply smul_vdiv.
    + destruct (qs_periodic s); auto. apply mmap_inv. intros v. now apply vdiv_smul.
Qed.

Theorem property_round_trip cE cL cQ p v : cE <> 0 -> cL <> 0 -> cQ <> 0 -> known_property p ->
  (exists w, normalized cE cL cQ p v = Some w /\ physical cE cL cQ p w = Some v) /\
  (exists w, physical cE cL cQ p v = Some w /\ normalized cE cL cQ p w = Some v).
Proof.
  intros H1 H2 H3 Hp. destruct Hp as [<-|[<-|[<-|[<-|[<-|[]]]]]]; unfold normalized, physical; cbn -[Rmult Rdiv pow];
    (split; eexists; (split; [reflexivity|]); f_equal; field; auto).
Qed.
Theorem property_unknown cE cL cQ p v : ~ known_property p -> normalized cE cL cQ p v = None /\ physical cE cL cQ p v = None.
Proof.
  intros H. unfold known_property in H. cbn [In] in H.
  assert (N : forall q, q <> p -> str_eqb p q = false) by (intros q Hq; unfold str_eqb; destruct (list_eq_dec _ _ _); congruence).
  unfold normalized, physical. rewrite !N by (intros E; apply H; rewrite E; tauto). auto.
Qed.
Theorem energies_agree mean cE cL cQ s s' : toNormalizedUnits mean cE cL cQ s = Some s' ->
  qs_energy s' = normalizedEnergy mean cE s false /\ qs_energyRef s' = normalizedEnergy mean cE s true /\
  (cE <> 0 -> physicalEnergy mean cE s' false = qs_energy s /\ physicalEnergy mean cE s' true = qs_energyRef s).
Proof.
  unfold toNormalizedUnits. destruct (omap _ _); [|discriminate]. intros [= <-]. cbn. split; [reflexivity|]. split; [reflexivity|].
  intros H. unfold physicalEnergy. cbn. split; field; auto.
Qed.

(** ** Geometry *)
Lemma norm_smul_pos c v : 0 < c -> norm (smul c v) = norm v * c.
Proof.
  intros H. unfold norm. rewrite <- (sqrt_square c) at 2 by lra. rewrite <- sqrt_mult_alt by (unfold norm2; nra). f_equal.
  unfold norm2, smul; cbn; ring.
Qed.
Theorem geometry_consistent mean cE cL cQ s s' : 0 < cL -> allocated_structure s -> toNormalizedUnits mean cE cL cQ s = Some s' ->
  (qs_periodic s = true -> inverse_box s -> inverse_box s') /\
  (qs_periodic s = true -> cell_volume s -> cell_volume s') /\
  ((forall a, In a (qs_atoms s) -> q_hasNL a = true) -> consistent_distances s -> consistent_distances s').
Proof.
  intros HL Hs. unfold toNormalizedUnits. destruct (omap _ _) as [l|] eqn:E; [|discriminate]. intros [= <-]. split; [|split].
  - intros Hp H v. cbn. rewrite Hp. cbn. rewrite <- (H v) at 2. unfold combine, matvec, vadd, smul, vdiv. cbn. apply vec_eq; cbn; field; lra.
  - intros Hp H. unfold cell_volume in *. cbn. rewrite Hp, H. rewrite <- (Rabs_pos_eq (cL * cL * cL)), <- Rabs_mult.
    + f_equal. unfold det, dot, cross, mmap, smul; cbn. ring.
    + apply Rmult_le_pos; [apply Rmult_le_pos|]; lra.
  - intros HNL H a n Ha Hn. cbn in Ha.
    assert (G : forall l0 l, (forall a, In a l0 -> allocated_atom a /\ q_hasNL a = true) -> omap (atom_toNormalized cE cL cQ) l0 = Some l ->
       forall a, In a l -> exists b, In b l0 /\ atom_toNormalized cE cL cQ b = Some a).
    { clear. induction l0 as [|b l0 IH]; intros l Hb El a Ha; cbn in El; [injection El as <-; destruct Ha|].
      unfold omap in IH. destruct (atom_toNormalized cE cL cQ b) as [b'|] eqn:Eb; [|discriminate].
      match type of El with match ?X with _ => _ end = _ => destruct X as [ys|] eqn:Ey; [|discriminate] end. injection El as <-.
      destruct Ha as [<-|Ha]; [exists b; split; [now left|auto]|].
      destruct (IH ys (fun a H => Hb a (or_intror H)) Ey a Ha) as (c & Hc & Ec). exists c. split; [now right|auto]. }
    destruct (G _ _ (fun a H => conj (Hs a H) (HNL a H)) E a Ha) as (b & Hb & Eb).
    destruct (atom_normalized cE cL cQ b) as (b' & Eb' & _ & _ & _ & _ & _ & _ & _ & _ & EN & _); [lra|apply Hs; auto|].
    rewrite Eb in Eb'. injection Eb' as <-. rewrite (HNL b Hb) in EN. rewrite EN in Hn. apply in_map_iff in Hn as (n0 & <- & Hn). cbn.
    rewrite norm_smul_pos by auto. f_equal. apply (H b n0 Hb Hn).
Qed.

(** ** C37 *)
Definition ex_qatom (nbs : list qneighbor) : qatom :=
  mkQA true true false 1 2 (mkVec 1 1 1) (mkVec 1 0 0) (mkVec 1 0 0) 0 0 [3] [mkVec 4 0 0] nbs.
Lemma ex_allocated nbs : allocated_atom (ex_qatom nbs).
Proof. intros _. auto. Qed.
Theorem derivatives_scaled cE cL cQ a : cL <> 0 -> allocated_atom a -> (q_hasNL a = true -> q_nbs a = []) -> exists a', atom_toNormalized cE cL cQ a = Some a' /\
  (q_hasSFD a = true ->
     q_dGdr a' = map (fun v => vdiv v cL) (q_dGdr a) /\
     (forall i x, (i < q_numSF a)%nat -> nth_error (q_dEdG a) i = Some x -> nth_error (q_dEdG a') i = Some (x * cE)) /\
     (q_chargeNeuron a = true -> forall x, nth_error (q_dEdG a) (q_numSF a) = Some x -> nth_error (q_dEdG a') (q_numSF a) = Some (x * (cE / cQ)))).
Proof.
  intros H Ha Hn. destruct (atom_normalized cE cL cQ a H Ha) as (a' & E & _ & _ & _ & _ & _ & _ & DE & D & _). exists a'. split; auto.
  intros ES. rewrite D, DE, ES. assert (C0 : copies a = O) by (unfold copies; destruct (q_hasNL a); auto; now rewrite Hn). rewrite C0.
  destruct (Ha ES) as (L1 & L2).
  assert (LF : List.length (map (fun x => x * cE) (firstn (q_numSF a) (q_dEdG a))) = q_numSF a) by (rewrite map_length, firstn_length; lia).
  split; [|split].
  - apply map_ext. intros v. cbn. unfold vdiv, smul; apply vec_eq; cbn; field; auto.
  - intros i x Hi Hx. rewrite nth_error_app1 by lia. rewrite nth_error_map.
    rewrite <- (firstn_skipn (q_numSF a) (q_dEdG a)), nth_error_app1 in Hx by (rewrite firstn_length; lia). now rewrite Hx.
  - intros Hc x Hx. rewrite nth_error_app2 by lia. rewrite LF, Nat.sub_diag. unfold charge_part. rewrite Hc.
    rewrite <- (firstn_skipn (q_numSF a) (q_dEdG a)), nth_error_app2 in Hx by (rewrite firstn_length; lia).
    rewrite firstn_length, Nat.min_l, Nat.sub_diag in Hx by lia. rewrite nth_error_map, Hx. reflexivity.
Qed.
Theorem what_is_scaled cE cL cQ a : cL <> 0 -> allocated_atom a -> q_hasNL a = true -> q_hasSFD a = true ->
  exists a', atom_toNormalized cE cL cQ a = Some a' /\
    q_dGdr a' = map (smul (/ cL ^ (1 + List.length (q_nbs a)))) (q_dGdr a) /\
    map qn_dGdr (q_nbs a') = map qn_dGdr (q_nbs a).
Proof.
  intros H Ha HN HS. destruct (atom_normalized cE cL cQ a H Ha) as (a' & E & _ & _ & _ & _ & _ & _ & _ & D & N & _). exists a'. split; auto.
  rewrite D, N, HS, HN. unfold copies. rewrite HN. split; auto. now rewrite map_map.
Qed.
Theorem atom_quantities cE cL cQ a : cL <> 0 -> allocated_atom a -> exists a', atom_toNormalized cE cL cQ a = Some a' /\
  normalized cE cL cQ (lit "energy") (q_energy a) = Some (q_energy a') /\
  q_r a' = smul cL (q_r a) /\
  normalized cE cL cQ (lit "force") (vx (q_f a)) = Some (vx (q_f a')) /\
  normalized cE cL cQ (lit "force") (vy (q_f a)) = Some (vy (q_f a')) /\
  normalized cE cL cQ (lit "force") (vz (q_f a)) = Some (vz (q_f a')) /\
  normalized cE cL cQ (lit "force") (vx (q_fRef a)) = Some (vx (q_fRef a')) /\
  normalized cE cL cQ (lit "force") (vy (q_fRef a)) = Some (vy (q_fRef a')) /\
  normalized cE cL cQ (lit "force") (vz (q_fRef a)) = Some (vz (q_fRef a')) /\
  normalized cE cL cQ (lit "charge") (q_charge a) = Some (q_charge a') /\
  normalized cE cL cQ (lit "charge") (q_chargeRef a) = Some (q_chargeRef a').
Proof.
  intros H Ha. destruct (atom_normalized cE cL cQ a H Ha) as (a' & E & E1 & E2 & E3 & E4 & E5 & E6 & _). exists a'. split; auto.
  rewrite E1, E2, E3, E4, E5, E6. unfold normalized. cbn -[Rmult Rdiv pow].
  repeat split; f_equal; field; auto.
Qed.
Theorem derivatives_not_scaled : exists cE cL cQ a a' n n', allocated_atom a /\ 0 < cE /\ 0 < cL /\ 0 < cQ /\ atom_toNormalized cE cL cQ a = Some a' /\
  q_nbs a = [n] /\ q_nbs a' = [n'] /\ qn_dGdr n = [mkVec 4 0 0] /\ qn_dGdr n' = [mkVec 4 0 0] /\
  q_dGdr a = [mkVec 4 0 0] /\ q_dGdr a' = [vdiv (vdiv (mkVec 4 0 0) cL) cL] /\ q_dGdr a' <> map (fun v => vdiv v cL) (q_dGdr a).
Proof.
  exists 1, 2, 1. exists (ex_qatom [mkQN 1 (mkVec 1 0 0) [mkVec 4 0 0]]). eexists. do 2 eexists.
  split; [apply ex_allocated|]. split; [lra|]. split; [lra|]. split; [lra|]. split; [reflexivity|]. cbn.
  repeat (split; [reflexivity|]). intros [= E]. lra.
Qed.

(** ** C38 *)
Lemma offset_loop_spec (op : R -> R -> R) (sg : R) offsets s : (forall a b, op a b = a + sg * b) -> (List.length offsets <= List.length (qs_perElement s))%nat ->
  forall e, offset_loop op offsets s e = Some (e + sg * composition_offset offsets s).
Proof.
  intros Hop HL. unfold composition_offset, offset_loop.
  assert (G : forall l ns k e, (List.length l <= List.length ns)%nat -> (forall i, nth_error (qs_perElement s) (k + i) = nth_error ns i) ->
    (forall i, nth_error offsets (k + i) = nth_error l i) ->
    ofold (fun i e => match nth_error (qs_perElement s) i, nth_error offsets i with Some n, Some o => Some (op e (INR n * o)) | _, _ => None end) (seq k (List.length l)) e
    = Some (e + sg * rsum (map (fun p => INR (fst p) * snd p) (List.combine ns l)))).
  { induction l as [|o l IH]; intros [|n ns] k e H1 H2 H3; cbn [List.length] in H1; try lia.
    - cbn. f_equal. ring.
    - cbn. f_equal. ring.
    - cbn [List.length seq ofold List.combine map rsum fold_right fst snd]. pose proof (H2 O) as A. pose proof (H3 O) as B. rewrite Nat.add_0_r in A, B. rewrite A, B. cbn [nth_error].
      rewrite (IH ns (S k)).
      + f_equal. rewrite Hop. fold (rsum (map (fun p : nat * R => INR (fst p) * snd p) (List.combine ns l))). ring.
      + lia.
      + intros i. specialize (H2 (S i)). cbn in H2. rewrite <- H2. f_equal. lia.
      + intros i. specialize (H3 (S i)). cbn in H3. rewrite <- H3. f_equal. lia. }
  intros e. apply G; auto.
Qed.
Definition energy_of (ref : bool) (s : qstructure) : R := if ref then qs_energyRef s else qs_energy s.
Theorem offsets_exact offsets s (ref : bool) : (List.length offsets <= List.length (qs_perElement s))%nat ->
  let o := composition_offset offsets s in
  getEnergyOffset offsets s = Some o /\
  getEnergyWithOffset offsets s ref = Some ((if ref then qs_energyRef s else qs_energy s) + o) /\
  (exists s', addEnergyOffset offsets ref s = Some s' /\
     qs_energy s' = qs_energy s + (if ref then 0 else o) /\ qs_energyRef s' = qs_energyRef s + (if ref then o else 0) /\
     removeEnergyOffset offsets ref s' = Some s) /\
  (exists s', removeEnergyOffset offsets ref s = Some s' /\
     qs_energy s' = qs_energy s - (if ref then 0 else o) /\ qs_energyRef s' = qs_energyRef s - (if ref then o else 0) /\
     getEnergyWithOffset offsets s' ref = Some (if ref then qs_energyRef s else qs_energy s) /\ addEnergyOffset offsets ref s' = Some s).
Proof.
  intros HL o.
  assert (P1 : forall e t, qs_perElement t = qs_perElement s -> offset_loop Rplus offsets t e = Some (e + o)).
  { intros e t Ht. rewrite (offset_loop_spec Rplus 1); [|intros; ring|rewrite Ht; auto]. unfold o, composition_offset. rewrite Ht. f_equal. ring. }
  assert (P2 : forall e t, qs_perElement t = qs_perElement s -> offset_loop Rminus offsets t e = Some (e - o)).
  { intros e t Ht. rewrite (offset_loop_spec Rminus (-1)); [|intros; ring|rewrite Ht; auto]. unfold o, composition_offset. rewrite Ht. f_equal. ring. }
  unfold getEnergyOffset, getEnergyWithOffset, addEnergyOffset, removeEnergyOffset, shift_energy.
  rewrite !P1 by auto. split; [f_equal; ring|]. split; [reflexivity|]. split.
  - destruct ref; eexists; (split; [reflexivity|]); cbn [set_energies qs_energy qs_energyRef]; (split; [ring|]); (split; [ring|]);
      rewrite P2 by reflexivity; f_equal; apply qs_eq; cbn; auto; ring.
  - rewrite !P2 by auto. destruct ref; eexists; (split; [reflexivity|]); cbn [set_energies qs_energy qs_energyRef]; (split; [ring|]); (split; [ring|]);
      rewrite !P1 by reflexivity; (split; [f_equal; ring|]); f_equal; apply qs_eq; cbn; auto; ring.
Qed.
(** The whole way of a reference energy: remove the offset, normalise, evaluate
    in normalised units, go back to physical units and add the offset. *)
Theorem offsets_and_units mean cE cL cQ offsets s ref : (List.length offsets <= List.length (qs_perElement s))%nat -> cE <> 0 -> cL <> 0 -> cQ <> 0 ->
  allocated_structure s -> exists s1 s2, removeEnergyOffset offsets ref s = Some s1 /\ toNormalizedUnits mean cE cL cQ s1 = Some s2 /\
    (exists o, getEnergyOffset offsets s2 = Some o /\ physicalEnergy mean cE s2 ref + o = (if ref then qs_energyRef s else qs_energy s)) /\
    exists s3, toPhysicalUnits mean cE cL cQ s2 = Some s3 /\ addEnergyOffset offsets ref s3 = Some s.
Proof.
  intros HL H1 H2 H3 Hs. destruct (offsets_exact offsets s ref HL) as (_ & _ & _ & s1 & E1 & A & B & C & D).
  assert (Hs1 : allocated_structure s1).
  { unfold removeEnergyOffset, shift_energy in E1. destruct ref; destruct (offset_loop _ _ _ _); try discriminate; injection E1 as <-; exact Hs. }
  destruct (structure_round_trip mean cE cL cQ s1 H1 H2 H3 Hs1) as ((s2 & E2 & E3) & _).
  exists s1, s2. split; [auto|]. split; [auto|]. split; [|eauto].
  assert (Hp : qs_perElement s2 = qs_perElement s1) by (unfold toNormalizedUnits in E2; destruct (omap _ _); [|discriminate]; injection E2 as <-; reflexivity).
  assert (Hp' : qs_perElement s1 = qs_perElement s).
  { unfold removeEnergyOffset, shift_energy in E1. destruct ref; destruct (offset_loop _ _ _ _); try discriminate; injection E1 as <-; reflexivity. }
  exists (composition_offset offsets s). split.
  - destruct (offsets_exact offsets s2 ref ltac:(rewrite Hp, Hp'; exact HL)) as (-> & _). unfold composition_offset. now rewrite Hp, Hp'.
  - destruct (energies_agree _ _ _ _ _ _ E2) as (_ & _ & X). destruct (X H1) as (X1 & X2).
    destruct ref; [rewrite X2, B|rewrite X1, A]; ring.
Qed.
Definition ex_qs : qstructure := mkQS true 2 [1%nat; 1%nat] 5 4 0 0 8 (mkMat (mkVec 2 0 0) (mkVec 0 2 0) (mkVec 0 0 2))
  (mkMat (mkVec (1/2) 0 0) (mkVec 0 (1/2) 0) (mkVec 0 0 (1/2))) [ex_qatom [mkQN 1 (mkVec 1 0 0) [mkVec 4 0 0]]; ex_qatom []].
Lemma ex_qs_ok : allocated_structure ex_qs /\ qs_periodic ex_qs = true /\ inverse_box ex_qs /\ cell_volume ex_qs /\ consistent_distances ex_qs /\
  (forall a, In a (qs_atoms ex_qs) -> q_hasNL a = true) /\ (List.length [1; 2] <= List.length (qs_perElement ex_qs))%nat /\ composition_offset [1; 2] ex_qs = 3.
Proof.
  split; [intros a [<-|[<-|[]]]; apply ex_allocated|]. split; [reflexivity|]. split; [|split; [|split; [|split; [|split]]]].
  - intros v. unfold combine, matvec, ex_qs; cbn. apply vec_eq; cbn; field.
  - unfold cell_volume, ex_qs, det, dot, cross; cbn. rewrite Rabs_pos_eq; lra.
  - intros a n [<-|[<-|[]]] Hn; cbn in Hn; [destruct Hn as [<-|[]]|destruct Hn]. cbn. unfold norm, norm2; cbn.
    replace (_ + _) with (1 * 1) by ring. rewrite sqrt_square; lra.
  - intros a [<-|[<-|[]]]; reflexivity.
  - cbn. lia.
  - unfold composition_offset, ex_qs, rsum; cbn. lra.
Qed.
Lemma ex_units : allocated_structure ex_qs /\ qs_periodic ex_qs = true /\ inverse_box ex_qs /\ cell_volume ex_qs /\ consistent_distances ex_qs /\
  (forall a, In a (qs_atoms ex_qs) -> q_hasNL a = true) /\ known_property (lit "hardness") /\ ~ known_property (lit "dipole").
Proof.
  destruct ex_qs_ok as (A & B & C & D & E & F & _). repeat (split; [assumption|]). split.
  - cbn. tauto.
  - cbn. intuition discriminate.
Qed.
Lemma ex_offsets : (List.length [1; 2] <= List.length (qs_perElement ex_qs))%nat /\ composition_offset [1; 2] ex_qs = 3.
Proof. destruct ex_qs_ok as (_ & _ & _ & _ & _ & _ & A). exact A. Qed.
