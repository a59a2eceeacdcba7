(** Groups of atoms out of each other's reach (C70). *)
From Coq Require Import Reals Lra Lia ZArith List Permutation Bool Arith.
From Coquelicot Require Import Coquelicot.
From Coq Require Import List.
From Verif Require Import Base.Vec3 Base.SumR Model.NeuralNetwork Model.Scaling Model.NeighborList Model.SymFunctions Model.SymCache Model.SymSetup
  Model.SymGroups Model.Forces Model.GroupEvaluation
  Spec.NetworkSpec Spec.GeometrySpec Spec.NeighborSpec Spec.SymSpec Spec.GroupSpec Spec.ForceSpec Spec.EvaluationSpec Spec.InvarianceSpec
  Proofs.GeometryProofs Proofs.KspaceProofs Proofs.NeighborProofs Proofs.NeighborMore Proofs.SymGrad Proofs.SymInv Proofs.ForceLocal Proofs.ForceProofs Proofs.GroupForces
  Proofs.Isometry Proofs.Covering Proofs.SameSystem Proofs.SymLabelled Proofs.Pull Proofs.Outcome Proofs.Invariance Proofs.InvarianceExamples Proofs.ForceExamples Proofs.GroupForceExamples.
Import ListNotations.
Local Open Scope R_scope.

(** The atoms of s are among those of w (atom i is number f i), and other atoms
    of w are not within rc of them. *)
Definition part (rc : R) (f : nat -> nat) (s w : structure) : Prop :=
  s_periodic w = s_periodic s /\ s_box w = s_box s /\
  (forall i j, (i < length (s_atoms s))%nat -> (j < length (s_atoms s))%nat -> f i = f j -> i = j) /\
  (forall i, (i < length (s_atoms s))%nat -> (f i < length (s_atoms w))%nat /\
     a_element (at_ w (f i)) = a_element (at_ s i) /\ a_r (at_ w (f i)) = a_r (at_ s i)) /\
  forall i j m, (i < length (s_atoms s))%nat -> site w (j, m) -> (forall k, (k < length (s_atoms s))%nat -> j <> f k) ->
    rc < norm (displacement w (at_ w (f i)) (at_ w j) m).

Section Part.
Variables (rc : R) (f : nat -> nat) (s w : structure).
Hypothesis HP : part rc f s w.
Hypothesis Hnice : nice s.
Let n := length (s_atoms s).
Lemma part_at i : (i < n)%nat -> (f i < length (s_atoms w))%nat /\ a_element (at_ w (f i)) = a_element (at_ s i) /\ a_r (at_ w (f i)) = a_r (at_ s i).
Proof. apply HP. Qed.
Lemma part_view i j m : (i < n)%nat -> (j < n)%nat -> view w (f i) (f j, m) = view s i (j, m).
Proof.
  intros Hi Hj. destruct (part_at i Hi) as (_ & _ & E1). destruct (part_at j Hj) as (_ & E2 & E3). destruct HP as (_ & Hb & _).
  unfold view, displacement, position_of_image. cbn [fst snd]. rewrite E1, E2, E3, Hb. reflexivity.
Qed.
Lemma in_range_view s1 i j m : in_range s1 rc i j m <-> (i < length (s_atoms s1))%nat /\ site s1 (j, m) /\ (i, (0, 0, 0)%Z) <> (j, m) /\ norm (snd (view s1 i (j, m))) <= rc.
Proof.
  split.
  - intros (ai & aj & Ei & Ej & Hm & Hne & Hr). split; [apply nth_error_Some; congruence|]. split; [split; auto; cbn; apply nth_error_Some; congruence|].
    split; auto. unfold view. cbn [fst snd]. now rewrite (at_nth _ _ _ Ei), (at_nth _ _ _ Ej).
  - intros (Hi & (Hj & Hm) & Hne & Hr). exists (at_ s1 i), (at_ s1 j). split; [now apply at_some|]. split; [now apply at_some|]. auto.
Qed.
Lemma part_range i j m : (i < n)%nat -> (j < n)%nat -> in_range w rc (f i) (f j) m <-> in_range s rc i j m.
Proof.
  intros Hi Hj. rewrite !in_range_view, (part_view i j m Hi Hj). unfold site. cbn [fst snd]. destruct (part_at i Hi) as (Li & _). destruct (part_at j Hj) as (Lj & _).
  destruct HP as (-> & _ & Inj & _). unfold n in *.
  assert ((f i, (0, 0, 0)%Z) <> (f j, m) <-> (i, (0, 0, 0)%Z) <> (j, m)).
  { split; intros H E; apply H; injection E as E1 E2; [now subst|f_equal; auto]. }
  tauto.
Qed.
Lemma part_only i j m : (i < n)%nat -> in_range w rc (f i) j m -> exists k, (k < n)%nat /\ j = f k.
Proof.
  intros Hi Hr. destruct (in_dec Nat.eq_dec j (map f (seq 0 n))) as [H|H].
  - apply in_map_iff in H as (k & <- & Hk). apply in_seq in Hk. exists k. split; [lia|auto].
  - apply in_range_view in Hr as (_ & S1 & _ & Hr). destruct HP as (_ & _ & _ & _ & X).
    assert (rc < norm (displacement w (at_ w (f i)) (at_ w j) m)); [|unfold view in Hr; cbn [fst snd] in Hr; lra].
    apply X; auto. intros k Hk ->. apply H, in_map, in_seq. fold n in Hk. lia.
Qed.
Lemma part_sites i L : (i < n)%nat -> sites s rc i L -> sites w rc (f i) (map (fun q => (f (fst q), snd q)) L).
Proof.
  intros Hi (L1 & L2).
  assert (HL : forall q, In q L -> (fst q < n)%nat). { intros [j m] Hq. apply L2 in Hq. apply in_range_view in Hq as (_ & (H & _) & _). exact H. }
  split.
  - clear - L1 HL HP. destruct HP as (_ & _ & Inj & _). fold n in Inj. induction L1 as [|[j m] L H1 H2 IH]; cbn [map]; constructor.
    + intros H. apply in_map_iff in H as ([j' m'] & E & Hq). cbn [fst snd] in E. injection E as E1 E2. apply H1.
      apply Inj in E1; [|apply (HL _ (or_intror Hq))|apply (HL _ (or_introl eq_refl))]. now subst.
    + apply IH. intros; apply HL. now right.
  - intros j m. rewrite in_map_iff. split.
    + intros ([j0 m0] & E & Hq). injection E as <- <-. cbn [fst snd]. apply part_range; auto; [apply (HL _ Hq)|]. now apply L2.
    + intros Hr. destruct (part_only i j m Hi Hr) as (k & Hk & ->). exists (k, m). split; auto. apply L2. now apply part_range.
Qed.
Lemma sites_lt i L q : sites s rc i L -> In q L -> (fst q < n)%nat.
Proof. intros (_ & L2) Hq. destruct q as [j m]. apply L2 in Hq. apply in_range_view in Hq as (_ & (H & _) & _). exact H. Qed.
Lemma part_neighbourhood i e : (i < n)%nat -> neighbourhood s rc i e -> neighbourhood w rc (f i) e.
Proof.
  intros Hi (L & L1 & L2 & L3). rewrite (seen_view _ _ _ _ L3). destruct (part_sites i L Hi (conj L1 L2)) as (L1' & R').
  eexists. split; [exact L1'|split; [exact R'|]].
  replace (map (view s i) L) with (map (view w (f i)) (map (fun q => (f (fst q), snd q)) L)).
  - apply (view_seen w rc). intros [j m] Hp. now apply R'.
  - rewrite map_map. apply map_ext_in. intros [j m] Hq. cbn [fst snd]. apply part_view; auto. apply (sites_lt i L (j, m) (conj L1 L2) Hq).
Qed.
Lemma part_pull all u i L : (i < n)%nat -> sites s rc i L ->
  map (pull all w u (f i)) (map (fun q => (f (fst q), snd q)) L) = map (pull all s (fun j => u (f j)) i) L.
Proof.
  intros Hi HL. rewrite map_map. apply map_ext_in. intros [j m] Hq. assert (Hj := sites_lt i L _ HL Hq). cbn [fst] in Hj. unfold pull. cbn [fst snd].
  rewrite part_view by auto. f_equal. f_equal. unfold moving. replace (Nat.eqb (f j) (f i)) with (Nat.eqb j i); auto.
  destruct (Nat.eqb_spec j i) as [-> | Ne]; [now rewrite Nat.eqb_refl|]. symmetry. apply Nat.eqb_neq. intros E. apply Ne.
  destruct HP as (_ & _ & Inj & _). now apply Inj.
Qed.
Lemma part_back i e : (i < n)%nat -> neighbourhood w rc (f i) e -> neighbourhood s rc i e.
Proof.
  intros Hi He. destruct (neighbourhood_exists s rc i Hnice) as (e0 & H0). eapply neighbourhood_permut; [exact H0|].
  eapply neighbourhood_unique; [|exact He]. now apply part_neighbourhood.
Qed.
End Part.

(** ** Two parts *)
Definition parts (rc : R) (s t w : structure) : Prop :=
  length (s_atoms w) = (length (s_atoms s) + length (s_atoms t))%nat /\
  part rc (fun i => i) s w /\ part rc (fun i => (length (s_atoms s) + i)%nat) t w.
Lemma together_parts rc s t : out_of_reach rc s t -> parts rc s t (together s t).
Proof.
  intros (H1 & H2 & H3). set (n := length (s_atoms s)).
  assert (A1 : forall i, (i < n)%nat -> at_ (together s t) i = at_ s i).
  { intros i Hi. unfold at_. cbn [together s_atoms]. now apply app_nth1. }
  assert (A2 : forall i, (i < length (s_atoms t))%nat -> at_ (together s t) (n + i) = at_ t i).
  { intros i Hi. unfold at_. cbn [together s_atoms]. rewrite app_nth2 by (unfold n; lia). f_equal. unfold n. lia. }
  assert (L : length (s_atoms (together s t)) = (n + length (s_atoms t))%nat) by (cbn [together s_atoms]; apply app_length).
  split; [exact L|]. split.
  - split; [reflexivity|]. split; [reflexivity|]. split; [auto|]. split.
    + intros i Hi. rewrite A1 by auto. split; auto. rewrite L. fold n in Hi. lia.
    + intros i j m Hi (Hj & Hm) Ho. cbn [fst snd] in Hj, Hm. rewrite L in Hj. fold n in Hi, Ho. rewrite (A1 i Hi).
      assert (n <= j)%nat. { destruct (le_lt_dec n j); auto. elim (Ho j); auto. }
      replace j with (n + (j - n))%nat by lia. rewrite A2 by lia. unfold displacement, position_of_image.
      assert (X := H3 (at_ s i) (at_ t (j - n)) (isub (0, 0, 0)%Z m)). rewrite lattice_isub, lattice_0 in X.
      replace (vsub (a_r (at_ s i)) (vsub (a_r (at_ t (j - n))) (lattice (s_box (together s t)) m)))
        with (vsub (a_r (at_ s i)) (vadd (a_r (at_ t (j - n))) (vsub vzero (lattice (s_box s) m)))) by (cbn [together s_box]; vring).
      apply X; try (eapply nth_error_In, at_some; lia). intros E. now rewrite (Hm E).
  - split; [symmetry; exact H1|]. split; [symmetry; exact H2|]. split; [intros; lia|]. fold n. split.
    + intros i Hi. rewrite A2 by auto. split; auto. rewrite L. lia.
    + intros i j m Hi (Hj & Hm) Ho. cbn [fst snd] in Hj, Hm. rewrite L in Hj. rewrite (A2 i Hi).
      assert (j < n)%nat. { destruct (le_lt_dec n j); auto. elim (Ho (j - n)%nat); fold n; lia. }
      rewrite A1 by auto. unfold displacement, position_of_image.
      assert (X := H3 (at_ s j) (at_ t i) m). rewrite norm_vsub_sym.
      replace (vsub (vsub (a_r (at_ s j)) (lattice (s_box (together s t)) m)) (a_r (at_ t i)))
        with (vsub (a_r (at_ s j)) (vadd (a_r (at_ t i)) (lattice (s_box s) m))) by (cbn [together s_box]; vring).
      apply X; try (eapply nth_error_In, at_some; auto); auto.
Qed.

Section Two.
Variables (rc : R) (s t w : structure).
Hypothesis HW : parts rc s t w.
Hypothesis Hns : nice s.
Let n := length (s_atoms s).
Let k := length (s_atoms t).
Lemma two_nice_t : nice t. Proof. destruct HW as (_ & (A1 & A2 & _) & (B1 & B2 & _)). unfold nice in *. now rewrite <- B1, <- B2, A1, A2. Qed.
Lemma two_nice_w : nice w. Proof. destruct HW as (_ & (A1 & A2 & _) & _). unfold nice in *. now rewrite A1, A2. Qed.
Lemma two_cases i : (i < n + k)%nat -> (i < n)%nat \/ exists j, (j < k)%nat /\ i = (n + j)%nat.
Proof. intros H. destruct (le_lt_dec n i); auto. right. exists (i - n)%nat. lia. Qed.
Lemma two_energies P en en' : has_atomic_energies P rc s en -> has_atomic_energies P rc t en' ->
  has_atomic_energies P rc w (fun i => if (i <? n)%nat then en i else en' (i - n)%nat).
Proof.
  destruct HW as (L & HA & HB). intros H H' i e Hi He. rewrite L in Hi. destruct (two_cases i Hi) as [Li|(j & Lj & ->)].
  - destruct (Nat.ltb_spec i n); [|lia]. destruct (part_at rc (fun i => i) s w HA i Li) as (_ & -> & _). apply H; auto.
    apply (part_back rc (fun i => i) s w HA Hns); auto.
  - destruct (Nat.ltb_spec (n + j) n); [lia|]. replace (n + j - n)%nat with j by lia.
    destruct (part_at rc _ t w HB j Lj) as (_ & X & _). fold n in X. rewrite X. apply H'; auto. apply (part_back rc _ t w HB two_nice_t); auto.
Qed.
Lemma sumn_plus a b (h : nat -> R) : sumn (a + b) h = sumn a h + sumn b (fun i => h (a + i)%nat).
Proof.
  unfold sumn. rewrite seq_app, map_app, rsum_app. f_equal. f_equal. rewrite Nat.add_0_l.
  clear. induction b as [|b IH]; auto. rewrite !seq_S, !map_app, IH. reflexivity.
Qed.
Theorem two_energy P E E' : has_energy P rc s E -> has_energy P rc t E' -> has_energy P rc w (E + E').
Proof.
  intros HE HE'. destruct (atomic_energies_exist P rc s Hns) as (en & Hen). destruct (atomic_energies_exist P rc t two_nice_t) as (en' & Hen').
  assert (Hs := sum_is_energy P rc w _ two_nice_w (two_energies P en en' Hen Hen')). destruct HW as (L & _). rewrite L in Hs. fold n k in Hs.
  replace (E + E') with (sumn (n + k) (fun i => if (i <? n)%nat then en i else en' (i - n)%nat)); auto.
  rewrite sumn_plus, (energy_is_sum P rc s en E Hen HE), (energy_is_sum P rc t en' E' Hen' HE'). fold n k. f_equal; apply sumn_ext; intros i Hi.
  - destruct (Nat.ltb_spec i n); [auto|lia].
  - destruct (Nat.ltb_spec (n + i) n); [lia|]. f_equal. lia.
Qed.
Lemma two_everywhere P (Q : kind -> env -> Prop) : everywhere P rc s Q -> everywhere P rc t Q -> everywhere P rc w Q.
Proof.
  destruct HW as (L & HA & HB). intros H H' i a e f Ei He Hf. assert (Hi : (i < n + k)%nat) by (unfold n, k; rewrite <- L; apply nth_error_Some; congruence).
  rewrite <- (at_nth _ _ _ Ei) in Hf. destruct (two_cases i Hi) as [Li|(j & Lj & ->)].
  - destruct (part_at rc (fun i => i) s w HA i Li) as (_ & X & _). rewrite X in Hf. apply (H i _ e f (at_some s i Li)); auto.
    apply (part_back rc (fun i => i) s w HA Hns); auto.
  - destruct (part_at rc _ t w HB j Lj) as (_ & X & _). fold n in X. rewrite X in Hf. apply (H' j _ e f (at_some t j Lj)); auto.
    apply (part_back rc _ t w HB two_nice_t); auto.
Qed.
End Two.

(** What evaluations return. *)
Section Results.
Variables (rc : R) (s t w : structure).
Hypothesis HW : parts rc s t w.
Hypothesis Hns : nice s.
Let n := length (s_atoms s).
Let k := length (s_atoms t).
Variables (P : potential) (E E' Ew : R) (xs ys zs : list eatom).
Hypothesis O : outcome P rc s E xs.
Hypothesis O' : outcome P rc t E' ys.
Hypothesis Ow : outcome P rc w Ew zs.
Lemma two_total : Ew = E + E'.
Proof. destruct O as (H & _). destruct O' as (H' & _). destruct Ow as (Hw & _). eapply energy_unique; [exact Hw|]. now apply (two_energy rc s t w). Qed.
Lemma two_at_first i x : nth_error xs i = Some x -> exists z, nth_error zs i = Some z /\ e_energy z = e_energy x.
Proof.
  intros Hx. destruct O as (_ & L & En & _). destruct Ow as (_ & Lw & Enw & _). destruct HW as (LL & _).
  assert (Hi : (i < n)%nat) by (unfold n; rewrite <- L; apply nth_error_Some; congruence). unfold n in Hi.
  destruct (nth_error zs i) as [z|] eqn:Ez; [|apply nth_error_None in Ez; lia]. exists z. split; auto.
  destruct (atomic_energies_exist P rc s Hns) as (en & Hen). destruct (atomic_energies_exist P rc t (two_nice_t rc s t w HW Hns)) as (en' & Hen').
  rewrite (En en i x Hen Hx), (Enw _ i z (two_energies rc s t w HW Hns P en en' Hen Hen') Ez). cbv beta. fold n. unfold n. destruct (Nat.ltb_spec i (length (s_atoms s))); auto. lia.
Qed.
Lemma two_at_second i y : nth_error ys i = Some y -> exists z, nth_error zs (n + i) = Some z /\ e_energy z = e_energy y.
Proof.
  intros Hy. destruct O' as (_ & L & En & _). destruct Ow as (_ & Lw & Enw & _). destruct HW as (LL & _).
  assert (Hi : (i < k)%nat) by (unfold k; rewrite <- L; apply nth_error_Some; congruence). unfold k in Hi.
  destruct (nth_error zs (n + i)) as [z|] eqn:Ez; [|apply nth_error_None in Ez; unfold n in Ez; lia]. exists z. split; auto.
  destruct (atomic_energies_exist P rc s Hns) as (en & Hen). destruct (atomic_energies_exist P rc t (two_nice_t rc s t w HW Hns)) as (en' & Hen').
  rewrite (En en' i y Hen' Hy), (Enw _ (n + i)%nat z (two_energies rc s t w HW Hns P en en' Hen Hen') Ez). cbv beta. fold n. destruct (Nat.ltb_spec (n + i) n); [lia|]. f_equal. lia.
Qed.
Lemma two_work u : work_of zs u = work_of xs u + work_of ys (fun i => u (n + i)%nat).
Proof.
  destruct O as (_ & _ & _ & F). destruct O' as (_ & _ & _ & F'). destruct Ow as (_ & _ & _ & Fw).
  assert (Hnt := two_nice_t rc s t w HW Hns). assert (Hnw := two_nice_w rc s t w HW Hns).
  destruct (sites_exist s rc Hns) as (LL & HL). destruct (sites_exist t rc Hnt) as (LL' & HL'). destruct (sites_exist w rc Hnw) as (LW & HLW).
  assert (Fa : false = true -> forall q, harmless rc P q) by discriminate.
  rewrite (F false (fun e => Fa e s) u LL HL), (F' false (fun e => Fa e t) _ LL' HL'), (Fw false (fun e => Fa e w) u LW HLW).
  destruct HW as (L & HA & HB). rewrite L. fold n k. rewrite sumn_plus, Ropp_plus_distr. f_equal; f_equal; apply sumn_ext; intros i Hi.
  - destruct (part_at rc _ s w HA i Hi) as (Li & X & _). rewrite X. assert (Q := part_pull rc _ s w HA false u i (LL i) Hi (HL i Hi)). cbv beta in Q. change (fun j : nat => u j) with u in Q. rewrite <- Q.
    apply work_on_permut, Permutation_map. apply (sites_unique w rc i); [now apply HLW|]. apply (part_sites rc _ s w HA i (LL i) Hi (HL i Hi)).
  - destruct (part_at rc _ t w HB i Hi) as (Li & X & _). fold n in Li, X. rewrite X. 
    assert (Q := part_pull rc _ t w HB false u i (LL' i) Hi (HL' i Hi)). cbv beta in Q. fold n in Q. rewrite <- Q.
    apply work_on_permut, Permutation_map. apply (sites_unique w rc (n + i)); [now apply HLW|]. apply (part_sites rc _ t w HB i (LL' i) Hi (HL' i Hi)).
Qed.
Lemma work_zero l (u : nat -> vec) : (forall i, (i < length l)%nat -> u i = vzero) -> work_of l u = 0.
Proof.
  intros H. unfold work_of. rewrite rsum_combine_seq. apply sumn_zero. intros i Hi. unfold nthR. destruct (nth_error l i); auto.
  cbn [fst snd]. rewrite H by auto. unfold dot, vzero; cbn. ring.
Qed.
Lemma work_ext l (u u' : nat -> vec) : (forall i, (i < length l)%nat -> u i = u' i) -> work_of l u = work_of l u'.
Proof.
  intros H. unfold work_of. rewrite !rsum_combine_seq. apply sumn_ext. intros i Hi. unfold nthR. destruct (nth_error l i); auto.
  cbn [fst snd]. now rewrite H.
Qed.
Lemma two_force_first i x z : nth_error xs i = Some x -> nth_error zs i = Some z -> e_f z = e_f x.
Proof.
  intros Hx Hz. apply dot_ext. intros v. assert (X := two_work (fun j => if Nat.eqb j i then v else vzero)).
  rewrite (work_single zs i z v Hz), (work_single xs i x v Hx) in X. rewrite work_zero in X; [lra|].
  intros j Hj. destruct O as (_ & L & _). assert (i < length xs)%nat by (apply nth_error_Some; congruence).
  destruct (Nat.eqb_spec (n + j) i); auto. unfold n in *. lia.
Qed.
Lemma two_force_second i y z : nth_error ys i = Some y -> nth_error zs (n + i) = Some z -> e_f z = e_f y.
Proof.
  intros Hy Hz. apply dot_ext. intros v. assert (X := two_work (fun j => if Nat.eqb j (n + i) then v else vzero)).
  rewrite (work_single zs (n + i) z v Hz) in X. rewrite (work_zero xs) in X.
  - rewrite (work_ext ys _ (fun j => if Nat.eqb j i then v else vzero)), (work_single ys i y v Hy) in X; [lra|].
    intros j Hj. destruct (Nat.eqb_spec (n + j) (n + i)), (Nat.eqb_spec j i); auto; lia.
  - intros j Hj. destruct O as (_ & L & _). destruct (Nat.eqb_spec j (n + i)); auto. unfold n in *. lia.
Qed.
End Results.
