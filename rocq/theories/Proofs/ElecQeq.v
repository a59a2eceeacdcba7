(** Charge equilibration: total charge, equal electronegativity, energy, minimum. *)
From Coq Require Import Reals ZArith List Bool Arith Lia Lra.
From Coq Require Import List.
From Verif Require Import Base.Vec3 Base.Loop Base.SumR Base.Erf Base.Linear Model.CompactScreening Model.Geometry Model.NeighborList
  Model.Kspace Model.SymFunctions Model.Electrostatics Spec.GeometrySpec Spec.KspaceSpec Spec.ElecSpec Proofs.UnitsProofs Proofs.KspaceProofs Proofs.ElecFill.
Import ListNotations.
Local Open Scope R_scope.

Section Abstract.
Variables (N : nat) (J : nat -> R) (U A : nat -> nat -> R).
Hypothesis HA : forall i j, (i < N)%nat -> (j < N)%nat -> A i j = (if Nat.eqb i j then J i else 0) + U i j.
Lemma sumn_delta f i : (i < N)%nat -> sumn N (fun j => (if Nat.eqb i j then J i else 0) * f j) = J i * f i.
Proof.
  intros Hi. rewrite (sumn_single N _ i Hi). now rewrite Nat.eqb_refl.
  intros j Hj Hne. destruct (Nat.eqb_spec i j); [congruence|]. ring.
Qed.
Lemma mv_border x i : (i < N)%nat -> mv (N + 1) (border N A) x i = electronegativity N (fun _ => 0) J U x i + x N.
Proof.
  intros Hi. unfold mv, electronegativity. rewrite Nat.add_1_r, sumn_S. unfold border at 2.
  destruct (Nat.eqb_spec i N); [lia|]. rewrite Nat.eqb_refl. cbn [andb orb].
  rewrite <- (sumn_delta x i Hi). rewrite Rplus_0_l, <- sumn_plus.
  rewrite (sumn_ext N (fun j => border N A i j * x j) (fun j => (if Nat.eqb i j then J i else 0) * x j + U i j * x j)).
  - ring.
  - intros j Hj. unfold border. destruct (Nat.eqb_spec i N); [lia|]. destruct (Nat.eqb_spec j N); [lia|]. cbn [andb orb]. rewrite HA by auto. ring.
Qed.
Lemma mv_border_last x : mv (N + 1) (border N A) x N = sumn N x.
Proof.
  unfold mv. rewrite Nat.add_1_r, sumn_S. unfold border at 2. rewrite Nat.eqb_refl. cbn [andb].
  rewrite (sumn_ext N (fun j => border N A N j * x j) x). ring.
  intros j Hj. unfold border. rewrite Nat.eqb_refl. destruct (Nat.eqb_spec j N); [lia|]. cbn [andb orb]. ring.
Qed.
Lemma border_nonsingular : (0 < N)%nat -> well_posed N J U -> nonsingular (N + 1) (border N A).
Proof.
  intros HN Hw x Hx.
  assert (Z : forall i, (i < N)%nat -> x i = 0).
  { apply (Hw x (- x N)).
    - rewrite <- mv_border_last. apply Hx. lia.
    - intros i Hi. assert (E := Hx i ltac:(lia)). rewrite mv_border in E by auto. lra. }
  intros i Hi. destruct (Nat.eq_dec i N) as [->|Hne]; [|apply Z; lia].
  assert (E := Hx 0%nat ltac:(lia)). rewrite mv_border in E by auto.
  assert (E0 : electronegativity N (fun _ => 0) J U x 0 = 0).
  { unfold electronegativity. rewrite (Z 0%nat HN). rewrite sumn_zero; [ring|]. intros j Hj. rewrite Z by auto. ring. }
  lra.
Qed.
Lemma border_sol chi Qt x : solution (N + 1) (border N A) (fun i => if Nat.eqb i N then Qt else - chi i) x ->
  sumn N x = Qt /\ forall i, (i < N)%nat -> electronegativity N chi J U x i = - x N.
Proof.
  intros H. split.
  - rewrite <- mv_border_last. rewrite (H N) by lia. now rewrite Nat.eqb_refl.
  - intros i Hi. assert (E := H i ltac:(lia)). rewrite mv_border in E by auto. destruct (Nat.eqb_spec i N); [lia|].
    unfold electronegativity in *. lra.
Qed.
End Abstract.

Section Minimum.
Variables (N : nat) (chi J : nat -> R) (U : nat -> nat -> R).
Hypothesis Hsym : forall i j, (i < N)%nat -> (j < N)%nat -> U i j = U j i.
Lemma qeq_expand q d : qeq_energy N chi J U (fun i => q i + d i) =
  qeq_energy N chi J U q + sumn N (fun i => electronegativity N chi J U q i * d i) + qeq_energy N (fun _ => 0) J U d.
Proof.
  unfold qeq_energy, electronegativity.
  assert (S : sumn N (fun i => sumn N (fun j => q i * U i j * d j)) = sumn N (fun i => sumn N (fun j => U i j * q j) * d i)).
  { rewrite sumn_swap. apply sumn_ext. intros i Hi. rewrite <- sumn_scal_r. apply sumn_ext. intros j Hj. rewrite Hsym by auto. ring. }
  assert (S' : sumn N (fun i => sumn N (fun j => d i * U i j * q j)) = sumn N (fun i => sumn N (fun j => U i j * q j) * d i)).
  { apply sumn_ext. intros i Hi. rewrite <- sumn_scal_r. apply sumn_ext. intros j Hj. ring. }
  assert (B : sumn N (fun i => sumn N (fun j => (q i + d i) * U i j * (q j + d j))) =
    sumn N (fun i => sumn N (fun j => q i * U i j * q j)) + sumn N (fun i => sumn N (fun j => q i * U i j * d j))
    + sumn N (fun i => sumn N (fun j => d i * U i j * q j)) + sumn N (fun i => sumn N (fun j => d i * U i j * d j))).
  { rewrite <- !sumn_plus. apply sumn_ext. intros i Hi. rewrite <- !sumn_plus. apply sumn_ext. intros. ring. }
  rewrite B, S, S'. clear B S S'.
  rewrite (sumn_ext N (fun i => chi i * (q i + d i)) (fun i => chi i * q i + chi i * d i)) by (intros; ring).
  rewrite (sumn_ext N (fun i => J i * (q i + d i) * (q i + d i)) (fun i => J i * q i * q i + 2 * (J i * q i * d i) + J i * d i * d i)) by (intros; ring).
  rewrite (sumn_ext N (fun i => (chi i + J i * q i + sumn N (fun j => U i j * q j)) * d i) (fun i => chi i * d i + J i * q i * d i + sumn N (fun j => U i j * q j) * d i)) by (intros; ring).
  rewrite (sumn_ext N (fun i => 0 * d i) (fun i => 0)) by (intros; ring).
  rewrite !sumn_plus, sumn_scal. rewrite (sumn_zero N (fun _ => 0)) by auto. lra.
Qed.
Lemma positive_well_posed : positive N J U -> well_posed N J U.
Proof.
  intros Hp d l Hd He i Hi. destruct (Req_dec (d i) 0) as [|Hne]; auto. exfalso.
  assert (P := Hp d Hd (ex_intro _ i (conj Hi Hne))).
  assert (E : qeq_energy N (fun _ => 0) J U d = 1 / 2 * sumn N (fun i => electronegativity N (fun _ => 0) J U d i * d i)).
  { unfold qeq_energy, electronegativity.
    rewrite (sumn_ext N (fun i => (0 + J i * d i + sumn N (fun j => U i j * d j)) * d i) (fun i => J i * d i * d i + sumn N (fun j => d i * U i j * d j))).
    2:{ intros k Hk. rewrite (sumn_ext N (fun j => d k * U k j * d j) (fun j => U k j * d j * d k)) by (intros; ring). rewrite sumn_scal_r. ring. }
    rewrite sumn_plus. rewrite (sumn_zero N (fun i => 0 * d i)) by (intros; ring). ring. }
  rewrite (sumn_ext N (fun i => electronegativity N (fun _ => 0) J U d i * d i) (fun i => l * d i)) in E by (intros k Hk; now rewrite He).
  rewrite sumn_scal, Hd in E. lra.
Qed.
Lemma equilibrium_minimises q l : (forall i, (i < N)%nat -> electronegativity N chi J U q i = l) -> positive N J U ->
  forall p, sumn N p = sumn N q -> qeq_energy N chi J U q <= qeq_energy N chi J U p /\
    ((exists i, (i < N)%nat /\ p i <> q i) -> qeq_energy N chi J U q < qeq_energy N chi J U p).
Proof.
  intros He Hp p Hs. set (d := fun i => p i - q i).
  assert (E : qeq_energy N chi J U p = qeq_energy N chi J U q + qeq_energy N (fun _ => 0) J U d).
  { transitivity (qeq_energy N chi J U (fun i => q i + d i)).
    { unfold qeq_energy, d. f_equal; [f_equal|]; [apply sumn_ext|f_equal; apply sumn_ext|f_equal; apply sumn_ext]; intros; try ring. apply sumn_ext; intros; ring. }
    rewrite qeq_expand. rewrite (sumn_ext N (fun i => electronegativity N chi J U q i * d i) (fun i => l * d i)) by (intros k Hk; now rewrite He).
    rewrite sumn_scal. unfold d at 1. rewrite sumn_minus, Hs. ring. }
  assert (D0 : sumn N d = 0) by (unfold d; rewrite sumn_minus, Hs; ring).
  assert (S : (exists i, (i < N)%nat /\ p i <> q i) -> qeq_energy N chi J U q < qeq_energy N chi J U p).
  { intros (i & Hi & Hne). assert (P := Hp d D0). rewrite E. assert (0 < qeq_energy N (fun _ => 0) J U d); [|lra].
    apply P. exists i. split; auto. unfold d. lra. }
  split; auto. destruct (find_nonzero d N) as [[i [Hi Hd]]|Z].
  - apply Rlt_le, S. exists i. split; auto. intros C. apply Hd. unfold d. lra.
  - rewrite E. assert (qeq_energy N (fun _ => 0) J U d = 0); [|lra]. unfold qeq_energy.
    rewrite !sumn_zero; try ring; intros; try (rewrite Z by auto; ring). apply sumn_zero. intros. rewrite Z by auto. ring.
Qed.
End Minimum.

(** ** Isolated structures *)
Section Isolated.
Variables (hardness sigma : nat -> R) (fs : screening_function) (eps : R) (s : cstruct).
Let P := element_parameters hardness sigma fs eps.
Let N := cnum s.
Hypothesis Heps : 0 < eps.
Hypothesis Hsig : forall e, 0 < sigma e.
Hypothesis Hper : cs_periodic s = false.

Lemma sumn_from f a : (a < N)%nat -> for_range (a + 1) N (fun j E => E + f j) 0 = sumn N (fun j => if Nat.ltb a j then f j else 0).
Proof.
  intros Ha. 
  pose proof (for_range_inv (fun j0 E => E = sumn j0 (fun j => if Nat.ltb a j then f j else 0)) (a + 1) N (fun j E => E + f j) 0) as H.
  apply H; clear H; [lia| |].
  - rewrite sumn_zero; auto. intros i Hi. destruct (Nat.ltb_spec a i); auto. lia.
  - intros j E Hj ->. rewrite sumn_S. destruct (Nat.ltb_spec a j); [auto|lia].
Qed.
Lemma for_range_shift (f : nat -> R -> R) (g : nat -> R) a b E0 : (forall j E, (a <= j < b)%nat -> f j E = E + g j) ->
  for_range a b f E0 = E0 + for_range a b (fun j E => E + g j) 0.
Proof.
  intros H. unfold for_range. assert (G : forall n, (n <= b - a)%nat -> for_up n (fun i => f (a + i)%nat) E0 = E0 + for_up n (fun i E => E + g (a + i)%nat) 0).
  { induction n; intros Hn; simpl; [ring|]. rewrite IHn by lia. rewrite H by lia. ring. }
  apply G. lia.
Qed.
Lemma for_up_sum (f : nat -> R -> R) (g : nat -> R) n E0 : (forall i E, (i < n)%nat -> f i E = E + g i) -> for_up n f E0 = E0 + sumn n g.
Proof.
  intros H. induction n; simpl; [rewrite sumn_0; ring|]. rewrite IHn by (intros; apply H; lia). rewrite H by lia. rewrite sumn_S. ring.
Qed.
Lemma sc_f_outer r : sc_outer fs <= r -> sc_f fs r = 1.
Proof. intros H. unfold sc_f. destruct (Rge_dec r (sc_outer fs)); [auto|lra]. Qed.
Lemma screening_isolated A Q : (forall i j, (i < N)%nat -> (j < N)%nat -> i <> j -> A i j = isolated_U sigma eps s i j) ->
  calculateScreeningEnergy P s A Q = Some (sumn N (fun i => - (1 / 2 * (Q i * isolated_U sigma eps s i i * Q i)) +
     sumn N (fun j => if Nat.ltb i j then Q i * Q j * isolated_U sigma eps s i j * (sc_f fs (distance s i j) - 1) else 0))).
Proof.
  intros HA. unfold calculateScreeningEnergy. rewrite Hper. f_equal. fold N.
  rewrite (for_up_sum _ (fun i => - (1 / 2 * (Q i * isolated_U sigma eps s i i * Q i)) +
     sumn N (fun j => if Nat.ltb i j then Q i * Q j * isolated_U sigma eps s i j * (sc_f fs (distance s i j) - 1) else 0))). ring.
  intros i E Hi. cbv zeta.
  rewrite (for_range_shift _ (fun j => Q i * Q j * isolated_U sigma eps s i j * (sc_f fs (distance s i j) - 1))).
  - rewrite sumn_from by auto. rewrite <- Rplus_assoc. f_equal. f_equal.
    unfold isolated_U. rewrite Nat.eqb_refl. simpl ep_sigma. simpl ep_eps. pose proof (Hsig (cel s i)).
    assert (0 < sqrt PI) by (apply sqrt_lt_R0, PI_RGT_0). field. repeat split; lra.
  - intros j E' Hj. fold (distance s i j). simpl ep_fs. destruct (Rlt_dec (distance s i j) (sc_outer fs)).
    + rewrite HA by lia. auto.
    + rewrite sc_f_outer by lra. ring.
Qed.
Lemma double_sum (f : nat -> nat -> R) : (forall i j, (i < N)%nat -> (j < N)%nat -> f i j = f j i) ->
  sumn N (fun i => sumn N (fun j => f i j)) = sumn N (fun i => f i i) + 2 * sumn N (fun i => sumn N (fun j => if Nat.ltb i j then f i j else 0)).
Proof.
  intros Hs.
  assert (E : sumn N (fun i => sumn N (fun j => f i j)) = sumn N (fun i => sumn N (fun j => (if Nat.eqb i j then f i j else 0)))
     + (sumn N (fun i => sumn N (fun j => if Nat.ltb i j then f i j else 0)) + sumn N (fun i => sumn N (fun j => if Nat.ltb j i then f i j else 0)))).
  { rewrite <- !sumn_plus. apply sumn_ext. intros i Hi. rewrite <- !sumn_plus. apply sumn_ext. intros j Hj.
    destruct (Nat.eqb_spec i j), (Nat.ltb_spec i j), (Nat.ltb_spec j i); try lia; ring. }
  rewrite E. clear E.
  rewrite (sumn_swap N N (fun i j => if Nat.ltb j i then f i j else 0)).
  rewrite (sumn_ext N (fun j => sumn N (fun i => if Nat.ltb j i then f i j else 0)) (fun i => sumn N (fun j => if Nat.ltb i j then f i j else 0))).
  2:{ intros i Hi. apply sumn_ext. intros j Hj. destruct (Nat.ltb i j); auto. }
  rewrite (sumn_ext N (fun i => sumn N (fun j => if Nat.eqb i j then f i j else 0)) (fun i => f i i)).
  2:{ intros i Hi. rewrite (sumn_single N _ i Hi). now rewrite Nat.eqb_refl. intros j Hj Hne. destruct (Nat.eqb_spec i j); [congruence|auto]. }
  ring.
Qed.
Theorem isolated_equilibrium solve fuel W : exact_solver solve -> (0 < N)%nat -> well_posed N (J_of hardness s) (isolated_U sigma eps s) ->
  exists r, calculateElectrostaticEnergy solve fuel W P s = Some r /\
    sumn N (er_Q r) = cs_chargeRef s /\
    (forall i, (i < N)%nat -> electronegativity N (chi_of s) (J_of hardness s) (isolated_U sigma eps s) (er_Q r) i = - er_lambda r) /\
    er_energy r = isolated_energy sigma eps fs s (er_Q r).
Proof.
  intros Hsol HN Hw. unfold calculateElectrostaticEnergy. rewrite Hper. unfold finish. fold N.
  set (A := fill_isolated P s). set (b := fun i => if Nat.eqb i N then cs_chargeRef s else - c_chi (cat s i)).
  set (Q := solve (N + 1)%nat (border N A) b).
  assert (HA : forall i j, (i < N)%nat -> (j < N)%nat -> A i j = (if Nat.eqb i j then J_of hardness s i else 0) + isolated_U sigma eps s i j).
  { intros. now apply fill_isolated_U. }
  assert (BA : forall i j, (i < N)%nat -> (j < N)%nat -> border N A i j = A i j).
  { intros i j Hi Hj. unfold border. destruct (Nat.eqb_spec i N), (Nat.eqb_spec j N); try lia. auto. }
  assert (S := Hsol (N + 1)%nat (border N A) b (border_nonsingular N (J_of hardness s) (isolated_U sigma eps s) A HA HN Hw)).
  fold Q in S. destruct (border_sol N (J_of hardness s) (isolated_U sigma eps s) A HA (chi_of s) (cs_chargeRef s) Q S) as [S1 S2].
  rewrite screening_isolated.
  2:{ intros i j Hi Hj Hne. rewrite BA, HA by auto. destruct (Nat.eqb_spec i j); [congruence|ring]. }
  eexists. split; [reflexivity|]. cbn [er_Q er_lambda er_energy]. split; auto. split; auto.
  rewrite (sumn_ext N _ (fun i => sumn N (fun j => Q i * isolated_U sigma eps s i j * Q j))).
  2:{ intros i Hi. apply sumn_ext. intros j Hj. rewrite BA, HA by auto. simpl ep_hardness. unfold J_of. destruct (Nat.eqb i j); ring. }
  rewrite (double_sum (fun i j => Q i * isolated_U sigma eps s i j * Q j)).
  2:{ intros i j Hi Hj. rewrite isolated_U_sym. ring. }
  rewrite sumn_plus. rewrite (sumn_ext N (fun i => - (1 / 2 * (Q i * isolated_U sigma eps s i i * Q i))) (fun i => (- (1 / 2)) * (Q i * isolated_U sigma eps s i i * Q i))) by (intros; ring).
  rewrite sumn_scal.
  transitivity (sumn N (fun i => sumn N (fun j => if Nat.ltb i j then Q i * isolated_U sigma eps s i j * Q j else 0)) +
    sumn N (fun i => sumn N (fun j => if Nat.ltb i j then Q i * Q j * isolated_U sigma eps s i j * (sc_f fs (distance s i j) - 1) else 0))).
  { field. }
  rewrite <- sumn_plus. unfold isolated_energy. fold N. apply sumn_ext. intros i Hi. rewrite <- sumn_plus. apply sumn_ext. intros j Hj.
  destruct (Nat.ltb_spec i j); [|ring]. unfold isolated_U. destruct (Nat.eqb_spec i j); [lia|]. ring.
Qed.
End Isolated.
