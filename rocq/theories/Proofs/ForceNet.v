(** Network lemmas for energies and forces: chain rule along a curve of inputs,
    and independence of the state left by earlier evaluations. *)
From Coq Require Import Reals Lra List Arith Lia Bool.
From Coquelicot Require Import Coquelicot.
From Coq Require Import List.
From Verif Require Import Base.RealBase Base.SumR Base.Loop Model.NeuralNetwork Spec.NetworkSpec
  Proofs.NetLayout Proofs.NetForward Proofs.NetGrad Proofs.NetProofs.
Import ListNotations.
Local Open Scope R_scope.

Lemma YY_linear N act nrm W B G (seed : nat -> R) : forall l k, (k < N l)%nat ->
  YY N act nrm W B G seed l k = sumn (N 0%nat) (fun i => YY N act nrm W B G (delta i) l k * seed i).
Proof.
  induction l as [|m IH]; intros k Hk.
  - cbn [YY]. rewrite <- (sumn_delta (N 0%nat) seed k) by auto. apply sumn_ext. intros i _. unfold delta.
    rewrite (Nat.eqb_sym i k). ring.
  - cbn [YY]. set (q := act_df _ _).
    transitivity (q * (sumn (N m) (fun j => sumn (N 0%nat) (fun i => W m j k * YY N act nrm W B G (delta i) m j * seed i)) * nrm (S m))).
    { f_equal. f_equal. apply sumn_ext. intros j Hj. rewrite IH by auto. rewrite <- sumn_scal. apply sumn_ext. intros; ring. }
    rewrite sumn_swap, <- sumn_scal_r, <- sumn_scal. apply sumn_ext. intros i _. rewrite sumn_scal_r. ring.
Qed.

Lemma network_curve net (G : R -> nat -> R) (g : nat -> R) t0 : well_formed net ->
  every_neuron regular (evaluate net (G t0)) ->
  (forall k, (k < numNeurons net 0)%nat -> is_derive (fun t => G t k) t0 (g k)) ->
  is_derive (fun t => getOutput (evaluate net (G t)) 0) t0
    (sumn (numNeurons net 0) (fun k => calculateDEdG (evaluate net (G t0)) k * g k)).
Proof.
  intros Hwf Hreg Hg. pose proof (regular_set net Hwf _ (evaluate_shape net (G t0)) Hreg) as Hact.
  destruct Hwf as [H3 Hpos]. destruct (numLayers net) as [|LT] eqn:EL; [lia|].
  assert (H0 : (0 < numNeurons net LT)%nat) by (apply Hpos; lia).
  apply (is_derive_ext (fun t => VAL (numNeurons net) (actFun net) (net_nrm net) (weight net) (bias net) (G t) LT 0)).
  { intros t. symmetry. apply (ev_output net (G t) LT EL ltac:(lia) Hact); auto. }
  eapply is_derive_eq.
  - apply (VAL_derive (numNeurons net) (actFun net) (net_nrm net) LT (fun _ => weight net) (fun _ => bias net) G); auto.
    + intros l j k' _ _ _. apply (is_derive_const (weight net l j k') t0).
    + intros l k' _ _. apply (is_derive_const (bias net l k') t0).
    + intros l q Hl Hq. rewrite <- (ev_x net (G t0) LT EL ltac:(lia) Hact) by auto.
      destruct (evaluate_shape net (G t0)) as (S1 & S2 & S3 & _). specialize (Hreg l q). rewrite S1, S2, S3, EL in Hreg.
      apply Hreg; auto. lia.
  - rewrite TAN_is_YY, YY_linear by auto. apply sumn_ext. intros k Hk.
    now rewrite (ev_DEdG net (G t0) LT EL ltac:(lia) Hact k Hk H0).
Qed.

(** Same network up to the state of the last evaluation. *)
Definition alike (a b : network) : Prop :=
  same_shape a b /\ (forall l j k, weight a l j k = weight b l j k) /\ (forall l k, bias a l k = bias b l k).
Lemma alike_refl a : alike a a.
Proof. repeat split. Qed.
Lemma alike_trans a b c : alike a b -> alike b c -> alike a c.
Proof.
  intros (A1 & A2 & A3) (B1 & B2 & B3). split; [eapply same_shape_trans; eauto|]. split; intros.
  - now rewrite A2, B2.
  - now rewrite A3, B3.
Qed.
Lemma alike_evaluate net G : well_formed net -> acts_set net -> alike (evaluate net G) net.
Proof.
  intros [H _] Ha. destruct (evaluate_spec net G ltac:(lia) Ha) as (A & B & C & _). split; auto.
Qed.
Lemma alike_well_formed a b : alike a b -> well_formed b -> well_formed a.
Proof. intros ((E1 & E2 & _) & _) [H1 H2]. split; rewrite E1; auto. now rewrite E2. Qed.
Lemma alike_acts a b : alike a b -> acts_set b -> acts_set a.
Proof. intros ((E1 & E2 & E3 & _) & _) H l. rewrite E1, E3. auto. Qed.

Section Alike.
Variables (a b : network) (G H : nat -> R).
Hypothesis Hab : alike a b.
Hypothesis Hb : well_formed b.
Hypothesis Hact : acts_set b.
Hypothesis HG : forall k, (k < numNeurons b 0)%nat -> G k = H k.
Variable LT : nat.
Hypothesis EL : numLayers b = S LT.

Lemma alike_ideal : numNeurons a = numNeurons b /\ actFun a = actFun b /\ net_nrm a = net_nrm b /\ numLayers a = S LT.
Proof.
  destruct Hab as ((E1 & E2 & E3 & E4) & _). split; [auto|]. split; [auto|]. split; [|congruence].
  unfold net_nrm. rewrite E2, E4. reflexivity.
Qed.
Lemma alike_output : getOutput (evaluate a G) 0 = getOutput (evaluate b H) 0.
Proof.
  destruct alike_ideal as (E2 & E3 & E4 & EL'). destruct Hb as [H3 Hpos].
  assert (H0 : (0 < numNeurons b LT)%nat) by (apply Hpos; lia).
  pose proof (alike_acts a b Hab Hact) as Hact'.
  rewrite (ev_output a G LT EL' ltac:(lia) Hact') by (rewrite E2; auto).
  rewrite (ev_output b H LT EL ltac:(lia) Hact) by auto. rewrite E2, E3, E4.
  destruct Hab as (_ & W & B). apply (VAL_ext (numNeurons b) (actFun b) (net_nrm b) LT); auto.
Qed.
Lemma alike_DEdG k : (k < numNeurons b 0)%nat -> calculateDEdG (evaluate a G) k = calculateDEdG (evaluate b H) k.
Proof.
  intros Hk. destruct alike_ideal as (E2 & E3 & E4 & EL'). destruct Hb as [H3 Hpos].
  assert (H0 : (0 < numNeurons b LT)%nat) by (apply Hpos; lia).
  pose proof (alike_acts a b Hab Hact) as Hact'.
  rewrite (ev_DEdG a G LT EL' ltac:(lia) Hact' k) by (rewrite E2; auto).
  rewrite (ev_DEdG b H LT EL ltac:(lia) Hact k) by auto. rewrite E2, E3, E4.
  destruct Hab as (_ & W & B). apply (YY_ext (numNeurons b) (actFun b) (net_nrm b) LT); auto.
Qed.
End Alike.
