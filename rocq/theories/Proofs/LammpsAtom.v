(** Energy of one atom and its derivative in terms of the stored forces. *)
From Coq Require Import Reals Lra ZArith List Lia Bool Arith Permutation Sorted.
From Coquelicot Require Import Coquelicot.
From Coq Require Import List.
From Verif Require Import Base.RealBase Base.Loop Base.Vec3 Base.SumR Model.NeuralNetwork Model.Scaling Model.Geometry Model.NeighborList
  Model.SymFunctions Model.SymSetup Model.Forces
  Spec.NetworkSpec Spec.SymSpec Spec.SetupSpec Spec.ForceSpec
  Proofs.NetForward Proofs.NeighborProofs Proofs.SymEval Proofs.SymGrad Proofs.SymInv Proofs.SetupProofs
  Proofs.ForceNet Proofs.ForceLocal Proofs.ForceAssembly Proofs.ForceProofs.
Import ListNotations.
Local Open Scope R_scope.

Section Atom.
Variables (N : nat) (rc : R) (P : potential).
Hypothesis HP : sensible N rc P.
Variable x : eatom.
Let el := a_element (e_atom x).
Let nbs := a_nbs (e_atom x).
Let e := el_of N P el.
Hypothesis Hel : (el < N)%nat.
Hypothesis Hgl : good_list (e_atom x).
Hypothesis Hnb : forall m, In m nbs -> (nb_element m < N)%nat.
Hypothesis Hsf : sf_done N P (e_atom x) (e_store x).
Hypothesis Hnet : net_done P x.

Lemma atom_energy_ok : e_energy x = atomic_energy (p_weight P) (p_fs P el) (p_net P el) (env_of nbs).
Proof.
  destruct Hnet as (En & _). fold el in En. rewrite En. unfold atomic_energy.
  destruct (HP _ Hel) as (_ & Hwf & Hact & HI). destruct (numLayers (p_net P el)) as [|LT] eqn:EL; [destruct Hwf as [H3 _]; rewrite EL in H3; lia|].
  apply (alike_output _ _ _ _ (alike_refl _) Hwf Hact) with (LT := LT); auto.
  intros c Hc. rewrite HI in Hc. destruct (nth_error (p_fs P el) c) as [f|] eqn:Ef; [|apply nth_error_None in Ef; lia].
  destruct Hsf as (_ & SD). destruct (SD c f Ef) as (f' & _ & _ & _ & _ & G' & _). unfold sf_input. rewrite Ef. exact G'.
Qed.

Definition atom_work (u : vec) (v : nat -> vec) : R :=
  dot (selfForce (length (el_fs e)) x) u + sumn (length nbs) (fun k => nthR nbs (fun m => PD e x k m (v k)) k).
Definition TDx (c : nat) (u : vec) (v : nat -> vec) : R :=
  match nth_error (el_fs e) c with Some f' => table_directional f' nbs (st_D (e_store x)) u v | None => 0 end.
Lemma TDx_sum u v : - sumn (length (p_fs P el)) (fun c => e_dEdG x c * TDx c u v) = atom_work u v.
Proof.
  unfold atom_work. rewrite selfForce_dot. destruct Hsf as (HL & SD). fold el e in HL, SD. rewrite HL. set (F := length (p_fs P el)).
  transitivity (- sumn F (fun c => e_dEdG x c * dot (st_D (e_store x) (LA c)) u
      + sumn (length nbs) (fun k => e_dEdG x c * nthR nbs (fun m => entry e x k (nb_element m) c (v k)) k))).
  { f_equal. apply sumn_ext. intros c Hc. rewrite sumn_scal, <- Rmult_plus_distr_l. f_equal.
    destruct (nth_error (p_fs P el) c) as [f|] eqn:Ef; [|apply nth_error_None in Ef; unfold F in Hc; lia].
    destruct (SD c f Ef) as (f' & Ef' & _ & _ & Ei & _). unfold TDx. rewrite Ef'. unfold table_directional. rewrite Ei. f_equal.
    rewrite rsum_combine_seq. apply sumn_ext. intros k _. unfold nthR. destruct (nth_error nbs k) as [m|]; auto.
    cbn [fst snd]. unfold entry. rewrite Ef'. reflexivity. }
  rewrite sumn_plus, Ropp_plus_distr. f_equal. rewrite sumn_swap. unfold sumn at 1. rewrite <- rsum_opp.
  apply sumn_ext. intros k Hk. unfold nthR. destruct (nth_error nbs k) as [m|] eqn:Em.
  - unfold PD. rewrite HL. reflexivity.
  - apply nth_error_None in Em. lia.
Qed.

Lemma atom_derive u v : (forall f, In f (p_fs P el) -> smooth_at (sf_kind f) (env_of nbs)) ->
  every_neuron regular (evaluate (p_net P el) (sf_input (p_weight P) (p_fs P el) (env_of nbs))) ->
  is_derive (fun t => atomic_energy (p_weight P) (p_fs P el) (p_net P el) (displace u v t (env_of nbs))) 0 (- atom_work u v).
Proof.
  intros Hsmooth Hregular. rewrite <- TDx_sum, Ropp_involutive.
  destruct Hsf as (_ & SD). destruct Hnet as (_ & ND). fold el in SD, ND. fold e in SD.
  destruct (HP _ Hel) as ((_ & _ & Hf) & Hwf & Hact & HI).
  destruct (numLayers (p_net P el)) as [|LT] eqn:EL; [destruct Hwf as [H3 _]; rewrite EL in H3; lia|].
  set (G := fun t => sf_input (p_weight P) (p_fs P el) (displace u v t (env_of nbs))).
  assert (Hreg0 : every_neuron regular (evaluate (p_net P el) (G 0))) by (unfold G; now rewrite displace_0).
  assert (TDir : forall c f, nth_error (p_fs P el) c = Some f -> exists f', sf_kind f' = sf_kind f /\ sf_scaling (sf_c f') = sf_scaling (sf_c f) /\
     TDx c u v = directional (sf_c f') nbs (fun l => ev_at l (contributions (p_weight P) f' (e_atom x))) u v).
  { intros c f Hc. destruct (SD c f Hc) as (f' & Ef' & K & Sc & _ & _ & D). exists f'. split; auto. split; auto. unfold TDx. rewrite Ef'. apply D. }
  assert (D := network_curve (p_net P el) G (fun c => TDx c u v) 0 Hwf Hreg0).
  rewrite HI in D. apply (is_derive_eq _ _ _ _ (D ltac:(
    intros c Hc; destruct (nth_error (p_fs P el) c) as [f|] eqn:Ef; [|apply nth_error_None in Ef; lia];
    destruct (TDir c f Ef) as (f' & K & Sc & DD); rewrite DD; unfold G, sf_input; rewrite Ef, <- K, <- Sc;
    apply contributions_gradient; auto;
    [ rewrite K; apply (Hf f (nth_error_In _ _ Ef))
    | rewrite K; apply Hsmooth; eapply nth_error_In; eauto
    | rewrite Sc; apply (Hf f (nth_error_In _ _ Ef)) ]))).
  apply sumn_ext. intros c Hc. f_equal. rewrite ND by auto.
  apply (alike_DEdG _ _ _ _ (alike_refl _) Hwf Hact) with (LT := LT); auto; [|rewrite HI; auto].
  intros q Hq. rewrite HI in Hq. destruct (nth_error (p_fs P el) q) as [f|] eqn:Ef; [|apply nth_error_None in Ef; lia].
  destruct (SD q f Ef) as (f' & _ & _ & _ & _ & G' & _). unfold G, sf_input. now rewrite displace_0, Ef, G'.
Qed.
End Atom.
