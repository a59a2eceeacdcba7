(** C75: an example, three atoms of two elements. *)
From Coq Require Import Reals Lra ZArith List Lia Bool Arith.
From Coquelicot Require Import Coquelicot.
From Coq Require Import List.
From Verif Require Import Base.RealBase Base.Erf Base.Vec3 Base.SumR Model.CoreFunction Model.NeuralNetwork Model.CompactScreening Model.NeighborList Model.SymFunctions Model.SymSetup Model.Scaling
  Model.Forces Model.Electrostatics Model.Evaluation4G
  Spec.NetworkSpec Spec.GeometrySpec Spec.NeighborSpec Spec.SymSpec Spec.SetupSpec Spec.ForceSpec Spec.ElecSpec Spec.Evaluation4GSpec
  Proofs.NetProofs Proofs.NetForward Proofs.ForceNet Proofs.ForceExamples Proofs.ElecFill Proofs.ElecQeq Proofs.ElecProofs Proofs.Stages4G Proofs.Evaluation4GProofs.
Import ListNotations.
Local Open Scope R_scope.

(** Two inputs, one neuron per other layer, identity. *)
Definition pair_net (b : R) : network :=
  mkNetwork 3 (fun l => if Nat.eqb l 0 then 2%nat else 1%nat) (fun _ => AF_IDENTITY) false
    (fun l k => mkNeuron 0 0 0 0 0 0 0 0 0 0 0 (fun j => if Nat.eqb j 0 then 1 else b)).
Lemma pair_wf b : well_formed (pair_net b).
Proof. split; [cbn; lia|]. intros l _. cbn. destruct l; cbn; lia. Qed.
Lemma pair_acts b : acts_known (pair_net b).
Proof. intros l _. discriminate. Qed.
Lemma pair_regular b G : every_neuron regular (evaluate (pair_net b) G).
Proof.
  intros l k _ _. destruct (evaluate_shape (pair_net b) G) as (_ & _ & E & _). rewrite E. exact I.
Qed.
Definition three_pot4 : potential4 :=
  mkPotential4 (p_fs (chain_pot chain_ang 1)) (fun e => if Nat.eqb e 0 then line_net 1 else line_net 2) (fun e => if Nat.eqb e 0 then pair_net 1 else pair_net 3)
    (fun _ => 1) (fun _ => 10) (fun _ => 1) ex_fs 1 (negativity true 2 4 1).
Lemma three_sensible4 : sensible4 2 chain_rc three_pot4.
Proof.
  split; [cbn; lra|]. split; [intros e; cbn; lra|]. split; [exists CK_POLY2, 1, 6; exact ex_fs_config|].
  intros e He. destruct (chain_sensible chain_ang 1 (or_introl eq_refl) e He) as (U & _). split; [exact U|].
  cbn [three_pot4 q_elec q_short q_fs p_fs chain_pot]. destruct (Nat.eqb e 0); (split; [split; [apply line_wf|split; [apply line_acts|reflexivity]]|]);
    (split; [apply pair_wf|split; [apply pair_acts|reflexivity]]).
Qed.
Lemma three_smooth4 : everywhere4 three_pot4 chain_rc three smooth_at.
Proof. exact three_smooth. Qed.
Lemma three_regular4 q : regular_networks4 three_pot4 chain_rc three q.
Proof.
  intros i a e _ _. cbn [three_pot4 q_elec q_short]. destruct (Nat.eqb _ 0); (split; [apply line_regular|apply pair_regular]).
Qed.
Lemma three_separated : separated (charge_sites three).
Proof.
  intros i j Hi Hj Hne E. rewrite sites_num in Hi, Hj. cbn in Hi, Hj. apply (f_equal norm2) in E as E2.
  assert (E3 : norm2 (vsub (cpos (charge_sites three) i) (cpos (charge_sites three) j)) = 0).
  { rewrite E. unfold norm2, vsub; cbn. ring. }
  destruct i as [|[|[|i]]]; [| | |lia]; (destruct j as [|[|[|j]]]; [| | |lia]); try lia;
    unfold norm2, vsub, cpos, cna, cat in E3; cbn in E3; lra.
Qed.
Lemma three_far i j : (i < 3)%nat -> (j < 3)%nat -> i <> j -> 1 <= distance (charge_sites three) i j.
Proof.
  intros Hi Hj Hne. unfold distance, norm. rewrite <- sqrt_1. apply sqrt_le_1_alt.
  destruct i as [|[|[|i]]]; [| | |lia]; (destruct j as [|[|[|j]]]; [| | |lia]); try lia; unfold norm2, vsub, cpos, cna, cat; cbn; lra.
Qed.
Lemma three_chargeable : chargeable three_pot4 three.
Proof.
  split; [cbn; lia|]. change (length (s_atoms three)) with 3%nat. apply positive_well_posed.
  cbn [three_pot4 q_hardness q_sigma q_eps]. set (u := isolated_U (fun _ => 1) 1 (charge_sites three)).
  assert (B : forall i j, (i < 3)%nat -> (j < 3)%nat -> i <> j -> 0 <= u i j <= 2).
  { intros i j Hi Hj Hne. assert (D := three_far i j Hi Hj Hne). unfold u, isolated_U. destruct (Nat.eqb_spec i j); [lia|]. unfold gaussian_coulomb. rewrite Rmult_1_r.
    set (d := distance _ i j) in *. set (x := d / sqrt _). assert (Hx : 0 <= x).
    { unfold x. apply Rle_div_r; [apply Rlt_gt, sqrt_lt_R0; lra|]. lra. }
    pose proof (erf_lt_2 x). pose proof (erf_nonneg x Hx). split; [apply Rle_div_r; lra|]. apply Rle_div_l; [lra|]. nra. }
  assert (P : forall i, (i < 3)%nat -> 0 <= u i i).
  { intros i Hi. unfold u, isolated_U. rewrite Nat.eqb_refl. apply Rlt_le. apply Rdiv_lt_0_compat; [lra|]. pose proof (sqrt_lt_R0 PI PI_RGT_0). lra. }
  intros d Hs Hd. unfold qeq_energy, J_of, sumn; cbn [seq map rsum fold_right].
  assert (H : 0 < d 0%nat * d 0%nat + d 1%nat * d 1%nat + d 2%nat * d 2%nat).
  { destruct Hd as (i & Hi & Hd). assert (0 < d i * d i) by (apply Rsqr_pos_lt in Hd; exact Hd).
    pose proof (Rle_0_sqr (d 0%nat)). pose proof (Rle_0_sqr (d 1%nat)). pose proof (Rle_0_sqr (d 2%nat)). unfold Rsqr in *.
    destruct i as [|[|[|i]]]; [| | |lia]; lra. }
  assert (T : forall i j, (i < 3)%nat -> (j < 3)%nat -> i <> j -> - (d i * d i + d j * d j) <= d i * u i j * d j).
  { intros i j Hi Hj Hne. destruct (B i j Hi Hj Hne) as [B1 B2].
    assert (Q1 : 0 <= u i j * ((d i + d j) * (d i + d j))) by (apply Rmult_le_pos; [auto|apply Rle_0_sqr]).
    assert (Q2 : 0 <= (2 - u i j) * (d i * d i + d j * d j)).
    { apply Rmult_le_pos; [lra|]. pose proof (Rle_0_sqr (d i)). pose proof (Rle_0_sqr (d j)). unfold Rsqr in *. lra. }
    lra. }
  assert (S0 : forall i, (i < 3)%nat -> 0 <= d i * u i i * d i).
  { intros i Hi. replace (d i * u i i * d i) with (u i i * (d i * d i)) by ring. apply Rmult_le_pos; [auto|apply Rle_0_sqr]. }
  pose proof (T 0 1 ltac:(lia) ltac:(lia) ltac:(lia))%nat. pose proof (T 0 2 ltac:(lia) ltac:(lia) ltac:(lia))%nat. pose proof (T 1 2 ltac:(lia) ltac:(lia) ltac:(lia))%nat.
  pose proof (T 1 0 ltac:(lia) ltac:(lia) ltac:(lia))%nat. pose proof (T 2 0 ltac:(lia) ltac:(lia) ltac:(lia))%nat. pose proof (T 2 1 ltac:(lia) ltac:(lia) ltac:(lia))%nat.
  pose proof (S0 0 ltac:(lia))%nat. pose proof (S0 1 ltac:(lia))%nat. pose proof (S0 2 ltac:(lia))%nat. lra.
Qed.
Lemma three4_ok : sensible4 2 chain_rc three_pot4 /\ unprocessed chain_rc three /\ s_numElements three = 2%nat /\ s_periodic three = false /\ chargeable three_pot4 three /\
  everywhere4 three_pot4 chain_rc three smooth_at /\ (forall q, regular_networks4 three_pot4 chain_rc three q) /\ separated (charge_sites three) /\
  in_range three chain_rc 0 1 (0, 0, 0)%Z /\ in_range three chain_rc 0 2 (0, 0, 0)%Z.
Proof.
  split; [exact three_sensible4|]. split; [exact three_unprocessed|]. split; [reflexivity|]. split; [reflexivity|]. split; [exact three_chargeable|].
  split; [exact three_smooth4|]. split; [exact three_regular4|]. split; [exact three_separated|exact three_range].
Qed.
