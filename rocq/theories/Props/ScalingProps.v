(** Properties C12, C13: symmetry function scaling and statistics. *)
From Coq Require Import Reals Lra List Arith Permutation.
From Coquelicot Require Import Coquelicot.
From Coq Require Import List.
From Verif Require Import Base.SumR Model.Strings Model.Scaling Spec.ScalingSpec Proofs.ScalingProofs.
Import ListNotations.
Local Open Scope R_scope.

(** ** C12 *)
Theorem C12_scale_is_documented_formula : forall ec i s0 t l Smin Smax s x,
  setScalingType ec i s0 t l Smin Smax = Some s ->
  scale s x = documented_scale t (l_min l) (l_max l) (l_mean l)
                (match l_sigma l with Some v => v | None => s0 end) Smin Smax x.
Proof. exact scale_documented. Qed.
Print Assumptions C12_scale_is_documented_formula.

Theorem C12_scale_unscale_inverse : forall ec i s0 t l Smin Smax s,
  setScalingType ec i s0 t l Smin Smax = Some s -> nondegenerate s ->
  forall x, unscale s (scale s x) = x /\ scale s (unscale s x) = x.
Proof. exact scale_unscale. Qed.
Print Assumptions C12_scale_unscale_inverse.

Theorem C12_range_mapped : forall ec i s0 l Smin Smax s,
  setScalingType ec i s0 ST_SCALE l Smin Smax = Some s ->
  l_min l < l_max l -> Smin < Smax ->
  scale s (l_min l) = Smin /\ scale s (l_max l) = Smax /\
  (forall x, l_min l <= x <= l_max l <-> Smin <= scale s x <= Smax).
Proof. exact scale_range. Qed.
Print Assumptions C12_range_mapped.

Theorem C12_factor_is_derivative : forall ec i s0 t l Smin Smax s,
  setScalingType ec i s0 t l Smin Smax = Some s ->
  forall x, is_derive (scale s) x (scalingFactor s).
Proof. exact scale_derive. Qed.
Print Assumptions C12_factor_is_derivative.

(** The consistency check does not catch a line belonging to another symmetry
    function of the same element. *)
Theorem C12_line_mixup_refuted : exists ec i s0 t l Smin Smax s,
  setScalingType ec i s0 t l Smin Smax = Some s /\ l_index l <> S i.
Proof. exact line_mixup. Qed.
Print Assumptions C12_line_mixup_refuted.

Example C12_nonvacuous : exists s,
  setScalingType 0 1 0 ST_SCALE (mkStatLine 1 2 (-1) 3 (1/2) (Some 1)) 0 1 = Some s /\ nondegenerate s /\
  scale s 1 = 1/2.
Proof. eexists. split; [reflexivity|]. split; [cbn; lra|]. unfold scale; cbn. field. Qed.

(** ** C13 *)
(** The total of the returned warning counts over any history is the number of
    evaluations outside the range by more than the tolerance. *)
Theorem C13_warning_count : forall fl sym sfs atoms d, f_stopOnEW fl = false ->
  (forall a, In a atoms -> length (snd a) = length sfs) ->
  exists d' evs, selected warned (evaluations sfs atoms) evs /\
    update_atoms fl sym sfs d atoms = Some (length evs, d').
Proof. exact warnings_total. Qed.
Print Assumptions C13_warning_count.

(** The warning log of symmetry function [j] lists exactly these evaluations,
    in order, with their values, structure and atom indices. *)
Theorem C13_warning_log : forall fl sym sfs atoms total d j,
  f_stopOnEW fl = false -> f_collectEW fl = true ->
  (forall a, In a atoms -> length (snd a) = length sfs) ->
  update_atoms fl sym sfs [] atoms = Some (total, d) ->
  exists evs, selected (fun e => sf_index (fst (snd e)) = j /\ warned e) (evaluations sfs atoms) evs /\
  c_countEW (sd_get d j) = length evs /\
  c_valueEW (sd_get d j) = map raw_value evs /\
  c_structureEW (sd_get d j) = map (fun e => fst (fst e)) evs /\
  c_atomEW (sd_get d j) = map (fun e => snd (fst e)) evs.
Proof. exact warnings_log. Qed.
Print Assumptions C13_warning_log.

(** With stopping enabled, processing an atom fails exactly if one of its
    values is out of range. *)
Theorem C13_stop_on_warning : forall fl sym iS iA d sfs G,
  f_stopOnEW fl = true -> length G = length sfs ->
  (updateStatistics fl sym iS iA d sfs G = None <->
   exists i sf g, nth_error sfs i = Some sf /\ nth_error G i = Some g /\
     out_of_range (s_Gmin (sf_scaling sf)) (s_Gmax (sf_scaling sf)) (unscale (sf_scaling sf) g)).
Proof. exact stop_on_warning. Qed.
Print Assumptions C13_stop_on_warning.

(** After any history the statistics of symmetry function [j] are those of all
    its values. *)
Theorem C13_statistics_of_history : forall fl sym sfs atoms total d,
  f_collectStatistics fl = true -> f_stopOnEW fl = false ->
  (forall i sf, nth_error sfs i = Some sf -> sf_index sf = i) ->
  (forall a, In a atoms -> length (snd a) = length sfs /\ Forall finite_double (snd a)) ->
  update_atoms fl sym sfs [] atoms = Some (total, d) ->
  forall j, holds (column j atoms) (sd_get d j).
Proof. exact holds_of_history. Qed.
Print Assumptions C13_statistics_of_history.

(** They do not depend on the order of the history. *)
Theorem C13_order_irrelevant : forall l1 l2 n1 n2 a1 a2 b1 b2 s1 s2 q1 q2,
  Permutation l1 l2 -> l1 <> [] ->
  statistics_of l1 n1 a1 b1 s1 q1 -> statistics_of l2 n2 a2 b2 s2 q2 ->
  n1 = n2 /\ a1 = a2 /\ b1 = b2 /\ s1 = s2 /\ q1 = q2.
Proof. exact order_irrelevant. Qed.
Print Assumptions C13_order_irrelevant.

(** The reduction over any number of processes gives the statistics of all
    values together. *)
Theorem C13_reduction_over_ranks : forall ls ranks, Forall2 holds ls ranks ->
  let '(n, mn, mx, s, s2) := allreduce_stats ranks in
  statistics_of (concat ls) n mn mx s s2.
Proof. exact allreduce_stats_spec. Qed.
Print Assumptions C13_reduction_over_ranks.

(** The sigma column is the sample standard deviation. *)
Theorem C13_sigma_is_sample_deviation : forall l, (1 < length l)%nat ->
  let m := file_mean (length l) (rsum l) in
  let sg := file_sigma (length l) (rsum l) (rsum (map (fun x => x * x) l)) in
  0 <= sg /\ sg * sg = rsum (map (fun x => (x - m) * (x - m)) l) / (INR (length l) - 1).
Proof. exact file_sigma_spec. Qed.
Print Assumptions C13_sigma_is_sample_deviation.

(** Values the statistics were gathered from are mapped into the target range
    and never cause a warning. *)
Theorem C13_training_values_in_range : forall l n mn mx s s2 ec i s0 sm Smin Smax sc,
  statistics_of l n mn mx s s2 -> mn < mx -> Smin < Smax ->
  setScalingType ec i s0 ST_SCALE (mkStatLine (ec + 1) (i + 1) mn mx (file_mean n s) sm) Smin Smax = Some sc ->
  forall x, In x l -> Smin <= scale sc x <= Smax /\
    ~ out_of_range (s_Gmin sc) (s_Gmax sc) (unscale sc (scale sc x)).
Proof. exact training_no_warning. Qed.
Print Assumptions C13_training_values_in_range.

Example C13_nonvacuous :
  let sc := mkScaling ST_NONE 0 1 0 0 0 0 1 in
  (forall i sf, nth_error [mkSfStat sc 0 2; mkSfStat sc 1 3] i = Some sf -> sf_index sf = i) /\
  warned (4%nat, 5%nat, (mkSfStat sc 0 2, 7)) /\ ~ warned (4%nat, 5%nat, (mkSfStat sc 0 2, 1)).
Proof.
  assert (H : 0 < 1000 / 2 ^ 52 < 1).
  { split; [apply Rdiv_lt_0_compat; [lra | apply pow_lt; lra]|].
    apply (Rmult_lt_reg_r (2 ^ 52)); [apply pow_lt; lra|]. unfold Rdiv. rewrite Rmult_assoc, Rinv_l by (apply pow_nonzero; lra). lra. }
  cbv zeta. split; [|split].
  - intros [|[|[|i]]] sf H'; try discriminate; injection H' as <-; reflexivity.
  - right. unfold raw_value. cbn [sf_scaling fst snd unscale scalingType s_Gmax]. lra.
  - unfold warned, out_of_range, raw_value. cbn [sf_scaling fst snd unscale scalingType s_Gmax s_Gmin]. lra.
Qed.
