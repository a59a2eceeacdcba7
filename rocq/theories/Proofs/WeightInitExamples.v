(** Initial weights (C95): dependence on the number of processes, examples. *)
From Coq Require Import Reals Lra ZArith Lia Ascii String Bool Arith.
From Coq Require Import List.
From Verif Require Import Base.SumR Base.Loop Model.Strings Model.Printf Model.Settings Model.SymLines Model.NetworkSetup Model.NeuralNetwork Model.DataFiles Model.Selection Model.TrainingSetup Model.WeightInit
  Spec.NetworkSpec Spec.InitSpec Spec.StringSpec Spec.TrainingSpec Spec.WeightInitSpec
  Proofs.NetLayout Proofs.NetProofs Proofs.NetMore Proofs.NetInit Proofs.NetExamples Proofs.EnvironmentProofs Proofs.TrainingSelection Proofs.WeightInitProofs.
From Coq Require Import List.
Import ListNotations.
Local Open Scope R_scope.

Lemma glorot_pos net l : well_formed net -> (S l < numLayers net)%nat -> 0 < glorot net l.
Proof.
  intros (HL & H) Hl. unfold glorot. destruct (is_tanh _); [|lra]. apply sqrt_lt_R0. apply Rdiv_lt_0_compat; [lra|].
  apply lt_0_INR. pose proof (H l ltac:(lia)). lia.
Qed.
Lemma initial_one mt taus s nnp stage id elec elec_files nets files n z : (1 <= n)%nat -> given_int s (lit "random_seed") z ->
  forall el r st', initializeWeights taus s nnp stage id elec elec_files nets files (g_set taus (nth_integer mt (g_set mt (z mod 2 ^ 64)%Z) (n - 1))) = Done (el, r, st') ->
  initialNetworks mt taus s nnp stage id elec elec_files nets files n = Done (repeat r n).
Proof.
  intros Hn Hz el r st' E. unfold initialNetworks. destruct (generators mt taus s n z Hn Hz) as (seeds & states & G & _ & L & _ & _ & S). rewrite G. cbn [bindo snd].
  apply mapo_Forall2. clear G. assert (A : forall x, In x states -> x = g_set taus (nth_integer mt (g_set mt (z mod 2 ^ 64)%Z) (n - 1))).
  { intros x I. apply In_nth_error in I. destruct I as (k & K). assert (k < n)%nat by (rewrite <- L; apply nth_error_Some; congruence). rewrite S in K by auto. congruence. }
  clear S. rewrite <- L. clear L Hn. induction states as [|x states IH]; cbn [List.length repeat]; constructor.
  - rewrite (A x (or_introl eq_refl)), E. reflexivity.
  - apply IH. intros y Y. apply A. now right.
Qed.
Theorem process_count mt taus s nnp stage id elec elec_files net nets files z lo hi :
  (forall n, In n (net :: nets) -> well_formed n) -> charges_available nnp stage elec elec_files ->
  given_int s (lit "random_seed") z -> given_real s (lit "weights_min") lo -> given_real s (lit "weights_max") hi -> lo <> hi ->
  absent s (lit "use_old_weights" ++ suffix id) -> absent s (lit "nguyen_widrow_weights" ++ suffix id) -> absent s (lit "precondition_weights") ->
  let start := g_set mt (z mod 2 ^ 64)%Z in
  forall n m, (1 <= n)%nat -> (1 <= m)%nat ->
  nth_uniform taus (g_set taus (nth_integer mt start (n - 1))) 0 <> nth_uniform taus (g_set taus (nth_integer mt start (m - 1))) 0 ->
  exists a b, initialNetworks mt taus s nnp stage id elec elec_files (net :: nets) files n = Done (repeat a n) /\
    initialNetworks mt taus s nnp stage id elec elec_files (net :: nets) files m = Done (repeat b m) /\ a <> b.
Proof.
  intros WF CH RS LO HI NE OLD NW PRE start n m Hn Hm U.
  destruct (default_weights taus s nnp stage id elec elec_files (net :: nets) files (g_set taus (nth_integer mt start (n - 1))) lo hi WF CH LO HI OLD NW PRE) as (e1 & n1 & s1 & E1 & D1 & W1).
  destruct (default_weights taus s nnp stage id elec elec_files (net :: nets) files (g_set taus (nth_integer mt start (m - 1))) lo hi WF CH LO HI OLD NW PRE) as (e2 & n2 & s2 & E2 & D2 & W2).
  exists (map Some n1), (map Some n2). split; [eapply initial_one; eauto|]. split; [eapply initial_one; eauto|]. intros EQ.
  inversion D1 as [|x1 y1 l1 m1 A1 B1]; subst. inversion D2 as [|x2 y2 l2 m2 A2 B2]; subst. cbn [map] in EQ. injection EQ as EX _. subst x2.
  pose proof (WF net (or_introl eq_refl)) as W0. pose proof W0 as (HL & HN).
  destruct (W1 0%nat net x1 eq_refl eq_refl) as (P1 & _). destruct (W2 0%nat net x1 eq_refl eq_refl) as (P2 & _).
  specialize (P1 0%nat 0%nat 0%nat ltac:(lia) (HN 0%nat ltac:(lia)) (HN 1%nat ltac:(lia))). specialize (P2 0%nat 0%nat 0%nat ltac:(lia) (HN 0%nat ltac:(lia)) (HN 1%nat ltac:(lia))).
  rewrite P1 in P2. pose proof (glorot_pos net 0 W0 ltac:(lia)). apply Rmult_eq_reg_r in P2; [|lra].
  unfold drawn, connections_before, weight_position in P2. cbn [firstn map list_sum fold_right block_start Nat.mul Nat.add] in P2.
  apply U. apply Rplus_eq_reg_l in P2. apply Rmult_eq_reg_r in P2; [exact P2|lra].
Qed.

(** A generator (not one of the library) and settings. *)
Definition counter : generator :=
  mkGen Z (fun z => z) (fun z => (z, z + 1)%Z) (fun z => (if Z.even z then / 4 else / 2, (z + 1)%Z)).
Lemma counter_proper : proper counter.
Proof. intros z. cbn. destruct (Z.even z); lra. Qed.
Definition init_settings (more : list string) : settings :=
  fst (loadFile settings_init (join [ch_lf] (map lit (List.app ["random_seed 10"; "weights_min -1"; "weights_max 1"]%string more)))).
Definition init_nets : list network := [ex_net; ex_net].
Lemma init_wf net : In net init_nets -> well_formed net.
Proof. intros [<-|[<-|[]]]; exact ex_wf. Qed.
Lemma init_numbers more v w z : getValue (init_settings more) (lit "weights_min") = Some v -> getValue (init_settings more) (lit "weights_max") = Some w ->
  get_int (init_settings more) (lit "random_seed") = Done z ->
  given_real (init_settings more) (lit "weights_min") (atof v) /\ given_real (init_settings more) (lit "weights_max") (atof w) /\ given_int (init_settings more) (lit "random_seed") z.
Proof. intros A B C. split; [exists v; split; [exact A|reflexivity]|]. split; [exists w; split; [exact B|reflexivity]|]. now apply get_int_given. Qed.
Lemma init_case : proper counter /\ (forall net, In net init_nets -> well_formed net) /\
  let s := init_settings [] in
  given_real s (lit "weights_min") (atof (lit "-1")) /\ given_real s (lit "weights_max") (atof (lit "1")) /\ given_int s (lit "random_seed") 10 /\
  absent s (lit "use_old_weights_short") /\ absent s (lit "nguyen_widrow_weights_short") /\ absent s (lit "precondition_weights") /\
  nth_uniform counter (g_set counter (nth_integer counter (g_set counter 10%Z) 0)) 0 <> nth_uniform counter (g_set counter (nth_integer counter (g_set counter 10%Z) 1)) 0.
Proof.
  split; [exact counter_proper|]. split; [exact init_wf|]. cbv zeta. repeat match goal with |- _ /\ _ => split end.
  - apply (init_numbers [] (lit "-1") (lit "1") 10%Z); vm_compute; reflexivity.
  - apply (init_numbers [] (lit "-1") (lit "1") 10%Z); vm_compute; reflexivity.
  - apply (init_numbers [] (lit "-1") (lit "1") 10%Z); vm_compute; reflexivity.
  - vm_compute. reflexivity.
  - vm_compute. reflexivity.
  - vm_compute. reflexivity.
  - cbn. lra.
Qed.
Lemma widrow_case : let s := init_settings ["nguyen_widrow_weights_short"]%string in
  given_real s (lit "weights_min") (atof (lit "-1")) /\ given_real s (lit "weights_max") (atof (lit "1")) /\
  absent s (lit "use_old_weights_short") /\ keywordExists s (lit "nguyen_widrow_weights_short") false = Some true /\ absent s (lit "precondition_weights").
Proof.
  cbv zeta. repeat match goal with |- _ /\ _ => split end.
  - apply (init_numbers ["nguyen_widrow_weights_short"]%string (lit "-1") (lit "1") 10%Z); vm_compute; reflexivity.
  - apply (init_numbers ["nguyen_widrow_weights_short"]%string (lit "-1") (lit "1") 10%Z); vm_compute; reflexivity.
  - vm_compute. reflexivity.
  - vm_compute. reflexivity.
  - vm_compute. reflexivity.
Qed.
(** The check of incompatible keywords does not look at the charge networks. *)
Lemma charge_incompatible : exists s nets, (forall net, In net nets -> well_formed net) /\ nets <> [] /\
  keywordExists s (lit "nguyen_widrow_weights_charge") false = Some true /\ keywordExists s (lit "precondition_weights") false = Some true /\
  forall g st, exists x, initializeWeights g s HDNNP_4G 1 (lit "elec") [] [] nets [] st = Done x.
Proof.
  exists (init_settings ["nguyen_widrow_weights_charge"; "precondition_weights"]%string), init_nets. split; [exact init_wf|]. split; [discriminate|].
  split; [vm_compute; reflexivity|]. split; [vm_compute; reflexivity|]. intros g st. set (s := init_settings _). unfold initializeWeights.
  replace (has s (lit "nguyen_widrow_weights_short")) with (@Done bool false) by (vm_compute; reflexivity). cbn [bindo andb Nat.eqb].
  replace (has s (lit "use_old_weights" ++ suffix (lit "elec"))) with (@Done bool false) by (vm_compute; reflexivity). cbn [bindo]. unfold randomizeNeuralNetworkWeights.
  destruct (init_numbers ["nguyen_widrow_weights_charge"; "precondition_weights"]%string (lit "-1") (lit "1") 10%Z) as (LO & HI & _); [vm_compute; reflexivity..|]. fold s in LO, HI.
  rewrite (proj2 (get_real_given _ _ _) LO), (proj2 (get_real_given _ _ _) HI). cbn [bindo].
  destruct (drawNetworks_spec g (atof (lit "-1")) (atof (lit "1")) init_nets (fun n H => some_connections n (init_wf n H)) st) as (dn & st' & E & _). rewrite E. cbn [bindo fst snd].
  replace (has s (lit "nguyen_widrow_weights" ++ suffix (lit "elec"))) with (@Done bool true) by (vm_compute; reflexivity). cbn [bindo].
  assert (M : forall l : list network, exists l', mapo (modified MS_NGUYENWIDROW) l = Done l').
  { induction l as [|x l (l' & El)]; [eexists; reflexivity|]. cbn [mapo]. rewrite El. eexists. reflexivity. }
  destruct (M dn) as (l' & ->). eexists. reflexivity.
Qed.
Lemma precondition_case : let s := init_settings ["precondition_weights"]%string in
  keywordExists s (lit "precondition_weights") false = Some true /\ absent s (lit "use_old_weights_short") /\ absent s (lit "nguyen_widrow_weights_short").
Proof. vm_compute. auto. Qed.
