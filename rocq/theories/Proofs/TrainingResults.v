(** C82 to C84. *)
From Coq Require Import Reals Lra ZArith Lia Ascii String Bool Arith Permutation.
From Flocq Require Import Core.
From Coq Require Import List.
From Verif Require Import Base.AssocMap Model.Strings Model.Printf Model.Settings Model.SymLines Model.NetworkSetup Model.DataFiles
  Model.Updaters Model.Selection Model.UpdatePlan Model.TrainingSetup Spec.TrainingSpec
  Proofs.SymLineProofs Proofs.NetworkSetupProofs Proofs.NetworkSetupMain Proofs.TrainingSchedule Proofs.TrainingSelection
  Proofs.TrainingLoop Proofs.TrainingFiles Proofs.TrainingMain Proofs.TrainingTheorems.
Import ListNotations.
Local Open Scope nat_scope.

(** ** C82 *)
Section Names.
Variables (s : settings) (nnp : nnpType) (stage : nat) (e : surroundings) (t : training).
Hypothesis U : set_up s nnp stage e t.
Lemma stage_suffix_eq : stage_suffix t = stage_of nnp stage.
Proof. unfold stage_suffix, stage_of. rewrite (su_nnp _ _ _ _ _ U), (su_stage _ _ _ _ _ U). now destruct nnp. Qed.
Lemma weights_name_eq Z n : weights_name t Z n = weights_file nnp stage Z n.
Proof.
  unfold weights_name, weights_file. rewrite (su_nnp _ _ _ _ _ U), (su_stage _ _ _ _ _ U).
  destruct (su_ok _ _ _ _ _ U) as [->|[->| ->]]; [reflexivity | now destruct nnp | now destruct nnp].
Qed.
Lemma neurons_name_eq n : neurons_name t n = neurons_file nnp stage n.
Proof.
  unfold neurons_name, neurons_file. rewrite stage_suffix_eq. destruct (su_forces _ _ _ _ _ U) as (b & _ & _ & ->).
  destruct nnp; cbn [is_2G negb andb]; [reflexivity| |]; destruct (Nat.eqb stage 1); reflexivity.
Qed.
Lemma curve_name_eq : curve_name t = curve_file nnp stage.
Proof. unfold curve_name, curve_file. now rewrite stage_suffix_eq. Qed.
Lemma timing_name_eq : timing_name t = timing_file nnp stage.
Proof. unfold timing_name, timing_file. now rewrite stage_suffix_eq. Qed.
Lemma ok_of_setup : t_nnp t = HDNNP_2G \/ t_stage t = 1 \/ t_stage t = 2.
Proof. rewrite (su_nnp _ _ _ _ _ U), (su_stage _ _ _ _ _ U). apply (su_ok _ _ _ _ _ U). Qed.
Lemma nodup_keys : NoDup (map tr_key (t_props t)).
Proof. destruct (su_forces _ _ _ _ _ U) as (b & _ & -> & _). apply stage_nodup. Qed.
End Names.
Lemma comparison_name_eq b k n : compare_name b k n = comparison_file b k n.
Proof. destruct b, k; reflexivity. Qed.
Lemma compare_keyword_eq k : compare_keyword k = lit (comparison_keyword k).
Proof. now destruct k. Qed.

Lemma if_file s keyword o n f0 f name : fileOutput s (lit keyword) (0%Z, 0%Z) = Done o ->
  mget str_eqb name f = (if due o n then Some [n] else mget str_eqb name f0) -> file_of_epoch s keyword f0 f n name.
Proof.
  intros H E. exists (due o n). split; [now apply output_asks|]. destruct (due o n); exact E.
Qed.
Theorem weights_files s nnp stage e zs shuffle inv kobs gobs z t x : training_run s nnp stage e zs shuffle inv kobs gobs z t x ->
  forall f0 n Z, n <= z -> In Z zs -> let f := write_files (lo_writes x) f0 in
  file_of_epoch s "write_weights_epoch" f0 f n (weights_file nnp stage Z n) /\
  (nnp = HDNNP_4G /\ stage = 1 -> file_of_epoch s "write_weights_epoch" f0 f n (hardness_file Z n)) /\
  (~ (nnp = HDNNP_4G /\ stage = 1) -> unchanged f0 f (hardness_file Z n)).
Proof.
  intros H f0 n Z Hn HZ f. destruct (run_state _ _ _ _ _ _ _ _ _ _ _ _ H) as (U & E & -> & B & Sh). cbn [state_at lo_writes] in f. pose proof (ok_of_setup _ _ _ _ _ U) as OK.
  pose proof (hardness_content zs t OK z n Z (mget str_eqb (hardness_file Z n) f0) Hn HZ) as HC. rewrite (su_nnp _ _ _ _ _ U), (su_stage _ _ _ _ _ U) in HC.
  assert (HD : mget str_eqb (hardness_file Z n) f = if (due (t_weights t) n && is_4G nnp && (stage =? 1))%bool then Some [n] else mget str_eqb (hardness_file Z n) f0).
  { unfold f. rewrite disk_content. exact HC. }
  split; [|split].
  - apply (if_file _ _ (t_weights t)); [apply (su_weights _ _ _ _ _ U)|]. unfold f. rewrite disk_content, <- (weights_name_eq _ _ _ _ _ U). now apply weights_content.
  - intros (-> & ->). apply (if_file _ _ (t_weights t)); [apply (su_weights _ _ _ _ _ U)|]. rewrite HD. cbn. now rewrite !andb_true_r.
  - intro N. unfold unchanged. rewrite HD. destruct (is_4G nnp && (stage =? 1))%bool eqn:Q.
    + exfalso. apply N. apply andb_true_iff in Q. destruct Q as (Q1 & Q2). apply Nat.eqb_eq in Q2. destruct nnp; cbn in Q1; try discriminate. auto.
    + rewrite <- andb_assoc, Q, andb_false_r. reflexivity.
Qed.
Theorem comparison_files s nnp stage e zs shuffle inv kobs gobs z t x : training_run s nnp stage e zs shuffle inv kobs gobs z t x ->
  forall f0 n train k, n <= z -> trained s nnp stage k -> file_of_epoch s (comparison_keyword k) f0 (write_files (lo_writes x) f0) n (comparison_file train k n).
Proof.
  intros H f0 n train k Hn Hk. destruct (run_state _ _ _ _ _ _ _ _ _ _ _ _ H) as (U & E & -> & B & Sh). cbn [state_at lo_writes].
  apply (trained_keys _ _ _ _ _ U) in Hk. apply in_map_iff in Hk. destruct Hk as (p & <- & Hp).
  destruct (su_metric _ _ _ _ _ U) as (m & _ & F). rewrite Forall_forall in F. destruct (F _ Hp) as (_ & _ & O & _). rewrite compare_keyword_eq in O.
  apply (if_file _ _ (tr_every p, tr_always p)); [exact O|]. rewrite disk_content, <- comparison_name_eq.
  apply compare_content; auto; [eapply ok_of_setup; eauto | eapply nodup_keys; eauto].
Qed.
Theorem neuron_files s nnp stage e zs shuffle inv kobs gobs z t x : training_run s nnp stage e zs shuffle inv kobs gobs z t x ->
  forall f0 n, n <= z -> file_of_epoch s "write_neuronstats" f0 (write_files (lo_writes x) f0) n (neurons_file nnp stage n).
Proof.
  intros H f0 n Hn. destruct (run_state _ _ _ _ _ _ _ _ _ _ _ _ H) as (U & E & -> & B & Sh). cbn [state_at lo_writes].
  apply (if_file _ _ (t_neurons t)); [apply (su_neurons _ _ _ _ _ U)|]. rewrite disk_content, <- (neurons_name_eq _ _ _ _ _ U). apply neurons_content; auto. eapply ok_of_setup; eauto.
Qed.
Theorem growing_files s nnp stage e zs shuffle inv kobs gobs z t x : training_run s nnp stage e zs shuffle inv kobs gobs z t x -> NoDup zs ->
  forall f0, let f := write_files (lo_writes x) f0 in
  holds_epochs f (curve_file nnp stage) (seq 0 (z + 1)) /\
  (1 <= z -> holds_epochs f (timing_file nnp stage) (seq 1 z)) /\
  (given_int s (lit "update_strategy") 0 -> holds_epochs f (updater_file nnp stage 0) (seq 0 (z + 1))) /\
  (given_int s (lit "update_strategy") 1 -> forall Z, In Z zs -> holds_epochs f (updater_file nnp stage Z) (seq 0 (z + 1))).
Proof.
  intros H ND f0 f. destruct (run_state _ _ _ _ _ _ _ _ _ _ _ _ H) as (U & E & -> & B & Sh). cbn [state_at lo_writes] in f. pose proof (ok_of_setup _ _ _ _ _ U) as OK.
  rewrite Nat.add_1_r. unfold holds_epochs, f. rewrite !disk_content, <- (curve_name_eq _ _ _ _ _ U), <- (timing_name_eq _ _ _ _ _ U).
  destruct (su_strat _ _ _ _ _ U) as (y & Gy & Sy).
  split; [now apply curve_content|]. split; [intro Hz; now apply timing_content|]. split.
  - intro G. assert (y = 0%Z) by (destruct G as (w & G1 & G2), Gy as (w' & G3 & G4); unfold given in *; congruence). subst y. apply done_inj in Sy.
    assert (Q : updater_file nnp stage 0 = status_name t 0) by (unfold updater_file, status_name; now rewrite <- Sy, (stage_suffix_eq _ _ _ _ _ U)).
    rewrite Q. apply status_content; auto. rewrite <- Sy. now left.
  - intros G Z HZ. assert (y = 1%Z) by (destruct G as (w & G1 & G2), Gy as (w' & G3 & G4); unfold given in *; congruence). subst y. apply done_inj in Sy.
    assert (Q : updater_file nnp stage Z = status_name t Z) by (unfold updater_file, status_name; now rewrite <- Sy, (stage_suffix_eq _ _ _ _ _ U)).
    rewrite disk_content, Q. apply status_content; auto. now rewrite <- Sy.
Qed.

(** ** C84 *)
Lemma trunc_bounds x z : to_size_t x = Done z -> (0 <= z)%Z /\ (IZR z <= x < IZR z + 1 \/ (z = 0%Z /\ -1 < x < 0))%R.
Proof.
  unfold to_size_t. destruct (Z.leb 0 (Ztrunc x) && Z.ltb (Ztrunc x) (2 ^ 64))%bool eqn:E; [|discriminate]. intro H. apply done_inj in H. subst z.
  apply andb_true_iff in E. destruct E as (E & _). apply Z.leb_le in E. split; [exact E|].
  destruct (Rlt_or_le x 0) as [N|P].
  - right. rewrite Ztrunc_ceil in * by lra. pose proof (Zceil_ub x) as Q. assert (C : (Zceil x <= 0)%Z) by (apply Zceil_glb; lra).
    assert (D : Zceil x = 0%Z) by lia. split; [exact D|]. split; [|exact N].
    assert (X := Zceil_lb x). rewrite D in X. lra.
  - left. rewrite Ztrunc_floor by lra. split; [apply Zfloor_lb | apply Zfloor_ub].
Qed.
Lemma fraction_theorem s cs ps k f : epochFraction s cs ps k = Done f -> (k = Force -> member Energy ps = true) -> wanted_fraction s cs k f.
Proof.
  unfold epochFraction, wanted_fraction. intros H M. apply bindo_done in H. destruct H as (ratio & A & H). destruct k; cbn [property_eqb andb] in A.
  - apply done_inj in A. subst ratio. apply get_real_given in H. exact H.
  - rewrite (M eq_refl) in A. destruct ratio.
    + left. apply bindo_done in H. destruct H as (r & Gr & H). apply get_real_given in Gr. exists r. split; [exact Gr|].
      destruct (Nat.eqb_spec (n_train (cs Force)) 0) as [|D]; [discriminate|]. apply done_inj in H. subst f. split; [lia|].
      assert (0 < INR (n_train (cs Force)))%R by (apply lt_0_INR; lia). field. lra.
    + right. split; [now apply has_false|]. apply get_real_given in H. exact H.
  - apply done_inj in A. subst ratio. apply get_real_given in H. exact H.
Qed.
Theorem patterns s nnp stage e zs shuffle inv kobs gobs z t x : training_run s nnp stage e zs shuffle inv kobs gobs z t x -> 0 < su_numProcs e ->
  forall k b, trained s nnp stage k -> given_int s (batch_keyword k) b -> (0 <= b)%Z ->
  exists f u, wanted_fraction s (su_counts e) k f /\ (forall n, 1 <= n <= z -> number_of_updates (lo_steps x) n k = u) /\
  (forall sp, In sp (lo_steps x) -> tr_key (sp_prop sp) = k -> (0 < b)%Z -> tr_patterns (sp_prop sp) = b) /\
  ((0 <= f)%R ->
   ((0 < b)%Z -> (INR u * IZR b * INR (su_numProcs e) <= INR (n_train (su_counts e k)) * f < (INR u + 1) * IZR b * INR (su_numProcs e))%R) /\
   (b = 0%Z -> u = 1 /\ forall sp, In sp (lo_steps x) -> tr_key (sp_prop sp) = k ->
      (IZR (tr_patterns (sp_prop sp)) <= INR (n_cands (su_counts e k)) * f < IZR (tr_patterns (sp_prop sp)) + 1)%R)).
Proof.
  intros H HP k b Hk Gb Hb. destruct (run_state _ _ _ _ _ _ _ _ _ _ _ _ H) as (U & E & -> & B & Sh). cbn [state_at lo_steps].
  pose proof Hk as Hk'. apply (trained_keys _ _ _ _ _ U) in Hk'. apply in_map_iff in Hk'. destruct Hk' as (p & K & Hp).
  destruct (su_metric _ _ _ _ _ U) as (m & _ & F). rewrite Forall_forall in F. destruct (F _ Hp) as (_ & _ & _ & p0 & K0 & P). clear F m.
  unfold setupUpdatePlan in P. rewrite K0, K in P. apply bindo_done in P. destruct P as (f & Ff & P). apply bindo_done in P. destruct P as (b' & Gb' & P).
  assert (Eb : b' = b). { apply get_int_given in Gb'. replace (lit "task_batch_size_" ++ name_of k) with (batch_keyword k) in Gb' by now destruct k.
    destruct Gb as (w & G1 & G2), Gb' as (w' & G3 & G4); unfold given in *; congruence. } subst b'.
  pose proof (given_bound _ _ _ Gb) as Bb. rewrite to_size_id in P by lia. apply bindo_done in P. destruct P as ((pt, u) & Pu & P). cbn [fst snd] in P. apply done_inj in P.
  apply In_nth_error in Hp. destruct Hp as (i & Hi).
  assert (All : forall sp, In sp (steps_at shuffle t z) -> tr_key (sp_prop sp) = k -> tr_patterns (sp_prop sp) = pt).
  { intros sp Hsp Ks. destruct (step_in shuffle Sh t (su_epoch _ _ _ _ _ U) z sp Hsp) as (_ & q & Hq & Eq). rewrite Eq in *. cbn in Ks |- *.
    pose proof (nodup_keys _ _ _ _ _ U) as ND. assert (q = p); [|subst q; rewrite <- P; reflexivity].
    apply nth_error_In in Hi. clear - Hi Hq Ks K ND. induction (t_props t) as [|a l IH]; [destruct Hi|]. apply NoDup_cons_iff in ND. destruct ND as (N1 & N2).
    destruct Hi as [->|Hi], Hq as [->|Hq]; auto; exfalso; apply N1; [rewrite K, <- Ks | rewrite Ks, <- K]; now apply in_map. }
  assert (Up : tr_updates p = u) by now rewrite <- P.
  exists f, (Z.to_nat u). split; [|split; [|split]].
  - eapply fraction_theorem; [exact Ff|]. intros ->. destruct Hk as (Hk & _). change (~ first_of_two nnp stage) with (trained s nnp stage Energy) in Hk.
    apply (trained_keys _ _ _ _ _ U) in Hk. apply in_map_iff in Hk. destruct Hk as (q & Kq & Hq). unfold member. apply existsb_exists. exists q. split; [exact Hq|]. now rewrite Kq.
  - intros n Hn. subst k. rewrite (epoch_updates shuffle Sh t (su_epoch _ _ _ _ _ U) z n p i Hn Hi (nodup_keys _ _ _ _ _ U)). now rewrite Up.
  - intros sp Hsp Ks P0. rewrite (All sp Hsp Ks). destruct (Z.eqb_spec b 0); [lia|]. apply bindo_done in Pu. destruct Pu as (u' & _ & Pu). apply done_inj in Pu. congruence.
  - intro Hf. assert (NP : (0 < INR (su_numProcs e))%R) by now apply lt_0_INR. split.
    + intro P0. destruct (Z.eqb_spec b 0); [lia|]. apply bindo_done in Pu. destruct Pu as (u' & Tu & Pu). apply done_inj in Pu. apply pair_equal_spec in Pu. destruct Pu as (_ & ->).
      assert (Pb : (0 < IZR b)%R) by now apply IZR_lt. apply trunc_bounds in Tu. destruct Tu as (Nu & Bu).
      assert (Pn : (0 <= INR (n_train (su_counts e k)))%R) by apply pos_INR.
      assert (Eu : (INR (n_train (su_counts e k)) * f / IZR b / INR (su_numProcs e) * (IZR b * INR (su_numProcs e)) = INR (n_train (su_counts e k)) * f)%R) by (field; lra).
      assert (Pp : (0 < IZR b * INR (su_numProcs e))%R) by nra.
      set (q := (INR (n_train (su_counts e k)) * f / IZR b / INR (su_numProcs e))%R) in *.
      assert (Q0 : (0 <= q)%R). { unfold q. apply Rmult_le_pos; [|left; now apply Rinv_0_lt_compat]. apply Rmult_le_pos; [nra | left; now apply Rinv_0_lt_compat]. }
      rewrite INR_IZR_INZ, Z2Nat.id by exact Nu. destruct Bu as [Bu|(_ & Bu)]; [|lra]. rewrite <- Eu. split; nra.
    + intros ->. cbn [Z.eqb] in Pu. apply bindo_done in Pu. destruct Pu as (pt' & Tp & Pu). apply done_inj in Pu. apply pair_equal_spec in Pu. destruct Pu as (-> & <-). split; [reflexivity|].
      intros sp Hsp Ks. rewrite (All sp Hsp Ks). apply trunc_bounds in Tp. destruct Tp as (Np & Bp).
      assert (Pn : (0 <= INR (n_cands (su_counts e k)))%R) by apply pos_INR. destruct Bp as [Bp|(_ & Bp)]; [exact Bp | nra].
Qed.
Theorem ratio s nnp stage e t pe pf r : setupTraining s nnp stage e = Done t -> In pe (t_props t) -> tr_key pe = Energy -> In pf (t_props t) -> tr_key pf = Force ->
  given_real s (lit "force_energy_ratio") r -> given_real s (lit "energy_fraction") 1%R ->
  (tr_fraction pf * INR (n_train (su_counts e Force)) = r * (tr_fraction pe * INR (n_train (su_counts e Energy))))%R.
Proof.
  intros H He Ke Hf Kf Gr Ge. pose proof (setup_inv _ _ _ _ _ H) as U. destruct (su_metric _ _ _ _ _ U) as (m & _ & F). rewrite Forall_forall in F.
  destruct (F _ He) as (_ & _ & _ & p0 & K0 & P). destruct (F _ Hf) as (_ & _ & _ & p1 & K1 & Q).
  unfold setupUpdatePlan in P, Q. rewrite K0, Ke in P. rewrite K1, Kf in Q.
  apply bindo_done in P. destruct P as (f & Ff & P). apply bindo_done in P. destruct P as (b & _ & P). apply bindo_done in P. destruct P as (n & _ & P). apply done_inj in P.
  apply bindo_done in Q. destruct Q as (g & Fg & Q). apply bindo_done in Q. destruct Q as (b' & _ & Q). apply bindo_done in Q. destruct Q as (n' & _ & Q). apply done_inj in Q.
  assert (A : tr_fraction pe = f) by now rewrite <- P. assert (C : tr_fraction pf = g) by now rewrite <- Q. rewrite A, C.
  apply fraction_theorem in Ff; [|discriminate]. apply fraction_theorem in Fg.
  2: { intros _. unfold member. apply existsb_exists. exists pe. split; [exact He|]. now rewrite Ke. }
  cbv beta iota zeta delta [wanted_fraction] in Ff, Fg. assert (F1 : f = 1%R) by (destruct Ff as (w & G1 & E1), Ge as (w' & G2 & E2); unfold given in *; rewrite E1, E2; f_equal; congruence). rewrite F1.
  destruct Fg as [(r' & Gr' & _ & X)|(Ab & _)].
  - assert (r' = r) by (destruct Gr as (w & G1 & E1), Gr' as (w' & G2 & E2); unfold given in *; rewrite E1, E2; f_equal; congruence). subst r'. rewrite X. ring.
  - exfalso. destruct Gr as (w & G1 & _). unfold given, absent, getValue, keywordCheck in *. change (lit "force_energy_ratio") with (lit "force_energy_ratio") in *. rewrite Ab in G1. discriminate.
Qed.
