(** Initial weights (C95). *)
From Coq Require Import Reals Lra ZArith Lia Ascii String Bool Arith.
From Coq Require Import List.
From Verif Require Import Base.SumR Base.Loop Model.Strings Model.Settings Model.SymLines Model.NetworkSetup Model.NeuralNetwork Model.DataFiles Model.Selection Model.TrainingSetup Model.WeightInit
  Spec.NetworkSpec Spec.InitSpec Spec.TrainingSpec Spec.WeightInitSpec
  Proofs.NetLayout Proofs.NetProofs Proofs.NetMore Proofs.NetInit Proofs.NetExamples Proofs.EnvironmentProofs Proofs.TrainingSelection.
From Coq Require Import List.
Import ListNotations.
Local Open Scope R_scope.

Lemma shape_design a b : same_shape a b -> same_design a b.
Proof. intros (A & B & C & _). unfold same_design. rewrite A, B, C. auto. Qed.
Lemma design_trans a b c : same_design a b -> same_design b c -> same_design a c.
Proof. intros (A & B & C) (A' & B' & C'). split; [congruence|]. split; intros l; [now rewrite B|now rewrite C]. Qed.

(** ** Schemes keep the layers *)
Lemma shape_set s i j g : same_shape (set_neuron s i j g) s.
Proof. repeat split. Qed.
Lemma shape_for net n f s : same_shape s net -> (forall i s, same_shape s net -> same_shape (f i s) net) -> same_shape (for_up n f s) net.
Proof. intros H F. apply (for_up_inv (fun _ x => same_shape x net)); auto. Qed.
Lemma shape_range net a b f s : (forall i s, same_shape s net -> same_shape (f i s) net) -> same_shape s net -> same_shape (for_range a b f s) net.
Proof. intros F H. unfold for_range. apply shape_for; auto. Qed.
Lemma glorot_shape net net' : modifyConnections MS_GLOROTBENGIO net = Some net' -> same_shape net' net.
Proof.
  intros [= <-]. apply shape_range; [|apply same_shape_refl]. intros i s H. destruct (actFun net i); auto.
  apply shape_for; [exact H|]. intros j t H1. apply shape_for; [exact H1|]. intros k u H2. exact H2.
Qed.
Lemma widrow_shape net net' : modifyConnections MS_NGUYENWIDROW net = Some net' -> same_shape net' net.
Proof.
  intros [= <-]. apply shape_for; [|intros k u H2; exact H2].
  apply shape_range; [|apply same_shape_refl]. intros i s H. cbv zeta. apply shape_for; [exact H|]. intros j t H1.
  assert (forall u, same_shape u net -> same_shape (for_up (prevNeurons net i) (fun k s0 =>
     match actFun net i with AF_TANH => set_neuron (set_neuron s0 i j (fun n => with_weight k (n_weights n k *
        (7 / 10 * Rpower (INR (numNeurons net i)) (1 / INR (prevNeurons net i)) / sqrt (for_up (prevNeurons net i) (fun k sum => sum + n_weights (neurons t i j) k * n_weights (neurons t i j) k) 0))) n)) i j (fun n => with_weight k (n_weights n k * 2) n)
     | _ => set_neuron s0 i j (fun n => with_weight k (n_weights n k *
        (7 / 10 * Rpower (INR (numNeurons net i)) (1 / INR (prevNeurons net i)) / sqrt (for_up (prevNeurons net i) (fun k sum => sum + n_weights (neurons t i j) k * n_weights (neurons t i j) k) 0))) n) end) u) net) as K.
  { intros u Hu. apply shape_for; [exact Hu|]. intros k v Hv. destruct (actFun net i); exact Hv. }
  specialize (K t H1). destruct (actFun net i); exact K.
Qed.

(** ** Drawing *)
Lemma drawWeights_spec g lo hi n : forall st, let r := drawWeights g lo hi n st in
  List.length (fst r) = n /\ (forall p, (p < n)%nat -> nth p (fst r) 0 = lo + nth_uniform g st p * (hi - lo)) /\
  forall p, nth_uniform g (snd r) p = nth_uniform g st (n + p).
Proof.
  induction n as [|n IH]; intros st; cbn [drawWeights]; [split; [reflexivity|split; [lia|reflexivity]]|].
  destruct (g_uniform g st) as (u, st1) eqn:E. specialize (IH st1). destruct (drawWeights g lo hi n st1) as (l, st2). cbn in IH |- *.
  destruct IH as (A & B & C). split; [now rewrite A|]. split.
  - intros [|p] Hp; cbn; rewrite E; [reflexivity|]. cbn. apply B. lia.
  - intros p. rewrite C, E. reflexivity.
Qed.
Lemma connections_before_S net nets e : connections_before (net :: nets) (S e) = (numConnections net + connections_before nets e)%nat.
Proof. reflexivity. Qed.
Definition drawn_net (g : generator) (st : gs g) (lo hi : R) (base : nat) (net net' : network) : Prop :=
  exists w, net' = setConnections w net /\ forall p, (p < numConnections net)%nat -> w p = lo + nth_uniform g st (base + p) * (hi - lo).
Lemma drawNetworks_spec g lo hi nets : (forall net, In net nets -> (0 < numConnections net)%nat) -> forall st,
  exists nets' st', drawNetworks g lo hi nets st = Done (nets', st') /\ List.length nets' = List.length nets /\
  forall e net, nth_error nets e = Some net -> exists net', nth_error nets' e = Some net' /\ drawn_net g st lo hi (connections_before nets e) net net'.
Proof.
  induction nets as [|net nets IH]; intros Hc st; cbn [drawNetworks].
  { exists [], st. split; [reflexivity|]. split; [reflexivity|]. intros [|e] n E; discriminate. }
  destruct (Nat.eqb_spec (numConnections net) 0) as [E0|_]; [pose proof (Hc net (or_introl eq_refl)); lia|].
  destruct (drawWeights_spec g lo hi (numConnections net) st) as (A & B & C).
  destruct (drawWeights g lo hi (numConnections net) st) as (w, st1). cbn [fst snd] in A, B, C.
  destruct (IH (fun n H => Hc n (or_intror H)) st1) as (nets' & st' & E & L & D). rewrite E. cbn [bindo fst snd].
  eexists _, _. split; [reflexivity|]. split; [cbn; now rewrite L|]. intros [|e] n En.
  - injection En as <-. eexists. split; [reflexivity|]. eexists. split; [reflexivity|]. intros p Hp. cbn beta. rewrite B; auto.
  - destruct (D e n En) as (n' & E' & v & -> & V). eexists. split; [exact E'|]. exists v. split; [reflexivity|]. intros p Hp.
    rewrite V; auto. rewrite C, connections_before_S. now rewrite Nat.add_assoc.
Qed.

Lemma weight_bound net l j k : (1 <= numLayers net)%nat -> (S l < numLayers net)%nat -> (j < numNeurons net l)%nat -> (k < numNeurons net (S l))%nat ->
  (weight_position (numNeurons net) l j k < numConnections net)%nat.
Proof. intros HL H1 H2 H3. apply (proj1 (positions_bijective net HL)). left. exists l, j, k. auto. Qed.
Lemma bias_bound net l k : (1 <= numLayers net)%nat -> (S l < numLayers net)%nat -> (k < numNeurons net (S l))%nat ->
  (bias_position (numNeurons net) l k < numConnections net)%nat.
Proof. intros HL H1 H3. apply (proj1 (positions_bijective net HL)). right. exists l, k. auto. Qed.
Lemma some_connections net : well_formed net -> (0 < numConnections net)%nat.
Proof. intros (HL & H). pose proof (bias_bound net 0 0 ltac:(lia) ltac:(lia) (H 1%nat ltac:(lia))). lia. Qed.
Lemma drawn_spec g st lo hi nets e net net' : well_formed net -> drawn_net g st lo hi (connections_before nets e) net net' ->
  same_shape net' net /\
  (forall l j k, (S l < numLayers net)%nat -> (j < numNeurons net l)%nat -> (k < numNeurons net (S l))%nat ->
     weight net' l j k = drawn g st lo hi nets e (weight_position (numNeurons net) l j k)) /\
  (forall l k, (S l < numLayers net)%nat -> (k < numNeurons net (S l))%nat -> bias net' l k = drawn g st lo hi nets e (bias_position (numNeurons net) l k)).
Proof.
  intros (HL & _) (w & -> & W). destruct (setConnections_spec net w ltac:(lia)) as (A & B & C & _). split; [exact A|]. split.
  - intros l j k H1 H2 H3. rewrite B by auto. apply W, weight_bound; auto; lia.
  - intros l k H1 H3. rewrite C by auto. apply W, bias_bound; auto; lia.
Qed.

(** ** Settings *)
Lemma has_absent s k : absent s k -> has s k = Done false.
Proof. unfold absent, has. now intros ->. Qed.
Lemma has_present s k : keywordExists s k false = Some true -> has s k = Done true.
Proof. unfold has. now intros ->. Qed.
Lemma charges_done nnp stage elec files : charges_available nnp stage elec files ->
  exists el, (match nnp with
           | HDNNP_4G | HDNNP_Q => if Nat.eqb stage 2 then r <- readNeuralNetworkWeights elec files; Done (Some r) else Done None
           | HDNNP_2G => Done None
           end) = Done el.
Proof.
  intros [->|[H|(r & H)]]; [eexists; reflexivity| |rewrite H]; [apply Nat.eqb_neq in H; rewrite H|]; destruct nnp; try (eexists; reflexivity); destruct (Nat.eqb stage 2); eexists; reflexivity.
Qed.

Theorem default_weights g s nnp stage id elec elec_files nets files st lo hi :
  (forall net, In net nets -> well_formed net) -> charges_available nnp stage elec elec_files ->
  given_real s (lit "weights_min") lo -> given_real s (lit "weights_max") hi ->
  absent s (lit "use_old_weights" ++ suffix id) -> absent s (lit "nguyen_widrow_weights" ++ suffix id) -> absent s (lit "precondition_weights") ->
  exists el nets' st', initializeWeights g s nnp stage id elec elec_files nets files st = Done (el, map Some nets', st') /\
  Forall2 same_design nets' nets /\
  forall e net net', nth_error nets e = Some net -> nth_error nets' e = Some net' ->
  (forall l j k, (S l < numLayers net)%nat -> (j < numNeurons net l)%nat -> (k < numNeurons net (S l))%nat ->
     weight net' l j k = drawn g st lo hi nets e (weight_position (numNeurons net) l j k) * glorot net l) /\
  (forall l k, (S l < numLayers net)%nat -> (k < numNeurons net (S l))%nat -> bias net' l k = 0).
Proof.
  intros WF CH LO HI OLD NW PRE. destruct (charges_done _ _ _ _ CH) as (el & EL). unfold initializeWeights.
  assert (NS : exists b, has s (lit "nguyen_widrow_weights_short") = Done b).
  { unfold has, keywordExists. destruct (AssocMap.mget str_eqb (lit "nguyen_widrow_weights_short") knownKeywords) eqn:E; [|vm_compute in E; discriminate].
    destruct (_ || _); eexists; reflexivity. }
  destruct NS as (b & ->). cbn [bindo]. rewrite (has_absent _ _ PRE).
  replace (if b then Done false else Done false) with (@Done bool false) by (now destruct b). cbn [bindo]. rewrite andb_false_r, EL. cbn [bindo].
  rewrite (has_absent _ _ OLD). cbn [bindo]. unfold randomizeNeuralNetworkWeights.
  rewrite (proj2 (get_real_given _ _ _) LO), (proj2 (get_real_given _ _ _) HI). cbn [bindo].
  destruct (drawNetworks_spec g lo hi nets (fun n H => some_connections n (WF n H)) st) as (dn & st' & E & L & D). rewrite E. cbn [bindo fst snd].
  rewrite (has_absent _ _ NW), (has_absent _ _ PRE). cbn [bindo].
  assert (M : forall l : list network, exists l', mapo (fun net => net <- modified MS_GLOROTBENGIO net; modified MS_ZEROBIAS net) l = Done l' /\
    Forall2 (fun x y => exists z, modifyConnections MS_GLOROTBENGIO x = Some z /\ modifyConnections MS_ZEROBIAS z = Some y) l l').
  { induction l as [|x l (l' & El & Fl)]; [eexists; split; [reflexivity|constructor]|]. cbn [mapo]. rewrite El.
    eexists. split; [reflexivity|]. constructor; [|exact Fl]. eexists. split; reflexivity. }
  destruct (M dn) as (nets' & EM & FM). rewrite EM. cbn [bindo fst snd]. exists el, nets', st'. split; [reflexivity|]. clear M EM E.
  assert (K : forall e net net', nth_error nets e = Some net -> nth_error nets' e = Some net' -> same_design net' net /\
    (forall l j k, (S l < numLayers net)%nat -> (j < numNeurons net l)%nat -> (k < numNeurons net (S l))%nat ->
     weight net' l j k = drawn g st lo hi nets e (weight_position (numNeurons net) l j k) * glorot net l) /\
    (forall l k, (S l < numLayers net)%nat -> (k < numNeurons net (S l))%nat -> bias net' l k = 0)).
  { intros e net net' En En'. destruct (D e net En) as (nd & Ed & Dd).
    assert (W0 : well_formed net) by (eapply WF, nth_error_In; eauto). destruct (drawn_spec _ _ _ _ _ _ _ _ W0 Dd) as (S0 & W & B).
    assert (exists z, modifyConnections MS_GLOROTBENGIO nd = Some z /\ modifyConnections MS_ZEROBIAS z = Some net') as (z & G1 & Z1).
    { clear - FM Ed En'. revert e Ed En'. induction FM; intros [|e] Ed En'; try discriminate; [|now apply (IHFM e)].
      injection Ed as <-. injection En' as <-. auto. }
    pose proof (glorot_shape _ _ G1) as S1. destruct (zero_bias_spec _ _ Z1) as (S2 & ZW & ZB).
    destruct S0 as (a1 & a2 & a3 & a4). destruct S1 as (b1 & b2 & b3 & b4). destruct S2 as (c1 & c2 & c3 & c4).
    split; [repeat split; intros; congruence|]. destruct W0 as (HL & _). split.
    - intros l j k H1 H2 H3. unfold weight at 1. rewrite ZW.
      destruct (glorot_bengio nd z ltac:(lia) G1 l j k) as (GW & _); [congruence|congruence|congruence|]. unfold weight at 1 in GW. rewrite GW.
      rewrite a2, a3. rewrite W by auto. unfold glorot. destruct (is_tanh (actFun net (S l))); [reflexivity|ring].
    - intros l k H1 H3. unfold bias. apply ZB; congruence. }
  split; [|intros e net net' A B; exact (proj2 (K e net net' A B))].
  assert (LL : List.length nets' = List.length nets) by (rewrite <- L; clear - FM; induction FM; cbn; congruence).
  clear - K LL. assert (K' : forall e net net', nth_error nets e = Some net -> nth_error nets' e = Some net' -> same_design net' net) by (intros; eapply K; eauto).
  clear K. revert nets' LL K'. induction nets as [|n nets IH]; intros [|n' nets'] LL K; try discriminate; constructor.
  - exact (K 0%nat n n' eq_refl eq_refl).
  - apply IH; [now injection LL|]. intros e. exact (K (S e)).
Qed.

(** Range of the initial weights. *)
Lemma nth_uniform_range g st n : proper g -> 0 <= nth_uniform g st n < 1.
Proof. intros P. revert st. induction n as [|n IH]; intros st; cbn; [apply P|apply IH]. Qed.
Lemma glorot_nonneg net l : 0 <= glorot net l.
Proof. unfold glorot. destruct (is_tanh _); [apply sqrt_pos|lra]. Qed.
Theorem drawn_range g st lo hi nets e p : proper g -> lo < hi -> lo <= drawn g st lo hi nets e p < hi.
Proof. intros P H. unfold drawn. pose proof (nth_uniform_range g st (connections_before nets e + p) P). nra. Qed.
Theorem weights_in_range g st lo hi nets e p net l : proper g -> lo <= hi ->
  lo * glorot net l <= drawn g st lo hi nets e p * glorot net l <= hi * glorot net l.
Proof.
  intros P H. pose proof (glorot_nonneg net l). unfold drawn. pose proof (nth_uniform_range g st (connections_before nets e + p) P). split; apply Rmult_le_compat_r; auto; nra.
Qed.

(** ** Nguyen-Widrow *)
Theorem widrow_weights g s nnp stage id elec elec_files nets files st lo hi :
  (forall net, In net nets -> well_formed net) -> charges_available nnp stage elec elec_files ->
  given_real s (lit "weights_min") lo -> given_real s (lit "weights_max") hi ->
  absent s (lit "use_old_weights" ++ suffix id) -> keywordExists s (lit "nguyen_widrow_weights" ++ suffix id) false = Some true -> absent s (lit "precondition_weights") ->
  exists el nets' st', initializeWeights g s nnp stage id elec elec_files nets files st = Done (el, map Some nets', st') /\
  List.length nets' = List.length nets /\
  forall e net net', nth_error nets e = Some net -> nth_error nets' e = Some net' -> same_design net' net /\
  forall l k, (S l < numLayers net - 1)%nat -> (k < numNeurons net (S l))%nat ->
    let v j := drawn g st lo hi nets e (weight_position (numNeurons net) l j k) in
    let len := sqrt (sumn (numNeurons net l) (fun j => v j * v j)) in
    (forall j, (j < numNeurons net l)%nat -> weight net' l j k = v j * (widrow net l / len)) /\
    bias net' l k = drawn g st lo hi nets e (bias_position (numNeurons net) l k) * widrow net l /\
    (0 < len -> sqrt (sumn (numNeurons net l) (fun j => weight net' l j k * weight net' l j k)) = widrow net l).
Proof.
  intros WF CH LO HI OLD NW PRE. destruct (charges_done _ _ _ _ CH) as (el & EL). unfold initializeWeights.
  assert (NS : exists b, has s (lit "nguyen_widrow_weights_short") = Done b).
  { unfold has, keywordExists. destruct (AssocMap.mget str_eqb (lit "nguyen_widrow_weights_short") knownKeywords) eqn:E; [|vm_compute in E; discriminate].
    destruct (_ || _); eexists; reflexivity. }
  destruct NS as (b & ->). cbn [bindo]. rewrite (has_absent _ _ PRE).
  replace (if b then Done false else Done false) with (@Done bool false) by (now destruct b). cbn [bindo]. rewrite andb_false_r, EL. cbn [bindo].
  rewrite (has_absent _ _ OLD). cbn [bindo]. unfold randomizeNeuralNetworkWeights.
  rewrite (proj2 (get_real_given _ _ _) LO), (proj2 (get_real_given _ _ _) HI). cbn [bindo].
  destruct (drawNetworks_spec g lo hi nets (fun n H => some_connections n (WF n H)) st) as (dn & st' & E & L & D). rewrite E. cbn [bindo fst snd].
  rewrite (has_present _ _ NW). cbn [bindo].
  assert (M : forall l : list network, exists l', mapo (modified MS_NGUYENWIDROW) l = Done l' /\
    Forall2 (fun x y => modifyConnections MS_NGUYENWIDROW x = Some y) l l').
  { induction l as [|x l (l' & El & Fl)]; [eexists; split; [reflexivity|constructor]|]. cbn [mapo]. rewrite El.
    eexists. split; [reflexivity|]. constructor; [|exact Fl]. reflexivity. }
  destruct (M dn) as (nets' & EM & FM). rewrite EM. cbn [bindo fst snd]. exists el, nets', st'. split; [reflexivity|]. clear M EM E.
  split; [rewrite <- L; clear - FM; induction FM; cbn; congruence|].
  intros e net net' En En'. destruct (D e net En) as (nd & Ed & Dd).
  assert (W0 : well_formed net) by (eapply WF, nth_error_In; eauto). destruct (drawn_spec _ _ _ _ _ _ _ _ W0 Dd) as (S0 & W & B).
  assert (G1 : modifyConnections MS_NGUYENWIDROW nd = Some net').
  { clear - FM Ed En'. revert e Ed En'. induction FM; intros [|e] Ed En'; try discriminate; [|now apply (IHFM e)].
    injection Ed as <-. injection En' as <-. auto. }
  pose proof (widrow_shape _ _ G1) as S1. destruct S0 as (a1 & a2 & a3 & a4). destruct S1 as (b1 & b2 & b3 & b4).
  split; [repeat split; intros; congruence|]. destruct W0 as (HL & _). intros l k H1 H3.
  destruct (nguyen_widrow_hidden nd net' ltac:(lia) G1 l k) as (P & Q & T); [rewrite a1; lia|rewrite a2; lia|].
  assert (ES : sumn (numNeurons nd l) (fun j => weight nd l j k * weight nd l j k) =
    sumn (numNeurons net l) (fun j => drawn g st lo hi nets e (weight_position (numNeurons net) l j k) * drawn g st lo hi nets e (weight_position (numNeurons net) l j k))).
  { rewrite a2. apply sumn_ext. intros j Hj. rewrite W by (auto; lia). reflexivity. }
  rewrite ES, a2, a3 in P. rewrite a2, a3 in Q. rewrite ES, a2, a3 in T. cbv zeta. split; [|split].
  - intros j Hj. rewrite P by auto. rewrite W by (auto; lia). reflexivity.
  - rewrite Q, B by (auto; lia). reflexivity.
  - exact T.
Qed.

(** ** Weights of an earlier run *)
Theorem old_weights g s nnp stage id elec elec_files nets files st r :
  charges_available nnp stage elec elec_files -> (absent s (lit "nguyen_widrow_weights_short") \/ absent s (lit "precondition_weights")) ->
  keywordExists s (lit "use_old_weights" ++ suffix id) false = Some true -> List.length files = List.length nets ->
  (forall e net text, nth_error nets e = Some net -> nth_error files e = Some text -> exists x, nth_error r e = Some x /\ readWeights net text = Done x) ->
  List.length r = List.length nets ->
  exists el, initializeWeights g s nnp stage id elec elec_files nets files st = Done (el, r, st).
Proof.
  intros CH INC OLD LF RD LR. destruct (charges_done _ _ _ _ CH) as (el & EL). exists el. unfold initializeWeights.
  assert (C : exists a b, has s (lit "nguyen_widrow_weights_short") = Done a /\ has s (lit "precondition_weights") = Done b /\ (a && b)%bool = false).
  { assert (X : forall k, AssocMap.mget str_eqb k knownKeywords <> None -> exists b, has s k = Done b).
    { intros k Hk. unfold has, keywordExists. destruct (AssocMap.mget str_eqb k knownKeywords); [|congruence]. destruct (_ || _); eexists; reflexivity. }
    destruct (X (lit "nguyen_widrow_weights_short")) as (a & A); [vm_compute; discriminate|].
    destruct (X (lit "precondition_weights")) as (b & B); [vm_compute; discriminate|]. exists a, b. split; [auto|]. split; [auto|].
    destruct INC as [I|I]; rewrite (has_absent _ _ I) in *; [injection A as <-; reflexivity|injection B as <-; apply andb_false_r]. }
  destruct C as (a & b & -> & -> & C). cbn [bindo].
  assert (CC : (if a then Done b else Done false) = Done (a && b)%bool) by (destruct a; reflexivity). rewrite CC, C. cbn [bindo]. rewrite andb_false_r, EL. cbn [bindo].
  rewrite (has_present _ _ OLD). cbn [bindo].
  assert (RR : readNeuralNetworkWeights nets files = Done r); [|now rewrite RR].
  clear - RD LR LF. unfold readNeuralNetworkWeights. revert files r LF LR RD. induction nets as [|n nets IH]; intros [|t files] [|x r] LF LR RD; try discriminate; [reflexivity|].
  cbn [List.combine mapo fst snd]. destruct (RD 0%nat n t eq_refl eq_refl) as (x' & Ex & Er). injection Ex as <-. rewrite Er. cbn [bindo].
  rewrite (IH files r); [reflexivity|now injection LF|now injection LR|]. intros e. exact (RD (S e)).
Qed.

(** ** Keywords that exclude each other *)
Theorem precondition_rejected g s nnp stage id elec elec_files nets files st :
  keywordExists s (lit "precondition_weights") false = Some true -> absent s (lit "use_old_weights" ++ suffix id) ->
  absent s (lit "nguyen_widrow_weights" ++ suffix id) \/ keywordExists s (lit "nguyen_widrow_weights_short") false = Some true ->
  forall x, initializeWeights g s nnp stage id elec elec_files nets files st <> Done x.
Proof.
  intros PRE OLD NW x H. unfold initializeWeights in H. rewrite (has_present _ _ PRE) in H.
  destruct (has s (lit "nguyen_widrow_weights_short")) as [a| |] eqn:A; cbn [bindo] in H; try discriminate.
  destruct a; cbn [bindo andb] in H; [discriminate|].
  destruct NW as [NW|NW]; [|rewrite (has_present _ _ NW) in A; discriminate].
  match type of H with bindo ?e _ = _ => destruct e as [el| |]; cbn [bindo] in H; try discriminate end.
  rewrite (has_absent _ _ OLD) in H. cbn [bindo] in H. unfold randomizeNeuralNetworkWeights in H.
  destruct (get_real s (lit "weights_min")) as [lo| |]; cbn [bindo] in H; try discriminate.
  destruct (get_real s (lit "weights_max")) as [hi| |]; cbn [bindo] in H; try discriminate.
  destruct (drawNetworks g lo hi nets st) as [r| |]; cbn [bindo] in H; try discriminate.
  rewrite (has_absent _ _ NW), (has_present _ _ PRE) in H. discriminate.
Qed.

(** ** Generators and processes *)
Lemma drawSeeds_spec g n : forall st, List.length (fst (drawSeeds g n st)) = n /\
  (forall r, (r < n)%nat -> nth_error (fst (drawSeeds g n st)) r = Some (nth_integer g st r)) /\
  forall r, nth_integer g (snd (drawSeeds g n st)) r = nth_integer g st (n + r).
Proof.
  induction n as [|n IH]; intros st; cbn [drawSeeds]; [split; [reflexivity|split; [lia|reflexivity]]|].
  destruct (g_get g st) as (z, st1) eqn:E. specialize (IH st1). destruct (drawSeeds g n st1) as (l, st2). cbn in IH |- *.
  destruct IH as (A & B & C). split; [now rewrite A|]. split.
  - intros [|r] Hr; cbn; rewrite E; [reflexivity|]. apply B. lia.
  - intros r. rewrite C, E. reflexivity.
Qed.
Theorem generators mt taus s numProcs z : (1 <= numProcs)%nat -> given_int s (lit "random_seed") z ->
  exists seeds states, setupRandomNumberGenerator mt taus s numProcs = Done (seeds, states) /\
  List.length seeds = numProcs /\ List.length states = numProcs /\
  let start := g_set mt (z mod 2 ^ 64)%Z in
  nth_error seeds 0 = Some (z mod 2 ^ 64)%Z /\
  (forall r, (S r < numProcs)%nat -> nth_error seeds (S r) = Some (nth_integer mt start r)) /\
  (forall r, (r < numProcs)%nat -> nth_error states r = Some (g_set taus (nth_integer mt start (numProcs - 1)))).
Proof.
  intros Hn Hz. unfold setupRandomNumberGenerator. rewrite (proj2 (get_int_given _ _ _) Hz). cbn [bindo]. unfold to_ulong. cbv zeta.
  destruct (drawSeeds_spec mt (numProcs - 1) (g_set mt (z mod 2 ^ 64)%Z)) as (A & B & C).
  destruct (drawSeeds mt (numProcs - 1) (g_set mt (z mod 2 ^ 64)%Z)) as (seeds, st). cbn [fst snd] in A, B, C.
  specialize (C 0%nat). cbn [nth_integer] in C. rewrite Nat.add_0_r in C. destruct (g_get mt st) as (sg, st'). cbn [fst] in C.
  eexists _, _. split; [reflexivity|]. split; [cbn; lia|]. split; [apply repeat_length|]. split; [reflexivity|]. split.
  - intros r Hr. cbn [nth_error]. apply B. lia.
  - intros r Hr. rewrite C. now apply nth_error_repeat.
Qed.
Theorem same_networks mt taus s nnp stage id elec elec_files nets files numProcs l :
  initialNetworks mt taus s nnp stage id elec elec_files nets files numProcs = Done l ->
  List.length l = numProcs /\ forall r r' a b, nth_error l r = Some a -> nth_error l r' = Some b -> a = b.
Proof.
  unfold initialNetworks. intros H. destruct (setupRandomNumberGenerator mt taus s numProcs) as [[seeds states]| |] eqn:E; cbn [bindo snd] in H; try discriminate.
  assert (X : exists st, states = repeat st numProcs).
  { unfold setupRandomNumberGenerator in E. destruct (get_int s (lit "random_seed")) as [z| |]; cbn [bindo] in E; try discriminate.
    destruct (drawSeeds _ _ _) as (a, b). destruct (g_get mt b) as (c, d). injection E as _ <-. eexists; reflexivity. }
  destruct X as (st & ->). apply mapo_Forall2 in H.
  assert (Y : Forall (fun y => (x <- initializeWeights taus s nnp stage id elec elec_files nets files st; Done (snd (fst x))) = Done y) l /\ List.length l = numProcs).
  { clear E. revert l H. induction numProcs as [|n IH]; cbn [repeat]; intros l H; inversion H; subst; [split; [constructor|reflexivity]|].
    destruct (IH _ H4) as (P & Q). split; [constructor; auto|cbn; now rewrite Q]. }
  destruct Y as (Y & L). split; [exact L|]. rewrite Forall_forall in Y. intros r r' a b A B. apply nth_error_In in A, B. apply Y in A, B. congruence.
Qed.
