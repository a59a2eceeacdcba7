(** Documented settings are accepted (C74). *)
From Coq Require Import ZArith Ascii String Bool Arith Lia.
From Coq Require Import List.
From Verif Require Import Base.AssocMap Model.Strings Model.ElementMap Model.NeuralNetwork Model.Printf Model.Settings Model.SymLines Model.NetworkSetup
  Spec.StringSpec Spec.SymLineSpec Spec.NetworkSetupSpec Proofs.StringProofs Proofs.SymLineProofs Proofs.SymLineMode Proofs.NetworkSetupProofs
  Proofs.NetworkSetupMain.
Import ListNotations.
Local Open Scope Z_scope.

Lemma done_bindo {A B} (e : outcome A) (f : A -> outcome B) a b : e = Done a -> f a = Done b -> bindo e f = Done b.
Proof. intros -> H. exact H. Qed.
Lemma done_throwing {A} (e : option A) a : e = Some a -> throwing e = Done a.
Proof. intros ->. reflexivity. Qed.
Lemma foldo_progress {A S} (f : A -> S -> outcome S) (Inv : S -> Prop) l : (forall x s, In x l -> Inv s -> exists s', f x s = Done s' /\ Inv s') ->
  forall s, Inv s -> exists s', foldo f l s = Done s' /\ Inv s'.
Proof.
  induction l as [|x l IH]; intros Hf s Is; [exists s; split; [reflexivity|auto]|]. destruct (Hf x s (or_introl eq_refl) Is) as (s1 & E1 & I1).
  destruct (IH (fun y t Hy => Hf y t (or_intror Hy)) s1 I1) as (s' & E' & I'). exists s'. split; auto. cbn [foldo]. eapply done_bindo; eauto.
Qed.
Lemma mapo_progress {A B} (f : A -> outcome B) (Q : B -> Prop) l : (forall x, In x l -> exists y, f x = Done y /\ Q y) ->
  exists l', mapo f l = Done l' /\ List.length l' = List.length l /\ Forall Q l'.
Proof.
  induction l as [|x l IH]; intros Hf; [exists []; repeat split; constructor|]. destruct (Hf x (or_introl eq_refl)) as (y & E & Qy).
  destruct (IH (fun z Hz => Hf z (or_intror Hz))) as (l' & E' & L' & F'). exists (y :: l'). cbn [mapo].
  split; [|split; [cbn; congruence|now constructor]]. eapply done_bindo; eauto. eapply done_bindo; eauto.
Qed.
Lemma lines_progress em step (Inv : topology -> Prop) N ls :
  (forall v, In v ls -> (exists e, (e < N)%nat /\ about em e v) /\ forall t, Inv t -> exists t', step (words_of (fst v)) t = Done t' /\ Inv t') ->
  forall tops, List.length tops = N -> Forall Inv tops -> exists tops', foldo (lineStep em step) ls tops = Done tops' /\ List.length tops' = N /\ Forall Inv tops'.
Proof.
  intros Hs tops L F. apply (foldo_progress (lineStep em step) (fun tops => List.length tops = N /\ Forall Inv tops)); [|auto].
  clear tops L F. intros v tops Hv (L & F). destruct (Hs v Hv) as ((e & He & A) & St). apply about_iff in A.
  destruct (nth_error tops e) as [t|] eqn:Et; [|apply nth_error_None in Et; lia].
  destruct (St t (proj1 (Forall_forall _ _) F t (nth_error_In _ _ Et))) as (t' & E' & I').
  destruct (set_some e t' tops ltac:(lia)) as (tops' & E2). exists tops'. split.
  - unfold lineStep, update_at. eapply done_bindo; [exact A|]. eapply done_bindo; [apply done_throwing; exact Et|]. eapply done_bindo; eauto.
  - apply set_done in E2. destruct E2 as (_ & L2 & N2 & O2). split; [lia|]. apply Forall_forall. intros u Hu. apply In_nth_error in Hu. destruct Hu as (i & Hi).
    destruct (Nat.eq_dec i e) as [->|Ni]; [congruence|]. rewrite O2 in Hi by auto. apply (proj1 (Forall_forall _ _) F). eapply nth_error_In; eauto.
Qed.
Lemma layers_line_inv em v tops tops' : lineStep em layersStep v tops = Done tops' -> elementLayers em v tops = Done tops'.
Proof.
  unfold elementLayers, lineStep, update_at. intros H. apply bindo_done in H. destruct H as (e & E & H). apply bindo_done in H. destruct H as (t & T & H).
  apply bindo_done in H. destruct H as (t' & St & H). unfold layersStep in St. apply bindo_done in St. destruct St as (w & W & St). apply bindo_done in St.
  destruct St as (n & Nn & St). eapply done_bindo; [exact E|]. eapply done_bindo; [exact W|]. eapply done_bindo; [exact Nn|]. eapply done_bindo; [exact T|].
  eapply done_bindo; eauto.
Qed.

(** ** A fully specified network *)
Definition sized (L : Z) (t : topology) : Prop := tp_layers t = L /\ List.length (tp_neurons t) = Z.to_nat L /\ List.length (tp_acts t) = Z.to_nat L.
Definition filled (L : Z) (t : topology) : Prop := sized L t /\ (forall j k, nth_error (tp_neurons t) j = Some k -> 0 < k) /\
  forall j a, nth_error (tp_acts t) j = Some a -> a <> AF_UNSET.
Lemma activation_not_unset w a : activationFromString w = Some a -> a <> AF_UNSET.
Proof. unfold activationFromString. repeat (destruct (str_eqb _ _); [intros E; injection E as <-; discriminate|]). discriminate. Qed.
Lemma set_neurons_some L j n t : sized L t -> Z.of_nat j < L -> exists t', set_neurons j n t = Done t' /\ sized L t'.
Proof.
  intros (A & B & C) Hj. destruct (set_some j n (tp_neurons t) ltac:(lia)) as (l & E). eexists. split.
  - unfold set_neurons. eapply done_bindo; [exact E|reflexivity].
  - apply set_done in E. destruct E as (_ & E & _). repeat split; cbn [tp_layers tp_neurons tp_acts]; congruence.
Qed.
Lemma set_act_some L j n t : sized L t -> Z.of_nat j < L -> exists t', set_act j n t = Done t' /\ sized L t'.
Proof.
  intros (A & B & C) Hj. destruct (set_some j n (tp_acts t) ltac:(lia)) as (l & E). eexists. split.
  - unfold set_act. eapply done_bindo; [exact E|reflexivity].
  - apply set_done in E. destruct E as (_ & E & _). repeat split; cbn [tp_layers tp_neurons tp_acts]; congruence.
Qed.
Lemma Forall_nth_error {A} (P : A -> Prop) l j : Forall P l -> (j < List.length l)%nat -> exists x, nth_error l j = Some x /\ P x.
Proof.
  intros F H. destruct (nth_error l j) as [x|] eqn:E; [|apply nth_error_None in E; lia]. exists x. split; auto.
  apply (proj1 (Forall_forall _ _) F). eapply nth_error_In; eauto.
Qed.
Lemma node_value_pos ws j k : Forall node_number ws -> node_value ws j k -> 0 < k.
Proof.
  intros F (w & W & A). destruct (proj1 (Forall_forall _ _) F w (nth_error_In _ _ W)) as (k' & A' & P). rewrite A in A'. injection A' as ->. exact P.
Qed.
Section Global.
  Variables (n : nat) (nodes acts : list str) (inp : nat).
  Let L := Z.of_nat n + 2.
  Hypothesis (Hn : (1 <= n)%nat) (HL : L < 2 ^ 31) (Ln : List.length nodes = n) (La : List.length acts = (n + 1)%nat)
    (Fn : Forall node_number nodes) (Fa : Forall activation_name acts) (Hi : (0 < inp)%nat) (Hi' : Z.of_nat inp < 2 ^ 31).
  Lemma nn : nonempty nodes = true. Proof. unfold nonempty. rewrite Ln. destruct n; [lia|reflexivity]. Qed.
  Lemma na : nonempty acts = true. Proof. unfold nonempty. rewrite La, Nat.add_comm. reflexivity. Qed.
  Lemma layer_some j t : 1 <= Z.of_nat j < L -> sized L t -> exists t', globalLayer nodes acts j t = Done t' /\ sized L t'.
  Proof.
    intros Hj S. unfold globalLayer. rewrite (proj1 S). rewrite na, nn. rewrite andb_true_r. destruct (Z.eqb_spec (Z.of_nat j) (L - 1)) as [Q|Q].
    - destruct (Forall_nth_error _ acts (Z.to_nat (L - 2)) Fa ltac:(unfold L in *; lia)) as (w & W & a & A).
      destruct (set_act_some L j a t S ltac:(lia)) as (t' & E & S'). exists t'. split; auto.
      eapply done_bindo; [apply done_throwing; exact W|]. eapply done_bindo; [apply done_throwing; exact A|]. exact E.
    - destruct (Forall_nth_error _ nodes (j - 1) Fn ltac:(unfold L in *; lia)) as (w & W & k & K & _).
      destruct (set_neurons_some L j k t S ltac:(lia)) as (t1 & E1 & S1).
      destruct (Forall_nth_error _ acts (j - 1) Fa ltac:(unfold L in *; lia)) as (w' & W' & a & A).
      destruct (set_act_some L j a t1 S1 ltac:(lia)) as (t' & E & S'). exists t'. split; auto.
      eapply done_bindo. { eapply done_bindo; [apply done_throwing; exact W|]. eapply done_bindo; [exact K|]. exact E1. }
      eapply done_bindo; [apply done_throwing; exact W'|]. eapply done_bindo; [apply done_throwing; exact A|]. exact E.
  Qed.
  Lemma global_some t : allocated L t -> exists t', globalTopology (Z.of_nat n) nodes acts inp t = Done t' /\ filled L t'.
  Proof.
    intros Al. assert (S : sized L t). { destruct Al as (A & B & C). split; auto. rewrite B, C, !repeat_length. auto. }
    destruct (set_neurons_some L 0 (to_int (Z.of_nat inp)) t S ltac:(unfold L; lia)) as (t1 & E1 & S1).
    destruct (set_act_some L 0 AF_IDENTITY t1 S1 ltac:(unfold L; lia)) as (t2 & E2 & S2).
    destruct (set_neurons_some L (Z.to_nat (L - 1)) 1 t2 S2 ltac:(unfold L; lia)) as (t3 & E3 & S3).
    destruct (foldo_progress (globalLayer nodes acts) (sized L) (range 1 L)) with (s := t3) as (t4 & E4 & S4); [|exact S3|].
    { intros j u Hj. apply in_range in Hj; [|lia]. now apply layer_some. }
    assert (E : globalTopology (Z.of_nat n) nodes acts inp t = Done t4).
    { unfold globalTopology. eapply done_bindo; [exact E1|]. eapply done_bindo; [exact E2|]. rewrite (proj1 S2). eapply done_bindo; [exact E3|].
      rewrite (proj1 S3). unfold L at 1. rewrite Z.eqb_refl. exact E4. }
    exists t4. split; auto. destruct (global_topology (Z.of_nat n) nodes acts inp L t t4 ltac:(unfold L; lia) Al E) as (_ & _ & _ & M4 & M5 & M6 & _).
    specialize (M6 eq_refl). split; [exact S4|]. destruct S4 as (S41 & S42 & S43). split.
    - intros j k Ek. destruct j as [|j].
      + rewrite M4 in Ek. injection Ek as <-. rewrite to_int_id; lia.
      + assert (Hj : (Datatypes.S j < Z.to_nat L)%nat) by (rewrite <- S42; apply nth_error_Some; congruence). destruct (M6 (Datatypes.S j) ltac:(lia)) as (X & _).
        destruct (bNodes L nodes acts (Datatypes.S j)) eqn:Q.
        * destruct X as (k' & E' & V). rewrite Ek in E'. injection E' as <-. eapply node_value_pos; [exact Fn|exact V].
        * unfold bNodes in Q. rewrite nn, na, andb_true_r in Q. cbn [andb] in Q. apply negb_false_iff in Q. rewrite Q in X. rewrite Ek in X. injection X as ->. lia.
    - intros j a Ea. destruct j as [|j].
      + rewrite M5 in Ea. injection Ea as <-. discriminate.
      + assert (Hj : (Datatypes.S j < Z.to_nat L)%nat) by (rewrite <- S43; apply nth_error_Some; congruence). destruct (M6 (Datatypes.S j) ltac:(lia)) as (_ & X).
        rewrite na in X. destruct X as (a' & E' & w & W & A). rewrite Ea in E'. injection E' as <-. eapply activation_not_unset; eauto.
  Qed.
End Global.
Section Own.
  Variable n : nat.
  Let L := Z.of_nat n + 2.
  Hypothesis Hn : (1 <= n)%nat.
  Lemma nodes_some ws t : filled L t -> List.length (tl ws) = n -> Forall node_number (tl ws) -> exists t', nodesStep ws t = Done t' /\ filled L t'.
  Proof.
    intros (S & P & A) Lw Fw. destruct ws as [|w0 ws]; [cbn in Lw; lia|]. cbn [tl] in *.
    destruct (foldo_progress (fun j t => w <- at_ (w0 :: ws) j; n <- atoi w; set_neurons j n t) (sized L) (range 1 (L - 2))) with (s := t) as (t' & E & S'); [|exact S|].
    { intros j u Hj Su. apply in_range in Hj; [|lia]. destruct (Forall_nth_error _ ws (j - 1) Fw ltac:(unfold L in *; lia)) as (w & W & k & K & _).
      destruct (set_neurons_some L j k u Su ltac:(lia)) as (t1 & E1 & S1). exists t1. split; auto.
      eapply done_bindo. { apply done_throwing. destruct j as [|j]; [lia|]. cbn [nth_error]. replace j with (Datatypes.S j - 1)%nat by lia. exact W. }
      eapply done_bindo; [exact K|]. exact E1. }
    assert (E' : nodesStep (w0 :: ws) t = Done t').
    { unfold nodesStep. rewrite (proj1 S). rewrite (proj2 (Z.eqb_eq _ _)); [exact E|]. f_equal. unfold L. cbn [List.length]. lia. }
    exists t'. split; auto. split; auto. apply nodes_step in E'. destruct E' as (_ & [B1 B2 B3 B4 B5 B6 B7]). rewrite (proj1 S) in *. split.
    - intros j k Ek. destruct (Z.lt_ge_cases (Z.of_nat j) 1) as [Q|Q]; [rewrite B5 in Ek by lia; eauto|].
      destruct (Z.lt_ge_cases (Z.of_nat j) (L - 2)) as [Q'|Q']; [|rewrite B5 in Ek by lia; eauto].
      destruct (B4 j ltac:(lia)) as (k' & E' & w & W & K). rewrite Ek in E'. injection E' as <-. destruct j as [|j]; [lia|]. cbn [nth_error] in W.
      apply (node_value_pos ws j k Fw). exists w. auto.
    - intros j a Ea. rewrite B7 in Ea by auto. eauto.
  Qed.
  Lemma acts_some ws t : filled L t -> List.length (tl ws) = (n + 1)%nat -> Forall activation_name (tl ws) -> exists t', actsStep ws t = Done t' /\ filled L t'.
  Proof.
    intros (S & P & A) Lw Fw. destruct ws as [|w0 ws]; [cbn in Lw; lia|]. cbn [tl] in *.
    destruct (foldo_progress (fun j t => w <- at_ (w0 :: ws) j; a <- activation_of w; set_act j a t) (sized L) (range 1 (L - 1))) with (s := t) as (t' & E & S'); [|exact S|].
    { intros j u Hj Su. apply in_range in Hj; [|lia]. destruct (Forall_nth_error _ ws (j - 1) Fw ltac:(unfold L in *; lia)) as (w & W & k & K).
      destruct (set_act_some L j k u Su ltac:(lia)) as (t1 & E1 & S1). exists t1. split; auto.
      eapply done_bindo. { apply done_throwing. destruct j as [|j]; [lia|]. cbn [nth_error]. replace j with (Datatypes.S j - 1)%nat by lia. exact W. }
      eapply done_bindo; [apply done_throwing; exact K|]. exact E1. }
    assert (E' : actsStep (w0 :: ws) t = Done t').
    { unfold actsStep. rewrite (proj1 S). rewrite (proj2 (Z.eqb_eq _ _)); [exact E|]. f_equal. unfold L. cbn [List.length]. lia. }
    exists t'. split; auto. split; auto. apply acts_step in E'. destruct E' as (_ & [B1 B2 B3 B4 B5 B6 B7]). rewrite (proj1 S) in *. split.
    - intros j k Ek. rewrite B5 in Ek by auto. eauto.
    - intros j a Ea. destruct (Z.lt_ge_cases (Z.of_nat j) 1) as [Q|Q]; [rewrite B7 in Ea by lia; eauto|].
      destruct (Z.lt_ge_cases (Z.of_nat j) (L - 1)) as [Q'|Q']; [|rewrite B7 in Ea by lia; eauto].
      destruct (B6 j ltac:(lia)) as (k' & E' & w & W & K). rewrite Ea in E'. injection E' as <-. eapply activation_not_unset; eauto.
  Qed.
  Lemma construct_some b t : filled L t -> complete t = true /\ exists net, construct b t = Done net.
  Proof.
    intros ((S1 & S2 & S3) & P & A). split.
    - unfold complete. apply andb_true_iff. split; apply negb_true_iff; apply not_true_iff_false; intros X; apply existsb_exists in X; destruct X as (x & Hx & Ex);
        apply In_nth_error in Hx; destruct Hx as (j & Hj).
      + apply Z.eqb_eq in Ex. subst x. apply P in Hj. lia.
      + apply (A _ _ Hj). destruct x; try discriminate. reflexivity.
    - unfold construct. destruct (existsb _ _) eqn:Q.
      + apply existsb_exists in Q. destruct Q as (x & Hx & Ex). apply In_nth_error in Hx. destruct Hx as (j & Hj). apply Z.ltb_lt in Ex. apply P in Hj. lia.
      + unfold new_network. rewrite S1. replace (Nat.ltb (Z.to_nat L) 3) with false; [eexists; reflexivity|]. symmetry. apply Nat.ltb_ge. unfold L. lia.
  Qed.
End Own.

(** ** The whole set-up *)
Lemma value_known s kw v : getValue s kw = Some v -> value_of s kw = Done (Some v).
Proof.
  intros G. unfold value_of. assert (E : keywordExists s kw false = Some true).
  { unfold getValue, keywordCheck in G. destruct (keywordExists s kw false) as [[]|]; [reflexivity|discriminate|discriminate]. }
  eapply done_bindo; [apply done_throwing; exact E|]. cbv iota. eapply done_bindo; [apply done_throwing; exact G|reflexivity].
Qed.
Lemma lines_known s kw : (exists k, mget str_eqb kw knownKeywords = Some k) -> exists ls, lines_of s kw = Done ls.
Proof.
  intros (k & K). unfold lines_of. assert (E : exists b, keywordExists s kw false = Some b).
  { unfold keywordExists. rewrite K. destruct (_ || _)%bool; eauto. }
  destruct E as (b & E). destruct b.
  - assert (G : exists ls, getValues s kw = Some ls).
    { unfold getValues, keywordCheck. rewrite E, K. assert (E' : exists b, keywordExists s kw true = Some b).
      { unfold keywordExists. rewrite K. cbn [orb]. eauto. }
      destruct E' as ([] & ->); [eauto|]. destruct (find _ _); eauto. }
    destruct G as (ls & G). exists ls. eapply done_bindo; [apply done_throwing; exact E|]. now apply done_throwing.
  - exists []. eapply done_bindo; [apply done_throwing; exact E|]. reflexivity.
Qed.
Lemma known_suffix suffix : suffix = lit "_short" \/ suffix = lit "_electrostatic" ->
  (exists k, mget str_eqb (lit "element_hidden_layers" ++ suffix) knownKeywords = Some k) /\
  (exists k, mget str_eqb (lit "element_nodes" ++ suffix) knownKeywords = Some k) /\
  (exists k, mget str_eqb (lit "element_activation" ++ suffix) knownKeywords = Some k).
Proof. intros [->| ->]; (split; [|split]); eexists; vm_compute; reflexivity. Qed.
Lemma known_normalize s : exists b, keywordExists s (lit "normalize_nodes") false = Some b.
Proof.
  assert (K : exists k, mget str_eqb (lit "normalize_nodes") knownKeywords = Some k) by (eexists; vm_compute; reflexivity).
  destruct K as (k & K). unfold keywordExists. rewrite K. destruct (_ || _)%bool; eauto.
Qed.
Lemma lines_in em s kw ls N P : lines_of s kw = Done ls -> lines_are em s kw N P ->
  forall v, In v ls -> (exists e, (e < N)%nat /\ about em e v) /\ P (tl (words_of (fst v))).
Proof.
  intros H A v Hv. destruct (lines_inv _ _ _ H) as [G|(-> & _)]; [|destruct Hv].
  destruct (A ls v (words_of (fst v)) G Hv (words_of_is v)) as ((e & He & E) & X). split; auto. exists e. split; auto. exists (words_of (fst v)). split; auto.
  apply words_of_is.
Qed.
Theorem setup_accepts s em suffix inputs n : valid_networks s em suffix inputs n -> exists nets, setupNeuralNetworks s em suffix inputs = Done nets.
Proof.
  intros [Hs (Hn & Hn' & vl & Gl & Al) (nodes & (vn & Gn & Wn) & Ln & Fn) (acts & (va & Ga & Wa) & La & Fa) Ol On Oa (Hi & Hi')].
  destruct (known_suffix suffix Hs) as (K1 & K2 & K3). destruct (lines_known s _ K1) as (l1 & L1). destruct (lines_known s _ K2) as (l2 & L2).
  destruct (lines_known s _ K3) as (l3 & L3). destruct (known_normalize s) as (b & Hb). set (L := Z.of_nat n + 2) in *.
  pose proof (lines_in em s _ l1 _ _ L1 Ol) as I1. pose proof (lines_in em s _ l2 _ _ L2 On) as I2. pose proof (lines_in em s _ l3 _ _ L3 Oa) as I3.
  assert (Sz : to_size (Z.of_nat n) = Z.of_nat n) by (apply to_size_id; lia).
  assert (W2 : to_int (to_size (to_size (Z.of_nat n) + 2)) = L).
  { rewrite wrap2 by lia. rewrite (proj2 (Z.ltb_lt _ _)) by lia. reflexivity. }
  destruct (lines_progress em layersStep (fun t => tp_layers t = L) (List.length inputs) l1) with (tops := map (fun _ => initLayers (Some (Z.of_nat n))) inputs)
    as (tops0 & T0 & K0 & F0).
  { intros v Hv. destruct (I1 v Hv) as (A & w & W & Aw). split; auto. intros t Ht. eexists. split.
    - unfold layersStep. eapply done_bindo. { apply done_throwing. destruct (words_of (fst v)) as [|w0 ws]; [discriminate|]. exact W. }
      eapply done_bindo; [exact Aw|]. reflexivity.
    - exact W2. }
  { apply map_length. }
  { apply Forall_forall. intros t Ht. apply in_map_iff in Ht. destruct Ht as (i & <- & _). cbn [initLayers tp_layers]. rewrite <- W2. now rewrite Sz. }
  assert (Pr1 : exists tops1, mapo allocateTopology tops0 = Done tops1 /\ List.length tops1 = List.length tops0 /\ Forall (allocated L) tops1).
  { apply mapo_progress. intros t Ht. assert (Et : tp_layers t = L) by (apply (proj1 (Forall_forall _ _) F0); auto). unfold allocateTopology. rewrite Et.
    rewrite (proj2 (Z.ltb_ge _ _)) by lia. eexists. split; [reflexivity|]. repeat split. }
  destruct Pr1 as (tops1 & T1 & K1' & F1).
  assert (Pr2 : exists tops2, mapo (fun it => globalTopology (Z.of_nat n) nodes acts (fst it) (snd it)) (List.combine inputs tops1) = Done tops2 /\
    List.length tops2 = List.length (List.combine inputs tops1) /\ Forall (filled L) tops2).
  { apply mapo_progress. intros (i, t) Hit. cbn [fst snd]. pose proof (in_combine_l _ _ _ _ Hit) as Hl. pose proof (in_combine_r _ _ _ _ Hit) as Hr.
    apply (global_some n nodes acts i); auto. apply (proj1 (Forall_forall _ _) F1). auto. }
  destruct Pr2 as (tops2 & T2 & K2' & F2).
  rewrite combine_length in K2'.
  destruct (lines_progress em nodesStep (filled L) (List.length inputs) l2) with (tops := tops2) as (tops3 & T3 & K3' & F3).
  { intros v Hv. destruct (I2 v Hv) as (A & Lw & Fw). split; auto. intros t Ht. apply (nodes_some n); auto. }
  { lia. } { exact F2. }
  destruct (lines_progress em actsStep (filled L) (List.length inputs) l3) with (tops := tops3) as (tops4 & T4 & K4' & F4).
  { intros v Hv. destruct (I3 v Hv) as (A & Lw & Fw). split; auto. intros t Ht. apply (acts_some n); auto. }
  { lia. } { exact F3. }
  assert (Pr5 : exists nets, mapo (construct b) tops4 = Done nets /\ List.length nets = List.length tops4 /\ Forall (fun _ => True) nets).
  { apply mapo_progress. intros t Ht. destruct (construct_some n Hn b t) as (_ & net & E); [apply (proj1 (Forall_forall _ _) F4); auto|]. eauto. }
  destruct Pr5 as (nets & T5 & _). exists nets. unfold setupNeuralNetworks. eapply done_bindo; [|eapply done_bindo; [apply done_throwing; exact Hb|exact T5]].
  unfold setupTopologies. eapply done_bindo; [apply value_known; exact Gl|].
  eapply done_bindo. { unfold globalLayers. eapply done_bindo; [exact Al|]. rewrite Sz. reflexivity. }
  eapply done_bindo; [exact L1|].
  eapply done_bindo. { apply (foldo_ext _ _ _ (layers_line_inv em)). exact T0. }
  replace (existsb _ tops0) with false.
  2: { symmetry. apply not_true_iff_false. intros X. apply existsb_exists in X. destruct X as (t & Ht & E). apply Z.eqb_eq in E.
       pose proof (proj1 (Forall_forall _ _) F0 t Ht) as E'. cbv beta in E'. lia. }
  eapply done_bindo; [exact T1|]. cbv zeta. cbv iota.
  eapply done_bindo; [apply value_known; exact Gn|].
  eapply done_bindo. { unfold globalNodes. rewrite (words_of_unique _ _ Wn). cbv zeta. rewrite (proj2 (Z.eqb_eq _ _)); [reflexivity|]. rewrite Ln. now rewrite Sz. }
  eapply done_bindo; [apply value_known; exact Ga|].
  eapply done_bindo. { unfold globalActivations. rewrite (words_of_unique _ _ Wa). cbv zeta. rewrite (proj2 (Z.eqb_eq _ _)); [reflexivity|]. rewrite La.
    replace (Z.of_nat (n + 1) - 1) with (Z.of_nat n) by lia. now rewrite Sz. }
  eapply done_bindo; [exact T2|]. eapply done_bindo; [exact L2|]. eapply done_bindo; [exact T3|]. eapply done_bindo; [exact L3|]. eapply done_bindo; [exact T4|].
  replace (forallb complete tops4) with true; [reflexivity|]. symmetry. apply forallb_forall. intros t Ht.
  apply (construct_some n Hn true t). apply (proj1 (Forall_forall _ _) F4). auto.
Qed.
