(** Concrete cases for evaluation with cache and groups, and the evaluation
    compiled with N2P2_NO_SF_GROUPS. *)
From Coq Require Import Reals Lra Lia ZArith Bool Arith Permutation.
From Coquelicot Require Import Coquelicot.
From Coq Require Import List.
From Verif Require Import Base.RealBase Base.Vec3 Base.SumR Base.Loop Model.CutoffFunction Model.NeuralNetwork Model.Scaling Model.NeighborList Model.SymFunctions
  Model.SymCache Model.SymSetup Model.SymGroups Model.Forces Model.GroupEvaluation
  Spec.NetworkSpec Spec.GeometrySpec Spec.NeighborSpec Spec.SymSpec Spec.SetupSpec Spec.GroupSpec Spec.ForceSpec Spec.EvaluationSpec
  Proofs.CutoffProofs Proofs.NetLayout Proofs.NetForward Proofs.NetProofs Proofs.NeighborProofs Proofs.NeighborMore Proofs.SetupProofs Proofs.CacheProofs Proofs.SymEval Proofs.SymExamples Proofs.SymAll Proofs.GroupApi Proofs.ForceProofs
  Proofs.ForceLocal Proofs.ForceNet Proofs.ForceAssembly Proofs.ForceExamples Proofs.GroupForces.
Import ListNotations.
Local Open Scope R_scope.

(** Element 0: a radial and an angular function which share the cutoff function
    for neighbours of element 0; element 1: a radial function. *)
Definition duo_ang : symfnc := mkSF (ex_common 1) (ExpAngw (mkEA 0 1 0 0 1 1 1 true chain_rc chain_fc)).
Definition duo_net : network :=
  mkNetwork 3 (fun l => if Nat.eqb l 0 then 2%nat else 1%nat) (fun _ => AF_IDENTITY) false
    (fun l k => mkNeuron 0 0 0 0 0 0 0 0 0 0 0 (fun j => 1)).
Definition duo : potential :=
  mkPotential (fun e => if Nat.eqb e 0 then [chain_rad; duo_ang] else [chain_rad]) (fun e => if Nat.eqb e 0 then duo_net else line_net 1) (fun _ => 1).
Definition duo_sc : nat -> nat -> scaling := fun _ _ => no_scaling.

Lemma duo_rad : no_slots chain_rad /\ admissible (sf_kind chain_rad) /\ scaling_setup (sf_scaling (sf_c chain_rad)) /\ cutoff_of (sf_kind chain_rad) <= chain_rc.
Proof.
  destruct (chain_sensible chain_rad 1 (or_intror eq_refl) 0%nat ltac:(lia)) as ((_ & _ & H) & _). apply H. now left.
Qed.
Lemma duo_ang_ok : no_slots duo_ang /\ admissible (sf_kind duo_ang) /\ scaling_setup (sf_scaling (sf_c duo_ang)) /\ cutoff_of (sf_kind duo_ang) <= chain_rc.
Proof.
  destruct (chain_sensible chain_ang 1 (or_introl eq_refl) 0%nat ltac:(lia)) as ((_ & _ & H) & _). exact (H chain_ang (or_introl eq_refl)).
Qed.
Lemma duo_scaled e : p_fs (scaled_potential duo_sc duo) e = p_fs duo e.
Proof. cbn. destruct (Nat.eqb e 0); reflexivity. Qed.
Lemma duo_sensible : sensible 2 chain_rc (scaled_potential duo_sc duo).
Proof.
  intros e He. rewrite duo_scaled. cbn [scaled_potential p_net duo p_fs]. destruct (Nat.eqb e 0).
  - split; [|split; [|split; [intros l _; discriminate|reflexivity]]].
    + split; [discriminate|]. split; [intros [|[|j]] h E; try (injection E as <-; reflexivity); destruct j; discriminate|].
      intros h [<-|[<-|[]]]; [apply duo_rad|apply duo_ang_ok].
    + split; [cbn; lia|]. intros l _. cbn. destruct (Nat.eqb l 0); lia.
  - split; [|split; [apply line_wf|split; [apply line_acts|reflexivity]]].
    split; [discriminate|]. split; [intros [|[|j]] h E; try discriminate; injection E as <-; reflexivity|].
    intros h [<-|[]]. apply duo_rad.
Qed.
Lemma duo_grouped : cached_and_grouped (text_of R (fun x => x) 1) (fun x => x) 1 duo_sc 2 duo.
Proof.
  intros e He. cbn [duo p_fs]. 
  assert (A : forall f, In f (if Nat.eqb e 0 then [chain_rad; duo_ang] else [chain_rad]) -> f = chain_rad \/ f = duo_ang).
  { intros f. destruct (Nat.eqb e 0); cbn; intuition. }
  split; [split|split].
  - intros f Hf. destruct (A f Hf) as [-> | ->]; cbn; auto. repeat split; lra.
  - intros f h Hf Hh. destruct (A f Hf) as [-> | ->], (A h Hh) as [-> | ->]; exact Logic.I.
  - intros f g x y _ _ _ _ H. exact H.
  - intros f Hf. destruct (A f Hf) as [-> | ->]; exact Logic.I.
Qed.
Lemma duo_smooth : everywhere (scaled_potential duo_sc duo) chain_rc three smooth_at.
Proof.
  apply three_smooth_all. intros e g Hg. rewrite duo_scaled in Hg. cbn [duo p_fs] in Hg.
  destruct (Nat.eqb e 0); [destruct Hg as [<-|[<-|[]]]; auto|destruct Hg as [<-|[]]; auto].
Qed.
Lemma duo_regular : regular_networks (scaled_potential duo_sc duo) chain_rc three.
Proof.
  intros i a e _ _. cbn [scaled_potential duo p_net]. destruct (Nat.eqb _ 0); [|apply line_regular].
  intros l k _ _. match goal with |- context [evaluate duo_net ?G] => destruct (evaluate_shape duo_net G) as (_ & _ & E & _) end. rewrite E. exact Logic.I.
Qed.
(** The functions of element 0 do use the cache, and form two groups. *)
Lemma duo_ok : sensible 2 chain_rc (scaled_potential duo_sc duo) /\ cached_and_grouped (text_of R (fun x => x) 1) (fun x => x) 1 duo_sc 2 duo /\
  unprocessed chain_rc three /\
  (exists nsort fuel s', is_sort nsort /\ calculateNeighborList nsort fuel chain_rc false three = Some s') /\
  everywhere (scaled_potential duo_sc duo) chain_rc three smooth_at /\ everywhere (scaled_potential duo_sc duo) chain_rc three distinct_neighbors /\
  regular_networks (scaled_potential duo_sc duo) chain_rc three /\
  no_self_image three chain_rc /\ in_range three chain_rc 0 1 (0, 0, 0)%Z /\ in_range three chain_rc 0 2 (0, 0, 0)%Z /\
  cutoff_shared (text_of R (fun x => x) 1) (p_fs duo 0%nat) duo_ang 0.
Proof.
  split; [exact duo_sensible|]. split; [exact duo_grouped|]. split; [exact three_unprocessed|]. split; [exact three_list|].
  split; [exact duo_smooth|]. split; [exact (smooth_distinct _ _ _ duo_smooth)|]. split; [exact duo_regular|].
  split; [exact three_no_self|]. split; [apply three_range|]. split; [apply three_range|].
  exists chain_rad. split; [now left|]. split; [discriminate|]. split; reflexivity.
Qed.

(** ** Compiled with N2P2_NO_SF_GROUPS *)
(** Whether the forces can be summed depends only on atoms and tables. *)
Definition def {A} (x : option A) : bool := match x with Some _ => true | None => false end.
Lemma ofold_defined {A S S'} (f : A -> S -> option S) (g : A -> S' -> option S') l :
  (forall a s s', In a l -> def (f a s) = def (g a s')) -> forall s s', def (ofold f l s) = def (ofold g l s').
Proof.
  induction l as [|a l IH]; intros H s s'; cbn; auto. assert (Q := H a s s' (or_introl eq_refl)).
  destruct (f a s) as [t|], (g a s') as [t'|]; try discriminate; auto. apply IH. intros. apply H. now right.
Qed.
Lemma pairForce_defined e e' x y k m : same_tables e e' -> def (pairForce e x k m) = def (pairForce e' y k m).
Proof.
  intros (T1 & T2 & T3). unfold pairForce. rewrite T1, T2, T3. destruct (nth_error _ _); auto. apply ofold_defined.
  intros a s s' _. destruct (nth_error _ a) as [t|]; auto. destruct (Nat.ltb t _); auto.
Qed.
Definition same_atom (x y : eatom) : Prop := e_atom x = e_atom y.
Lemma forces_defined elems elems' rc xs ys : Forall2 same_tables elems elems' -> Forall2 same_atom xs ys ->
  def (calculateForces elems rc xs) = def (calculateForces elems' rc ys).
Proof.
  intros HE HX. unfold calculateForces, mapi. rewrite (Forall2_length_eq HX).
  assert (FF : forall i j f f', def (force_from elems xs rc i j f) = def (force_from elems' ys rc i j f')).
  { intros i j f f'. unfold force_from. assert (Q := F2_nth_error _ _ _ HX j).
    destruct (nth_error xs j) as [x|], (nth_error ys j) as [y|]; try contradiction; auto.
    unfold same_atom in Q. rewrite Q. assert (Q3 := F2_nth_error _ _ _ HE (a_element (e_atom y))).
    destruct (nth_error elems _) as [e|], (nth_error elems' _) as [e'|]; try contradiction; auto.
    apply ofold_defined. intros k g g' _. destruct (nth_error (a_nbs (e_atom y)) k) as [m|]; auto. destruct (Nat.eqb (nb_index m) i); auto.
    assert (Z := pairForce_defined e e' x y k m Q3). destruct (pairForce e x k m), (pairForce e' y k m); auto. }
  assert (FA : forall i x y, same_atom x y -> def (force_atom elems xs rc i x) = def (force_atom elems' ys rc i y)).
  { intros i x y Hx. unfold force_atom. unfold same_atom in Hx. rewrite Hx. assert (Q3 := F2_nth_error _ _ _ HE (a_element (e_atom y))).
    destruct (nth_error elems _) as [e|], (nth_error elems' _) as [e'|]; try contradiction; auto.
    destruct (a_unique (e_atom y)) as [|u U]; auto.
    assert (Z := ofold_defined (force_from elems xs rc i) (force_from elems' ys rc i) U (fun a s s' _ => FF i a s s')
       (vadd vzero (selfForce (length (el_fs e)) x)) (vadd vzero (selfForce (length (el_fs e')) y))).
    destruct (ofold (force_from elems xs rc i) U _), (ofold (force_from elems' ys rc i) U _); auto. }
  generalize (seq 0 (length ys)).
  assert (G : forall l l', Forall2 same_atom l l' -> forall ks : list nat,
    def (sequence (map (fun ia => force_atom elems xs rc (fst ia) (snd ia)) (List.combine ks l))) =
    def (sequence (map (fun ia => force_atom elems' ys rc (fst ia) (snd ia)) (List.combine ks l')))).
  { intros l l' H. induction H as [|x y l l' H _ IH]; intros [|k ks]; cbn; auto.
    assert (Q := FA k x y H). specialize (IH ks).
    destruct (force_atom elems xs rc k x), (force_atom elems' ys rc k y); try discriminate; auto.
    destruct (sequence _), (sequence _); auto. }
  apply G. auto.
Qed.

Lemma networks_atoms nets xs : Forall2 same_atom xs (fst (atomicNetworks nets xs)).
Proof.
  revert nets. induction xs as [|x xs IH]; intros nets; cbn; [constructor|].
  specialize (IH (upd nets (a_element (e_atom x)) (propagate (setInput (st_G (e_store x)) (nets (a_element (e_atom x))))))).
  destruct (atomicNetworks _ xs) as [r n]. cbn [fst] in *. constructor; auto. reflexivity.
Qed.

Lemma line_out G a : getOutput (evaluate (line_net a) G) 0 = a * G 0%nat.
Proof.
  rewrite (ev_output (line_net a) G 2 eq_refl ltac:(lia) (line_acts a)) by (simpl; lia).
  unfold VAL, net_nrm. simpl. unfold weight, bias, sumn. simpl.
  change (act_f AF_IDENTITY) with (fun x : R => x). cbv beta. ring.
Qed.
(** Radial functions are not negative, and positive with a near neighbour. *)
Definition trio : potential := chain_pot chain_rad 1.
Lemma rad_term x : 0 <= only 0 (fun x => radial_gauss (mkER 0 1 0 chain_rc chain_fc) (norm x)) x /\
  (fst x = 0%nat -> norm (snd x) < 4.2 -> 0 < only 0 (fun x => radial_gauss (mkER 0 1 0 chain_rc chain_fc) (norm x)) x).
Proof.
  unfold only, radial_gauss. cbn [er_eta er_rs er_fc].
  assert (0 <= cf_f chain_fc (norm (snd x))) by (destruct chain_fc_ok as (Hp & t & al & Ec); apply (cf_range t chain_rc al chain_fc Hp Ec); apply norm_nonneg).
  split.
  - destruct (Nat.eqb _ _); [|lra]. apply Rmult_le_pos; auto. apply Rlt_le, exp_pos.
  - intros -> Hn. cbn [Nat.eqb]. rewrite chain_cut by auto. rewrite Rmult_1_r. apply exp_pos.
Qed.
Lemma rad_value e : 0 <= sf_value (fun _ => 1) (sf_kind chain_rad) e /\
  ((exists x, In x e /\ fst x = 0%nat /\ norm (snd x) < 4.2) -> 0 < sf_value (fun _ => 1) (sf_kind chain_rad) e).
Proof.
  unfold sf_value. cbn [chain_rad sf_kind er_e1]. unfold radial_sum. induction e as [|x e (IH1 & IH2)]; cbn [map rsum fold_right].
  - split; [lra|]. intros (x & [] & _).
  - change (fold_right Rplus 0 ?l) with (rsum l). destruct (rad_term x) as (A & B). split; [lra|]. intros (y & [<-|Hy] & H1 & H2).
    + specialize (B H1 H2). lra.
    + assert (0 < rsum (map (only 0 (fun x => radial_gauss (mkER 0 1 0 chain_rc chain_fc) (norm x))) e)) by (apply IH2; eauto). lra.
Qed.
Lemma trio_energy E : has_energy trio chain_rc three E -> 0 < E.
Proof.
  intros (es & L & H & ->). destruct es as [|e0 [|e1 [|e2 [|]]]]; try discriminate. cbn [three s_atoms List.combine map rsum fold_right fst snd].
  assert (A : forall i e, 0 <= atomic_energy (p_weight trio) (p_fs trio i) (p_net trio i) e /\
    ((exists x, In x e /\ fst x = 0%nat /\ norm (snd x) < 4.2) -> 0 < atomic_energy (p_weight trio) (p_fs trio i) (p_net trio i) e)).
  { intros i e. unfold atomic_energy. cbn [trio chain_pot p_weight p_fs p_net].
    destruct (Nat.eqb i 0); rewrite line_out, Rmult_1_l; cbn; apply rad_value. }
  assert (B : 0 < atomic_energy (p_weight trio) (p_fs trio 0%nat) (p_net trio 0%nat) e0).
  { apply A. destruct (H 0%nat e0 eq_refl) as (Ls & _ & HL & F). assert (I1 := proj2 (HL _ _) (proj1 three_range)).
    assert (X : exists x, In x e0 /\ seen_from three 0 (1%nat, (0, 0, 0)%Z) x).
    { clear - I1 F. induction F as [|p x Ls e Hx _ IH]; [destruct I1|]. destruct I1 as [->|I1]; [exists x; split; [now left|auto]|].
      destruct (IH I1) as (y & Hy & Hs). exists y. split; [now right|auto]. }
    destruct X as (x & Hx & ai & aj & Ei & Ej & ->). cbn in Ei, Ej. injection Ei as <-. injection Ej as <-.
    eexists. split; [exact Hx|]. split; [reflexivity|]. cbn [snd].
    replace (norm _) with 4; [lra|]. symmetry. unfold norm. 
    replace (norm2 _) with (4 * 4); [apply sqrt_square; lra|].
    unfold displacement, position_of_image, lattice, combine, norm2, vsub, vadd, smul; cbn; ring. }
  cbn [fresh_atom a_element] in *. assert (A1 := proj1 (A 0%nat e1)). assert (A2 := proj1 (A 1%nat e2)).
  cbn [trio p_weight p_fs p_net] in *. lra.
Qed.

Section NoGroups.
Variables (K : Type) (K_dec : forall a b : K, {a = b} + {a <> b}) (key : symfnc -> K).
Variables (gsort : list (list symfnc) -> list (list symfnc)) (msort : list symfnc -> list symfnc).
Lemma no_groups_element N rc P e : sensible N rc P -> (e < N)%nat -> exists g,
  setupElement K K_dec key gsort msort N false (p_fs P e) = Some g /\ ge_groups g = [] /\ same_tables (el_of N P e) (ge_elem g).
Proof.
  intros HP He. destruct (HP e He) as ((_ & Hnum & Hf) & _).
  destruct (memory_setup N (p_fs P e)) as (fs1 & table & nums & EM & _ & L1 & _ & F1).
  assert (A : forall j f1, nth_error fs1 j = Some f1 -> exists f g, nth_error (p_fs P e) j = Some f /\ f1 = with_per g f).
  { intros j f1 Hj. assert (j < length (p_fs P e))%nat by (rewrite <- L1; apply nth_error_Some; congruence).
    destruct (nth_error (p_fs P e) j) as [f|] eqn:Ef; [|apply nth_error_None in Ef; lia]. destruct (F1 j f Ef) as (g & Hg & _).
    rewrite Hj in Hg. injection Hg as ->. eauto. }
  destruct (setup_slots K K_dec key N fs1) as (fs2 & sizes & EC & L2 & _).
  { intros j f1 Hj. destruct (A j f1 Hj) as (f & g & Ef & ->). apply (Hnum j f Ef). }
  { intros f1 H1. apply In_nth_error in H1 as (j & Hj). destruct (A j f1 Hj) as (f & g & Ef & ->). apply (Hf f (nth_error_In _ _ Ef)). }
  exists (mkGElem (mkElem fs2 table nums) []). split; [unfold setupElement; rewrite EM, EC; reflexivity|]. split; auto.
  unfold el_of. rewrite EM. repeat split; cbn; auto.
Qed.
Lemma no_groups_setup N rc P sc : sensible N rc P -> exists es,
  setupAll K K_dec key gsort msort N false (map (p_fs P) (seq 0 N)) = Some es /\
  (forall g, In g (setupScaling sc es) -> ge_groups g = []) /\
  Forall2 same_tables (setupMemoryAll N (map (p_fs P) (seq 0 N))) (map ge_elem (setupScaling sc es)).
Proof.
  intros HP. unfold setupAll. rewrite map_map.
  destruct (sequence_some (map (fun e => setupElement K K_dec key gsort msort N false (p_fs P e)) (seq 0 N))) as [es Ees].
  { intros o Ho. apply in_map_iff in Ho as (e & <- & He). apply in_seq in He. destruct (no_groups_element N rc P e HP) as (g & -> & _); [lia|discriminate]. }
  exists es. split; auto. apply sequence_spec in Ees as [L H]. rewrite map_length, seq_length in L.
  assert (G : forall e g, nth_error es e = Some g -> (e < N)%nat /\ ge_groups g = [] /\ same_tables (el_of N P e) (ge_elem g)).
  { intros e g Hg. assert (He : (e < N)%nat) by (rewrite <- L; apply nth_error_Some; congruence). split; auto.
    specialize (H e (setupElement K K_dec key gsort msort N false (p_fs P e))).
    rewrite nth_error_map, (nth_error_nth' _ 0%nat), seq_nth in H by (rewrite ?seq_length; auto). cbn in H. rewrite Hg in H. specialize (H eq_refl).
    destruct (no_groups_element N rc P e HP He) as (g' & E' & A). rewrite H in E'. injection E' as <-. auto. }
  split.
  - intros g' Hg'. apply In_nth_error in Hg' as (e & Hg'). unfold setupScaling in Hg'. rewrite nth_error_mapi in Hg'.
    destruct (nth_error es e) as [g|] eqn:Eg; [|discriminate]. cbn in Hg'. injection Hg' as <-. cbn. now rewrite (proj1 (proj2 (G e g Eg))).
  - apply LammpsCompute.nth_Forall2.
    + unfold setupMemoryAll, setupScaling. now rewrite !map_length, mapi_length, seq_length, L.
    + intros e x Hx. assert (He : (e < N)%nat). { apply nth_error_Some_lt in Hx. unfold setupMemoryAll in Hx. now rewrite !map_length, seq_length in Hx. }
      rewrite (elem_at N P e He) in Hx. injection Hx as <-.
      destruct (nth_error es e) as [g|] eqn:Eg; [|apply nth_error_None in Eg; lia].
      exists (mkElem (map (set_scaling (sc e)) (el_fs (ge_elem g))) (el_table (ge_elem g)) (el_nums (ge_elem g))).
      rewrite nth_error_map. unfold setupScaling. rewrite nth_error_mapi, Eg. split; [reflexivity|].
      destruct (G e g Eg) as (_ & _ & T1 & T2 & T3). repeat split; cbn; auto. now rewrite map_length.
Qed.
End NoGroups.

(** Networks of [trio] applied to zero inputs. *)
Lemma zero_networks xs : forall nets, (forall e, alike (nets e) (line_net 1)) -> (forall x, In x xs -> st_G (e_store x) = fun _ => 0) ->
  rsum (map e_energy (fst (atomicNetworks nets xs))) = 0.
Proof.
  induction xs as [|x xs IH]; intros nets Hn Hx; cbn; auto.
  set (el := a_element (e_atom x)). change (propagate (setInput ?g (nets el))) with (evaluate (nets el) g).
  assert (W := alike_well_formed _ _ (Hn el) (line_wf 1)). assert (A := alike_acts _ _ (Hn el) (line_acts 1)).
  assert (Z0 : getOutput (evaluate (nets el) (st_G (e_store x))) 0 = 0).
  { rewrite (alike_output _ (line_net 1) (st_G (e_store x)) (st_G (e_store x)) (Hn el) (line_wf 1) (line_acts 1) (fun _ _ => eq_refl) 2 eq_refl).
    rewrite line_out, (Hx x (or_introl eq_refl)). ring. }
  specialize (IH (upd nets el (evaluate (nets el) (st_G (e_store x))))).
  destruct (atomicNetworks _ xs) as [r n]. cbn [fst map rsum fold_right e_energy] in *.
  change (fold_right Rplus 0 ?l) with (rsum l). rewrite Z0, IH; [lra| |intros y Hy; apply Hx; now right].
  intros e. destruct (Nat.eq_dec e el) as [-> | Ne].
  - rewrite upd_same. eapply alike_trans; [apply alike_evaluate; auto|apply Hn].
  - rewrite upd_other by auto. apply Hn.
Qed.
Lemma same_atom_trans xs ys zs : Forall2 same_atom xs ys -> Forall2 same_atom ys zs -> Forall2 same_atom xs zs.
Proof.
  intros H. revert zs. induction H; intros zs Hz; inversion Hz; subst; constructor; eauto. unfold same_atom in *. congruence.
Qed.
Lemma same_atom_sym xs ys : Forall2 same_atom xs ys -> Forall2 same_atom ys xs.
Proof. induction 1; constructor; auto. unfold same_atom in *. congruence. Qed.
Lemma sf_stage_atoms Z elems atoms xs : calculateSymmetryFunctions Z elems atoms = Some xs ->
  Forall2 (fun a x => e_atom x = a) atoms xs /\ forall a, In a atoms -> exists e, nth_error elems (a_element a) = Some e /\ length (el_fs e) <> 0%nat.
Proof.
  unfold calculateSymmetryFunctions. revert xs. induction atoms as [|a atoms IH]; intros xs; cbn.
  - intros [= <-]. split; [constructor|]. intros a [].
  - destruct (sf_atom Z elems a) as [x|] eqn:Ex; [|discriminate]. destruct (sequence (map (sf_atom Z elems) atoms)) as [r|]; [|discriminate].
    intros [= <-]. destruct (IH r eq_refl) as [A B]. unfold sf_atom in Ex. destruct (nth_error elems (a_element a)) as [e|] eqn:Ee; [|discriminate].
    destruct (Nat.eqb (length (el_fs e)) 0) eqn:E0; [discriminate|]. apply Nat.eqb_neq in E0.
    match type of Ex with context [match ?c with _ => _ end] => destruct c; [|discriminate] end. injection Ex as <-.
    split; [constructor; auto|]. intros b [<-|Hb]; eauto.
Qed.
Lemma groups_stage_atoms Z es elems atoms : Forall2 same_tables elems (map ge_elem es) -> (forall g, In g es -> ge_groups g = []) ->
  (forall a, In a atoms -> exists e, nth_error elems (a_element a) = Some e /\ length (el_fs e) <> 0%nat) ->
  exists xs, calculateSymmetryFunctionGroups Z es atoms = Some xs /\ Forall2 (fun a x => e_atom x = a) atoms xs /\ forall x, In x xs -> st_G (e_store x) = fun _ => 0.
Proof.
  intros HT Hg. unfold calculateSymmetryFunctionGroups. induction atoms as [|a atoms IH]; intros H; cbn.
  - exists []. split; [reflexivity|]. split; [constructor|]. intros x [].
  - destruct IH as (xs & -> & A & B). { intros b Hb. apply H. now right. }
    destruct (H a (or_introl eq_refl)) as (e & Ee & Ne). assert (Q := F2_nth_error _ _ _ HT (a_element a)). rewrite Ee, nth_error_map in Q.
    unfold sf_atom_groups. destruct (nth_error es (a_element a)) as [g|] eqn:Eg; [|contradiction]. cbn in Q. destruct Q as (T1 & _).
    rewrite <- T1. apply Nat.eqb_neq in Ne. rewrite Ne, (Hg g (nth_error_In _ _ Eg)). cbn.
    eexists. split; [reflexivity|]. split; [constructor; auto|]. intros x [<-|Hx]; auto.
Qed.

Lemma no_groups : exists P rc s nsort fuel es E ys E', sensible 2 rc P /\ unprocessed rc s /\ is_sort nsort /\
  everywhere P rc s smooth_at /\ regular_networks P rc s /\ no_self_image s rc /\
  cached_and_grouped (text_of R (fun x => x) 1) (fun x => x) 1 (fun _ _ => no_scaling) 2 P /\
  setupAll (text R) (text_dec Req_EM_T) (text_of R (fun x => x) 1) (fun l => l) (fun l => l) 2 false (map (p_fs P) (seq 0 2)) = Some es /\
  evaluateGroups nsort fuel (p_weight P) (setupScaling (fun _ _ => no_scaling) es) (p_net P) rc s = Some (E, ys) /\
  has_energy P rc s E' /\ E <> E'.
Proof.
  destruct three_list as (nsort & fuel & s' & Hsort & Es').
  assert (HP : sensible 2 chain_rc trio) by (apply chain_sensible; auto).
  assert (Hsm : everywhere trio chain_rc three smooth_at).
  { apply three_smooth_all. intros e g Hg. cbn in Hg. destruct (Nat.eqb e 0); destruct Hg as [<-|[]]; auto. }
  assert (Hrc : 0 <= chain_rc) by (unfold chain_rc; lra).
  destruct (energy_evaluated 2 chain_rc trio three nsort fuel s' HP Hrc eq_refl three_unprocessed Hsort Es') as (E' & xs & Ev & HE & _).
  { intros i a e f H1 H2 H3. apply (Hsm i a e f H1 H2 H3). }
  destruct (no_groups_setup (text R) (text_dec Req_EM_T) (text_of R (fun x => x) 1) (fun l => l) (fun l => l) 2 chain_rc trio (fun _ _ => no_scaling) HP)
    as (es & Ees & Hg & HT).
  unfold evaluateNNP in Ev. rewrite Es' in Ev.
  destruct (calculateSymmetryFunctions (p_weight trio) _ (s_atoms s')) as [xs0|] eqn:Ex; [|discriminate].
  destruct (sf_stage_atoms _ _ _ _ Ex) as (FA & Hel).
  destruct (groups_stage_atoms (p_weight trio) _ _ (s_atoms s') HT Hg Hel) as (zs & Ez & FZ & HZ).
  assert (S0 : Forall2 same_atom xs0 zs).
  { clear - FA FZ. revert xs0 zs FA FZ. induction (s_atoms s') as [|a l IH]; intros xs zs F1 F2; inversion F1; inversion F2; subst; constructor; auto. unfold same_atom. congruence. }
  assert (S1 := networks_atoms (p_net trio) xs0). assert (S2 := networks_atoms (p_net trio) zs).
  assert (En := zero_networks zs (p_net trio)). 
  assert (Al : forall e, alike (p_net trio e) (line_net 1)) by (intros e; cbn; destruct (Nat.eqb e 0); apply alike_refl).
  specialize (En Al HZ).
  destruct (atomicNetworks (p_net trio) xs0) as [xs1 n1]. destruct (atomicNetworks (p_net trio) zs) as [zs1 n2] eqn:Ezs. cbn [fst] in *.
  assert (D := forces_defined _ _ chain_rc xs1 zs1 HT (same_atom_trans _ _ _ (same_atom_sym _ _ S1) (same_atom_trans _ _ _ S0 S2))).
  destruct (calculateForces _ chain_rc xs1) as [ys1|]; [|discriminate]. destruct (calculateForces _ chain_rc zs1) as [ys|] eqn:Ef in D; [|discriminate].
  exists trio, chain_rc, three, nsort, fuel, es, (calculateEnergy zs1), ys, E'.
  split; [exact HP|]. split; [exact three_unprocessed|]. split; [exact Hsort|]. split; [exact Hsm|].
  split. { intros i a e _ _. cbn [trio chain_pot p_net]. destruct (Nat.eqb _ 0); apply line_regular. }
  split; [exact three_no_self|]. split.
  { intros e He. assert (A : forall f, In f (p_fs trio e) -> f = chain_rad) by (intros f; cbn; destruct (Nat.eqb e 0); cbn; intuition).
    split; [split|split].
    - intros f Hf. rewrite (A f Hf). cbn; auto.
    - intros f h Hf Hh. rewrite (A f Hf), (A h Hh). exact Logic.I.
    - intros f g x y _ _ _ _ H. exact H.
    - intros f Hf. rewrite (A f Hf). exact Logic.I. }
  split; [exact Ees|]. split.
  { unfold evaluateGroups. rewrite Es', Ez, Ezs, Ef. reflexivity. }
  split; [exact HE|]. unfold calculateEnergy. rewrite fold_sum, En. assert (0 < E') by (now apply trio_energy). lra.
Qed.
