(** Consequences and examples for the LAMMPS interface. *)
From Coq Require Import Reals Lra ZArith List Lia Bool Arith Permutation.
From Coquelicot Require Import Coquelicot.
From Coq Require Import List.
From Verif Require Import Base.RealBase Base.Loop Base.Vec3 Base.SumR Model.NeuralNetwork Model.NeighborList Model.SymFunctions Model.SymSetup
  Model.Forces Model.Units Model.LammpsInterface Spec.NetworkSpec Spec.GeometrySpec Spec.NeighborSpec Spec.SymSpec Spec.SetupSpec Spec.ForceSpec Spec.LammpsSpec
  Proofs.GeometryProofs Proofs.NeighborProofs Proofs.SymExamples Proofs.ForceLocal Proofs.ForceProofs Proofs.ForceExamples
  Proofs.LammpsAtom Proofs.LammpsProofs Proofs.LammpsCompute.
Import ListNotations.
Local Open Scope R_scope.

Lemma list_ext_len {A} (l l' : list A) : length l = length l' -> (forall p, (p < length l)%nat -> nth_error l p = nth_error l' p) -> l = l'.
Proof.
  revert l'. induction l as [|a l IH]; intros [|b l'] L H; cbn in L; try lia; auto. f_equal.
  - assert (H0 := H 0%nat ltac:(cbn; lia)). cbn in H0. congruence.
  - apply IH; [lia|]. intros p Hp. apply (H (S p)). cbn. lia.
Qed.

Section Registered.
Variables (I : interface) (types : nat -> nat) (nlocal nall N : nat).
Hypothesis HC : configured I types nlocal nall N.
Lemma registered : exists s, setLocalAtoms I nlocal types = Some s /\
  map la_index (ls_atoms s) = active_atoms I types nlocal /\
  map (fun a => a_element (la_atom a)) (ls_atoms s) = map (element_of I types) (active_atoms I types nlocal) /\
  length (ls_perEl s) = N /\
  (forall e, nth e (ls_perEl s) 0%nat = length (filter (fun i => Nat.eqb (element_of I types i) e) (active_atoms I types nlocal))) /\
  (forall i, (i < nlocal)%nat -> match nth_error (ls_map s) i with
     | Some (Some p) => active I types i = true /\ nth_error (active_atoms I types nlocal) p = Some i
     | Some None => active I types i = false
     | None => False
     end).
Proof.
  destruct (locals_ok I types nlocal nall N HC) as (s & E & A0 & A1 & A2 & A3 & A4). exists s. split; auto.
  split; [rewrite A0, map_map, map_id; reflexivity|]. split; [rewrite A0, map_map; reflexivity|]. split; auto. split; auto.
  intros i Hi. rewrite (A2 i Hi). assert (X : Nat.ltb i nlocal = true) by now apply Nat.ltb_lt. rewrite X. cbn [andb].
  destruct (active I types i) eqn:Ea; auto. split; auto. now apply act_position.
Qed.
Lemma all_active : (forall i, (i < nlocal)%nat -> active I types i = true) -> active_atoms I types nlocal = seq 0 nlocal.
Proof.
  intros H. unfold active_atoms. assert (G : forall l, (forall i, In i l -> (i < nlocal)%nat) -> filter (active I types) l = l).
  { induction l as [|i l IH]; intros Hl; auto. cbn. rewrite (H i) by (apply Hl; now left). f_equal. apply IH. intros; apply Hl; now right. }
  apply G. intros i Hi. apply in_seq in Hi. lia.
Qed.
Lemma positions_right x : (forall i, (i < nlocal)%nat -> active I types i = true) ->
  exists s, setLocalAtoms I nlocal types = Some s /\
    Forall (fun a => la_tag a = 0%Z) (ls_atoms s) /\ length (ls_atoms s) = nlocal /\
    Forall (fun a => a_r (la_atom a) = smul (length_unit I) (x (la_index a))) (ls_atoms (setLocalAtomPositions I x s)) /\
    forall tags, Forall (fun a => la_tag a = tags (la_index a)) (ls_atoms (setLocalTags tags s)).
Proof.
  intros H. destruct (locals_ok I types nlocal nall N HC) as (s & E & A0 & A1 & A2 & A3 & A4). exists s. split; auto.
  assert (HA : filter (active I types) (seq 0 nlocal) = seq 0 nlocal) by now apply all_active.
  rewrite HA in A0.
  assert (G : forall p a, nth_error (ls_atoms s) p = Some a -> la_index a = p /\ la_tag a = 0%Z).
  { intros p a. rewrite A0, nth_error_map. destruct (nth_error (seq 0 nlocal) p) eqn:Ep; [|discriminate]. cbn. intros [= <-]. cbn. split; auto.
    apply nth_error_split in Ep as (l1 & l2 & Ep & <-). assert (Hl := f_equal (fun l => nth (length l1) l 0%nat) Ep). cbn in Hl.
    rewrite app_nth2, Nat.sub_diag in Hl by lia. cbn in Hl. rewrite seq_nth in Hl; [lia|].
    apply (f_equal (@length _)) in Ep. rewrite seq_length, app_length in Ep. cbn in Ep. lia. }
  split; [|split; [|split]].
  - rewrite A0. apply Forall_forall. intros a Ha. apply in_map_iff in Ha as (i & <- & _). reflexivity.
  - rewrite A0, map_length, seq_length. reflexivity.
  - apply Forall_forall. intros a Ha. cbn [setLocalAtomPositions ls_atoms] in Ha. apply In_nth_error in Ha as [p Hp]. rewrite nth_error_mapi in Hp.
    destruct (nth_error (ls_atoms s) p) as [b|] eqn:Eb; [|discriminate]. injection Hp as <-. cbn. rewrite (proj1 (G p b Eb)). apply toModel_unit.
  - intros tags. apply Forall_forall. intros a Ha. cbn [setLocalTags ls_atoms] in Ha. apply In_nth_error in Ha as [p Hp]. rewrite nth_error_mapi in Hp.
    destruct (nth_error (ls_atoms s) p) as [b|] eqn:Eb; [|discriminate]. injection Hp as <-. cbn. now rewrite (proj1 (G p b Eb)).
Qed.
End Registered.

(** Sum of the atomic energies. *)
Lemma listed_sum I P types nlocal nall rc x tags r : length (lr_atoms r) = length (active_atoms I types nlocal) ->
  (forall p i, nth_error (active_atoms I types nlocal) p = Some i -> listed_atom I P types nall rc x tags r p i) ->
  atomEnergies I r (length (lr_atoms r)) = Some (map (atom_energy I P types nall rc x) (active_atoms I types nlocal)).
Proof.
  intros L H. unfold atomEnergies. rewrite L. set (l := active_atoms I types nlocal) in *. clearbody l. clear L.
  assert (G : forall m k, (forall p i, nth_error m p = Some i -> getAtomicEnergy I r (k + p) = Some (atom_energy I P types nall rc x i)) ->
     sequence (map (getAtomicEnergy I r) (seq k (length m))) = Some (map (atom_energy I P types nall rc x) m)).
  { induction m as [|i m IH]; intros k Hk; auto. cbn [length seq map sequence].
    assert (H0 := Hk 0%nat i eq_refl). rewrite Nat.add_0_r in H0. rewrite H0, (IH (S k)); auto.
    intros p j Hp. specialize (Hk (S p) j Hp). now rewrite Nat.add_succ_r in Hk. }
  apply G. intros p i Hp. destruct (H p i Hp) as (y & _ & _ & E & _). exact E.
Qed.
Lemma sum_of_energies I P types nlocal nall N rc x tags nlist maxrc f0 : configured I types nlocal nall N -> 0 <= rc -> sensible N (rc * length_unit I) P ->
  full_list nlocal nall rc x nlist -> all_environments I P types nlocal nall rc x evaluable ->
  exists r E f' es, compute I (p_weight P) (setupMemoryAll N (map (p_fs P) (seq 0 N))) (p_net P) maxrc rc nlocal types tags x nlist f0 = Some (r, E, f') /\
    atomEnergies I r (length (lr_atoms r)) = Some es /\ rsum es = E.
Proof.
  intros HC Hrc HP Hf He. destruct (compute_ok I P types nlocal nall N rc x tags nlist maxrc f0 HC Hrc HP Hf He) as (r & f' & E & L & H & _).
  exists r, (total_energy I P types nlocal nall rc x), f', (map (atom_energy I P types nall rc x) (active_atoms I types nlocal)).
  split; auto. split; [now apply (listed_sum I P types nlocal nall rc x tags)|reflexivity].
Qed.
Lemma energies_in_order I P types nlocal nall N rc x tags nlist maxrc f0 : configured I types nlocal nall N -> 0 <= rc -> sensible N (rc * length_unit I) P ->
  full_list nlocal nall rc x nlist -> all_environments I P types nlocal nall rc x evaluable ->
  (forall i, (i < nlocal)%nat -> active I types i = true) ->
  exists r E f', compute I (p_weight P) (setupMemoryAll N (map (p_fs P) (seq 0 N))) (p_net P) maxrc rc nlocal types tags x nlist f0 = Some (r, E, f') /\
    atomEnergies I r nlocal = Some (map (atom_energy I P types nall rc x) (seq 0 nlocal)) /\
    map (fun a => (fst (fst a), snd (fst a))) (lr_atoms r) = map (fun i => (i, tags i)) (seq 0 nlocal).
Proof.
  intros HC Hrc HP Hf He Ha. destruct (compute_ok I P types nlocal nall N rc x tags nlist maxrc f0 HC Hrc HP Hf He) as (r & f' & E & L & H & _).
  exists r, (total_energy I P types nlocal nall rc x), f'. split; auto.
  assert (HA := all_active I types nlocal Ha). rewrite HA in L, H. rewrite seq_length in L. split.
  - assert (LS := listed_sum I P types nlocal nall rc x tags r). rewrite HA, seq_length, L in LS. now apply LS.
  - apply list_ext_len; [rewrite !map_length, seq_length; auto|]. intros p Hp. rewrite map_length, L in Hp. rewrite !nth_error_map.
    assert (Hs : nth_error (seq 0 nlocal) p = Some p) by (rewrite (nth_error_nth' _ 0%nat) by (rewrite seq_length; lia); now rewrite seq_nth).
    rewrite Hs. destruct (H p p Hs) as (y & -> & _). reflexivity.
Qed.

(** ** A mixed system
    Two local and two ghost atoms; type 2 (local atom 0) is unknown to the
    potential.  LAMMPS lengths are twice those of the potential. *)
Definition mixed : interface :=
  mkInterface (fun t => Nat.eqb t 2) (fun t => if Nat.eqb t 3 then 1%nat else 0%nat) 2 [10; 20] true (1/2) 3 1 4 5.
Definition mixed_types (i : nat) : nat := nth i [2; 1; 3; 1]%nat 0%nat.
Definition mixed_x (i : nat) : vec := nth i [vzero; mkVec 2 0 0; mkVec 4 0 0; mkVec 2 3 0] vzero.
Definition mixed_tags (i : nat) : Z := nth i [7; 8; 9; 10]%Z 0%Z.
Definition mixed_list : list (nat * list nat) := [(0%nat, [1; 2; 3]%nat); (1%nat, [0; 2; 3]%nat)].
Definition mixed_P : potential := chain_pot chain_ang 1.

Lemma mixed_configured : configured mixed mixed_types 2 4 2.
Proof.
  unfold configured. cbn [mixed if_cflength if_cfenergy if_normalize if_convLength if_convEnergy if_numElements if_offsets length].
  split; [lra|]. split; [lra|]. split; [intros _; lra|]. split; auto. split; auto. split; [lia|].
  intros i Hi _. unfold element_of, mixed. cbn [if_element]. destruct (Nat.eqb _ _); lia.
Qed.
Lemma mixed_sensible : sensible 2 (9 * length_unit mixed) mixed_P.
Proof.
  replace (9 * length_unit mixed) with chain_rc by (unfold length_unit, chain_rc; cbn; lra). apply chain_sensible. now left.
Qed.
Lemma mixed_full : full_list 2 4 9 mixed_x mixed_list.
Proof.
  split; [repeat constructor; cbn; intuition discriminate|]. split.
  - intros i. cbn. lia.
  - intros i js [[= <- <-]|[[= <- <-]|[]]]; (split; [repeat constructor; cbn; lia|]); (split; [cbn; intros j Hj; lia|]); intros j Hj Hne _; cbn; lia.
Qed.
Lemma mixed_distinct i j : (i < 4)%nat -> (j < 4)%nat -> j <> i -> vsub (mixed_x i) (mixed_x j) <> vzero.
Proof.
  intros Hi Hj Hne E. apply (f_equal norm2) in E.
  destruct i as [|[|[|[|]]]]; try lia; destruct j as [|[|[|[|]]]]; try lia; unfold norm2, dot, vsub, mixed_x, vzero in E; cbn in E; lra.
Qed.
Lemma mixed_env i e n : In i (active_atoms mixed mixed_types 2) -> Permutation e (environment mixed mixed_types 4 9 mixed_x i) -> In n e -> snd n <> vzero.
Proof.
  intros Hi He Hn. apply (Permutation_in _ He) in Hn. unfold environment in Hn. apply in_map_iff in Hn as (j & <- & Hj). cbn [snd].
  apply filter_In in Hj as [Hj Hnear]. apply in_seq in Hj. unfold active_atoms in Hi. apply filter_In in Hi as [Hi _]. apply in_seq in Hi.
  unfold near in Hnear. destruct (Rle_dec _ _); [|discriminate]. apply andb_true_iff in Hnear as [Hji _]. apply negb_true_iff in Hji.
  apply Nat.eqb_neq in Hji. intros E. apply (mixed_distinct i j); try lia.
  apply (f_equal (smul 2)) in E. replace (smul 2 (smul (length_unit mixed) (vsub (mixed_x i) (mixed_x j)))) with (vsub (mixed_x i) (mixed_x j)) in E.
  - rewrite E. vring.
  - unfold length_unit. cbn [mixed if_cflength if_normalize if_convLength]. apply vec_eq; cbn; field.
Qed.
Lemma mixed_smooth : all_environments mixed mixed_P mixed_types 2 4 9 mixed_x smooth_at.
Proof.
  intros i e g Hi He Hg. assert (Hg' : g = chain_ang \/ g = chain_rad).
  { unfold mixed_P in Hg. cbn [chain_pot p_fs] in Hg. destruct (Nat.eqb _ 0); destruct Hg as [<-|[]]; auto. }
  assert (D := mixed_env i e). destruct Hg' as [-> | ->]; (split; [split; [intros n Hn; exact (D n Hi He Hn)|exact Logic.I]|]).
  - split; [discriminate|]. intros j k x y _ _ _. right. right. cbn. split; [lra|]. rewrite Rabs_R1. lra.
  - discriminate.
Qed.
Lemma mixed_evaluable : all_environments mixed mixed_P mixed_types 2 4 9 mixed_x evaluable.
Proof. intros i e g Hi He Hg. apply (mixed_smooth i e g Hi He Hg). Qed.
Lemma mixed_regular : differentiable_networks mixed mixed_P mixed_types 2 4 9 mixed_x.
Proof. intros i e _ _. unfold mixed_P. cbn [chain_pot p_net]. destruct (Nat.eqb _ 0); apply line_regular. Qed.
Lemma mixed_ok : configured mixed mixed_types 2 4 2 /\ sensible 2 (9 * length_unit mixed) mixed_P /\ full_list 2 4 9 mixed_x mixed_list /\
  all_environments mixed mixed_P mixed_types 2 4 9 mixed_x evaluable /\ all_environments mixed mixed_P mixed_types 2 4 9 mixed_x smooth_at /\
  differentiable_networks mixed mixed_P mixed_types 2 4 9 mixed_x /\ active_atoms mixed mixed_types 2 = [1%nat].
Proof.
  split; [exact mixed_configured|]. split; [exact mixed_sensible|]. split; [exact mixed_full|]. split; [exact mixed_evaluable|].
  split; [exact mixed_smooth|]. split; [exact mixed_regular|]. reflexivity.
Qed.

(** With ignored types, entry 0 is atom 1 but has the tag of atom 0, the position
    of atom 0, and the energies are read at the wrong place. *)
Lemma mixed_tag : exists r E f' y, compute mixed (p_weight mixed_P) (setupMemoryAll 2 (map (p_fs mixed_P) (seq 0 2))) (p_net mixed_P) (9/2) 9 2 mixed_types mixed_tags mixed_x mixed_list (fun _ => vzero) = Some (r, E, f') /\
  lr_atoms r = [(1%nat, mixed_tags 0, y)] /\ mixed_tags 0 <> mixed_tags 1 /\
  getAtomicEnergy mixed r 0 = Some (atom_energy mixed mixed_P mixed_types 4 9 mixed_x 1) /\ active mixed mixed_types 0 = false /\
  atomEnergies mixed r 2 = None.
Proof.
  destruct (compute_ok mixed mixed_P mixed_types 2 4 2 9 mixed_x mixed_tags mixed_list (9/2) (fun _ => vzero)
    mixed_configured ltac:(lra) mixed_sensible mixed_full mixed_evaluable) as (r & f' & E & L & H & _).
  destruct (H 0%nat 1%nat eq_refl) as (y & Hy & _ & He & _).
  exists r, (total_energy mixed mixed_P mixed_types 2 4 9 mixed_x), f', y. split; [exact E|].
  change (length (active_atoms mixed mixed_types 2)) with 1%nat in L.
  destruct (lr_atoms r) as [|a [|b l]] eqn:Er; cbn in L; try lia. cbn in Hy. injection Hy as ->. split; auto. split; [discriminate|].
  split; auto. split; auto. unfold atomEnergies. cbn [seq map sequence]. rewrite He. unfold getAtomicEnergy. rewrite Er. reflexivity.
Qed.
Lemma mixed_position : exists s a, setLocalAtoms mixed 2 mixed_types = Some s /\ ls_atoms (setLocalAtomPositions mixed mixed_x s) = [a] /\
  la_index a = 1%nat /\ a_r (la_atom a) <> smul (length_unit mixed) (mixed_x 1).
Proof.
  eexists. eexists. split; [reflexivity|]. split; [reflexivity|]. split; [reflexivity|]. cbn [la_atom a_r]. intros E.
  apply (f_equal vx) in E. unfold toModel, length_unit, mixed_x in E. cbn in E. lra.
Qed.
Lemma mixed_refuted : exists I P types tags x nlist r E f' y,
  configured I types 2 4 2 /\ sensible 2 (9 * length_unit I) P /\ full_list 2 4 9 x nlist /\ all_environments I P types 2 4 9 x evaluable /\
  compute I (p_weight P) (setupMemoryAll 2 (map (p_fs P) (seq 0 2))) (p_net P) (9/2) 9 2 types tags x nlist (fun _ => vzero) = Some (r, E, f') /\
  lr_atoms r = [(1%nat, tags 0%nat, y)] /\ tags 0%nat <> tags 1%nat /\
  getAtomicEnergy I r 0 = Some (atom_energy I P types 4 9 x 1) /\ active I types 0 = false /\ atomEnergies I r 2 = None.
Proof.
  destruct mixed_tag as (r & E & f' & y & H). exists mixed, mixed_P, mixed_types, mixed_tags, mixed_x, mixed_list, r, E, f', y.
  split; [exact mixed_configured|]. split; [exact mixed_sensible|]. split; [exact mixed_full|]. split; [exact mixed_evaluable|exact H].
Qed.
Lemma mixed_position_refuted : exists I types x s a, configured I types 2 4 2 /\ setLocalAtoms I 2 types = Some s /\
  ls_atoms (setLocalAtomPositions I x s) = [a] /\ la_index a = 1%nat /\ a_r (la_atom a) <> smul (length_unit I) (x 1%nat).
Proof. destruct mixed_position as (s & a & H). exists mixed, mixed_types, mixed_x, s, a. split; [exact mixed_configured|exact H]. Qed.
Lemma mixed_active : configured mixed (fun i => mixed_types (S i)) 2 3 2 /\ forall i, (i < 2)%nat -> active mixed (fun i => mixed_types (S i)) i = true.
Proof.
  split.
  - destruct mixed_configured as (A & B & C & D & E & _). unfold configured. split; auto. split; auto. split; auto. split; auto. split; auto.
    split; [lia|]. intros i Hi _. unfold element_of, mixed. cbn [if_element]. destruct (Nat.eqb _ _); lia.
  - intros [|[|i]] Hi; [reflexivity|reflexivity|lia].
Qed.
