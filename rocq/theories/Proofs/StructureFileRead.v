(** Whatever is read from a structure file is consistent (C91). *)
From Coq Require Import Reals Lra ZArith Ascii String Bool Arith Lia.
From Coq Require Import List.
From Verif Require Import Base.Vec3 Base.SumR Model.Strings Model.Printf Model.ElementMap Model.Geometry Model.NeighborList Model.Units Model.Errors Model.StructureFile Model.Prediction
  Spec.GeometrySpec Spec.PredictionSpec Proofs.GeometryProofs Proofs.NeighborProofs Proofs.LammpsProofs.
From Coq Require Import List.
Import ListNotations.
Local Open Scope R_scope.

Lemma to_int_some x t : to_int x = Some t -> t = trunc x.
Proof. unfold to_int. destruct (_ && _)%bool; [|discriminate]. intros [= <-]. reflexivity. Qed.
Lemma remap1_range f g : remap1 f = Some g -> 0 <= g < 1.
Proof.
  unfold remap1. destruct (Rlt_dec 1 f) as [H|H].
  - destruct (to_int f) as [t|] eqn:E; [|discriminate]. rewrite (to_int_some _ _ E). unfold trunc. destruct (Rle_dec 0 f); [|lra].
    pose proof (Int_part_spec f). destruct (Rlt_dec _ 0); [lra|]. intros [= <-]. destruct (Req_EM_T _ 1); lra.
  - destruct (Rlt_dec f 0) as [H'|H'].
    + destruct (to_int f) as [t|] eqn:E; [|discriminate]. rewrite (to_int_some _ _ E). unfold trunc. destruct (Rle_dec 0 f); [lra|].
      pose proof (Int_part_spec (- f)). rewrite opp_IZR. intros [= <-]. destruct (Req_EM_T _ 1); lra.
    + intros [= <-]. destruct (Req_EM_T f 1); lra.
Qed.
Lemma remap_cell box inv r r' : remap box inv r = Some r' -> exists c, in_cell c /\ r' = GeometrySpec.combine box c.
Proof.
  rewrite remap_frac. destruct (remap1 _) as [f0|] eqn:E0; [|discriminate]. destruct (remap1 (vy _)) as [f1|] eqn:E1; [|discriminate].
  destruct (remap1 (vz _)) as [f2|] eqn:E2; [|discriminate]. intros [= <-]. eexists. split; [|reflexivity].
  apply remap1_range in E0, E1, E2. unfold in_cell. cbn [vx vy vz]. auto.
Qed.

(** The part of the claim kept by every line. *)
Definition counted (N : nat) (fs : fstruct) : Prop :=
  fs_numAtoms fs = length (fs_atoms fs) /\ fs_numElements fs = N /\ length (fs_perElement fs) = N /\
  (forall e, nth e (fs_perElement fs) 0%nat = length (filter (fun a => Nat.eqb (fa_element a) e) (fs_atoms fs))) /\
  (forall i a, nth_error (fs_atoms fs) i = Some a -> fa_index a = i /\ (fa_element a < N)%nat /\ fa_charge a = 0 /\ fa_f a = vzero).
Definition same_atoms (a b : fstruct) : Prop :=
  fs_numAtoms a = fs_numAtoms b /\ fs_numElements a = fs_numElements b /\ fs_perElement a = fs_perElement b /\ fs_atoms a = fs_atoms b.
Lemma counted_same N a b : same_atoms a b -> counted N a -> counted N b.
Proof. intros (E1 & E2 & E3 & E4). unfold counted. now rewrite E1, E2, E3, E4. Qed.
Lemma begin_same ws : forall s s', readBegin ws s = Some s' -> same_atoms s s'.
Proof.
  induction ws as [|w ws IH]; intros s s'; cbn [readBegin]; [intros [= <-]; unfold same_atoms; auto|].
  destruct (str_eqb w _); [intros H; apply IH in H; exact H|]. destruct (str_eqb w _); [intros H; apply IH in H; exact H|discriminate].
Qed.
Lemma lattice_same w ib s ib' s' : readLattice w ib s = Some (ib', s') -> same_atoms s s'.
Proof.
  unfold readLattice. destruct (Nat.ltb 2 ib); [discriminate|]. destruct (vector_at w 1); [|discriminate].
  destruct (Nat.eqb (S ib) 3); intros H; apply (f_equal (option_map snd)) in H; cbn [option_map snd] in H; injection H as <-; unfold same_atoms; auto.
Qed.
Lemma incr_some l i l' : incr_at l i = Some l' -> (i < length l)%nat.
Proof. revert i l'. induction l as [|x l IH]; intros [|i] l'; cbn; try discriminate; [lia|]. destruct (incr_at l i) eqn:E; [|discriminate]. intros _. apply IH in E. lia. Qed.
Lemma atom_counted N em w s s' : counted N s -> readAtom em w s = Some s' -> counted N s'.
Proof.
  intros (C1 & C2 & C3 & C4 & C5). unfold readAtom. destruct (vector_at w 1); [|discriminate]. destruct (nth_error w 4); [|discriminate].
  destruct (number_at w 5); [|discriminate]. destruct (vector_at w 7); [|discriminate]. destruct (em_index em _) as [el|]; [|discriminate].
  destruct (incr_at (fs_perElement s) el) as [per|] eqn:Ep; [|discriminate]. intros H. injection H as <-. pose proof (incr_some _ _ _ Ep) as Hl.
  destruct (incr_ok (fs_perElement s) el Hl) as (per' & Ep' & Lp & Fp). rewrite Ep in Ep'. injection Ep' as <-.
  unfold counted, set_fatoms. cbn [fs_numAtoms fs_numElements fs_perElement fs_atoms]. rewrite app_length. cbn [length].
  split; [lia|]. split; [auto|]. split; [lia|]. split.
  - intros e. rewrite Fp, filter_app, app_length, <- C4. cbn [filter fa_element]. rewrite (Nat.eqb_sym el e).
    destruct (Nat.eqb e el); cbn [length]; lia.
  - intros i a Hi. destruct (Nat.lt_ge_cases i (length (fs_atoms s))).
    + rewrite nth_error_app1 in Hi by auto. now apply C5.
    + rewrite nth_error_app2 in Hi by auto. destruct (i - length (fs_atoms s))%nat as [|k] eqn:K; [|destruct k; discriminate].
      injection Hi as <-. cbn [fa_index fa_element fa_charge fa_f]. split; [lia|]. split; [lia|auto].
Qed.
Lemma loop_counted N em : forall lines ib s s', counted N s -> readLoop em lines ib s = Some s' -> counted N s'.
Proof.
  induction lines as [|l lines IH]; intros ib s s' C; cbn [readLoop]; [intros [= <-]; auto|].
  destruct (words_of l) as [|k args]; [discriminate|].
  destruct (str_eqb k _). { destruct (readBegin args s) as [t|] eqn:E; [|discriminate]. cbn [obind]. apply IH. eapply counted_same; [eapply begin_same; eauto|auto]. }
  destruct (str_eqb k _). { destruct (readComment l); [|discriminate]. cbn [obind]. apply IH. exact C. }
  destruct (str_eqb k _). { destruct (readLattice _ _ _) as [[ib' t]|] eqn:E; [|discriminate]. apply IH. eapply counted_same; [eapply lattice_same; eauto|auto]. }
  destruct (str_eqb k _). { destruct (readAtom em _ s) as [t|] eqn:E; [|discriminate]. cbn [obind]. apply IH. eapply atom_counted; eauto. }
  destruct (str_eqb k _). { destruct (number_at _ 1); [|discriminate]. cbn [obind]. apply IH. exact C. }
  destruct (str_eqb k _). { destruct (number_at _ 1); [|discriminate]. cbn [obind]. apply IH. exact C. }
  destruct (str_eqb k _); [|discriminate]. unfold readEnd. destruct (_ || _)%bool; [|discriminate]. destruct (_ && _)%bool; [discriminate|].
  intros [= <-]; auto.
Qed.
Lemma remap_keeps box inv l l' : omap (remapAtom box inv) l = Some l' -> Forall2 (fun a a' => fa_index a' = fa_index a /\ fa_element a' = fa_element a /\
  fa_charge a' = fa_charge a /\ fa_f a' = fa_f a /\ exists c, in_cell c /\ fa_r a' = GeometrySpec.combine box c) l l'.
Proof.
  revert l'. induction l as [|a l IH]; intros l'; cbn [omap]; [intros [= <-]; constructor|].
  destruct (remapAtom box inv a) as [b|] eqn:E; [|discriminate]. destruct (omap _ l) as [m|]; [|discriminate]. intros [= <-]. constructor; [|auto].
  unfold remapAtom in E. destruct (remap _ _ _) as [r|] eqn:Er; [|discriminate]. injection E as <-. cbn. apply remap_cell in Er. auto 6.
Qed.
Theorem read_consistent em N lines fs rest : readFromFile em lines (newStructure N) = Some (fs, rest) -> consistent N fs.
Proof.
  unfold readFromFile. destruct lines as [|l lines]; [discriminate|]. destruct (words_of l); [discriminate|]. destruct (str_eqb _ _); [|discriminate].
  destruct (collect lines) as [[ls r]|]; [|discriminate]. destruct (readFromLines em (l :: ls) (newStructure N)) as [t|] eqn:E; [|discriminate].
  intros H. injection H as <- <-. unfold readFromLines in E. destruct (words_of l); [discriminate|]. destruct (str_eqb _ _); [|discriminate].
  destruct (readLoop em (l :: ls) 0 (newStructure N)) as [t0|] eqn:E0; [|discriminate].
  assert (C : counted N t0).
  { eapply loop_counted; [|exact E0]. unfold counted, newStructure. cbn [fs_numAtoms fs_numElements fs_perElement fs_atoms length filter].
    split; [auto|]. split; [auto|]. split; [apply repeat_length|]. split; [|intros [|i] a; discriminate].
    intros e. destruct (Nat.lt_ge_cases e N); [apply nth_repeat|apply nth_overflow; now rewrite repeat_length]. }
  unfold countPresent, set_present in E. cbn [fs_periodic fs_box fs_invbox fs_atoms fs_numAtoms fs_perElement] in E.
  destruct C as (C1 & C2 & C3 & C4 & C5). destruct (fs_periodic t0) eqn:Pt.
  - destruct (omap _ _) as [l'|] eqn:Er; [|discriminate]. injection E as <-. apply remap_keeps in Er.
    unfold consistent, set_fatoms. cbn [fs_periodic fs_box fs_invbox fs_atoms fs_numAtoms fs_perElement fs_numElements].
    assert (L : length l' = length (fs_atoms t0)) by (symmetry; clear - Er; induction Er; cbn; auto).
    split; [congruence|]. split; [auto|]. split; [auto|]. split; [|split].
    + intros e. rewrite C4. clear - Er. induction Er as [|a b l l' (_ & H & _) F IH]; cbn; auto. rewrite H. destruct (Nat.eqb _ e); cbn; auto.
    + intros i a' Hi. assert (exists a, nth_error (fs_atoms t0) i = Some a /\ fa_index a' = fa_index a /\ fa_element a' = fa_element a /\ fa_charge a' = fa_charge a /\ fa_f a' = fa_f a) as (a & Ha & -> & -> & -> & ->).
      { clear - Er Hi. revert i Hi. induction Er as [|a b l l' H F IH]; intros [|i] Hi; cbn in *; try discriminate; [|now apply IH].
        injection Hi as <-. exists a. intuition. }
      now apply C5.
    + intros _ a Ha. clear - Er Ha. induction Er as [|x y l l' H F IH]; [contradiction|]. destruct Ha as [<-|Ha]; [apply H|auto].
  - injection E as <-. unfold consistent. cbn [fs_periodic fs_box fs_invbox fs_atoms fs_numAtoms fs_perElement fs_numElements].
    split; [auto|]. split; [auto|]. split; [auto|]. split; [auto|]. split; [auto|]. intros X. congruence.
Qed.
