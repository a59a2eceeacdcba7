(** Histograms of nnp-dist for one structure (C89, C90). *)
From Coq Require Import Reals Lra Lia ZArith Bool Arith.
From Coq Require Import List.
From Verif Require Import Base.Vec3 Base.SumR Model.Geometry Model.NeighborList Model.SymLines Model.Distribution Proofs.SymLineProofs.
Import ListNotations.
Local Open Scope R_scope.

Definition ind (b : bool) : R := if b then 1 else 0.
Lemma key_eqb_true a b : key_eqb a b = true <-> a = b.
Proof.
  destruct a as (a1, a2), b as (b1, b2). unfold key_eqb. cbn. rewrite andb_true_iff, !Nat.eqb_eq. split; [intros (-> & ->); auto | intros E; now injection E].
Qed.
Lemma key_eqb_refl a : key_eqb a a = true.
Proof. now apply key_eqb_true. Qed.

Lemma bump_spec v : forall i x, (i < length v)%nat -> exists w, bump v i x = Done w /\ length w = length v /\
  forall n, nth n w 0 = nth n v 0 + (if Nat.eqb i n then x else 0).
Proof.
  induction v as [|y v IH]; intros i x L; [cbn in L; lia|]. destruct i as [|i].
  - exists (y + x :: v). split; auto. split; auto. intros [|n]; cbn; lra.
  - cbn [length] in L. destruct (IH i x ltac:(lia)) as (w & E & LW & N). exists (y :: w). cbn [bump]. rewrite E. cbn. split; auto. split; auto.
    intros [|n]; cbn; [lra | apply N].
Qed.
Lemma bump_inv v : forall i x w, bump v i x = Done w -> (i < length v)%nat.
Proof.
  induction v as [|y v IH]; intros [|i] x w E; cbn in *; try discriminate; try lia.
  destruct (bump v i x) eqn:B; try discriminate. apply IH in B. lia.
Qed.
Lemma bump_at_spec h k i x : (i < length (h k))%nat -> exists h', bump_at h k i x = Done h' /\ (forall k', length (h' k') = length (h k')) /\
  forall k' n, nth n (h' k') 0 = nth n (h k') 0 + (if (key_eqb k k' && Nat.eqb i n)%bool then x else 0).
Proof.
  intros L. destruct (bump_spec (h k) i x L) as (w & E & LW & N). unfold bump_at. rewrite E. cbn [bindo]. eexists. split; [reflexivity|].
  split; intros k'; destruct (key_eqb k k') eqn:K; auto.
  - apply key_eqb_true in K. now subst.
  - intros n. apply key_eqb_true in K. subst k'. apply N.
  - intros n. cbn. lra.
Qed.
Lemma bump_at_inv h k i x h' : bump_at h k i x = Done h' -> (i < length (h k))%nat.
Proof. unfold bump_at. destruct (bump (h k) i x) eqn:B; try discriminate. intros _. now apply bump_inv in B. Qed.

(** Pairs of entries of a list, in the order of the list. *)
Fixpoint pairs_of {A} (l : list A) : list (A * A) :=
  match l with [] => [] | x :: r => map (pair x) r ++ pairs_of r end.

Section Run.
Variables (numElements numBins : nat) (rc : R) (calcAdf : bool).
Notation drr := (dr numBins rc).
Definition full (h : histograms) : Prop := forall k, length (h k) = numBins.
Definition bin_of (n : neighbor) : nat := floor_size (nb_d n / drr).
Definition weight (ei : nat) (n : neighbor) : R := if Nat.eqb ei (nb_element n) then 1 else 1 / 2.
(** Contributions to one bin. *)
Definition rterm (ei : nat) (k : key) (n : nat) (nb : neighbor) : R :=
  if (key_eqb (pair_key ei (nb_element nb)) k && Nat.eqb (bin_of nb) n)%bool then weight ei nb else 0.
Definition aterm (ei i : nat) (k : key) (n : nat) (p : neighbor * neighbor) : R :=
  if (Nat.eqb ei i && key_eqb (pair_key (nb_element (fst p)) (nb_element (snd p))) k)%bool
  then match angle_bin numBins (fst p) (snd p) with Done b => ind (Nat.eqb b n) | _ => 0 end else 0.
Definition good_angle (p : neighbor * neighbor) : Prop := exists b, angle_bin numBins (fst p) (snd p) = Done b /\ (b < numBins)%nat.
Definition fulls (ah : nat -> histograms) : Prop := forall i, full (ah i).

Lemma fill_angles_spec ei nj rest : forall ah, fulls ah -> (forall nk, In nk rest -> good_angle (nj, nk)) ->
  exists ah', fill_angles numBins ei nj rest ah = Done ah' /\ fulls ah' /\
    forall i k n, nth n (ah' i k) 0 = nth n (ah i k) 0 + rsum (map (aterm ei i k n) (map (pair nj) rest)).
Proof.
  induction rest as [|nk rest IH]; intros ah FU G.
  - exists ah. split; auto. split; auto. intros. cbn. lra.
  - destruct (G nk (or_introl eq_refl)) as (b & B & LB). cbn [fst snd] in B.
    destruct (bump_at_spec (ah ei) (pair_key (nb_element nj) (nb_element nk)) b 1) as (h & E & LH & N); [rewrite (FU ei); auto|].
    destruct (IH (fun i => if Nat.eqb ei i then h else ah i)) as (ah' & E' & F' & N').
    + intros i k. destruct (Nat.eqb ei i); [rewrite LH; apply (FU ei) | apply (FU i)].
    + intros nk' I'. apply G. now right.
    + exists ah'. unfold fill_angles in *. cbn [foldo]. rewrite B. cbn [bindo]. rewrite E. cbn [bindo]. split; auto. split; auto.
      intros i k n. rewrite N'. cbn [map rsum]. unfold aterm at 2. cbn [fst snd]. rewrite B.
      destruct (Nat.eqb_spec ei i) as [->|NE].
      * rewrite N. cbn [andb]. unfold ind. destruct (key_eqb _ _); cbn [andb]; destruct (Nat.eqb b n); change (rsum (?x :: ?l)) with (x + rsum l); lra.
      * cbn [andb]. lra.
Qed.
Lemma fill_neighbors_spec ei nbs : forall rh ah, full rh -> fulls ah -> (forall nb, In nb nbs -> (bin_of nb < numBins)%nat) ->
  (calcAdf = true -> forall p, In p (pairs_of nbs) -> good_angle p) ->
  exists rh' ah', fill_neighbors numBins rc calcAdf ei nbs (rh, ah) = Done (rh', ah') /\ full rh' /\ fulls ah' /\
    (forall k n, nth n (rh' k) 0 = nth n (rh k) 0 + rsum (map (rterm ei k n) nbs)) /\
    (calcAdf = true -> forall i k n, nth n (ah' i k) 0 = nth n (ah i k) 0 + rsum (map (aterm ei i k n) (pairs_of nbs))).
Proof.
  induction nbs as [|nj rest IH]; intros rh ah FR FA B G.
  - exists rh, ah. cbn. split; auto. split; auto. split; auto. split; intros; lra.
  - cbn [fill_neighbors]. fold (weight ei nj). fold (bin_of nj).
    destruct (bump_at_spec rh (pair_key ei (nb_element nj)) (bin_of nj) (weight ei nj)) as (rh1 & E1 & L1 & N1); [rewrite FR; apply B; now left|].
    rewrite E1. cbn [bindo].
    assert (X : exists ah1, (if calcAdf then fill_angles numBins ei nj rest ah else Done ah) = Done ah1 /\ fulls ah1 /\
      (calcAdf = true -> forall i k n, nth n (ah1 i k) 0 = nth n (ah i k) 0 + rsum (map (aterm ei i k n) (map (pair nj) rest)))).
    { destruct calcAdf.
      - destruct (fill_angles_spec ei nj rest ah FA) as (ah1 & X1 & X2 & X3).
        + intros nk I. apply G; auto. cbn [pairs_of]. apply in_or_app. left. now apply in_map.
        + exists ah1. auto.
      - exists ah. split; auto. split; auto. discriminate. }
    destruct X as (ah1 & X1 & X2 & X3). rewrite X1. cbn [bindo].
    destruct (IH rh1 ah1) as (rh' & ah' & E & F1 & F2 & S1 & S2); auto.
    + intros k. rewrite L1. apply FR.
    + intros nb I. apply B. now right.
    + intros C p I. apply G; auto. cbn [pairs_of]. apply in_or_app. now right.
    + exists rh', ah'. split; auto. split; auto. split; auto. split.
      * intros k n. rewrite S1, N1. cbn [map]. unfold rterm at 2. change (rsum (?x :: ?l)) with (x + rsum l). lra.
      * intros C i k n. rewrite S2, X3 by auto. cbn [pairs_of]. rewrite map_app, rsum_app. lra.
Qed.
Lemma fill_neighbors_inv ei nbs : forall rh ah st, full rh -> fill_neighbors numBins rc calcAdf ei nbs (rh, ah) = Done st ->
  full (fst st) /\ forall nb, In nb nbs -> (bin_of nb < numBins)%nat.
Proof.
  induction nbs as [|nj rest IH]; intros rh ah st FR E.
  - injection E as <-. split; auto. intros nb [].
  - cbn [fill_neighbors] in E. fold (weight ei nj) in E. fold (bin_of nj) in E.
    destruct (bump_at rh _ _ _) as [rh1| |] eqn:B; try discriminate. pose proof (bump_at_inv _ _ _ _ _ B) as LB. rewrite FR in LB.
    destruct (bump_at_spec rh (pair_key ei (nb_element nj)) (bin_of nj) (weight ei nj)) as (rh2 & E2 & L2 & _); [rewrite FR; auto|].
    rewrite B in E2. injection E2 as <-. cbn [bindo] in E.
    destruct (if calcAdf then _ else _) as [ah1| |]; try discriminate. cbn [bindo] in E.
    destruct (IH rh1 ah1 st) as (I1 & I2); auto; [intros k; rewrite L2; apply FR|].
    split; auto. intros nb [<- | I]; auto.
Qed.

Lemma fill_atoms_spec atoms : forall rh ah, full rh -> fulls ah ->
  (forall a nb, In a atoms -> In nb (a_nbs a) -> (bin_of nb < numBins)%nat) ->
  (calcAdf = true -> forall a p, In a atoms -> In p (pairs_of (a_nbs a)) -> good_angle p) ->
  exists rh' ah', fill_atoms numBins rc calcAdf atoms (rh, ah) = Done (rh', ah') /\ full rh' /\ fulls ah' /\
    (forall k n, nth n (rh' k) 0 = nth n (rh k) 0 + rsum (map (fun a => rsum (map (rterm (a_element a) k n) (a_nbs a))) atoms)) /\
    (calcAdf = true -> forall i k n, nth n (ah' i k) 0 = nth n (ah i k) 0 + rsum (map (fun a => rsum (map (aterm (a_element a) i k n) (pairs_of (a_nbs a)))) atoms)).
Proof.
  induction atoms as [|a atoms IH]; intros rh ah FR FA B G.
  - exists rh, ah. cbn. split; auto. split; auto. split; auto. split; intros; lra.
  - destruct (fill_neighbors_spec (a_element a) (a_nbs a) rh ah FR FA) as (rh1 & ah1 & E1 & F1 & F2 & S1 & S2).
    + intros nb I. apply (B a nb); auto. now left.
    + intros C p I. apply (G C a p); auto. now left.
    + destruct (IH rh1 ah1 F1 F2) as (rh' & ah' & E & F3 & F4 & S3 & S4).
      * intros x nb I1 I2. apply (B x nb); auto. now right.
      * intros C x p I1 I2. apply (G C x p); auto. now right.
      * exists rh', ah'. unfold fill_atoms in *. cbn [foldo]. rewrite E1. cbn [bindo]. split; auto. split; auto. split; auto.
        split; [intros k n; rewrite S3, S1 | intros C i k n; rewrite S4, S2 by auto]; cbn [map]; change (rsum (?x :: ?l)) with (x + rsum l); lra.
Qed.
Lemma fill_atoms_inv atoms : forall rh ah st, full rh -> fill_atoms numBins rc calcAdf atoms (rh, ah) = Done st ->
  full (fst st) /\ forall a nb, In a atoms -> In nb (a_nbs a) -> (bin_of nb < numBins)%nat.
Proof.
  induction atoms as [|a atoms IH]; intros rh ah st FR E.
  - injection E as <-. split; auto. intros a nb [].
  - unfold fill_atoms in E. cbn [foldo] in E. destruct (fill_neighbors _ _ _ _ _ _) as [(rh1, ah1)| |] eqn:F; try discriminate.
    destruct (fill_neighbors_inv _ _ _ _ _ FR F) as (F1 & F2). cbn [bindo] in E. destruct (IH rh1 ah1 st F1 E) as (I1 & I2).
    split; auto. intros x nb [<- | I]; eauto.
Qed.
End Run.
