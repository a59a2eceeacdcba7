From Coq Require Import Reals List Arith Bool Lia Lra String Ascii.
From Coq Require Import List.
From Verif Require Import Base.Vec3 Base.SumR Model.Strings Model.Settings Model.SymFunctions Model.Units Spec.UnitsSpec Proofs.UnitsProofs Proofs.StringProofs
  Model.Normalization Spec.NormalizationSpec Proofs.NormalizationProofs.
Import ListNotations.

Lemma firstWord_keyword k line : k <> [] -> ~ In ch_space k -> (firstWord line = Some k <-> sets_keyword k line).
Proof.
  intros Hk Hn. unfold firstWord, split, sets_keyword. split.
  - assert (G : forall s acc, ~ In ch_space acc -> match split_go ch_space acc s with [] => None | w :: _ => Some w end = Some k ->
        rev acc ++ s = k \/ exists rest, rev acc ++ s = k ++ ch_space :: rest).
    { induction s as [|c s IH]; intros acc Ha H; cbn in H.
      - destruct acc; [discriminate|]. injection H as <-. left. now rewrite app_nil_r.
      - destruct (ch_eqb c ch_space) eqn:E.
        + unfold ch_eqb in E. apply Ascii.eqb_eq in E. subst c. injection H as <-. right. eauto.
        + assert (Hc : c <> ch_space) by (intros ->; unfold ch_eqb in E; rewrite Ascii.eqb_refl in E; discriminate).
          destruct (IH (c :: acc)) as [X|[r X]]; auto.
          * intros [A|A]; auto.
          * left. rewrite <- X. cbn. now rewrite <- app_assoc.
          * right. exists r. rewrite <- X. cbn. now rewrite <- app_assoc. }
    intros H. apply (G line [] (fun x => x) H).
  - assert (G : forall w acc rest, ~ In ch_space w -> split_go ch_space acc (w ++ rest) = split_go ch_space (rev w ++ acc) rest).
    { induction w as [|c w IH]; intros acc rest H; [reflexivity|]. cbn [app split_go].
      destruct (ch_eqb c ch_space) eqn:E.
      - unfold ch_eqb in E. apply Ascii.eqb_eq in E. subst c. exfalso. apply H. now left.
      - rewrite IH by (intros A; apply H; now right). cbn. now rewrite <- app_assoc. }
    intros [->|[rest ->]].
    + rewrite <- (app_nil_r k) at 1. rewrite G by assumption. cbn [split_go]. rewrite app_nil_r.
      destruct (rev k) eqn:E; [apply (f_equal (@rev ascii)) in E; rewrite rev_involutive in E; cbn in E; congruence|]. rewrite <- E, rev_involutive. reflexivity.
    + rewrite G by assumption. cbn [split_go]. unfold ch_eqb. rewrite Ascii.eqb_refl, app_nil_r, rev_involutive. reflexivity.
Qed.

Section File.
Variables n1 n2 n3 : str.
Lemma keyword_ok k : In k [kME; kCE; kCL] -> k <> [] /\ ~ In ch_space k.
Proof.
  intros [<-|[<-|[<-|[]]]]; (split; [discriminate|]); cbn; intros H; repeat (destruct H as [H|H]; [discriminate|]); exact H.
Qed.
Lemma eqb_true a b : str_eqb a b = true <-> a = b.
Proof. unfold str_eqb. destruct (list_eq_dec ascii_dec a b); split; congruence. Qed.
Lemma rep_me line : sets_keyword kME line -> replacement n1 n2 n3 line = Some n1.
Proof. intros H. apply firstWord_keyword in H; try apply keyword_ok; cbn; auto. unfold replacement. now rewrite H. Qed.
Lemma rep_ce line : sets_keyword kCE line -> replacement n1 n2 n3 line = Some n2.
Proof. intros H. apply firstWord_keyword in H; try apply keyword_ok; cbn; auto. unfold replacement. now rewrite H. Qed.
Lemma rep_cl line : sets_keyword kCL line -> replacement n1 n2 n3 line = Some n3.
Proof. intros H. apply firstWord_keyword in H; try apply keyword_ok; cbn; auto. unfold replacement. now rewrite H. Qed.
Lemma rep_none line : (forall k, In k [kME; kCE; kCL] -> ~ sets_keyword k line) -> replacement n1 n2 n3 line = None.
Proof.
  intros H. unfold replacement. destruct (firstWord line) as [w|] eqn:E; [|reflexivity].
  destruct (str_eqb w kCL) eqn:A; [|destruct (str_eqb w kCE) eqn:B; [|destruct (str_eqb w kME) eqn:C]]; fold kCL kCE kME; rewrite ?A, ?B, ?C; [exfalso|exfalso|exfalso|reflexivity].
  - apply eqb_true in A. subst w. apply (H kCL); [cbn; auto|]. apply firstWord_keyword; try apply keyword_ok; cbn; auto.
  - apply eqb_true in B. subst w. apply (H kCE); [cbn; auto|]. apply firstWord_keyword; try apply keyword_ok; cbn; auto.
  - apply eqb_true in C. subst w. apply (H kME); [cbn; auto|]. apply firstWord_keyword; try apply keyword_ok; cbn; auto.
Qed.

Lemma file_added lines : (forall l k, In l lines -> In k [kME; kCE; kCL] -> ~ sets_keyword k l) ->
  exists header, writeNormalized n1 n2 n3 lines = header ++ lines /\ In n1 header /\ In n2 header /\ In n3 header /\
    forall l, In l header -> l = n1 \/ l = n2 \/ l = n3 \/ l = [] \/ exists r, l = ch_hash :: r.
Proof.
  intros H. exists [hashes; lit "# DATA SET NORMALIZATION"; hashes; n1; n2; n3; hashes; []].
  assert (R : forall l, In l lines -> replacement n1 n2 n3 l = None) by (intros l Hl; apply rep_none; intros; now apply H).
  split; [|split; [|split; [|split]]].
  - unfold writeNormalized. cbv zeta.
    assert (F : forallb (fun l => match replacement n1 n2 n3 l with Some _ => false | None => true end) lines = true).
    { apply forallb_forall. intros l Hl. now rewrite R. }
    rewrite F. f_equal. rewrite <- (map_id lines) at 2. apply map_ext_in. intros l Hl. now rewrite R.
  - cbn. tauto.
  - cbn. tauto.
  - cbn. tauto.
  - intros l Hl. cbn [In] in Hl. destruct Hl as [<-|[<-|[<-|[<-|[<-|[<-|[<-|[<-|[]]]]]]]]]; auto; right; right; right; right; eexists; reflexivity.
Qed.
Lemma file_replaced lines : (exists l, In l lines /\ sets_keyword kME l) -> (exists l, In l lines /\ sets_keyword kCE l) ->
  (exists l, In l lines /\ sets_keyword kCL l) ->
  In n1 (writeNormalized n1 n2 n3 lines) /\ In n2 (writeNormalized n1 n2 n3 lines) /\ In n3 (writeNormalized n1 n2 n3 lines) /\
  Forall2 (fun l l' => (sets_keyword kME l /\ l' = n1) \/ (sets_keyword kCE l /\ l' = n2) \/ (sets_keyword kCL l /\ l' = n3) \/
                       ((forall k, In k [kME; kCE; kCL] -> ~ sets_keyword k l) /\ l' = l)) lines (writeNormalized n1 n2 n3 lines).
Proof.
  intros (l1 & I1 & S1) (l2 & I2 & S2) (l3 & I3 & S3).
  assert (F : forallb (fun l => match replacement n1 n2 n3 l with Some _ => false | None => true end) lines = false).
  { apply not_true_is_false. intros F. rewrite forallb_forall in F. specialize (F l1 I1). rewrite (rep_me l1 S1) in F. discriminate. }
  unfold writeNormalized. cbv zeta. rewrite F. split; [|split; [|split]].
  - apply in_map_iff. exists l1. now rewrite (rep_me l1 S1).
  - apply in_map_iff. exists l2. now rewrite (rep_ce l2 S2).
  - apply in_map_iff. exists l3. now rewrite (rep_cl l3 S3).
  - clear. induction lines as [|l lines IH]; [constructor|]. cbn [map]. constructor; [|exact IH].
    assert (D : forall k, In k [kME; kCE; kCL] -> sets_keyword k l \/ ~ sets_keyword k l).
    { intros k Hk. destruct (keyword_ok k Hk) as [A B]. destruct (firstWord l) as [w|] eqn:E.
      - destruct (list_eq_dec ascii_dec w k) as [->|Ne]; [left; now apply firstWord_keyword|].
        right. intros X. apply firstWord_keyword in X; auto. congruence.
      - right. intros X. apply firstWord_keyword in X; auto. congruence. }
    destruct (D kME) as [A|A]; [cbn; auto|left; now rewrite rep_me|].
    destruct (D kCE) as [B|B]; [cbn; auto|right; left; now rewrite rep_ce|].
    destruct (D kCL) as [C|C]; [cbn; auto|right; right; left; now rewrite rep_cl|].
    right; right; right. assert (N : forall k, In k [kME; kCE; kCL] -> ~ sets_keyword k l) by (intros k [<-|[<-|[<-|[]]]]; assumption).
    split; [exact N|]. now rewrite rep_none.
Qed.
End File.

(** Only some of the keywords present: the others are lost. *)
Lemma file_incomplete : exists lines n1 n2 n3, sets_keyword kME n1 /\ sets_keyword kCE n2 /\ sets_keyword kCL n3 /\
  ~ In n2 (writeNormalized n1 n2 n3 lines) /\ ~ In n3 (writeNormalized n1 n2 n3 lines).
Proof.
  exists [lit "mean_energy 0"], (lit "mean_energy 1"), (lit "conv_energy 2"), (lit "conv_length 3").
  split; [right; exists (lit "1"); reflexivity|]. split; [right; exists (lit "2"); reflexivity|]. split; [right; exists (lit "3"); reflexivity|].
  split; vm_compute; intros [H|[]]; discriminate.
Qed.
Lemma file_example : (forall l k, In l [lit "cutoff_type 1"; []] -> In k [kME; kCE; kCL] -> ~ sets_keyword k l) /\
  (exists l, In l [lit "conv_length 1"; lit "mean_energy 3"; lit "conv_energy 1"] /\ sets_keyword kME l) /\
  (exists l, In l [lit "conv_length 1"; lit "mean_energy 3"; lit "conv_energy 1"] /\ sets_keyword kCE l) /\
  (exists l, In l [lit "conv_length 1"; lit "mean_energy 3"; lit "conv_energy 1"] /\ sets_keyword kCL l).
Proof.
  split.
  - intros l k Hl Hk S. destruct (keyword_ok k Hk) as [A B]. apply firstWord_keyword in S; auto.
    destruct Hl as [<-|[<-|[]]]; destruct Hk as [<-|[<-|[<-|[]]]]; discriminate.
  - repeat split.
    + exists (lit "mean_energy 3"). split; [cbn; auto|]. right. exists (lit "3"). reflexivity.
    + exists (lit "conv_energy 1"). split; [cbn; auto|]. right. exists (lit "1"). reflexivity.
    + exists (lit "conv_length 1"). split; [cbn; auto|]. right. exists (lit "1"). reflexivity.
Qed.
