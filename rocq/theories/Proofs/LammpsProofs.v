(** The LAMMPS interface (C58): what is stored for the local atoms. *)
From Coq Require Import Reals Lra ZArith List Lia Bool Arith Permutation.
From Verif Require Import Base.RealBase Base.Loop Base.Vec3 Base.SumR Model.NeuralNetwork Model.Geometry Model.NeighborList
  Model.SymFunctions Model.SymSetup Model.Forces Model.Units Model.LammpsInterface
  Spec.SymSpec Spec.ForceSpec Spec.LammpsSpec
  Proofs.NeighborProofs Proofs.UnitsProofs Proofs.ElecFill.
Import ListNotations.
Local Open Scope R_scope.

Lemma set_at_spec {A} (l : list A) i y : (i < length l)%nat -> exists l', set_at l i y = Some l' /\ length l' = length l /\
  forall k, nth_error l' k = if Nat.eqb k i then Some y else nth_error l k.
Proof.
  revert i. induction l as [|a l IH]; intros [|i] H; cbn in H; try lia.
  - exists (y :: l). split; auto. split; auto. intros [|k]; reflexivity.
  - destruct (IH i ltac:(lia)) as (l' & E & L & F). exists (a :: l'). cbn [set_at]. rewrite E. split; auto. split; [cbn; lia|].
    intros [|k]; [reflexivity|]. cbn. apply F.
Qed.
Lemma incr_ok l i : (i < length l)%nat -> exists l', incr_at l i = Some l' /\ length l' = length l /\
  forall k, nth k l' 0%nat = (if Nat.eqb k i then S (nth k l 0) else nth k l 0)%nat.
Proof.
  revert i. induction l as [|a l IH]; intros [|i] H; cbn in H; try lia.
  - exists (S a :: l). split; auto. split; auto. intros [|k]; reflexivity.
  - destruct (IH i ltac:(lia)) as (l' & E & L & F). exists (a :: l'). cbn [incr_at]. rewrite E. split; auto. split; [cbn; lia|].
    intros [|k]; [reflexivity|]. cbn. apply F.
Qed.
Lemma filter_seq_S (p : nat -> bool) n : filter p (seq 0 (S n)) = filter p (seq 0 n) ++ (if p n then [n] else []).
Proof. rewrite seq_S, filter_app. cbn. destruct (p n); reflexivity. Qed.

Section Interface.
Variables (I : interface) (types : nat -> nat) (nlocal nall : nat) (N : nat).
Hypothesis HC : configured I types nlocal nall N.
Let act := active_atoms I types nlocal.
Let el := element_of I types.

(** ** setLocalAtoms *)
Definition locals (n : nat) (s : lstate) : Prop :=
  ls_atoms s = map (fun i => mkLAtom i 0 (fresh_atom (el i) vzero N)) (filter (active I types) (seq 0 n)) /\
  length (ls_map s) = nlocal /\
  (forall i, (i < nlocal)%nat -> nth_error (ls_map s) i =
     Some (if (Nat.ltb i n && active I types i)%bool then Some (length (filter (active I types) (seq 0 i))) else None)) /\
  length (ls_perEl s) = N /\
  (forall e, nth e (ls_perEl s) 0%nat = length (filter (fun i => Nat.eqb (el i) e) (filter (active I types) (seq 0 n)))).

Lemma locals_step n s : (n < nlocal)%nat -> locals n s -> exists s', addLocal I types n s = Some s' /\ locals (S n) s'.
Proof.
  destruct HC as (_ & _ & _ & HN & _ & Hle & Hel). intros Hn (A & B & C & D & E). unfold addLocal.
  assert (EI : if_ignore I (types n) = negb (active I types n)) by (unfold active; now rewrite negb_involutive). rewrite EI.
  destruct (active I types n) eqn:Ea; cbn [negb].
  - destruct (set_at_spec (ls_map s) n (Some (length (ls_atoms s))) ltac:(lia)) as (m & -> & Lm & Fm).
    destruct (incr_ok (ls_perEl s) (if_element I (types n))) as (per & -> & Lp & Fp).
    { rewrite D. apply (Hel n); auto. lia. }
    eexists. split; [reflexivity|]. unfold locals. cbn [ls_atoms ls_map ls_perEl]. rewrite filter_seq_S, Ea.
    split; [|split; [|split; [|split]]].
    + rewrite map_app, A, HN. reflexivity.
    + lia.
    + intros i Hi. rewrite Fm. destruct (Nat.eqb_spec i n) as [->|Hne].
      * rewrite Ea. assert (X : Nat.ltb n (S n) = true) by (apply Nat.ltb_lt; lia). rewrite X. cbn [andb].
        rewrite A, map_length. reflexivity.
      * rewrite (C i Hi). do 2 f_equal. f_equal. destruct (Nat.ltb_spec i n); destruct (Nat.ltb_spec i (S n)); auto; lia.
    + lia.
    + intros e. rewrite Fp, filter_app, app_length, E. cbn [filter]. fold (el n). change (if_element I (types n)) with (el n).
      rewrite (Nat.eqb_sym (el n) e). destruct (Nat.eqb e (el n)); cbn [length]; lia.
  - exists s. split; auto. unfold locals. rewrite filter_seq_S, Ea, app_nil_r. split; auto. split; auto. split; [|split; auto].
    intros i Hi. rewrite (C i Hi). do 2 f_equal. destruct (Nat.ltb_spec i n); destruct (Nat.ltb_spec i (S n)); auto; try lia.
    assert (i = n) by lia. subst i. now rewrite Ea.
Qed.
Lemma locals_ok : exists s, setLocalAtoms I nlocal types = Some s /\ locals nlocal s.
Proof.
  unfold setLocalAtoms. apply ofold_seq_inv.
  - destruct HC as (_ & _ & _ & HN & _). unfold locals. cbn [ls_atoms ls_map ls_perEl seq filter map]. rewrite !repeat_length.
    split; auto. split; auto. split; [|split].
    + intros i Hi. cbn [Nat.ltb Nat.leb andb]. rewrite (nth_error_nth' _ None) by now rewrite repeat_length. now rewrite nth_repeat.
    + exact HN.
    + intros e. cbn [length]. rewrite nth_repeat. reflexivity.
  - intros k s Hk. now apply locals_step.
Qed.

(** The position of an atom. *)
Lemma act_position i : (i < nlocal)%nat -> active I types i = true -> nth_error act (length (filter (active I types) (seq 0 i))) = Some i.
Proof.
  intros Hi Ha. unfold act, active_atoms. replace nlocal with (i + S (nlocal - S i))%nat by lia.
  rewrite seq_app, filter_app, nth_error_app2, Nat.sub_diag by lia. cbn [seq filter Nat.add]. now rewrite Ha.
Qed.
Lemma act_NoDup : NoDup act.
Proof. apply NoDup_filter, seq_NoDup. Qed.
Lemma act_in i : In i act <-> (i < nlocal)%nat /\ active I types i = true.
Proof. unfold act, active_atoms. rewrite filter_In, in_seq. split; intros [A B]; split; auto; lia. Qed.
Lemma act_all : (forall i, (i < nlocal)%nat -> active I types i = true) -> act = seq 0 nlocal.
Proof.
  intros H. unfold act, active_atoms. assert (G : forall l, (forall i, In i l -> active I types i = true) -> filter (active I types) l = l).
  { induction l as [|a l IH]; intros G; cbn; auto. rewrite (G a) by now left. f_equal. apply IH. intros; apply G; now right. }
  apply G. intros i Hi. apply in_seq in Hi. apply H. lia.
Qed.

(** ** Neighbors *)
Variables (rc : R) (x : nat -> vec) (tags : nat -> Z).
Hypothesis Hrc : 0 <= rc.
Definition nb_of (i j : nat) : neighbor :=
  mkNb j (tags j) (el j) (norm (smul (length_unit I) (vsub (x i) (x j)))) (smul (length_unit I) (vsub (x i) (x j))).
Definition built (i : nat) (t : Z) (per : list nat) (l : list nat) : latom :=
  mkLAtom i t (mkAtom (el i) vzero false false (length l) 0 per [] (map (nb_of i) l) []).

Lemma toModel_unit v : toModel I v = smul (length_unit I) v.
Proof. unfold toModel, length_unit. destruct (if_normalize I); vring. Qed.
Lemma unit_pos : 0 < length_unit I.
Proof.
  destruct HC as (A & _ & B & _). unfold length_unit. destruct (if_normalize I); [|lra]. apply Rmult_lt_0_compat; auto. now apply B.
Qed.
Lemma push_ok i j t per l : length per = N -> (el j < N)%nat -> exists per',
  pushNeighbor I j (tags j) (types j) (vsub (x i) (x j)) (norm2 (vsub (x i) (x j))) (built i t per l) = Some (built i t per' (l ++ [j])) /\
  length per' = N.
Proof.
  intros Lp Hj. unfold pushNeighbor, built. cbn [la_atom a_perEl la_index la_tag a_element a_r a_hasNL a_sorted a_numN a_numU a_unique a_nbs a_cutoffs].
  destruct (incr_ok per (if_element I (types j)) ltac:(rewrite Lp; exact Hj)) as (per' & -> & L' & _). exists per'. split; [|lia].
  do 3 f_equal.
  - rewrite app_length. cbn. lia.
  - rewrite map_app. cbn [map]. do 2 f_equal. unfold nb_of. rewrite toModel_unit. fold (el j). change (if_element I (types j)) with (el j). f_equal.
    pose proof unit_pos as U. destruct HC as (A & _ & B & _). rewrite norm_smul_pos by exact U. unfold norm, length_unit. destruct (if_normalize I); ring.
Qed.

Variables (per0 : list nat) (map0 : list (option nat)).
Hypothesis Hmap : forall i, (i < nlocal)%nat -> nth_error map0 i =
  Some (if active I types i then Some (length (filter (active I types) (seq 0 i))) else None).
Definition filled (L : nat -> list nat) (s : lstate) : Prop :=
  ls_perEl s = per0 /\ ls_map s = map0 /\ length (ls_atoms s) = length act /\
  forall p i, nth_error act p = Some i -> exists per, length per = N /\ nth_error (ls_atoms s) p = Some (built i (tags p) per (L i)).
Lemma filled_ext L L' s : (forall i, In i act -> L i = L' i) -> filled L s -> filled L' s.
Proof.
  intros H (A & B & C & D). split; auto. split; auto. split; auto. intros p i Hp. destruct (D p i Hp) as (per & E1 & E2).
  exists per. split; auto. rewrite <- H; auto. eapply nth_error_In; eauto.
Qed.
Lemma add_ok L s i j : (i < nlocal)%nat -> (j < nall)%nat -> filled L s ->
  exists s', addNeighbor I i j (tags j) (types j) (vsub (x i) (x j)) (norm2 (vsub (x i) (x j))) s = Some s' /\
    filled (if active I types j then upd L i (L i ++ [j]) else L) s'.
Proof.
  intros Hi Hj F. assert (F' := F). destruct F' as (A & B & C & D). unfold addNeighbor.
  assert (EI : if_ignore I (types j) = negb (active I types j)) by (unfold active; now rewrite negb_involutive). rewrite EI.
  destruct (active I types j) eqn:Ej; cbn [negb]; [|exists s; auto].
  rewrite B, (Hmap i Hi). destruct (active I types i) eqn:Ei.
  - pose proof (act_position i Hi Ei) as Hp. set (p := length (filter (active I types) (seq 0 i))) in *.
    destruct (D p i Hp) as (per & Lp & ->).
    destruct (push_ok i j (tags p) per (L i) Lp) as (per' & -> & Lp'). { destruct HC as (_ & _ & _ & _ & _ & _ & H). apply H; auto. }
    destruct (set_at_spec (ls_atoms s) p (built i (tags p) per' (L i ++ [j]))) as (l & -> & Ll & Fl).
    { rewrite C. apply nth_error_Some. congruence. }
    eexists. split; [reflexivity|]. unfold filled. cbn [ls_perEl ls_map ls_atoms]. split; auto. split; auto. split; [lia|].
    intros q k Hq. rewrite Fl. destruct (Nat.eqb_spec q p) as [->|Hne].
    + assert (k = i) by congruence. subst k. exists per'. split; auto. now rewrite upd_same.
    + destruct (D q k Hq) as (pk & X1 & X2). exists pk. split; auto. rewrite upd_other; auto. intros ->. elim Hne.
      apply (proj1 (NoDup_nth_error act) act_NoDup); [apply nth_error_Some; congruence|congruence].
  - exists s. split; auto. apply (filled_ext L); auto. intros k Hk. rewrite upd_other; auto. intros ->. apply act_in in Hk. destruct Hk; congruence.
Qed.
Definition kept (i j : nat) : bool := (leR (norm2 (vsub (x i) (x j))) (rc * rc) && active I types j)%bool.
Lemma inner_ok i js : (i < nlocal)%nat -> (forall j, In j js -> (j < nall)%nat) -> forall L s, filled L s ->
  exists s', ofold (fun j s => let dr := vsub (x i) (x j) in let d2 := norm2 dr in
     if leR d2 (rc * rc) then addNeighbor I i j (tags j) (types j) dr d2 s else Some s) js s = Some s' /\
    filled (upd L i (L i ++ filter (kept i) js)) s'.
Proof.
  intros Hi. induction js as [|j js IH]; intros Hj L s F; cbn [ofold filter].
  - exists s. split; auto. apply (filled_ext L); auto. intros k _. destruct (Nat.eq_dec k i) as [->|]; [rewrite upd_same, app_nil_r|rewrite upd_other]; auto.
  - unfold kept at 1. destruct (leR (norm2 (vsub (x i) (x j))) (rc * rc)) eqn:E; cbn [andb].
    + destruct (add_ok L s i j Hi (Hj j (or_introl eq_refl)) F) as (s1 & E1 & F1). cbv zeta. rewrite E1.
      destruct (IH ltac:(intros; apply Hj; now right) _ s1 F1) as (s2 & E2 & F2). exists s2. split; [exact E2|].
      eapply filled_ext; [|exact F2]. intros k _. cbv beta. destruct (active I types j).
      * destruct (Nat.eq_dec k i) as [->|]; [rewrite !upd_same, <- app_assoc; reflexivity|rewrite !upd_other; auto].
      * reflexivity.
    + apply IH; auto. intros; apply Hj; now right.
Qed.
Lemma outer_ok nlist : NoDup (map fst nlist) -> (forall i js, In (i, js) nlist -> (i < nlocal)%nat /\ forall j, In j js -> (j < nall)%nat) ->
  forall L s, filled L s -> (forall i, In i (map fst nlist) -> L i = []) ->
  exists s' L', transferNeighborList I rc x tags types nlist s = Some s' /\ filled L' s' /\
    (forall i js, In (i, js) nlist -> L' i = filter (kept i) js) /\ forall i, ~ In i (map fst nlist) -> L' i = L i.
Proof.
  unfold transferNeighborList. induction nlist as [|[i js] nlist IH]; intros ND Hn L s F HL; cbn [ofold].
  - exists s, L. split; auto. split; auto. split; auto. intros i js [].
  - cbn [map fst] in ND, HL. inversion ND as [|? ? N1 N2]; subst.
    destruct (Hn i js (or_introl eq_refl)) as (Hi & Hj). destruct (inner_ok i js Hi Hj L s F) as (s1 & E1 & F1).
    cbn [fst snd]. cbv zeta in E1 |- *. rewrite E1.
    destruct (IH N2 ltac:(intros; apply Hn; now right) _ s1 F1) as (s2 & L' & E2 & F2 & G1 & G2).
    { intros k Hk. rewrite upd_other by (intros ->; auto). apply HL. now right. }
    exists s2, L'. split; [exact E2|]. split; auto. split.
    + intros k ks [[= <- <-]|Hk]; [|auto]. rewrite G2 by auto. rewrite upd_same, HL by now left. reflexivity.
    + intros k Hk. rewrite G2 by (intros H; apply Hk; now right). apply upd_other. intros ->. apply Hk. now left.
Qed.
Lemma kept_near i j : j <> i -> kept i j = near I types rc x i j.
Proof.
  intros H. unfold kept, near, leR. pose proof (norm_le_iff (vsub (x i) (x j)) rc Hrc) as [A B].
  assert (X : Nat.eqb j i = false) by now apply Nat.eqb_neq. rewrite X. cbn [negb andb].
  destruct (Rle_dec (norm2 _) _) as [H1|H1]; destruct (Rle_dec (norm _) _) as [H2|H2]; auto; exfalso; tauto.
Qed.
Lemma kept_all nlist i js : full_list nlocal nall rc x nlist -> In (i, js) nlist ->
  Permutation (filter (kept i) js) (filter (near I types rc x i) (seq 0 nall)).
Proof.
  intros (_ & _ & H) Hin. destruct (H i js Hin) as (ND & H1 & H2). apply NoDup_Permutation.
  - now apply NoDup_filter.
  - apply NoDup_filter, seq_NoDup.
  - intros j. rewrite !filter_In, in_seq. split; intros [A B].
    + destruct (H1 j A) as [C D]. rewrite kept_near in B by auto. split; auto. lia.
    + assert (Hne : j <> i /\ norm (vsub (x i) (x j)) <= rc).
      { unfold near in B. destruct (Rle_dec _ _); [|discriminate]. apply andb_true_iff in B as [B _]. split; auto.
        apply negb_true_iff, Nat.eqb_neq in B. auto. }
      rewrite kept_near by tauto. split; auto. apply H2; tauto.
Qed.
End Interface.
