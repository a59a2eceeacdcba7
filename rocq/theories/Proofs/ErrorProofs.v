(** Error metrics over ranks (C39). *)
From Coq Require Import Reals Lra List Bool Arith Lia String Permutation.
From Coq Require Import List.
From Verif Require Import Base.Vec3 Base.AssocMap Base.SumR Model.Strings Model.SymFunctions Model.Units Model.Errors Spec.ErrorSpec.
Import ListNotations.
Local Open Scope R_scope.

Definition em4 (a b c d : R) : emap := [(lit "RMSEpa", a); (lit "RMSE", b); (lit "MAEpa", c); (lit "MAE", d)].
Definition em2 (a b : R) : emap := [(lit "RMSE", a); (lit "MAE", b)].

(** ** Accumulation over the structures of one rank *)
Definition dev (s : qstructure) : R := qs_energyRef s - qs_energy s.
Lemma upd_energy s a b c d n : updateError (lit "energy") s (em4 a b c d, n) =
  Some (em4 (a + dev s * dev s / INR (qs_numAtoms s * qs_numAtoms s)) (b + dev s * dev s) (c + Rabs (dev s) / INR (qs_numAtoms s)) (d + Rabs (dev s)), (n + 1)%nat).
Proof. reflexivity. Qed.
Lemma upd_atom_force x a b n : atom_updateError (lit "force") x (em2 a b, n) =
  Some (em2 (a + norm2 (vsub (q_fRef x) (q_f x))) (b + l1norm (vsub (q_fRef x) (q_f x))), (n + 3)%nat).
Proof. reflexivity. Qed.
Lemma upd_atom_charge x a b n : atom_updateError (lit "charge") x (em2 a b, n) =
  Some (em2 (a + (q_chargeRef x - q_charge x) * (q_chargeRef x - q_charge x)) (b + Rabs (q_chargeRef x - q_charge x)), (n + 1)%nat).
Proof. reflexivity. Qed.
Definition sq (x : R) : R := x * x.
Definition SQ (l : list R) : R := rsum (map sq l).
Definition AB (l : list R) : R := rsum (map Rabs l).
Lemma SQ_app l m : SQ (l ++ m) = SQ l + SQ m.
Proof. unfold SQ. rewrite map_app. apply rsum_app. Qed.
Lemma AB_app l m : AB (l ++ m) = AB l + AB m.
Proof. unfold AB. rewrite map_app. apply rsum_app. Qed.

Definition fdev (s : qstructure) : list R := flat_map (fun a => [vx (q_fRef a) - vx (q_f a); vy (q_fRef a) - vy (q_f a); vz (q_fRef a) - vz (q_f a)]) (qs_atoms s).
Definition cdev (s : qstructure) : list R := map (fun a => q_chargeRef a - q_charge a) (qs_atoms s).
Lemma upd_force s a b n : updateError (lit "force") s (em2 a b, n) = Some (em2 (a + SQ (fdev s)) (b + AB (fdev s)), (n + List.length (fdev s))%nat).
Proof.
  unfold updateError. change (str_eqb (lit "force") (lit "energy")) with false. change (str_eqb (lit "force") (lit "force")) with true. cbn [orb].
  unfold fdev. generalize (qs_atoms s). intros l. revert a b n. induction l as [|x l IH]; intros a b n.
  - cbn. unfold SQ, AB; cbn. rewrite !Rplus_0_r, Nat.add_0_r. reflexivity.
  - cbn [ofold flat_map]. rewrite upd_atom_force, IH. rewrite SQ_app, AB_app, app_length. f_equal. f_equal; [f_equal|].
    + unfold SQ at 2, sq, norm2, vsub, rsum; cbn. ring.
    + unfold AB at 2, l1norm, vsub, rsum; cbn. ring.
    + cbn. lia.
Qed.
Lemma upd_charge s a b n : updateError (lit "charge") s (em2 a b, n) = Some (em2 (a + SQ (cdev s)) (b + AB (cdev s)), (n + List.length (cdev s))%nat).
Proof.
  unfold updateError. change (str_eqb (lit "charge") (lit "energy")) with false. change (str_eqb (lit "charge") (lit "force")) with false.
  change (str_eqb (lit "charge") (lit "charge")) with true. cbn [orb].
  unfold cdev. generalize (qs_atoms s). intros l. revert a b n. induction l as [|x l IH]; intros a b n.
  - cbn. unfold SQ, AB; cbn. rewrite !Rplus_0_r, Nat.add_0_r. reflexivity.
  - cbn [ofold map]. rewrite upd_atom_charge, IH. f_equal. f_equal; [f_equal|].
    + unfold SQ, rsum; cbn. unfold sq. ring.
    + unfold AB, rsum; cbn. ring.
    + cbn. lia.
Qed.

(** A property whose updates add a structure-dependent amount to each entry. *)
Section Generic.
Variables (p : str) (V : Type) (emb : V -> emap) (zero : V) (plus : V -> V -> V) (amount : qstructure -> V) (num : qstructure -> nat).
Hypothesis Hzero : zero_metrics p = emb zero.
Hypothesis Hupd : forall s v n, updateError p s (emb v, n) = Some (emb (plus v (amount s)), (n + num s)%nat).
Definition vtotal (D : list qstructure) : V := fold_left (fun v s => plus v (amount s)) D zero.
Definition ntotal (D : list qstructure) : nat := fold_left (fun n s => (n + num s)%nat) D O.
Definition assigned (ts : sample_type * qstructure) : Prop := fst ts = ST_TRAINING \/ fst ts = ST_TEST.
Lemma accumulate_spec D : Forall assigned D -> accumulate p D =
  Some ((emb (vtotal (part ST_TRAINING D)), ntotal (part ST_TRAINING D)), (emb (vtotal (part ST_TEST D)), ntotal (part ST_TEST D))).
Proof.
  intros H. unfold accumulate. rewrite Hzero.
  assert (G : forall v1 n1 v2 n2, ofold (fun ts st => match fst ts with
    | ST_TRAINING => obind (updateError p (snd ts) (fst st)) (fun e => Some (e, snd st))
    | ST_TEST => obind (updateError p (snd ts) (snd st)) (fun e => Some (fst st, e))
    | _ => None end) D ((emb v1, n1), (emb v2, n2)) =
    Some ((emb (fold_left (fun v s => plus v (amount s)) (part ST_TRAINING D) v1), fold_left (fun n s => (n + num s)%nat) (part ST_TRAINING D) n1),
          (emb (fold_left (fun v s => plus v (amount s)) (part ST_TEST D) v2), fold_left (fun n s => (n + num s)%nat) (part ST_TEST D) n2))).
  { clear - Hupd H. induction H as [|[t s] D Ht H IH]; intros; [reflexivity|]. cbn [ofold fst snd].
    destruct Ht as [E|E]; cbn in E; subst t; rewrite Hupd; cbn [obind fst snd]; rewrite IH; reflexivity. }
  apply G.
Qed.
Lemma unassigned_fails D : ~ Forall assigned D -> accumulate p D = None.
Proof.
  intros H. unfold accumulate. rewrite Hzero.
  assert (G : forall v1 n1 v2 n2, ofold (fun ts st => match fst ts with
    | ST_TRAINING => obind (updateError p (snd ts) (fst st)) (fun e => Some (e, snd st))
    | ST_TEST => obind (updateError p (snd ts) (snd st)) (fun e => Some (fst st, e))
    | _ => None end) D ((emb v1, n1), (emb v2, n2)) = None).
  { clear - Hupd H. induction D as [|[t s] D IH]; intros; [exfalso; apply H; constructor|]. cbn [ofold fst snd].
    destruct t; auto; rewrite Hupd; cbn [obind fst snd]; apply IH; intros X; apply H; constructor; auto; [now left|now right]. }
  apply G.
Qed.
End Generic.

(** ** Collection *)
Lemma fold_plus l : forall a, fold_left Rplus l a = a + rsum l.
Proof. induction l as [|x l IH]; intros a; cbn; [ring|]. rewrite IH. unfold rsum. ring. Qed.
Lemma fold_add l : forall a, fold_left Nat.add l a = (a + fold_right Nat.add 0 l)%nat.
Proof. induction l as [|x l IH]; intros a; cbn; [lia|]. rewrite IH. lia. Qed.
Lemma omap_map {A B C} (f : B -> option C) (g : A -> B) (h : A -> C) l : (forall a, f (g a) = Some (h a)) -> omap f (map g l) = Some (map h l).
Proof. intros H. induction l as [|a l IH]; [reflexivity|]. cbn [map]. unfold omap in *. rewrite H, IH. reflexivity. Qed.
Definition nsum (l : list nat) : nat := fold_right Nat.add O l.
Section Collect.
Context {X : Type} (n : X -> nat) (a b c d : X -> R) (l : list X).
Let T (f : X -> R) : R := rsum (map f l).
Let N : nat := nsum (map n l).
Lemma collect_energy : collectError (lit "energy") (map (fun x => (em4 (a x) (b x) (c x) (d x), n x)) l) =
  Some (map (fun _ => (em4 (sqrt (T a / INR N)) (sqrt (T b / INR N)) (T c / INR N) (T d / INR N), N)) l).
Proof.
  unfold collectError. change (str_eqb (lit "energy") (lit "energy")) with true. cbv iota. unfold allreduce_count. rewrite !map_map. cbn [fst snd].
  rewrite (fold_add (map n l)). change (0 + fold_right Nat.add 0 (map n l))%nat with N.
  unfold allreduce_at. rewrite (omap_map _ _ a) by reflexivity. cbn [obind]. rewrite map_map, fold_plus, Rplus_0_l. fold (T a).
  cbn [fst snd]. rewrite (omap_map _ _ b) by reflexivity. cbn [obind]. rewrite map_map, fold_plus, Rplus_0_l. fold (T b).
  cbn [fst snd]. rewrite (omap_map _ _ c) by reflexivity. cbn [obind]. rewrite map_map, fold_plus, Rplus_0_l. fold (T c).
  cbn [fst snd]. rewrite (omap_map _ _ d) by reflexivity. cbn [obind]. rewrite map_map, fold_plus, Rplus_0_l. fold (T d).
  apply omap_map. intros x. reflexivity.
Qed.
Lemma collect_other p : p = lit "force" \/ p = lit "charge" -> collectError p (map (fun x => (em2 (a x) (b x), n x)) l) =
  Some (map (fun _ => (em2 (sqrt (T a / INR N)) (T b / INR N), N)) l).
Proof.
  intros Hp. unfold collectError.
  assert (E : str_eqb p (lit "energy") = false /\ (str_eqb p (lit "force") || str_eqb p (lit "charge"))%bool = true) by (destruct Hp as [-> | ->]; split; reflexivity).
  destruct E as (-> & ->). unfold allreduce_count. rewrite !map_map. cbn [fst snd].
  rewrite (fold_add (map n l)). change (0 + fold_right Nat.add 0 (map n l))%nat with N.
  unfold allreduce_at. rewrite (omap_map _ _ a) by reflexivity. cbn [obind]. rewrite map_map, fold_plus, Rplus_0_l. fold (T a).
  cbn [fst snd]. rewrite (omap_map _ _ b) by reflexivity. cbn [obind]. rewrite map_map, fold_plus, Rplus_0_l. fold (T b).
  apply omap_map. intros x. reflexivity.
Qed.
End Collect.

Lemma omap_total {A B} (f : A -> option B) (g : A -> B) (P : A -> Prop) l : (forall a, P a -> f a = Some (g a)) -> Forall P l -> omap f l = Some (map g l).
Proof. intros H Hl. induction Hl as [|a l Ha Hl IH]; [reflexivity|]. cbn. unfold omap in *. rewrite (H a Ha), IH. reflexivity. Qed.
Lemma omap_none {A B} (f : A -> option B) l a : In a l -> f a = None -> omap f l = None.
Proof.
  intros H E. induction l as [|x l IH]; [destruct H|]. cbn. unfold omap in *. destruct H as [->|H]; [now rewrite E|].
  destruct (f x); auto. now rewrite IH.
Qed.

(** ** Totals *)
Lemma fold_triple {S} (f : S -> R) l : forall a, fold_left (fun v s => v + f s) l a = a + rsum (map f l).
Proof. apply fold_sum. Qed.
Lemma part_app t l m : part t (l ++ m) = part t l ++ part t m.
Proof. unfold part. now rewrite filter_app, map_app. Qed.
Lemma part_concat t ls : part t (concat ls) = concat (map (part t) ls).
Proof. induction ls as [|l ls IH]; [reflexivity|]. cbn [concat map]. now rewrite part_app, IH. Qed.
Lemma part_perm t l m : Permutation l m -> Permutation (part t l) (part t m).
Proof.
  intros H. unfold part. apply Permutation_map. induction H; cbn; auto.
  - destruct (match fst x with ST_TRAINING => _ | ST_TEST => _ | _ => _ end); auto.
  - destruct (match fst x with ST_TRAINING => _ | ST_TEST => _ | _ => _ end); destruct (match fst y with ST_TRAINING => _ | ST_TEST => _ | _ => _ end); auto. apply perm_swap.
  - eapply Permutation_trans; eauto.
Qed.
Lemma rsum_map_concat {A} (f : A -> R) ls : rsum (map f (concat ls)) = rsum (map (fun l => rsum (map f l)) ls).
Proof. rewrite concat_map, rsum_concat, map_map. reflexivity. Qed.
Lemma nsum_app l m : nsum (l ++ m) = (nsum l + nsum m)%nat.
Proof. induction l; cbn; unfold nsum in *; cbn; lia. Qed.
Lemma nsum_map_concat {A} (f : A -> nat) ls : nsum (map f (concat ls)) = nsum (map (fun l => nsum (map f l)) ls).
Proof. induction ls as [|l ls IH]; [reflexivity|]. cbn [concat map]. rewrite map_app, nsum_app, IH. reflexivity. Qed.
Lemma nsum_perm l m : Permutation l m -> nsum l = nsum m.
Proof. induction 1; unfold nsum in *; cbn; lia. Qed.
Lemma fold_nsum {S} (f : S -> nat) l : forall a, fold_left (fun n s => (n + f s)%nat) l a = (a + nsum (map f l))%nat.
Proof. induction l as [|x l IH]; intros a; cbn; [lia|]. rewrite IH. unfold nsum. cbn. lia. Qed.
Lemma nsum_const {A} (l : list A) : nsum (map (fun _ => 1%nat) l) = List.length l.
Proof. induction l; cbn; unfold nsum in *; cbn; lia. Qed.
Lemma nsum_length {A B} (f : A -> list B) l : nsum (map (fun x => List.length (f x)) l) = List.length (flat_map f l).
Proof. induction l as [|x l IH]; [reflexivity|]. cbn [map flat_map]. rewrite app_length, <- IH. reflexivity. Qed.

Lemma metrics_energy D : (forall s, In s D -> (0 < qs_numAtoms s)%nat) -> let N := List.length D in
  em4 (sqrt (rsum (map (fun s => dev s * dev s / INR (qs_numAtoms s * qs_numAtoms s)) D) / INR N)) (sqrt (rsum (map (fun s => dev s * dev s) D) / INR N))
      (rsum (map (fun s => Rabs (dev s) / INR (qs_numAtoms s)) D) / INR N) (rsum (map (fun s => Rabs (dev s)) D) / INR N) = metrics (lit "energy") D.
Proof.
  intros HD N. unfold metrics. change (str_eqb (lit "energy") (lit "energy")) with true. cbv iota. unfold em4, rmse, mae, mean, energy_per_atom_deviations, energy_deviations.
  rewrite !map_map, !map_length. fold N.
  assert (E1 : rsum (map (fun s => dev s * dev s / INR (qs_numAtoms s * qs_numAtoms s)) D) = rsum (map (fun x => (qs_energyRef x - qs_energy x) / INR (qs_numAtoms x) * ((qs_energyRef x - qs_energy x) / INR (qs_numAtoms x))) D)).
  { apply rsum_ext. intros s Hs. rewrite mult_INR. unfold dev. field. pose proof (HD s Hs). apply not_0_INR. lia. }
  assert (E2 : rsum (map (fun s => Rabs (dev s) / INR (qs_numAtoms s)) D) = rsum (map (fun x => Rabs ((qs_energyRef x - qs_energy x) / INR (qs_numAtoms x))) D)).
  { apply rsum_ext. intros s Hs. unfold Rdiv. rewrite Rabs_mult. f_equal. rewrite Rabs_pos_eq; auto. apply Rlt_le, Rinv_0_lt_compat. apply (lt_INR 0). apply HD; auto. }
  rewrite E1, E2. reflexivity.
Qed.
Lemma SQ_flat (f : qstructure -> list R) D : rsum (map (fun s => SQ (f s)) D) = rsum (map (fun x => x * x) (flat_map f D)).
Proof. induction D as [|s D IH]; [reflexivity|]. cbn [map flat_map]. rewrite map_app, rsum_app, <- IH. reflexivity. Qed.
Lemma AB_flat (f : qstructure -> list R) D : rsum (map (fun s => AB (f s)) D) = rsum (map Rabs (flat_map f D)).
Proof. induction D as [|s D IH]; [reflexivity|]. cbn [map flat_map]. rewrite map_app, rsum_app, <- IH. reflexivity. Qed.

(** What both sums amount to, for one set. *)
Definition result_of (p : str) (D : list qstructure) : emap * nat := (metrics p D, samples p D).
Definition positive_sizes (p : str) (D : list qstructure) : Prop := p = lit "energy" -> forall s, In s D -> (0 < qs_numAtoms s)%nat.

Lemma flat_concat {A B} (f : A -> list B) ls : flat_map f (concat ls) = flat_map (flat_map f) ls.
Proof. induction ls as [|l ls IH]; [reflexivity|]. cbn. now rewrite flat_map_app, IH. Qed.
Lemma flat_map_perm {A B} (f : A -> list B) l m : Permutation l m -> Permutation (flat_map f l) (flat_map f m).
Proof.
  induction 1; cbn; auto.
  - now apply Permutation_app_head.
  - rewrite !app_assoc. apply Permutation_app_tail, Permutation_app_comm.
  - eapply Permutation_trans; eauto.
Qed.
Lemma result_perm p D D' : Permutation D D' -> result_of p D = result_of p D'.
Proof.
  intros H. unfold result_of, metrics, samples, rmse, mae, mean.
  assert (R1 : forall (f g : list qstructure -> list R) (h : R -> R), (forall l m, Permutation l m -> Permutation (f l) (f m)) -> rsum (map h (f D)) = rsum (map h (f D'))).
  { intros f _ h Hf. apply rsum_perm, Permutation_map, Hf, H. }
  assert (R2 : forall f : list qstructure -> list R, (forall l m, Permutation l m -> Permutation (f l) (f m)) -> List.length (f D) = List.length (f D')).
  { intros f Hf. apply Permutation_length, Hf, H. }
  assert (F1 : forall l m, Permutation l m -> Permutation (energy_deviations l) (energy_deviations m)) by (intros; unfold energy_deviations; apply Permutation_map; auto).
  assert (F2 : forall l m, Permutation l m -> Permutation (energy_per_atom_deviations l) (energy_per_atom_deviations m)) by (intros; unfold energy_per_atom_deviations; apply Permutation_map; auto).
  assert (F3 : forall l m, Permutation l m -> Permutation (force_deviations l) (force_deviations m)) by (intros; apply flat_map_perm; auto).
  assert (F4 : forall l m, Permutation l m -> Permutation (charge_deviations l) (charge_deviations m)) by (intros; apply flat_map_perm; auto).
  rewrite !map_length, (Permutation_length H).
  rewrite !(R1 _ energy_deviations _ F1), !(R1 _ energy_deviations _ F2), !(R1 _ energy_deviations _ F3), !(R1 _ energy_deviations _ F4), !(R2 _ F1), !(R2 _ F2), !(R2 _ F3), !(R2 _ F4).
  reflexivity.
Qed.

Lemma collect_set p (t : sample_type) (ranks : list (list (sample_type * qstructure))) : error_property p -> positive_sizes p (part t (concat ranks)) ->
  exists acc : list (sample_type * qstructure) -> emap * nat,
  (forall D, Forall assigned D -> exists x y, accumulate p D = Some (x, y) /\ (t = ST_TRAINING -> x = acc D) /\ (t = ST_TEST -> y = acc D)) /\
  collectError p (map acc ranks) = Some (map (fun _ => result_of p (part t (concat ranks))) ranks).
Proof.
  intros Hp Hs. destruct Hp as [<-|[<-|[<-|[]]]].
  - exists (fun D => (em4 (rsum (map (fun s => dev s * dev s / INR (qs_numAtoms s * qs_numAtoms s)) (part t D))) (rsum (map (fun s => dev s * dev s) (part t D)))
        (rsum (map (fun s => Rabs (dev s) / INR (qs_numAtoms s)) (part t D))) (rsum (map (fun s => Rabs (dev s)) (part t D))), List.length (part t D))). split.
    + intros D HD. pose (V := (R * R * R * R)%type). pose (emb := fun v : V => let '(a, b, c, d) := v in em4 a b c d).
      pose (pl := fun v w : V => let '(a, b, c, d) := v in let '(a', b', c', d') := w in (a + a', b + b', c + c', d + d') : V).
      pose (am := fun s => (dev s * dev s / INR (qs_numAtoms s * qs_numAtoms s), dev s * dev s, Rabs (dev s) / INR (qs_numAtoms s), Rabs (dev s)) : V).
      rewrite (accumulate_spec (lit "energy") V emb (0, 0, 0, 0) pl am (fun _ => 1%nat)); auto.
      * do 2 eexists. split; [reflexivity|].
        assert (Q : forall l a b c d, fold_left (fun v s => pl v (am s)) l (a, b, c, d) = (a + rsum (map (fun s => dev s * dev s / INR (qs_numAtoms s * qs_numAtoms s)) l), b + rsum (map (fun s => dev s * dev s) l), c + rsum (map (fun s => Rabs (dev s) / INR (qs_numAtoms s)) l), d + rsum (map (fun s => Rabs (dev s)) l))).
        { clear. induction l as [|s l IH]; intros; [unfold rsum; cbn; rewrite !Rplus_0_r; reflexivity|]. cbn [fold_left map]. unfold pl at 2, am at 2. rewrite IH. unfold rsum; cbn [fold_right]. f_equal; [f_equal; [f_equal|]|]; ring. }
        unfold vtotal, ntotal. rewrite !Q, !fold_nsum, !nsum_const, !Rplus_0_l. cbn [Nat.add emb]. split; intros ->; reflexivity.
      * intros s [[[a b] c] d] n. cbn [emb am pl]. apply upd_energy.
    + rewrite (collect_energy (fun D => List.length (part t D)) (fun D => rsum (map (fun s => dev s * dev s / INR (qs_numAtoms s * qs_numAtoms s)) (part t D)))
        (fun D => rsum (map (fun s => dev s * dev s) (part t D))) (fun D => rsum (map (fun s => Rabs (dev s) / INR (qs_numAtoms s)) (part t D))) (fun D => rsum (map (fun s => Rabs (dev s)) (part t D)))).
      assert (EN : nsum (map (fun D => List.length (part t D)) ranks) = List.length (part t (concat ranks))).
      { rewrite part_concat. clear. induction ranks as [|l ls IH]; [reflexivity|]. cbn [map concat]. rewrite app_length, <- IH. reflexivity. }
      rewrite EN. f_equal. apply map_ext. intros _. unfold result_of. f_equal.
      rewrite <- metrics_energy by (apply Hs; reflexivity). cbv zeta.
      rewrite !part_concat, !rsum_map_concat, !map_map. reflexivity.
  - exists (fun D => (em2 (rsum (map (fun s => SQ (fdev s)) (part t D))) (rsum (map (fun s => AB (fdev s)) (part t D))), nsum (map (fun s => List.length (fdev s)) (part t D)))). split.
    + intros D HD. pose (V := (R * R)%type). pose (emb := fun v : V => let '(a, b) := v in em2 a b).
      pose (pl := fun v w : V => let '(a, b) := v in let '(a', b') := w in (a + a', b + b') : V).
      pose (am := fun s => (SQ (fdev s), AB (fdev s)) : V).
      rewrite (accumulate_spec (lit "force") V emb (0, 0) pl am (fun s => List.length (fdev s))); auto.
      * do 2 eexists. split; [reflexivity|].
        assert (Q : forall l a b, fold_left (fun v s => pl v (am s)) l (a, b) = (a + rsum (map (fun s => SQ (fdev s)) l), b + rsum (map (fun s => AB (fdev s)) l))).
        { clear. induction l as [|s l IH]; intros; [unfold rsum; cbn; rewrite !Rplus_0_r; reflexivity|]. cbn [fold_left map]. unfold pl at 2, am at 2. rewrite IH. unfold rsum; cbn [fold_right]. f_equal; ring. }
        unfold vtotal, ntotal. rewrite !Q, !fold_nsum, !Rplus_0_l. cbn [Nat.add emb]. split; intros ->; reflexivity.
      * intros s [a b] n. cbn [emb am pl]. apply upd_force.
    + rewrite (collect_other (fun D => nsum (map (fun s => List.length (fdev s)) (part t D))) (fun D => rsum (map (fun s => SQ (fdev s)) (part t D))) (fun D => rsum (map (fun s => AB (fdev s)) (part t D)))) by auto.
      f_equal. apply map_ext. intros _. unfold result_of, metrics, samples, rmse, mae, mean. change (str_eqb (lit "force") (lit "energy")) with false. change (str_eqb (lit "force") (lit "force")) with true. cbv iota.
      assert (EN : nsum (map (fun D => nsum (map (fun s => List.length (fdev s)) (part t D))) ranks) = List.length (force_deviations (part t (concat ranks)))).
      { unfold force_deviations. change (fun s => flat_map _ (qs_atoms s)) with fdev. rewrite <- nsum_length, part_concat, nsum_map_concat, map_map. reflexivity. }
      rewrite EN, !map_length. unfold force_deviations. change (fun s => flat_map _ (qs_atoms s)) with fdev.
      rewrite <- SQ_flat, <- AB_flat, !part_concat, !rsum_map_concat, !map_map. reflexivity.
  - exists (fun D => (em2 (rsum (map (fun s => SQ (cdev s)) (part t D))) (rsum (map (fun s => AB (cdev s)) (part t D))), nsum (map (fun s => List.length (cdev s)) (part t D)))). split.
    + intros D HD. pose (V := (R * R)%type). pose (emb := fun v : V => let '(a, b) := v in em2 a b).
      pose (pl := fun v w : V => let '(a, b) := v in let '(a', b') := w in (a + a', b + b') : V).
      pose (am := fun s => (SQ (cdev s), AB (cdev s)) : V).
      rewrite (accumulate_spec (lit "charge") V emb (0, 0) pl am (fun s => List.length (cdev s))); auto.
      * do 2 eexists. split; [reflexivity|].
        assert (Q : forall l a b, fold_left (fun v s => pl v (am s)) l (a, b) = (a + rsum (map (fun s => SQ (cdev s)) l), b + rsum (map (fun s => AB (cdev s)) l))).
        { clear. induction l as [|s l IH]; intros; [unfold rsum; cbn; rewrite !Rplus_0_r; reflexivity|]. cbn [fold_left map]. unfold pl at 2, am at 2. rewrite IH. unfold rsum; cbn [fold_right]. f_equal; ring. }
        unfold vtotal, ntotal. rewrite !Q, !fold_nsum, !Rplus_0_l. cbn [Nat.add emb]. split; intros ->; reflexivity.
      * intros s [a b] n. cbn [emb am pl]. apply upd_charge.
    + rewrite (collect_other (fun D => nsum (map (fun s => List.length (cdev s)) (part t D))) (fun D => rsum (map (fun s => SQ (cdev s)) (part t D))) (fun D => rsum (map (fun s => AB (cdev s)) (part t D)))) by auto.
      f_equal. apply map_ext. intros _. unfold result_of, metrics, samples, rmse, mae, mean. change (str_eqb (lit "charge") (lit "energy")) with false. change (str_eqb (lit "charge") (lit "force")) with false. cbv iota.
      assert (EN : nsum (map (fun D => nsum (map (fun s => List.length (cdev s)) (part t D))) ranks) = List.length (charge_deviations (part t (concat ranks)))).
      { unfold charge_deviations. change (fun s => map _ (qs_atoms s)) with cdev. rewrite <- nsum_length, part_concat, nsum_map_concat, map_map. reflexivity. }
      rewrite EN, !map_length. unfold charge_deviations. change (fun s => map _ (qs_atoms s)) with cdev.
      rewrite <- SQ_flat, <- AB_flat, !part_concat, !rsum_map_concat, !map_map. reflexivity.
Qed.

Theorem error_metrics p ranks D : error_property p -> Permutation (concat ranks) D ->
  (forall ts, In ts D -> fst ts = ST_TRAINING \/ fst ts = ST_TEST) -> (forall ts, In ts D -> (0 < qs_numAtoms (snd ts))%nat) ->
  exists train test, calculateError p ranks = Some (train, test) /\ List.length train = List.length ranks /\ List.length test = List.length ranks /\
    (forall r, In r train -> snd r = samples p (part ST_TRAINING D) /\ ((0 < snd r)%nat -> fst r = metrics p (part ST_TRAINING D))) /\
    (forall r, In r test -> snd r = samples p (part ST_TEST D) /\ ((0 < snd r)%nat -> fst r = metrics p (part ST_TEST D))).
Proof.
  intros Hp HP HA HN.
  assert (HS : forall t, positive_sizes p (part t (concat ranks))).
  { intros t _ s Hs. unfold part in Hs. apply in_map_iff in Hs as (ts & <- & Hts). apply filter_In in Hts as (Hts & _). apply HN. eapply Permutation_in; eauto. }
  destruct (collect_set p ST_TRAINING ranks Hp (HS _)) as (f & Hf & Ef). destruct (collect_set p ST_TEST ranks Hp (HS _)) as (g & Hg & Eg).
  assert (HF : Forall (Forall assigned) ranks).
  { apply Forall_forall. intros l Hl. apply Forall_forall. intros ts Hts. apply HA. eapply Permutation_in; eauto. apply in_concat; eauto. }
  assert (EA : omap (accumulate p) ranks = Some (map (fun l => (f l, g l)) ranks)).
  { apply (omap_total _ _ (Forall assigned)); auto. intros l Hl. destruct (Hf l Hl) as (x & y & E & X & _). destruct (Hg l Hl) as (x' & y' & E' & _ & Y).
    rewrite E in E'. injection E' as <- <-. rewrite E, X, Y; auto. }
  unfold calculateError. rewrite EA. cbn [obind]. rewrite !map_map. cbn [fst snd].
  change (map (fun x => f x) ranks) with (map f ranks). change (map (fun x => g x) ranks) with (map g ranks). rewrite Ef, Eg. cbn [obind].
  do 2 eexists. split; [reflexivity|]. rewrite !map_length. split; [auto|]. split; [auto|].
  split; intros r Hr; apply in_map_iff in Hr as (_ & <- & _); rewrite (result_perm p _ (part _ D)) by (apply part_perm; eauto); split; reflexivity.
Qed.
Theorem unassigned p ranks l ts : error_property p -> In l ranks -> In ts l -> fst ts = ST_UNKNOWN \/ fst ts = ST_VALIDATION -> calculateError p ranks = None.
Proof.
  intros Hp Hl Hts HT. unfold calculateError. rewrite (omap_none _ ranks l); auto.
  assert (HN : ~ Forall assigned l). { intros H. rewrite Forall_forall in H. destruct (H ts Hts); destruct HT; congruence. }
  destruct Hp as [<-|[<-|[<-|[]]]].
  - apply (unassigned_fails (lit "energy") (R * R * R * R) (fun v => let '(a, b, c, d) := v in em4 a b c d) (0, 0, 0, 0)
      (fun v w => let '(a, b, c, d) := v in let '(a', b', c', d') := w in (a + a', b + b', c + c', d + d'))
      (fun s => (dev s * dev s / INR (qs_numAtoms s * qs_numAtoms s), dev s * dev s, Rabs (dev s) / INR (qs_numAtoms s), Rabs (dev s))) (fun _ => 1%nat)); auto.
    intros s [[[a b] c] d] n. apply upd_energy.
  - apply (unassigned_fails (lit "force") (R * R) (fun v => let '(a, b) := v in em2 a b) (0, 0)
      (fun v w => let '(a, b) := v in let '(a', b') := w in (a + a', b + b')) (fun s => (SQ (fdev s), AB (fdev s))) (fun s => List.length (fdev s))); auto.
    intros s [a b] n. apply upd_force.
  - apply (unassigned_fails (lit "charge") (R * R) (fun v => let '(a, b) := v in em2 a b) (0, 0)
      (fun v w => let '(a, b) := v in let '(a', b') := w in (a + a', b + b')) (fun s => (SQ (cdev s), AB (cdev s))) (fun s => List.length (cdev s))); auto.
    intros s [a b] n. apply upd_charge.
Qed.

Definition ex_err_atom (q : R) : qatom := mkQA true true false 0 0 vzero (mkVec 1 0 0) (mkVec 3 0 1) q 0 [] [] [].
Definition ex_err_struct (e : R) (k : nat) : qstructure := mkQS false k [k] e 2 0 0 0 (mkMat vzero vzero vzero) (mkMat vzero vzero vzero) (map (fun i => ex_err_atom (INR i)) (seq 0 k)).
Definition ex_ranks : list (list (sample_type * qstructure)) :=
  [[(ST_TRAINING, ex_err_struct 1 2); (ST_TEST, ex_err_struct 3 3)]; []; [(ST_TRAINING, ex_err_struct 5 1)]].
Lemma ex_ranks_ok : (forall ts, In ts (concat ex_ranks) -> fst ts = ST_TRAINING \/ fst ts = ST_TEST) /\ (forall ts, In ts (concat ex_ranks) -> (0 < qs_numAtoms (snd ts))%nat) /\
  samples (lit "force") (part ST_TRAINING (concat ex_ranks)) = 9%nat /\ samples (lit "energy") (part ST_TEST (concat ex_ranks)) = 1%nat /\
  mae (energy_deviations (part ST_TRAINING (concat ex_ranks))) = 2.
Proof.
  split; [|split; [|split; [|split]]].
  - intros ts [<-|[<-|[<-|[]]]]; cbn; auto.
  - intros ts [<-|[<-|[<-|[]]]]; cbn; auto with arith.
  - reflexivity.
  - reflexivity.
  - unfold mae, mean, energy_deviations, rsum; cbn. replace (2 - 1) with 1 by ring. replace (2 - 5) with (-3) by ring. rewrite Rabs_pos_eq, Rabs_left by lra. lra.
Qed.
