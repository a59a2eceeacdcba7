(** Differentiation of the ideal network: forward tangents and adjoints. *)
From Coq Require Import Reals Lra List Arith Lia Bool.
From Coquelicot Require Import Coquelicot.
From Coq Require Import List.
From Verif Require Import Base.RealBase Base.SumR Base.Loop Model.NeuralNetwork Spec.NetworkSpec
  Proofs.NetLayout Proofs.NetForward.
Import ListNotations.
Local Open Scope R_scope.

Lemma is_derive_mulR (f g : R -> R) x df dg : is_derive f x df -> is_derive g x dg ->
  is_derive (fun t => f t * g t) x (df * g x + f x * dg).
Proof.
  intros Hf Hg. refine (is_derive_eq _ _ _ _ (is_derive_mult f g x df dg Hf Hg _) _).
  - intros; apply Rmult_comm.
  - unfold plus, mult; simpl. reflexivity.
Qed.
Lemma is_derive_plusR (f g : R -> R) x df dg : is_derive f x df -> is_derive g x dg ->
  is_derive (fun t => f t + g t) x (df + dg).
Proof. intros Hf Hg. exact (is_derive_plus f g x df dg Hf Hg). Qed.
Lemma is_derive_scalR (f : R -> R) x df k : is_derive f x df -> is_derive (fun t => f t * k) x (df * k).
Proof.
  intros Hf. refine (is_derive_eq _ _ _ _ (is_derive_mulR f (fun _ => k) x df 0 Hf (is_derive_const k x)) _). ring.
Qed.
Lemma is_derive_compR (f g : R -> R) x df dg : is_derive f (g x) df -> is_derive g x dg ->
  is_derive (fun t => f (g t)) x (df * dg).
Proof.
  intros Hf Hg. refine (is_derive_eq _ _ _ _ (is_derive_comp f g x df dg Hf Hg) _).
  unfold scal; simpl; unfold mult; simpl. ring.
Qed.

Section Tangent.
Variable N : nat -> nat.
Variable act : nat -> activation.
Variable nrm : nat -> R.
Variable LT : nat. (* index of the output layer *)

(** Directional derivative with respect to the inputs. *)
Section Y.
Variable W : nat -> nat -> nat -> R.
Variable B : nat -> nat -> R.
Variable G : nat -> R.
Variable seed : nat -> R.
Let P := PRE N act nrm W B G.
Let V := VAL N act nrm W B G.
Fixpoint YY (l k : nat) : R :=
  match l with
  | O => seed k
  | S m => act_df (act (S m)) (P (S m) k) * (sumn (N m) (fun j => W m j k * YY m j) * nrm (S m))
  end.
Definition XX (l k : nat) : R := sumn (N (l - 1)) (fun j => W (l - 1) j k * YY (l - 1) j) * nrm l.
Lemma YY_S m k : YY (S m) k = act_df (act (S m)) (P (S m) k) * XX (S m) k.
Proof. simpl. unfold XX. rewrite Nat.sub_1_r. reflexivity. Qed.
Lemma XX_S m k : XX (S m) k = sumn (N m) (fun j => W m j k * YY m j) * nrm (S m).
Proof. unfold XX. rewrite Nat.sub_1_r. reflexivity. Qed.
End Y.

Variable Wt : R -> nat -> nat -> nat -> R.
Variable Bt : R -> nat -> nat -> R.
Variable Gt : R -> nat -> R.
Variable t0 : R.
Variable dW : nat -> nat -> nat -> R.
Variable dB : nat -> nat -> R.
Variable dG : nat -> R.
Hypothesis HW : forall l j k, (l < LT)%nat -> (j < N l)%nat -> (k < N (S l))%nat -> is_derive (fun t => Wt t l j k) t0 (dW l j k).
Hypothesis HB : forall l k, (l < LT)%nat -> (k < N (S l))%nat -> is_derive (fun t => Bt t l k) t0 (dB l k).
Hypothesis HG : forall k, (k < N 0)%nat -> is_derive (fun t => Gt t k) t0 (dG k).
Let W := Wt t0.
Let V := VAL N act nrm (Wt t0) (Bt t0) (Gt t0).
Let P := PRE N act nrm (Wt t0) (Bt t0) (Gt t0).
Hypothesis Hreg : forall l k, (1 <= l <= LT)%nat -> (k < N l)%nat -> regular (act l) (P l k).

(** [UU (S m) k]: derivative of the un-normalised net input of neuron k. *)
Fixpoint TAN (l k : nat) : R :=
  match l with
  | O => dG k
  | S m => act_df (act (S m)) (P (S m) k) *
           ((sumn (N m) (fun j => dW m j k * V m j + W m j k * TAN m j) + dB m k) * nrm (S m))
  end.
Definition SRC (l k : nat) : R := sumn (N l) (fun j => dW l j k * V l j) + dB l k.
Definition UU (l k : nat) : R := SRC l k + sumn (N l) (fun j => W l j k * TAN l j).
Lemma TAN_S m k : TAN (S m) k = act_df (act (S m)) (P (S m) k) * (UU m k * nrm (S m)).
Proof. simpl. unfold UU, SRC. rewrite sumn_plus. f_equal. f_equal. ring. Qed.

Lemma VAL_PRE_derive : forall l,
  (forall k, (l <= LT)%nat -> (k < N l)%nat -> is_derive (fun t => VAL N act nrm (Wt t) (Bt t) (Gt t) l k) t0 (TAN l k)) /\
  (forall k, (S l <= LT)%nat -> (k < N (S l))%nat ->
     is_derive (fun t => PRE N act nrm (Wt t) (Bt t) (Gt t) (S l) k) t0 (UU l k * nrm (S l))).
Proof.
  assert (Hpre : forall l, (forall k, (l <= LT)%nat -> (k < N l)%nat -> is_derive (fun t => VAL N act nrm (Wt t) (Bt t) (Gt t) l k) t0 (TAN l k)) ->
     forall k, (S l <= LT)%nat -> (k < N (S l))%nat ->
     is_derive (fun t => PRE N act nrm (Wt t) (Bt t) (Gt t) (S l) k) t0 (UU l k * nrm (S l))).
  { intros l IH k Hl Hk.
    apply (is_derive_ext (fun t => (sumn (N l) (fun j => Wt t l j k * VAL N act nrm (Wt t) (Bt t) (Gt t) l j) + Bt t l k) * nrm (S l))).
    { intros t. now rewrite PRE_S. }
    apply is_derive_scalR. unfold UU, SRC.
    replace (sumn (N l) (fun j => dW l j k * V l j) + dB l k + sumn (N l) (fun j => W l j k * TAN l j))
      with (sumn (N l) (fun j => dW l j k * V l j + W l j k * TAN l j) + dB l k) by (rewrite sumn_plus; ring).
    apply is_derive_plusR; [|apply HB; auto].
    apply (is_derive_sumn (N l) (fun j t => Wt t l j k * VAL N act nrm (Wt t) (Bt t) (Gt t) l j)
             (fun j => dW l j k * V l j + W l j k * TAN l j)).
    intros j Hj. apply (is_derive_mulR (fun t => Wt t l j k) (fun t => VAL N act nrm (Wt t) (Bt t) (Gt t) l j)).
    - apply HW; auto.
    - apply IH; auto. lia. }
  induction l as [|m [IHv IHp]].
  - split; [|apply Hpre; intros; apply HG; auto]. intros; apply HG; auto.
  - assert (Hv : forall k, (S m <= LT)%nat -> (k < N (S m))%nat ->
       is_derive (fun t => VAL N act nrm (Wt t) (Bt t) (Gt t) (S m) k) t0 (TAN (S m) k)).
    { intros k Hl Hk. rewrite TAN_S.
      apply (is_derive_ext (fun t => act_f (act (S m)) (PRE N act nrm (Wt t) (Bt t) (Gt t) (S m) k))).
      { intros t. now rewrite VAL_S. }
      apply (is_derive_compR (act_f (act (S m))) (fun t => PRE N act nrm (Wt t) (Bt t) (Gt t) (S m) k)).
      - apply act_derive. apply Hreg; auto. lia.
      - apply IHp; auto. }
    split; auto.
Qed.

Lemma VAL_derive l k : (l <= LT)%nat -> (k < N l)%nat ->
  is_derive (fun t => VAL N act nrm (Wt t) (Bt t) (Gt t) l k) t0 (TAN l k).
Proof. intros. apply VAL_PRE_derive; auto. Qed.
Lemma PRE_derive l k : (S l <= LT)%nat -> (k < N (S l))%nat ->
  is_derive (fun t => PRE N act nrm (Wt t) (Bt t) (Gt t) (S l) k) t0 (UU l k * nrm (S l)).
Proof. intros. apply VAL_PRE_derive; auto. Qed.

(** Tangent of the directional derivative. *)
Variable seed : nat -> R.
Let Y := YY (Wt t0) (Bt t0) (Gt t0) seed.
Let X := XX (Wt t0) (Bt t0) (Gt t0) seed.
Fixpoint TY (l k : nat) : R :=
  match l with
  | O => 0
  | S m => act_d2 (act (S m)) (P (S m) k) * (UU m k * nrm (S m)) * X (S m) k
           + act_df (act (S m)) (P (S m) k) *
             (sumn (N m) (fun j => dW m j k * Y m j + W m j k * TY m j) * nrm (S m))
  end.
Definition SRC2 (l k : nat) : R := sumn (N l) (fun j => dW l j k * Y l j).
Definition ZZ (l k : nat) : R := SRC2 l k + sumn (N l) (fun j => W l j k * TY l j).
Lemma TY_S m k : TY (S m) k = act_d2 (act (S m)) (P (S m) k) * (UU m k * nrm (S m)) * X (S m) k
   + act_df (act (S m)) (P (S m) k) * (ZZ m k * nrm (S m)).
Proof. simpl. unfold ZZ, SRC2. rewrite sumn_plus. reflexivity. Qed.

Lemma YY_derive : forall l k, (l <= LT)%nat -> (k < N l)%nat ->
  is_derive (fun t => YY (Wt t) (Bt t) (Gt t) seed l k) t0 (TY l k).
Proof.
  induction l as [|m IH]; intros k Hl Hk.
  - simpl. apply (is_derive_const (seed k) t0).
  - rewrite TY_S.
    apply (is_derive_ext (fun t => act_df (act (S m)) (PRE N act nrm (Wt t) (Bt t) (Gt t) (S m) k)
             * XX (Wt t) (Bt t) (Gt t) seed (S m) k)).
    { intros t. now rewrite YY_S. }
    apply (is_derive_mulR (fun t => act_df (act (S m)) (PRE N act nrm (Wt t) (Bt t) (Gt t) (S m) k))).
    + apply (is_derive_compR (act_df (act (S m))) (fun t => PRE N act nrm (Wt t) (Bt t) (Gt t) (S m) k)).
      * apply act_derive2. apply Hreg; auto. lia.
      * apply PRE_derive; auto.
    + apply (is_derive_ext (fun t => sumn (N m) (fun j => Wt t m j k * YY (Wt t) (Bt t) (Gt t) seed m j) * nrm (S m))).
      { intros t. now rewrite XX_S. }
      apply is_derive_scalR. unfold ZZ, SRC2. rewrite <- sumn_plus.
      apply (is_derive_sumn (N m) (fun j t => Wt t m j k * YY (Wt t) (Bt t) (Gt t) seed m j)
               (fun j => dW m j k * Y m j + W m j k * TY m j)).
      intros j Hj. apply (is_derive_mulR (fun t => Wt t m j k) (fun t => YY (Wt t) (Bt t) (Gt t) seed m j)).
      * apply HW; auto.
      * apply IH; auto. lia.
Qed.

(** Adjoints. *)
Variable ADJ : nat -> nat -> R.
Hypothesis ADJ_top : forall k, (k < N LT)%nat -> ADJ LT k = act_df (act LT) (P LT k) * nrm LT.
Hypothesis ADJ_step : forall l j, (1 <= l < LT)%nat -> (j < N l)%nat ->
  ADJ l j = sumn (N (S l)) (fun k => ADJ (S l) k * W l j k) * act_df (act l) (P l j) * nrm l.
Variable AA : nat -> nat -> R.
Hypothesis AA_top : forall k, (k < N LT)%nat -> AA LT k = act_d2 (act LT) (P LT k) * X LT k * nrm LT.
Hypothesis AA_step : forall l j, (1 <= l < LT)%nat -> (j < N l)%nat ->
  AA l j = sumn (N (S l)) (fun k => W l j k * (AA (S l) k * act_df (act l) (P l j)
                                    + ADJ (S l) k * act_d2 (act l) (P l j) * X l j)) * nrm l.
Hypothesis HLT : (1 <= LT)%nat.
Hypothesis dG0 : forall k, dG k = 0.

Lemma sum_TAN : sumn (N LT) (TAN LT) =
  sumn LT (fun l => sumn (N (S l)) (fun k => ADJ (S l) k * SRC l k)).
Proof.
  clear HW HB HG Hreg. clear dependent AA.
  set (T := fun l => sumn (N (S l)) (fun k => ADJ (S l) k * UU l k)).
  assert (Htop : sumn (N LT) (TAN LT) = T (LT - 1)%nat).
  { unfold T. replace (S (LT - 1)) with LT by lia. apply sumn_ext. intros k Hk.
    rewrite ADJ_top by auto. destruct LT as [|m]; [lia|]. rewrite TAN_S. rewrite Nat.sub_1_r; simpl pred. ring. }
  rewrite Htop.
  assert (H : forall l, (l < LT)%nat -> T l = sumn (S l) (fun l => sumn (N (S l)) (fun k => ADJ (S l) k * SRC l k))).
  { induction l as [|l IH]; intros Hl.
    - rewrite sumn_S, sumn_0, Rplus_0_l. unfold T. apply sumn_ext. intros k Hk. unfold UU.
      rewrite (sumn_zero (N 0)); [ring|]. intros j Hj. simpl. rewrite dG0. ring.
    - rewrite sumn_S, <- IH by lia. unfold T, UU at 1.
      transitivity (sumn (N (S (S l))) (fun k => ADJ (S (S l)) k * SRC (S l) k)
        + sumn (N (S (S l))) (fun k => sumn (N (S l)) (fun j => ADJ (S (S l)) k * (W (S l) j k * TAN (S l) j)))).
      { rewrite <- sumn_plus. apply sumn_ext. intros k Hk. rewrite sumn_scal. ring. }
      rewrite Rplus_comm. f_equal. rewrite sumn_swap. apply sumn_ext. intros j Hj.
      rewrite (ADJ_step (S l) j) by (auto; lia). rewrite TAN_S.
      transitivity (sumn (N (S (S l))) (fun k => ADJ (S (S l)) k * W (S l) j k)
         * (act_df (act (S l)) (P (S l) j) * (UU l j * nrm (S l)))).
      { rewrite <- sumn_scal_r. apply sumn_ext. intros; ring. }
      ring. }
  rewrite H by lia. replace (S (LT - 1)) with LT by lia. reflexivity.
Qed.

Lemma sum_TY : sumn (N LT) (TY LT) =
  sumn LT (fun l => sumn (N (S l)) (fun k => AA (S l) k * SRC l k + ADJ (S l) k * SRC2 l k)).
Proof.
  clear HW HB HG Hreg.
  set (T := fun l => sumn (N (S l)) (fun k => AA (S l) k * UU l k + ADJ (S l) k * ZZ l k)).
  assert (Htop : sumn (N LT) (TY LT) = T (LT - 1)%nat).
  { unfold T. replace (S (LT - 1)) with LT by lia. apply sumn_ext. intros k Hk.
    rewrite ADJ_top, AA_top by auto. destruct LT as [|m]; [lia|]. rewrite TY_S. rewrite Nat.sub_1_r; simpl pred. ring. }
  rewrite Htop.
  assert (H : forall l, (l < LT)%nat -> T l = sumn (S l) (fun l => sumn (N (S l)) (fun k => AA (S l) k * SRC l k + ADJ (S l) k * SRC2 l k))).
  { induction l as [|l IH]; intros Hl.
    - rewrite sumn_S, sumn_0, Rplus_0_l. unfold T. apply sumn_ext. intros k Hk. unfold UU, ZZ.
      rewrite (sumn_zero (N 0) (fun j => W 0%nat j k * TAN 0 j)) by (intros; simpl; rewrite dG0; ring).
      rewrite (sumn_zero (N 0) (fun j => W 0%nat j k * TY 0 j)) by (intros; simpl; ring). ring.
    - rewrite sumn_S, <- IH by lia. unfold T.
      transitivity (sumn (N (S (S l))) (fun k => AA (S (S l)) k * SRC (S l) k + ADJ (S (S l)) k * SRC2 (S l) k)
        + sumn (N (S (S l))) (fun k => sumn (N (S l)) (fun j =>
             AA (S (S l)) k * (W (S l) j k * TAN (S l) j) + ADJ (S (S l)) k * (W (S l) j k * TY (S l) j)))).
      { rewrite <- sumn_plus. apply sumn_ext. intros k Hk. rewrite sumn_plus, !sumn_scal. unfold UU, ZZ at 1. ring. }
      rewrite Rplus_comm. f_equal. rewrite sumn_swap. apply sumn_ext. intros j Hj.
      rewrite (ADJ_step (S l) j) by (auto; lia). rewrite (AA_step (S l) j) by (auto; lia).
      rewrite TAN_S, TY_S.
      set (a := act_df (act (S l)) (P (S l) j)). set (b := act_d2 (act (S l)) (P (S l) j)).
      set (x := X (S l) j). set (n := nrm (S l)).
      set (u := UU l j). set (z := ZZ l j).
      transitivity (sumn (N (S (S l))) (fun k => (W (S l) j k * (AA (S (S l)) k * a + ADJ (S (S l)) k * b * x)) * (n * u)
          + (ADJ (S (S l)) k * W (S l) j k) * (a * n * z))).
      { apply sumn_ext. intros k Hk. ring. }
      rewrite sumn_plus, !sumn_scal_r. ring. }
  rewrite H by lia. replace (S (LT - 1)) with LT by lia. reflexivity.
Qed.
End Tangent.

(** Without variation of the connections the tangent is [YY]. *)
Lemma TAN_is_YY N act nrm Wt Bt Gt t0 dG : forall l k,
  TAN N act nrm Wt Bt Gt t0 (fun _ _ _ => 0) (fun _ _ => 0) dG l k = YY N act nrm (Wt t0) (Bt t0) (Gt t0) dG l k.
Proof.
  induction l as [|m IH]; intros k; [reflexivity|]. simpl. f_equal. f_equal.
  rewrite Rplus_0_r. apply sumn_ext. intros j Hj. rewrite IH. ring.
Qed.

(** The ideal network only depends on the entries in range. *)
Lemma VAL_ext N act nrm LT W W' B B' G G' :
  (forall l j k, (l < LT)%nat -> (j < N l)%nat -> (k < N (S l))%nat -> W l j k = W' l j k) ->
  (forall l k, (l < LT)%nat -> (k < N (S l))%nat -> B l k = B' l k) ->
  (forall k, (k < N 0)%nat -> G k = G' k) ->
  forall l k, (l <= LT)%nat -> (k < N l)%nat -> VAL N act nrm W B G l k = VAL N act nrm W' B' G' l k.
Proof.
  intros HW HB HG. induction l as [|m IH]; intros k Hl Hk; simpl; auto.
  rewrite HB by auto. f_equal. f_equal. f_equal. apply sumn_ext. intros j Hj. rewrite HW by auto. rewrite IH; auto. lia.
Qed.
Lemma PRE_ext N act nrm LT W W' B B' G G' :
  (forall l j k, (l < LT)%nat -> (j < N l)%nat -> (k < N (S l))%nat -> W l j k = W' l j k) ->
  (forall l k, (l < LT)%nat -> (k < N (S l))%nat -> B l k = B' l k) ->
  (forall k, (k < N 0)%nat -> G k = G' k) ->
  forall l k, (1 <= l <= LT)%nat -> (k < N l)%nat -> PRE N act nrm W B G l k = PRE N act nrm W' B' G' l k.
Proof.
  intros HW HB HG l k Hl Hk. destruct l as [|m]; [lia|]. rewrite !PRE_S. rewrite HB by (auto; lia). f_equal. f_equal.
  apply sumn_ext. intros j Hj. rewrite HW by (auto; lia).
  rewrite (VAL_ext N act nrm LT W W' B B' G G' HW HB HG m j); auto. lia.
Qed.
Lemma YY_ext N act nrm LT W W' B B' G G' seed seed' :
  (forall l j k, (l < LT)%nat -> (j < N l)%nat -> (k < N (S l))%nat -> W l j k = W' l j k) ->
  (forall l k, (l < LT)%nat -> (k < N (S l))%nat -> B l k = B' l k) ->
  (forall k, (k < N 0)%nat -> G k = G' k) -> (forall k, (k < N 0)%nat -> seed k = seed' k) ->
  forall l k, (l <= LT)%nat -> (k < N l)%nat -> YY N act nrm W B G seed l k = YY N act nrm W' B' G' seed' l k.
Proof.
  intros HW HB HG Hs. induction l as [|m IH]; intros k Hl Hk; simpl; auto.
  rewrite (PRE_ext N act nrm LT W W' B B' G G' HW HB HG (S m) k) by (auto; lia). f_equal. f_equal.
  apply sumn_ext. intros j Hj. rewrite HW by auto. rewrite IH; auto. lia.
Qed.
