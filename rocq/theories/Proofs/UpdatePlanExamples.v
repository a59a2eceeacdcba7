From Coq Require Import Reals Lra Bool Arith Lia.
From Verif Require Import Base.SumR Model.SymFunctions Model.UpdatePlan Spec.UpdatePlanSpec Proofs.UpdatePlanProofs.
From Coq Require Import List.
Import ListNotations.

(** One process, two structures per update, charges of HDNNP_4G: the error of the first is lost. *)
Definition chargeLayout : layout := mkLayout PM_TRAIN_RK0 JM_SUM US_COMBINED true [1] [2].
Lemma charge_errors_overwritten : exists y es a, holder y 0 /\ length es = numProcs y /\
  (forall r x, r < numProcs y -> In x (nth r es []) -> e_b x < nth r (l_batch y) 0 /\ e_u x < numUpdaters y) /\
  updateError y 1 es 0 0 = Some a /\ nth 0 a 0%R <> wanted_e y es 0 0.
Proof.
  exists chargeLayout, [[mkE 0 0 true 1; mkE 1 0 true 2]], [(0 + 2 * 1)%R].
  split. { split; [cbn; lia|reflexivity]. } split; [reflexivity|]. split.
  { intros [|r] x Hr I; [|cbn in Hr; lia]. cbn in I. destruct I as [<-|[<-|[]]]; cbn; lia. }
  split. { lazy -[IZR Rplus Rmult]. reflexivity. } cbn. lra.
Qed.
(** Two processes with two and one structures, two elements with hardness. *)
Definition exLayout : layout := mkLayout PM_TRAIN_ALL JM_FULL US_COMBINED true [2; 3] [2; 1].
Definition exJ : list (list jentry) := [[mkJ 0 0 1 5; mkJ 1 1 3 7; mkJ 1 1 3 1]; [mkJ 0 1 0 2]].
Lemma exLayout_ok : holder exLayout 1 /\ length exJ = numProcs exLayout /\ 0 < numUpdaters exLayout /\
  (forall r x, r < numProcs exLayout -> In x (nth r exJ []) -> valid_j exLayout r x) /\
  rows exLayout = 3 /\ width exLayout 0 = 7 /\ wanted_j exLayout exJ 1 0 6 = 8%R /\ wanted_j exLayout exJ 2 0 3 = 2%R.
Proof.
  split. { split; [cbn; lia|discriminate]. } split; [reflexivity|]. split; [cbn; lia|]. split.
  { intros [|[|r]] x Hr I; [| |cbn in Hr; lia]; cbn in I; unfold valid_j; destruct I as [<-|I]; try (cbn; lia); repeat (destruct I as [<-|I]; [cbn; lia|]); contradiction. }
  split; [reflexivity|]. split; [reflexivity|]. split; cbn; lra.
Qed.
Definition exE : list (list eentry) := [[mkE 0 0 false 5; mkE 1 0 false 7]; [mkE 0 0 false 2]].
Lemma exE_ok : length exE = numProcs exLayout /\ (forall r x, r < numProcs exLayout -> In x (nth r exE []) -> valid_e exLayout r x) /\ wanted_e exLayout exE 2 0 = 2%R.
Proof.
  split; [reflexivity|]. split; [|cbn; lra].
  intros [|[|r]] x Hr I; [| |cbn in Hr; lia]; cbn in I; unfold valid_e; destruct I as [<-|I]; try (cbn; repeat split; lia); repeat (destruct I as [<-|I]; [cbn; repeat split; lia|]); contradiction.
Qed.
