(** Property C101: sensitivity analysis. *)
From Coq Require Import Reals ZArith List Bool Ascii String Permutation.
From Verif Require Import Base.SumR Model.Strings Model.Printf Model.SymLines Model.DataFiles Model.Sensitivity
  Spec.StringSpec Spec.SensitivitySpec Proofs.SensitivityProofs.
From Coq Require Import List.
Import ListNotations.
Local Open Scope R_scope.

(** However the atoms are distributed over the processes, row [j] of element [e]
    describes the derivatives of all atoms of that element. *)
Theorem C101_sensitivity : forall conv nsf procs, procs <> [] -> Forall (fitting nsf) (concat procs) ->
  exists elements, sensitivities conv nsf procs = Done elements /\ length elements = length nsf /\
  forall e n, nth_error nsf e = Some n -> exists rows, nth_error elements e = Some rows /\ length rows = n /\
  forall j r, nth_error rows j = Some r -> describes_row r e n j (concat procs) conv.
Proof. exact sensitivity_rows. Qed.
Print Assumptions C101_sensitivity.
(** The result depends only on which atoms there are. *)
Theorem C101_distribution : forall conv nsf procs procs', procs <> [] -> procs' <> [] -> Forall (fitting nsf) (concat procs) ->
  Permutation (concat procs) (concat procs') -> sensitivities conv nsf procs = sensitivities conv nsf procs'.
Proof. exact distribution. Qed.
Print Assumptions C101_distribution.
(** The percentages of an element are not negative and their sum is 100. *)
Theorem C101_percent : forall conv nsf procs elements e rows, sensitivities conv nsf procs = Done elements -> procs <> [] -> Forall (fitting nsf) (concat procs) ->
  nth_error elements e = Some rows -> forall value, value = se_msa_norm \/ value = se_max_norm ->
  forall vs, Forall2 (fun r v => value r = Some v) rows vs -> rows <> [] -> rsum vs = 100 /\ Forall (fun v => 0 <= v) vs.
Proof. exact percents. Qed.
Print Assumptions C101_percent.
(** The file of an element: comment lines, then one line for each row. *)
Theorem C101_file : forall normalize symbol rows, ~ In (ascii_of_nat 10) symbol -> (forall r, In r rows -> (Z.of_nat (se_index r) < 2 ^ 31)%Z) ->
  exists h ls, sens_header normalize symbol = Done h /\ (forall t, In t h -> exists c, t = "#"%char :: c) /\
    sens_file normalize symbol rows = Done (appendLines h ++ concat (map (fun l => l ++ [ascii_of_nat 10]) ls)) /\
    Forall2 (fun l r => ~ In (ascii_of_nat 10) l /\ is_words l (sens_words r)) ls rows.
Proof. exact sens_text. Qed.
Print Assumptions C101_file.
(** The pruning tool reads from that file the percentages asked for, as printed
    with nine digits, if the number of symmetry functions is the same, and throws
    otherwise. *)
Theorem C101_prune_reads : forall normalize symbol rows mode value vs, ~ In (ascii_of_nat 10) symbol -> (forall r, In r rows -> (Z.of_nat (se_index r) < 2 ^ 31)%Z) ->
  (mode = lit "msa" /\ value = se_msa_norm \/ mode = lit "max" /\ value = se_max_norm) ->
  Forall2 (fun r v => value r = Some v) rows vs ->
  exists text c, sens_file normalize symbol rows = Done text /\ sens_column mode = Done c /\
    read_sensitivity c (length rows) text = Done (map (fun v => atof (print_E 8 v)) vs) /\
    forall n, n <> length rows -> read_sensitivity c n text = Thrown.
Proof. exact prune_reads. Qed.
Print Assumptions C101_prune_reads.

(** Two elements on three processes, one without structures. *)
Example C101_three_processes : Forall (fitting [2; 1]%nat) (concat case_procs) /\ exists r rest,
  sensitivities (Some 2) [2; 1]%nat case_procs = Done ([r; rest] :: [[mkSensRow 1 (Some 100) (Some 100) (Some (Some 1, 1)) (Some 2) 2]]) /\
  se_msa_norm r = Some 100 /\ se_msa r = Some (sqrt (25 / 2)) /\ se_max r = 4 /\ se_max_norm r = Some 100 /\ se_msa rest = Some 0 /\ se_max_norm rest = Some 0.
Proof. exact case_sens. Qed.
