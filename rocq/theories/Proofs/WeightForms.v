(** Final forms of the derivatives with respect to weights and biases. *)
From Coq Require Import Reals Lra Arith Lia Bool Permutation String.
From Coquelicot Require Import Coquelicot.
From Coq Require Import List.
From Verif Require Import Base.RealBase Base.Vec3 Base.SumR Base.Loop Model.Strings Model.NeuralNetwork Model.Scaling Model.NeighborList Model.SymFunctions
  Model.SymSetup Model.SymCache Model.SymGroups Model.Forces Model.GroupEvaluation Model.UpdatePlan Model.WeightDerivatives
  Spec.NetworkSpec Spec.TrainWeightsSpec Spec.GeometrySpec Spec.NeighborSpec Spec.SymSpec Spec.SetupSpec Spec.GroupSpec Spec.ForceSpec Spec.EvaluationSpec Spec.WeightSpec
  Spec.UpdatePlanSpec Proofs.UpdatePlanProofs
  Proofs.NetProofs Proofs.ForceNet Proofs.NeighborProofs Proofs.SetupProofs Proofs.GroupApi Proofs.ForceProofs Proofs.ForceExamples
  Proofs.GroupForces Proofs.GroupForceExamples Proofs.WeightNet Proofs.WeightProofs Proofs.WeightFinal Proofs.WeightOwn.
Import ListNotations.
Local Open Scope R_scope.

(** ** Without groups *)
Section Plain.
Variables (N : nat) (rc : R) (P : potential) (nsort : list neighbor -> list neighbor) (fuel : nat).
Notation elems := (setupMemoryAll N (map (p_fs P) (seq 0 N))).
Hypothesis HP : sensible N rc P.
Hypothesis Hrc : 0 <= rc.
Hypothesis Hsort : is_sort nsort.
Hypothesis Hone : one_output N P.

Lemma plain_energy s nets : trainable N P rc nsort fuel s -> networks_of N P nets ->
  exists xs nets' row, prepared nsort fuel (p_weight P) elems rc s = Some xs /\
    dPdc (lit "energy") elems nets xs = Some (nets', [row]) /\ networks_of N P nets' /\ List.length row = first_parameter P N /\
    forall e p, (e < N)%nat -> (p < numConnections (p_net P e))%nat ->
      parameter_derivative (plain_evaluation N nsort fuel rc s) P Energy e p (nth (first_parameter P e + p) row 0).
Proof.
  intros Ht Hn. destruct (plain_one N rc P nsort fuel HP Hrc Hsort Hone s Ht) as (xs & Ex & Hset).
  destruct (final_energy N P elems P rc nets (plain_length N P) Hn s xs _ Hset) as (nets' & row & R0). exists xs, nets', row. auto.
Qed.
Lemma plain_force s nets : trainable N P rc nsort fuel s -> networks_of N P nets ->
  (no_self_image s rc \/ forall e f, In f (p_fs P e) -> radial (sf_kind f)) ->
  exists xs nets' rows, prepared nsort fuel (p_weight P) elems rc s = Some xs /\
    dPdc (lit "force") elems nets xs = Some (nets', rows) /\ networks_of N P nets' /\ List.length rows = (3 * List.length (s_atoms s))%nat /\
    forall a c, (a < List.length (s_atoms s))%nat -> (c < 3)%nat -> exists row, nth_error rows (3 * a + c) = Some row /\
      List.length row = first_parameter P N /\
      forall e p, (e < N)%nat -> (p < numConnections (p_net P e))%nat ->
        parameter_derivative (plain_evaluation N nsort fuel rc s) P (Force a c) e p (nth (first_parameter P e + p) row 0).
Proof.
  intros Ht Hn Hh. destruct (plain_one N rc P nsort fuel HP Hrc Hsort Hone s Ht) as (xs & Ex & Hset).
  destruct (final_force N P elems P rc nets (plain_length N P) Hn s xs _ Hset Hh) as (nets' & rows & R0). exists xs, nets', rows. auto.
Qed.
Lemma plain_weights s q nets : trainable N P rc nsort fuel s -> networks_of N P nets -> quantity_of s q -> force_complete P rc s q ->
  exists xs nets' rows, prepared nsort fuel (p_weight P) elems rc s = Some xs /\
    calculateWeightDerivatives q elems nets xs = Some (nets', rows) /\ networks_of N P nets' /\ List.length rows = N /\
    forall e, (e < N)%nat -> exists row, nth_error rows e = Some row /\ List.length row = numConnections (p_net P e) /\
      forall p, (p < numConnections (p_net P e))%nat -> parameter_derivative (plain_evaluation N nsort fuel rc s) P q e p (nth p row 0).
Proof.
  intros Ht Hn Hq Hf. destruct (plain_one N rc P nsort fuel HP Hrc Hsort Hone s Ht) as (xs & Ex & Hset).
  destruct (final_weights N P elems P rc nets (plain_length N P) Hn s xs _ Hset q Hq Hf) as (nets' & rows & R0). exists xs, nets', rows. auto.
Qed.
Lemma plain_jacobian y procs nets :
  l_hardness y = false -> l_conn y = map (fun e => numConnections (p_net P e)) (seq 0 N) -> l_batch y = map (@List.length _) procs ->
  (forall r, (r < List.length procs)%nat -> networks_of N P (nets r)) ->
  (forall r s q, (r < List.length procs)%nat -> In (s, q) (nth r procs []) -> trainable N P rc nsort fuel s /\ quantity_of s q /\ force_complete P rc s q) ->
  exists js d, List.length js = List.length procs /\
    (forall r, (r < List.length procs)%nat -> processContributions (prepared nsort fuel (p_weight P) elems rc) elems (nets r) (nth r procs []) = Some (nth r js [])) /\
    (forall r b s q e p, (r < List.length procs)%nat -> nth_error (nth r procs []) b = Some (s, q) -> (e < N)%nat -> (p < numConnections (p_net P e))%nat ->
       parameter_derivative (plain_evaluation N nsort fuel rc s) P q e p (d r b e p)) /\
    forall w h e, holder y h -> (e < N)%nat -> exists a, updateJacobian y w js h (updater y e) = Some a /\
      List.length a = (rows y * width y (updater y e))%nat /\
      forall k p, (k < rows y)%nat -> (p < numConnections (p_net P e))%nat ->
        nth (k * width y (updater y e) + position y e p) a 0 =
        w * rsum (map (fun r => rsum (map (fun b => d r b e p) (filter (fun b => Nat.eqb (row y r b) k) (seq 0 (List.length (nth r procs []))))))
                      (seq 0 (List.length procs))).
Proof.
  intros H1 H2 H3 H4 H5.
  apply (final_jacobian N P elems P rc nets (plain_length N P) (fun s => plain_evaluation N nsort fuel rc s) (prepared nsort fuel (p_weight P) elems rc) y procs H1 H2 H3 H4).
  intros r s q Hr Hin. destruct (H5 r s q Hr Hin) as (Ht & Hq & Hf). split; auto. exact (plain_one N rc P nsort fuel HP Hrc Hsort Hone s Ht).
Qed.
End Plain.

(** ** Default build *)
Section Default.
Variables (T : Type) (T_dec : forall a b : T, {a = b} + {a <> b}) (fmt : R -> T) (conv : R).
Variables (gsort : list (list symfnc) -> list (list symfnc)) (msort : list symfnc -> list symfnc).
Variables (N : nat) (rc : R) (P : potential) (sc : nat -> nat -> scaling) (nsort : list neighbor -> list neighbor) (fuel : nat).
Notation Q := (scaled_potential sc P).
Notation setup := (setupAll (text T) (text_dec T_dec) (text_of T fmt conv) gsort msort N true (map (p_fs P) (seq 0 N))).
Notation eval := (default_evaluation (text_dec T_dec) (text_of T fmt conv) gsort msort sc N nsort fuel rc).
Hypothesis Hgs : forall l, Permutation l (gsort l).
Hypothesis Hms : forall l, Permutation l (msort l).
Hypothesis Hconv : conv <> 0.
Hypothesis HQ : sensible N rc Q.
Hypothesis HC : cached_and_grouped (text_of T fmt conv) fmt conv sc N P.
Hypothesis Hrc : 0 <= rc.
Hypothesis Hsort : is_sort nsort.
Hypothesis Hone : one_output N P.
Definition elements (es : list gelem) : list elem := map ge_elem (setupScaling sc es).

Lemma default_one es s : setup = Some es -> trainable N Q rc nsort fuel s -> everywhere Q rc s distinct_neighbors ->
  exists xs, preparedGroups nsort fuel (p_weight P) (setupScaling sc es) rc s = Some xs /\ settles N Q (map ge_elem (setupScaling sc es)) P (eval s) rc s xs.
Proof.
  intros Ees (HN & Hs & (s' & Es') & Hev & Hreg) Hd.
  exact (default_settles T T_dec fmt conv gsort msort Hgs Hms Hconv N rc P sc nsort fuel HQ HC Hrc Hsort Hone es s s' Ees HN Hs Es' Hev Hd Hreg).
Qed.
Lemma default_length es : setup = Some es -> List.length (map ge_elem (setupScaling sc es)) = N.
Proof.
  intros Ees. destruct (default_setup T T_dec fmt conv gsort msort Hgs Hms Hconv N rc P sc HQ HC) as (es' & E & L).
  rewrite Ees in E. injection E as <-. exact L.
Qed.

Lemma default_weights s q nets : trainable N Q rc nsort fuel s -> everywhere Q rc s distinct_neighbors -> networks_of N P nets -> quantity_of s q -> force_complete P rc s q ->
  exists es xs nets' rows, setup = Some es /\ preparedGroups nsort fuel (p_weight P) (setupScaling sc es) rc s = Some xs /\
    calculateWeightDerivatives q (map ge_elem (setupScaling sc es)) nets xs = Some (nets', rows) /\ networks_of N P nets' /\ List.length rows = N /\
    forall e, (e < N)%nat -> exists row, nth_error rows e = Some row /\ List.length row = numConnections (p_net P e) /\
      forall p, (p < numConnections (p_net P e))%nat -> parameter_derivative (eval s) P q e p (nth p row 0).
Proof.
  intros Ht Hd Hn Hq Hf. destruct (default_setup T T_dec fmt conv gsort msort Hgs Hms Hconv N rc P sc HQ HC) as (es & Ees & L).
  destruct (default_one es s Ees Ht Hd) as (xs & Ex & Hset).
  destruct (final_weights N Q (map ge_elem (setupScaling sc es)) P rc nets L Hn s xs _ Hset q Hq Hf) as (nets' & rows & R0). exists es, xs, nets', rows. auto.
Qed.
Lemma default_dPdc s nets : trainable N Q rc nsort fuel s -> everywhere Q rc s distinct_neighbors -> networks_of N P nets ->
  exists es xs, setup = Some es /\ preparedGroups nsort fuel (p_weight P) (setupScaling sc es) rc s = Some xs /\
    (exists nets' row, dPdc (lit "energy") (map ge_elem (setupScaling sc es)) nets xs = Some (nets', [row]) /\ networks_of N P nets' /\ List.length row = first_parameter P N /\
       forall e p, (e < N)%nat -> (p < numConnections (p_net P e))%nat -> parameter_derivative (eval s) P Energy e p (nth (first_parameter P e + p) row 0)) /\
    ((no_self_image s rc \/ forall e f, In f (p_fs P e) -> radial (sf_kind f)) ->
     exists nets' rows, dPdc (lit "force") (map ge_elem (setupScaling sc es)) nets xs = Some (nets', rows) /\ networks_of N P nets' /\
       List.length rows = (3 * List.length (s_atoms s))%nat /\
       forall a c, (a < List.length (s_atoms s))%nat -> (c < 3)%nat -> exists row, nth_error rows (3 * a + c) = Some row /\
         List.length row = first_parameter P N /\
         forall e p, (e < N)%nat -> (p < numConnections (p_net P e))%nat ->
           parameter_derivative (eval s) P (Force a c) e p (nth (first_parameter P e + p) row 0)).
Proof.
  intros Ht Hd Hn. destruct (default_setup T T_dec fmt conv gsort msort Hgs Hms Hconv N rc P sc HQ HC) as (es & Ees & L).
  destruct (default_one es s Ees Ht Hd) as (xs & Ex & Hset). exists es, xs. split; [exact Ees|]. split; [exact Ex|]. split.
  - exact (final_energy N Q (map ge_elem (setupScaling sc es)) P rc nets L Hn s xs _ Hset).
  - exact (final_force N Q (map ge_elem (setupScaling sc es)) P rc nets L Hn s xs _ Hset).
Qed.
Lemma default_jacobian y procs nets :
  l_hardness y = false -> l_conn y = map (fun e => numConnections (p_net P e)) (seq 0 N) -> l_batch y = map (@List.length _) procs ->
  (forall r, (r < List.length procs)%nat -> networks_of N P (nets r)) ->
  (forall r s q, (r < List.length procs)%nat -> In (s, q) (nth r procs []) ->
     trainable N Q rc nsort fuel s /\ everywhere Q rc s distinct_neighbors /\ quantity_of s q /\ force_complete P rc s q) ->
  exists es js d, setup = Some es /\ List.length js = List.length procs /\
    (forall r, (r < List.length procs)%nat -> processContributions (preparedGroups nsort fuel (p_weight P) (setupScaling sc es) rc) (map ge_elem (setupScaling sc es)) (nets r) (nth r procs []) = Some (nth r js [])) /\
    (forall r b s q e p, (r < List.length procs)%nat -> nth_error (nth r procs []) b = Some (s, q) -> (e < N)%nat -> (p < numConnections (p_net P e))%nat ->
       parameter_derivative (eval s) P q e p (d r b e p)) /\
    forall w h e, holder y h -> (e < N)%nat -> exists a, updateJacobian y w js h (updater y e) = Some a /\
      List.length a = (rows y * width y (updater y e))%nat /\
      forall k p, (k < rows y)%nat -> (p < numConnections (p_net P e))%nat ->
        nth (k * width y (updater y e) + position y e p) a 0 =
        w * rsum (map (fun r => rsum (map (fun b => d r b e p) (filter (fun b => Nat.eqb (row y r b) k) (seq 0 (List.length (nth r procs []))))))
                      (seq 0 (List.length procs))).
Proof.
  intros H1 H2 H3 H4 H5. destruct (default_setup T T_dec fmt conv gsort msort Hgs Hms Hconv N rc P sc HQ HC) as (es & Ees & L).
  destruct (final_jacobian N Q (map ge_elem (setupScaling sc es)) P rc nets L eval (preparedGroups nsort fuel (p_weight P) (setupScaling sc es) rc) y procs H1 H2 H3 H4) as (js & d & R0).
  { intros r s q Hr Hin. destruct (H5 r s q Hr Hin) as (Ht & Hd & Hq & Hf). split; auto. exact (default_one es s Ees Ht Hd). }
  exists es, js, d. split; [exact Ees|exact R0].
Qed.
Lemma default_vary s q e p : trainable N Q rc nsort fuel s -> everywhere Q rc s distinct_neighbors -> (e < N)%nat -> quantity_of s q ->
  exists w Pt f, tuned P e p w P /\ (forall t, tuned P e p t (Pt t)) /\ forall t, value_in q (eval s (Pt t)) (f t).
Proof.
  intros Ht Hd He Hq.
  assert (V : forall t, tuned P e p t (replace P e p t)).
  { intros t. assert (X := replace_tuned N rc Q HQ e p t He). destruct X as (_ & _ & A & B). split; [reflexivity|]. split; [reflexivity|]. split; [exact A|exact B]. }
  assert (Z : forall t, exists E ys, eval s (replace P e p t) = Some (E, ys) /\ List.length ys = List.length (s_atoms s)).
  { intros t. destruct Ht as (HN & Hs & (s' & Es') & Hev & Hreg). assert (Tt := V t).
    assert (HQ' := tuned_sensible N rc Q e p t _ HQ He (scaled_tuned P sc e p t _ Tt)). destruct Tt as (Ef & Ew & _).
    assert (HC' : cached_and_grouped (text_of T fmt conv) fmt conv sc N (replace P e p t)) by (intros e' He'; rewrite Ef; now apply HC).
    destruct (grouped_evaluation T T_dec fmt conv gsort msort Hgs Hms Hconv N rc (replace P e p t) sc HQ' HC' s nsort fuel s' Hrc HN Hs Hsort Es') as (es' & E & zs & zs' & A & B & C & F).
    { intros i a en g. rewrite Ef. apply (scaled_everywhere sc P rc s _ Hev). } { intros i a en g. rewrite Ef. apply (scaled_everywhere sc P rc s _ Hd). }
    exists E, zs'. split; [unfold default_evaluation; now rewrite A|].
    destruct (evaluation_stages N rc (scaled_potential sc (replace P e p t)) s nsort fuel s' HQ' Hrc HN Hs Hsort Es') as (xs & ys & Ev & _ & L & _).
    { intros i a en g Hi Hen Hg. apply (Hev i a en g Hi Hen). exact Hg. }
    rewrite <- (Forall2_length_eq F). assert (X := eq_trans (eq_sym Ev) B).
    injection X as _ X. rewrite <- X. exact L. }
  destruct (current_tuned N rc Q HQ e p He) as (_ & _ & A & B).
  exists (getConnections (p_net P e) (fun _ => 0) p), (replace P e p),
    (fun t => match eval s (replace P e p t) with
              | Some (E, ys) => match q with Energy => E | Force a c => match nth_error ys a with Some y => comp (e_f y) c | None => 0 end end
              | None => 0 end).
  split; [split; [reflexivity|split; [reflexivity|split; [exact A|exact B]]]|]. split; [exact V|].
  intros t. destruct (Z t) as (E & ys & Ee & L). rewrite Ee. exists E, ys. split; auto. destruct q as [|a c]; auto. destruct Hq as (Ha & _).
  destruct (nth_error ys a) as [y|] eqn:Ey; [eauto|]. apply nth_error_None in Ey. lia.
Qed.
End Default.

(** ** Concrete cases *)
Lemma three_trainable : sensible 2 chain_rc (chain_pot chain_ang 1) /\ one_output 2 (chain_pot chain_ang 1) /\ no_self_image three chain_rc /\
  in_range three chain_rc 0 1 (0, 0, 0)%Z /\ in_range three chain_rc 0 2 (0, 0, 0)%Z /\ (0 < numConnections (p_net (chain_pot chain_ang 1) 0))%nat /\
  exists nsort fuel, is_sort nsort /\ trainable 2 (chain_pot chain_ang 1) chain_rc nsort fuel three.
Proof.
  destruct three_list as (nsort & fuel & s' & Hsort & Es').
  split; [apply chain_sensible; auto|]. split; [apply chain_one|]. split; [exact three_no_self|]. split; [apply three_range|]. split; [apply three_range|]. split; [cbn; lia|].
  exists nsort, fuel. split; [exact Hsort|]. split; [reflexivity|]. split; [exact three_unprocessed|]. split; [eauto|]. split.
  - intros i a e g Hi He Hg. apply (three_smooth i a e g Hi He Hg).
  - intros i a e _ _. cbn [chain_pot p_net]. destruct (Nat.eqb _ 0); apply line_regular.
Qed.
Lemma duo_trainable : sensible 2 chain_rc (scaled_potential duo_sc duo) /\ cached_and_grouped (text_of R (fun x => x) 1) (fun x => x) 1 duo_sc 2 duo /\
  one_output 2 duo /\ everywhere (scaled_potential duo_sc duo) chain_rc three distinct_neighbors /\ force_complete duo chain_rc three (Force 0 1) /\ quantity_of three (Force 0 1) /\
  exists nsort fuel, is_sort nsort /\ trainable 2 (scaled_potential duo_sc duo) chain_rc nsort fuel three.
Proof.
  destruct duo_ok as (A & B & C & (nsort & fuel & s' & Hsort & Es') & D1 & D2 & E & F & _).
  split; [exact A|]. split; [exact B|]. split; [intros e _; cbn; destruct (Nat.eqb e 0); reflexivity|]. split; [exact D2|]. split; [now left|]. split; [cbn; lia|].
  exists nsort, fuel. split; [exact Hsort|]. split; [reflexivity|]. split; [exact C|]. split; [eauto|]. split; [|exact E].
  intros i a e g Hi He Hg. apply (D1 i a e g Hi He Hg).
Qed.
(** Two processes with two and one update candidates (energy and force). *)
Definition three_procs : list (list (structure * quantity)) := [[(three, Energy); (three, Force 0 1)]; [(three, Force 2 0)]].
Definition three_layout : layout := mkLayout PM_TRAIN_RK0 JM_FULL US_ELEMENT false [4; 4]%nat [2; 1]%nat.
Lemma three_jacobian : l_hardness three_layout = false /\ l_conn three_layout = map (fun e => numConnections (p_net (chain_pot chain_ang 1) e)) (seq 0 2) /\
  l_batch three_layout = map (@List.length _) three_procs /\ holder three_layout 0 /\ rows three_layout = 3%nat /\
  exists nsort fuel, is_sort nsort /\ forall r s q, (r < List.length three_procs)%nat -> In (s, q) (nth r three_procs []) ->
    trainable 2 (chain_pot chain_ang 1) chain_rc nsort fuel s /\ quantity_of s q /\ force_complete (chain_pot chain_ang 1) chain_rc s q.
Proof.
  split; [reflexivity|]. split; [reflexivity|]. split; [reflexivity|]. split; [unfold holder; cbn; auto with arith|]. split; [reflexivity|].
  destruct three_trainable as (_ & _ & Hns & _ & _ & _ & nsort & fuel & Hsort & Ht). exists nsort, fuel. split; [exact Hsort|].
  intros [|[|r]] s q Hr Hin; cbn in Hr, Hin.
  - destruct Hin as [E|[E|[]]]; injection E as <- <-; (split; [exact Ht|]); cbn; split; auto; lia.
  - destruct Hin as [E|[]]; injection E as <- <-; (split; [exact Ht|]); cbn; split; auto; lia.
  - lia.
Qed.
