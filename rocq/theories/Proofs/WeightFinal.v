(** Derivatives with respect to weights and biases as the training code calculates them, without groups and in the default build. *)
From Coq Require Import Reals Lra Arith Lia Bool Permutation String.
From Coquelicot Require Import Coquelicot.
From Coq Require Import List.
From Verif Require Import Base.RealBase Base.Vec3 Base.SumR Base.Loop Model.Strings Model.NeuralNetwork Model.Scaling Model.NeighborList Model.SymFunctions
  Model.SymSetup Model.SymCache Model.SymGroups Model.Forces Model.GroupEvaluation Model.UpdatePlan Model.WeightDerivatives
  Spec.NetworkSpec Spec.TrainWeightsSpec Spec.GeometrySpec Spec.NeighborSpec Spec.SymSpec Spec.SetupSpec Spec.GroupSpec Spec.ForceSpec Spec.EvaluationSpec Spec.WeightSpec
  Spec.UpdatePlanSpec Proofs.UpdatePlanProofs
  Proofs.CutoffProofs Proofs.NetLayout Proofs.NetForward Proofs.NetGrad Proofs.NetProofs Proofs.ForceNet Proofs.NeighborProofs Proofs.SymGrad Proofs.SetupProofs Proofs.GroupApi Proofs.ForceAssembly Proofs.ForceProofs
  Proofs.GroupForces Proofs.WeightNet Proofs.WeightCollect Proofs.WeightSums Proofs.WeightProofs.
Import ListNotations.
Local Open Scope R_scope.

(** ** Equal symmetry functions *)
Lemma collect_same e e' x y i a c : same_tables e e' -> same_but_cache x y -> collectDGdxia e x i a c = collectDGdxia e' y i a c.
Proof. intros (T1 & T2 & T3) (A & _ & C & _). unfold collectDGdxia. now rewrite T1, T2, T3, A, C. Qed.
Lemma derivative_same q e e' x y i nn buf : same_tables e e' -> same_but_cache x y -> derivative q e i x nn buf = derivative q e' i y nn buf.
Proof. intros HT HX. destruct q as [|a c]; auto. cbn. now rewrite (collect_same e e' x y i a c HT HX). Qed.
Lemma st_refl e : same_tables e e. Proof. repeat split. Qed.
Lemma D_same N P q xs ys i p : Forall2 same_but_cache xs ys -> D N P q xs i p = D N P q ys i p.
Proof.
  intros H. unfold D, nthR. assert (Q := F2_nth_error _ _ _ H i).
  destruct (nth_error xs i) as [x|], (nth_error ys i) as [y|]; try contradiction; auto. cbn zeta.
  rewrite (derivative_same q _ _ x y i _ _ (st_refl _) Q). destruct Q as (A & B & _). now rewrite A, B.
Qed.
Lemma total_same N P q xs ys e p : Forall2 same_but_cache xs ys -> total xs (D N P q xs) e p = total ys (D N P q ys) e p.
Proof.
  intros H. unfold total, part. rewrite (Forall2_length_eq H). apply sumn_ext. intros i _. unfold nthR. assert (Q := F2_nth_error _ _ _ H i).
  destruct (nth_error xs i) as [x|], (nth_error ys i) as [y|]; try contradiction; auto. destruct Q as (A & _). rewrite A, (D_same N P q xs ys i p H). reflexivity.
Qed.
Lemma summable_same elems elems' base N P q xs ys : Forall2 same_tables elems elems' -> Forall2 same_but_cache xs ys ->
  summable elems base q xs (D N P q xs) -> summable elems' base q ys (D N P q ys).
Proof.
  intros HT HX HS i y nets buf Ey Hn. assert (Q := F2_nth_error _ _ _ HX i). rewrite Ey in Q. destruct (nth_error xs i) as [x|] eqn:Ex; [|contradiction].
  destruct (HS i x nets buf Ex) as (He & Sn & el & Eel & Ll & d & Ed & Hd).
  { intros e He. apply Hn. rewrite <- (Forall2_length_eq HT). exact He. }
  assert (Q' := Q). destruct Q' as (A & B & _). rewrite A, B in *. cbn zeta. split; [rewrite <- (Forall2_length_eq HT); exact He|]. split; [exact Sn|].
  assert (Tq := F2_nth_error _ _ _ HT (a_element (e_atom y))). rewrite Eel in Tq. destruct (nth_error elems' (a_element (e_atom y))) as [el'|]; [|contradiction].
  exists el'. split; auto. split; [destruct Tq as (<- & _); exact Ll|]. exists d. split; [rewrite <- Ed; symmetry; now apply derivative_same|].
  intros p Hp. rewrite <- (D_same N P q xs ys i p HX). auto.
Qed.

(** ** One structure *)
(** The derivatives can be summed up and are those of what [eval] predicts. *)
Definition settles (N : nat) (P0 : potential) (elems : list elem) (P : potential) (eval : potential -> option (R * list eatom)) (rc : R) (s : structure) (xs : list eatom) : Prop :=
  List.length xs = List.length (s_atoms s) /\
  forall q, component q -> summable elems (p_net P) q xs (D N P0 q xs) /\
  (quantity_of s q -> force_complete P rc s q -> forall e p, (e < N)%nat -> (p < numConnections (p_net P e))%nat ->
    parameter_derivative eval P q e p (total xs (D N P0 q xs) e p)).

Lemma plain_settles N rc P s nsort fuel s' : sensible N rc P -> 0 <= rc -> s_numElements s = N -> unprocessed rc s -> is_sort nsort ->
  calculateNeighborList nsort fuel rc false s = Some s' -> everywhere P rc s evaluable -> one_output N P -> regular_networks P rc s ->
  exists xs, prepared nsort fuel (p_weight P) (setupMemoryAll N (map (p_fs P) (seq 0 N))) rc s = Some xs /\
    settles N P (setupMemoryAll N (map (p_fs P) (seq 0 N))) P (plain_evaluation N nsort fuel rc s) rc s xs.
Proof.
  intros HP Hrc HN Hs Hsort Es' Hev Hone Hreg.
  destruct (functions_stage N rc P s nsort fuel s' HP Hrc HN Hs Hsort Es' Hev) as (xs & E0 & L & Pr).
  exists xs. split; [unfold prepared; now rewrite Es'|]. split; [exact L|]. intros q Hc. split.
  - eapply (summable_ok N rc P s); eauto.
    + unfold setupMemoryAll. now rewrite !map_length, seq_length.
    + intros e He. now apply elem_at.
  - intros Hq Hfc e p He Hp. eapply (total_derivative N rc P s nsort fuel s'); eauto.
Qed.

Section Default.
Variables (T : Type) (T_dec : forall a b : T, {a = b} + {a <> b}) (fmt : R -> T) (conv : R).
Variables (gsort : list (list symfnc) -> list (list symfnc)) (msort : list symfnc -> list symfnc).
Hypothesis Hgs : forall l, Permutation l (gsort l).
Hypothesis Hms : forall l, Permutation l (msort l).
Hypothesis Hconv : conv <> 0.
Variables (N : nat) (rc : R) (P : potential) (sc : nat -> nat -> scaling) (nsort : list neighbor -> list neighbor) (fuel : nat).
Notation Q := (scaled_potential sc P).
Hypothesis HQ : sensible N rc Q.
Hypothesis HC : cached_and_grouped (text_of T fmt conv) fmt conv sc N P.
Hypothesis Hrc : 0 <= rc.
Hypothesis Hsort : is_sort nsort.
Hypothesis Hone : one_output N P.
Notation setup P := (setupAll (text T) (text_dec T_dec) (text_of T fmt conv) gsort msort N true (map (p_fs P) (seq 0 N))).
Notation eval := (default_evaluation (text_dec T_dec) (text_of T fmt conv) gsort msort sc N nsort fuel rc).

Lemma scaled_tuned e p t P' : tuned P e p t P' -> tuned Q e p t (scaled_potential sc P').
Proof. intros (A & B & C & E). split; [cbn; now rewrite A|]. split; auto. Qed.

Lemma default_settles es s s' : setup P = Some es -> s_numElements s = N -> unprocessed rc s -> calculateNeighborList nsort fuel rc false s = Some s' ->
  everywhere Q rc s evaluable -> everywhere Q rc s distinct_neighbors -> regular_networks Q rc s ->
  exists xs, preparedGroups nsort fuel (p_weight P) (setupScaling sc es) rc s = Some xs /\
    settles N Q (map ge_elem (setupScaling sc es)) P (eval s) rc s xs.
Proof.
  intros Ees HN Hs Es' Hev Hdi Hreg.
  destruct (grouped_evaluation_sf T T_dec fmt conv gsort msort Hgs Hms Hconv N rc P sc HQ HC s nsort fuel s' Hrc HN Hs Hsort Es'
     (scaled_everywhere sc P rc s _ Hev) (scaled_everywhere sc P rc s _ Hdi)) as (es1 & xs0 & ys0 & _ & _ & _ & A & ST & E0 & Y0 & F0 & _).
  rewrite Ees in A. injection A as <-.
  assert (Hone' : one_output N Q) by exact Hone.
  destruct (plain_settles N rc Q s nsort fuel s' HQ Hrc HN Hs Hsort Es' Hev Hone' Hreg) as (xs & Ex & Lx & HS).
  unfold prepared in Ex. rewrite Es' in Ex. change (p_weight Q) with (p_weight P) in Ex. rewrite E0 in Ex. injection Ex as <-.
  exists ys0. split; [unfold preparedGroups; now rewrite Es'|]. split; [rewrite <- Lx; symmetry; apply (Forall2_length_eq F0)|].
  intros q Hc. destruct (HS q Hc) as (S1 & S2). split; [eapply summable_same; eauto; exact S1|].
  intros Hq Hfc e p He Hp. rewrite <- (total_same N Q q xs0 ys0 e p F0).
  assert (Hfc' : force_complete Q rc s q).
  { destruct q; auto. destruct Hfc as [H|H]; [now left|right]. intros e' f Hf. apply in_map_iff in Hf as (h & <- & Hh). exact (H e' h Hh). }
  specialize (S2 Hq Hfc' e p He Hp). intros w Pt f Hw Ht Hv.
  apply (S2 w (fun t => scaled_potential sc (Pt t)) f).
  { now apply scaled_tuned. } { intros t. now apply scaled_tuned. }
  intros t. specialize (Hv t). specialize (Ht t).
  assert (HQ' := tuned_sensible N rc Q e p t _ HQ He (scaled_tuned e p t _ Ht)).
  destruct Ht as (Ef & Ew & _). set (P' := Pt t) in *.
  assert (HC' : cached_and_grouped (text_of T fmt conv) fmt conv sc N P') by (intros e' He'; rewrite Ef; now apply HC).
  destruct (grouped_evaluation T T_dec fmt conv gsort msort Hgs Hms Hconv N rc P' sc HQ' HC' s nsort fuel s' Hrc HN Hs Hsort Es') as (es' & E & zs & zs' & A & B & C & F).
  { intros i a en g. rewrite Ef. apply (scaled_everywhere sc P rc s _ Hev). } { intros i a en g. rewrite Ef. apply (scaled_everywhere sc P rc s _ Hdi). }
  destruct Hv as (E2 & ys & Eev & Hv). unfold default_evaluation in Eev. rewrite A, C in Eev. injection Eev as <- <-.
  exists E, zs. split; [exact B|]. destruct q as [|a c]; auto. destruct Hv as (y & Ey & ->). assert (Z := F2_nth_error _ _ _ F a). rewrite Ey in Z.
  destruct (nth_error zs a) as [z|]; [|contradiction]. exists z. split; auto. destruct Z as (_ & _ & _ & _ & _ & Z). now rewrite Z.
Qed.
Lemma default_setup : exists es, setup P = Some es /\ List.length (map ge_elem (setupScaling sc es)) = N.
Proof.
  destruct (setup_some T T_dec fmt conv gsort msort Hgs Hms Hconv N rc P sc HQ HC) as (es & E & L & _). exists es. split; auto.
  unfold setupScaling. now rewrite map_length, mapi_length.
Qed.
End Default.

(** ** The training functions *)
Section Final.
Variables (N : nat) (P0 : potential) (elems : list elem) (P : potential) (rc : R) (nets : nat -> network).
Hypothesis HL : List.length elems = N.
Hypothesis Hn : networks_of N P nets.
Lemma nets_fine : nets_ok elems (p_net P) nets.
Proof. intros e He. apply Hn. lia. Qed.
Lemma fine_nets nets' : nets_ok elems (p_net P) nets' -> networks_of N P nets'.
Proof. intros H e He. apply H. lia. Qed.
Section One.
Variables (s : structure) (xs : list eatom) (eval : potential -> option (R * list eatom)).
Hypothesis Hset : settles N P0 elems P eval rc s xs.

Lemma final_energy : exists nets' row, dPdc (lit "energy") elems nets xs = Some (nets', [row]) /\ networks_of N P nets' /\
  List.length row = first_parameter P N /\
  forall e p, (e < N)%nat -> (p < numConnections (p_net P e))%nat -> parameter_derivative eval P Energy e p (nth (first_parameter P e + p) row 0).
Proof.
  destruct Hset as (Lx & Hq). destruct (Hq Energy I) as (S1 & S2).
  destruct (energy_rows elems (p_net P) nets xs _ nets_fine S1) as (nets' & row & E & F & L & V).
  exists nets', row. split; [exact E|]. split; [now apply fine_nets|]. split; [rewrite L, HL; reflexivity|].
  intros e p He Hp. rewrite HL in V. unfold first_parameter.
  change (list_sum (map (fun e => numConnections (p_net P e)) (seq 0 e))) with (first (p_net P) e).
  rewrite (V e p He Hp). apply (S2 I I e p He Hp).
Qed.
Lemma final_force : (no_self_image s rc \/ forall e f, In f (p_fs P e) -> radial (sf_kind f)) ->
  exists nets' rows, dPdc (lit "force") elems nets xs = Some (nets', rows) /\ networks_of N P nets' /\ List.length rows = (3 * List.length (s_atoms s))%nat /\
  forall a c, (a < List.length (s_atoms s))%nat -> (c < 3)%nat -> exists row, nth_error rows (3 * a + c) = Some row /\ List.length row = first_parameter P N /\
    forall e p, (e < N)%nat -> (p < numConnections (p_net P e))%nat -> parameter_derivative eval P (Force a c) e p (nth (first_parameter P e + p) row 0).
Proof.
  intros Hh. destruct Hset as (Lx & Hq).
  destruct (force_rows elems (p_net P) nets xs (fun a c => D N P0 (Force a c) xs) nets_fine) as (nets' & rows & E & F & L & V).
  { intros a c _ Hc. apply (Hq (Force a c) Hc). }
  exists nets', rows. split; [exact E|]. split; [now apply fine_nets|]. split; [rewrite L, Lx; reflexivity|].
  intros a c Ha Hc. destruct (V a c) as (row & Er & Lr & Vr); auto. { lia. } exists row. split; [exact Er|]. split; [rewrite Lr, HL; reflexivity|].
  intros e p He Hp. rewrite HL in Vr. unfold first_parameter.
  change (list_sum (map (fun e => numConnections (p_net P e)) (seq 0 e))) with (first (p_net P) e).
  rewrite (Vr e p He Hp). apply (Hq (Force a c) Hc); auto. split; auto.
Qed.
Lemma final_weights q : quantity_of s q -> force_complete P rc s q ->
  exists nets' rows, calculateWeightDerivatives q elems nets xs = Some (nets', rows) /\ networks_of N P nets' /\ List.length rows = N /\
  forall e, (e < N)%nat -> exists row, nth_error rows e = Some row /\ List.length row = numConnections (p_net P e) /\
    forall p, (p < numConnections (p_net P e))%nat -> parameter_derivative eval P q e p (nth p row 0).
Proof.
  intros H1 H2. destruct Hset as (Lx & Hq). assert (Hc : component q) by (destruct q; [exact I|apply H1]). destruct (Hq q Hc) as (S1 & S2).
  destruct (weight_rows elems (p_net P) q nets xs _ nets_fine S1) as (nets' & rows & E & F & L & V).
  exists nets', rows. split; [exact E|]. split; [now apply fine_nets|]. split; [congruence|]. rewrite HL in V.
  intros e He. destruct (V e He) as (row & Er & Lr & Vr). exists row. split; [exact Er|]. split; [exact Lr|]. intros p Hp. rewrite (Vr p Hp). now apply S2.
Qed.
End One.
End Final.

(** ** Jacobian *)
Lemma rsum_filter {A} (F : A -> bool) (f : A -> R) l : rsum (map f (filter F l)) = rsum (map (fun b => if F b then f b else 0) l).
Proof. induction l as [|a l IH]; auto. cbn [filter map]. destruct (F a); cbn [map rsum fold_right]; unfold rsum in *; cbn; rewrite IH; ring. Qed.
Lemma sort_by_batch (F : nat -> bool) (G : jentry -> bool) nb l : (forall x, In x l -> (j_b x < nb)%nat) ->
  rsum (map j_v (filter (fun x => F (j_b x) && G x)%bool l)) =
  rsum (map (fun b => rsum (map j_v (filter (fun x => Nat.eqb (j_b x) b && G x)%bool l))) (filter F (seq 0 nb))).
Proof.
  intros H. rewrite !rsum_filter. fold (sumn nb (fun b => if F b then rsum (map j_v (filter (fun x => Nat.eqb (j_b x) b && G x)%bool l)) else 0)).
  induction l as [|x l IH].
  - cbn. symmetry. apply sumn_zero. intros b _. destruct (F b); reflexivity.
  - match goal with |- rsum (map ?h (x :: l)) = _ => change (rsum (map h (x :: l))) with (h x + rsum (map h l)) end. cbv beta. rewrite IH by (intros; apply H; now right).
    assert (E : (if (F (j_b x) && G x)%bool then j_v x else 0) = sumn nb (fun b => if (Nat.eqb (j_b x) b && (F b && G x))%bool then j_v x else 0)).
    { rewrite (sumn_single nb _ (j_b x)).
      - now rewrite Nat.eqb_refl.
      - apply H. now left.
      - intros b _ Hb. destruct (Nat.eqb_spec (j_b x) b); [congruence|reflexivity]. }
    rewrite E, <- sumn_plus. apply sumn_ext. intros b _. cbn [filter]. destruct (Nat.eqb (j_b x) b), (F b), (G x); cbn [andb map rsum]; try ring;
      match goal with |- _ = rsum (?a :: ?r) => change (rsum (a :: r)) with (a + rsum r) end; ring.
Qed.

Section Jacobian.
Variables (N : nat) (P0 : potential) (elems : list elem) (P : potential) (rc : R) (nets : nat -> nat -> network).
Hypothesis HL : List.length elems = N.
Variables (eval : structure -> potential -> option (R * list eatom)).
Variables (prep : structure -> option (list eatom)).
Variables (y : layout) (procs : list (list (structure * quantity))).
Hypothesis Hy1 : l_hardness y = false.
Hypothesis Hy2 : l_conn y = map (fun e => numConnections (p_net P e)) (seq 0 N).
Hypothesis Hy3 : l_batch y = map (@List.length _) procs.
Hypothesis Hn : forall r, (r < List.length procs)%nat -> networks_of N P (nets r).
Hypothesis Hcand : forall r s q, (r < List.length procs)%nat -> In (s, q) (nth r procs []) ->
  (exists xs, prep s = Some xs /\ settles N P0 elems P (eval s) rc s xs) /\ quantity_of s q /\ force_complete P rc s q.

Lemma slots_conns e : (e < N)%nat -> slots y e = numConnections (p_net P e).
Proof.
  intros He. unfold slots. rewrite Hy1, Hy2. rewrite (nth_indep _ 0%nat (numConnections (p_net P 0%nat))) by now rewrite map_length, seq_length.
  rewrite (map_nth (fun e => numConnections (p_net P e))), seq_nth by auto. cbn. destruct (l_strat y); lia.
Qed.
Lemma layout_elements : numElements y = N.
Proof. unfold numElements. now rewrite Hy2, map_length, seq_length. Qed.
Lemma layout_procs : numProcs y = List.length procs.
Proof. unfold numProcs. now rewrite Hy3, map_length. Qed.
Lemma layout_batch r : nth r (l_batch y) 0%nat = List.length (nth r procs []).
Proof. rewrite Hy3. change 0%nat with (List.length (@nil (structure * quantity))). apply (map_nth (@List.length _)). Qed.

Lemma process_derivatives r : (r < List.length procs)%nat -> exists js, processContributions prep elems (nets r) (nth r procs []) = Some js /\
  (forall x, In x js -> (j_b x < List.length (nth r procs []))%nat /\ (j_i x < N)%nat /\ (j_j x < numConnections (p_net P (j_i x)))%nat) /\
  forall b s q e p, nth_error (nth r procs []) b = Some (s, q) -> (e < N)%nat -> (p < numConnections (p_net P e))%nat ->
    parameter_derivative (eval s) P q e p (amount b e p js).
Proof.
  intros Hr. assert (HF := fun s q => Hcand r s q Hr). set (sqs := nth r procs []) in *.
  assert (HC : exists cs, sequence (map (fun sq => match prep (fst sq) with None => None | Some xs => Some (snd sq, xs) end) sqs) = Some cs /\
    Forall2 (fun sq (c : quantity * list eatom) => fst c = snd sq /\ settles N P0 elems P (eval (fst sq)) rc (fst sq) (snd c) /\ quantity_of (fst sq) (snd sq) /\ force_complete P rc (fst sq) (snd sq)) sqs cs).
  { clear - HF. induction sqs as [|[s q] l IH]; cbn; [eauto|]. destruct (HF s q (or_introl eq_refl)) as ((xs & E & S1) & S2 & S3).
    destruct IH as (cs & -> & F); [intros; apply HF; now right|]. rewrite E. eexists. split; [reflexivity|]. constructor; auto. }
  clear HF. destruct HC as (cs & Ecs & HF). unfold processContributions. rewrite Ecs.
  assert (Hne : nets_ok elems (p_net P) (nets r)) by (intros e He; apply Hn; [exact Hr|lia]).
  destruct (process_ok elems (p_net P) (nets r) cs (fun b => match nth_error cs b with Some c => D N P0 (fst c) (snd c) | None => fun _ _ => 0 end) Hne) as (js & E & W & V).
  { intros b c Hc. rewrite Hc. assert (Q := F2_nth_error _ _ _ HF b). rewrite Hc in Q. destruct (nth_error sqs b) as [[s q]|]; [|contradiction].
    cbn [fst snd] in Q. destruct Q as (-> & (_ & HS) & Hq & _). apply (HS q). destruct q; [exact I|apply Hq]. }
  exists js. split; [exact E|]. split.
  { intros x Hx. destruct (W x Hx) as (A & B & C). rewrite (Forall2_length_eq HF). split; [exact A|]. split; [lia|exact C]. }
  intros b s q e p Hb He Hp. assert (Q := F2_nth_error _ _ _ HF b). rewrite Hb in Q. destruct (nth_error cs b) as [c|] eqn:Ec; [|contradiction].
  cbn [fst snd] in Q. destruct Q as (Eq & (_ & HS) & Hq & Hfc). rewrite (V b c e p Ec) by (auto; lia). rewrite Ec, Eq.
  apply (HS q); auto. destruct q; [exact I|apply Hq].
Qed.

Lemma final_jacobian : exists js d, List.length js = List.length procs /\
  (forall r, (r < List.length procs)%nat -> processContributions prep elems (nets r) (nth r procs []) = Some (nth r js [])) /\
  (forall r b s q e p, (r < List.length procs)%nat -> nth_error (nth r procs []) b = Some (s, q) -> (e < N)%nat -> (p < numConnections (p_net P e))%nat ->
     parameter_derivative (eval s) P q e p (d r b e p)) /\
  forall w h e, holder y h -> (e < N)%nat -> exists a, updateJacobian y w js h (updater y e) = Some a /\
    List.length a = (rows y * width y (updater y e))%nat /\
    forall k p, (k < rows y)%nat -> (p < numConnections (p_net P e))%nat ->
      nth (k * width y (updater y e) + position y e p) a 0 =
      w * rsum (map (fun r => rsum (map (fun b => d r b e p) (filter (fun b => Nat.eqb (row y r b) k) (seq 0 (List.length (nth r procs []))))))
                    (seq 0 (List.length procs))).
Proof.
  assert (Hjs : exists js, List.length js = List.length procs /\ forall r, (r < List.length procs)%nat -> processContributions prep elems (nets r) (nth r procs []) = Some (nth r js [])).
  { destruct (sequence_some (map (fun r => processContributions prep elems (nets r) (nth r procs [])) (seq 0 (List.length procs)))) as [js Ejs].
    { intros o Ho. apply in_map_iff in Ho as (r & <- & Hr). apply in_seq in Hr. destruct (process_derivatives r) as (js & -> & _); [lia|discriminate]. }
    apply sequence_spec in Ejs as [L H]. rewrite map_length, seq_length in L. exists js. split; auto. intros r Hr.
    specialize (H r (processContributions prep elems (nets r) (nth r procs []))). rewrite nth_error_map, (nth_error_nth' _ 0%nat), seq_nth in H by (rewrite ?seq_length; auto).
    rewrite (H eq_refl). apply nth_error_nth'. lia. }
  destruct Hjs as (js & Lj & Ej). exists js, (fun r b e p => amount b e p (nth r js [])). split; [exact Lj|]. split; [exact Ej|].
  assert (Hp : forall r, (r < List.length procs)%nat -> 
    (forall x, In x (nth r js []) -> (j_b x < List.length (nth r procs []))%nat /\ (j_i x < N)%nat /\ (j_j x < numConnections (p_net P (j_i x)))%nat) /\
    forall b s q e p, nth_error (nth r procs []) b = Some (s, q) -> (e < N)%nat -> (p < numConnections (p_net P e))%nat ->
      parameter_derivative (eval s) P q e p (amount b e p (nth r js []))).
  { intros r Hr. destruct (process_derivatives r Hr) as (j1 & E1 & R1). rewrite (Ej r Hr) in E1. injection E1 as <-. exact R1. }
  split. { intros r b s q e p Hr. apply (Hp r Hr). }
  intros w h e Hh He.
  assert (Hu : (updater y e < numUpdaters y)%nat).
  { unfold updater, numUpdaters. rewrite ?layout_elements. destruct (l_strat y); lia. }
  destruct (jacobian_ok y w js h (updater y e) Hh) as (a & Ea & La & Va).
  { rewrite layout_procs. exact Lj. } { exact Hu. }
  { intros r x Hr Hx. rewrite layout_procs in Hr. destruct (proj1 (Hp r Hr) x Hx) as (A & B & C). split; [rewrite layout_batch; exact A|].
    rewrite layout_elements. split; [exact B|]. now rewrite slots_conns. }
  exists a. split; [exact Ea|]. split; [exact La|]. intros k p Hk Hp'. rewrite Va; auto.
  2:{ apply position_bound; rewrite ?layout_elements, ?slots_conns; auto. }
  f_equal. unfold wanted_j. rewrite Lj. f_equal. apply map_ext_in. intros r Hr. apply in_seq in Hr. destruct (Hp r) as (Hin & _); [lia|].
  unfold amount, mine.
  rewrite (filter_rsum_ext j_v _ (fun x => Nat.eqb (row y r (j_b x)) k && (Nat.eqb (j_i x) e && Nat.eqb (j_j x) p))%bool).
  - rewrite (sort_by_batch (fun b => Nat.eqb (row y r b) k) (fun x => Nat.eqb (j_i x) e && Nat.eqb (j_j x) p)%bool (List.length (nth r procs []))).
    + f_equal. apply map_ext. intros b. apply filter_rsum_ext. intros x _. now rewrite andb_assoc.
    + intros x Hx. apply (Hin x Hx).
  - intros x Hx. destruct (Hin x Hx) as (A & B & C). rewrite <- andb_assoc. f_equal.
    destruct (Nat.eqb_spec (j_i x) e) as [<-|Hne], (Nat.eqb_spec (j_j x) p) as [<-|Hne']; cbn [andb]; rewrite ?Nat.eqb_refl; auto.
    + cbn [andb]. apply Nat.eqb_neq. intros X. apply position_distinct in X as [_ X]; rewrite ?layout_elements, ?slots_conns; auto.
    + destruct (Nat.eqb_spec (updater y (j_i x)) (updater y e)) as [U|]; auto. cbn [andb]. apply Nat.eqb_neq. intros X.
      apply position_distinct in X as [X _]; rewrite ?layout_elements, ?slots_conns; auto.
    + destruct (Nat.eqb_spec (updater y (j_i x)) (updater y e)) as [U|]; auto. cbn [andb]. apply Nat.eqb_neq. intros X.
      apply position_distinct in X as [X _]; rewrite ?layout_elements, ?slots_conns; auto.
Qed.
End Jacobian.

(** ** Parameters can be varied *)
Lemma vary N rc P s nsort fuel (eval : potential -> option (R * list eatom)) q e p : sensible N rc P -> (e < N)%nat -> quantity_of s q ->
  (forall t, exists E ys, eval (replace P e p t) = Some (E, ys) /\ List.length ys = List.length (s_atoms s)) -> trainable N P rc nsort fuel s ->
  exists w Pt f, tuned P e p w P /\ (forall t, tuned P e p t (Pt t)) /\ forall t, value_in q (eval (Pt t)) (f t).
Proof.
  intros HP He Hq Hev _. exists (getConnections (p_net P e) (fun _ => 0) p), (replace P e p),
    (fun t => match eval (replace P e p t) with
              | Some (E, ys) => match q with Energy => E | Force a c => match nth_error ys a with Some y => comp (e_f y) c | None => 0 end end
              | None => 0 end).
  split; [eapply current_tuned; eauto|]. split; [intros t; eapply replace_tuned; eauto|].
  intros t. destruct (Hev t) as (E & ys & Ee & L). rewrite Ee. exists E, ys. split; auto. destruct q as [|a c]; auto. destruct Hq as (Ha & _).
  destruct (nth_error ys a) as [y|] eqn:Ey; [eauto|]. apply nth_error_None in Ey. lia.
Qed.

(** ** Final forms, without groups *)
Section Plain.
Variables (N : nat) (rc : R) (P : potential) (nsort : list neighbor -> list neighbor) (fuel : nat).
Notation elems := (setupMemoryAll N (map (p_fs P) (seq 0 N))).
Hypothesis HP : sensible N rc P.
Hypothesis Hrc : 0 <= rc.
Hypothesis Hsort : is_sort nsort.
Hypothesis Hone : one_output N P.
Lemma plain_one s : trainable N P rc nsort fuel s -> exists xs, prepared nsort fuel (p_weight P) elems rc s = Some xs /\
    settles N P elems P (plain_evaluation N nsort fuel rc s) rc s xs.
Proof. intros (HN & Hs & (s' & Es') & Hev & Hreg). eapply plain_settles; eauto. Qed.
Lemma plain_length : List.length elems = N.
Proof. unfold setupMemoryAll. now rewrite !map_length, seq_length. Qed.
Lemma plain_vary s q e p : trainable N P rc nsort fuel s -> (e < N)%nat -> quantity_of s q ->
  exists w Pt f, tuned P e p w P /\ (forall t, tuned P e p t (Pt t)) /\ forall t, value_in q (plain_evaluation N nsort fuel rc s (Pt t)) (f t).
Proof.
  intros Ht He Hq. apply (vary N rc P s nsort fuel); auto. intros t. destruct Ht as (HN & Hs & (s' & Es') & Hev & Hreg).
  assert (HT := replace_tuned N rc P HP e p t He). assert (HP' := tuned_sensible N rc P e p t _ HP He HT).
  destruct (evaluation_stages N rc (replace P e p t) s nsort fuel s' HP' Hrc HN Hs Hsort Es' Hev) as (xs & ys & E & _ & L & _).
  exists (calculateEnergy xs), ys. split; [exact E|exact L].
Qed.
End Plain.
