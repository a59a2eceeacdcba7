(** Derivatives of forces with respect to weights when atoms see their own images. *)
From Coq Require Import Reals Lra Arith Lia Bool Permutation String ZArith.
From Coquelicot Require Import Coquelicot.
From Coq Require Import List.
From Verif Require Import Base.RealBase Base.Vec3 Base.SumR Base.Loop Model.Strings Model.NeuralNetwork Model.Scaling Model.NeighborList Model.SymFunctions
  Model.SymSetup Model.Forces Model.GroupEvaluation Model.UpdatePlan Model.WeightDerivatives
  Spec.NetworkSpec Spec.TrainWeightsSpec Spec.GeometrySpec Spec.NeighborSpec Spec.SymSpec Spec.SetupSpec Spec.GroupSpec Spec.ForceSpec Spec.EvaluationSpec Spec.WeightSpec
  Proofs.CutoffProofs Proofs.NetLayout Proofs.NetForward Proofs.NetGrad Proofs.NetProofs Proofs.ForceNet Proofs.NeighborProofs Proofs.SymGrad Proofs.SetupProofs Proofs.GroupApi Proofs.ForceAssembly Proofs.ForceProofs
  Proofs.ForceAssembly Proofs.SymInv  Proofs.ForceExamples Proofs.GroupForces Proofs.WeightNet Proofs.WeightCollect Proofs.WeightSums Proofs.WeightProofs Proofs.WeightFinal.
Import ListNotations.
Local Open Scope R_scope.

(** ** The calculated derivatives of all forces sum up to zero *)
Lemma pull_total N rc P s xs (HN : s_numElements s = N) (Hready : forall i x, nth_error xs i = Some x -> ready N rc P s i x) (Hlen : length xs = length (s_atoms s)) w j x c :
  nth_error xs j = Some x -> (c < length (p_fs P (a_element (e_atom x))))%nat ->
  sumn (length (s_atoms s)) (fun a => pull (el_of N P (a_element (e_atom x))) x j a c w) = 0.
Proof.
  intros Ex Hc. set (n := length (s_atoms s)).
  assert (Hj : (j < n)%nat) by (unfold n; rewrite <- Hlen; apply nth_error_Some; congruence).
  transitivity (TD N P xs j c w (fun _ => w)).
  - destruct (Hready j x Ex) as (ai & _ & (_ & _ & _ & Hin & _) & (_ & SD) & _).
    destruct (nth_error (p_fs P (a_element (e_atom x))) c) as [f|] eqn:Ef; [|apply nth_error_None in Ef; lia].
    destruct (SD c f Ef) as (f' & Ef' & _ & _ & Ei & _).
    unfold TD. rewrite (nth_error_nth _ _ _ Ex), Ef'. unfold table_directional. rewrite Ei. unfold pull. rewrite sumn_plus. f_equal.
    + rewrite (sumn_single n _ j); auto; [now rewrite Nat.eqb_refl|]. intros i _ Hi. destruct (Nat.eqb_spec j i); congruence.
    + rewrite sumn_swap, rsum_combine_seq. apply sumn_ext. intros k _. unfold nthR. destruct (nth_error (a_nbs (e_atom x)) k) as [m|] eqn:Em.
      2:{ now apply sumn_zero. }
      rewrite (sumn_single n _ (nb_index m)).
      * rewrite Nat.eqb_refl. cbn [fst snd]. unfold entry. rewrite Ef', ?Em. reflexivity.
      * apply Hin. eapply nth_error_In; eauto.
      * intros i _ Hi. destruct (Nat.eqb_spec (nb_index m) i); congruence.
  - assert (Hx : nth j xs (mkEAtom (mkAtom 0 vzero false false 0 0 [] [] [] []) (mkStore (fun _ => 0) (fun _ => vzero) (fun _ _ => 0)) (fun _ => 0) 0 vzero) = x) by now apply nth_error_nth.
    destruct (nth_error (p_fs P (a_element (e_atom x))) c) as [f|] eqn:Ef; [|apply nth_error_None in Ef; lia].
    rewrite <- Hx in Ef. destruct (TD_directional N rc P s HN xs Hlen (all_functions _ _ _ _ _ Hready) j c f Hj Ef) as (f' & _ & _ & D). rewrite D.
    rewrite directional_const, contributions_sum_zero. apply dot_vzero_l'.
Qed.

Section Balance.
Variables (N : nat) (rc : R) (P : potential) (s : structure) (nsort : list neighbor -> list neighbor) (fuel : nat).
Hypothesis HP : sensible N rc P.
Hypothesis Hrc : 0 <= rc.
Hypothesis Hsort : is_sort nsort.
Hypothesis Hone : one_output N P.
Hypothesis Ht : trainable N P rc nsort fuel s.
Notation elems := (setupMemoryAll N (map (p_fs P) (seq 0 N))).
Lemma totals_balance xs c e p : prepared nsort fuel (p_weight P) elems rc s = Some xs -> (c < 3)%nat -> (e < N)%nat -> (p < numConnections (p_net P e))%nat ->
  sumn (length (s_atoms s)) (fun a => total xs (D N P (Force a c) xs) e p) = 0.
Proof.
  intros Ex Hc He Hp. destruct Ht as (HN & Hs & (s' & Es') & Hev & Hreg).
  destruct (functions_stage N rc P s nsort fuel s' HP Hrc HN Hs Hsort Es' Hev) as (xs1 & E0 & L & Pr).
  unfold prepared in Ex. rewrite Es' in Ex. rewrite E0 in Ex. injection Ex as ->.
  destruct (evaluation_stages_sf N rc P s nsort fuel s' HP Hrc HN Hs Hsort Es' Hev) as (xs0' & ys & _ & E0' & F & _ & Ly & _ & Rd & _).
  rewrite E0 in E0'. injection E0' as <-.
  set (w := getConnections (p_net P e) (fun _ => 0) p). set (Pt := replace P e p).
  assert (Hw : tuned P e p w P) by (eapply current_tuned; eauto). assert (HPt : forall t, tuned P e p t (Pt t)) by (intros t; eapply replace_tuned; eauto).
  assert (Dv : forall a, is_derive (fun t => sumn (length xs) (fun i => nthR xs (share N P (Force a c) (Pt t) i) i)) w (total xs (D N P (Force a c) xs) e p)).
  { intros a. apply (shares_derive N rc P s HP HN Hs Hone Hreg); auto. }
  assert (Ds := is_derive_sumn (length (s_atoms s)) (fun a t => sumn (length xs) (fun i => nthR xs (share N P (Force a c) (Pt t) i) i)) _ w (fun a _ => Dv a)).
  cbv beta in Ds. rewrite <- (is_derive_unique _ _ _ Ds). rewrite <- (Derive_const 0 w). apply Derive_ext. intros t.
  rewrite sumn_swap. apply sumn_zero. intros i Hi. unfold nthR. destruct (nth_error xs i) as [x|] eqn:Exi; [|now apply sumn_zero].
  unfold share. rewrite sumn_opp, sumn_swap. apply Ropp_eq_0_compat. apply sumn_zero. intros k Hk. rewrite sumn_scal.
  assert (Q := F2_nth_error _ _ _ F i). rewrite Exi in Q. destruct (nth_error ys i) as [y|] eqn:Ey; [|contradiction]. destruct Q as (Qa & Qs).
  rewrite <- Qa in Hk.
  assert (Z := pull_total N rc P s ys HN Rd Ly (axis c) i y k Ey Hk). rewrite Qa in Z.
  transitivity (calculateDEdG (evaluate (p_net (Pt t) (a_element (e_atom x))) (st_G (e_store x))) k * 0); [|ring]. f_equal. rewrite <- Z.
  apply sumn_ext. intros a _. unfold pull, entry. now rewrite Qa, Qs.
Qed.

(** The rows of dPdc for all atoms add up to zero, in every structure. *)
Lemma rows_balance nets : networks_of N P nets -> exists xs nets' rows, prepared nsort fuel (p_weight P) elems rc s = Some xs /\
  dPdc (lit "force") elems nets xs = Some (nets', rows) /\ length rows = (3 * length (s_atoms s))%nat /\
  (forall a c, (a < length (s_atoms s))%nat -> (c < 3)%nat -> exists row, nth_error rows (3 * a + c) = Some row) /\
  forall c e p, (c < 3)%nat -> (e < N)%nat -> (p < numConnections (p_net P e))%nat ->
    sumn (length (s_atoms s)) (fun a => nth (first_parameter P e + p) (nth (3 * a + c) rows []) 0) = 0.
Proof.
  intros Hn. destruct (plain_one N rc P nsort fuel HP Hrc Hsort Hone s Ht) as (xs & Ex & Lx & Hq). assert (HL := plain_length N P).
  assert (Hne : nets_ok elems (p_net P) nets) by (apply (nets_fine N elems P nets HL Hn)).
  destruct (force_rows elems (p_net P) nets xs (fun a c => D N P (Force a c) xs) Hne) as (nets' & rows & E & F & L & V).
  { intros a c _ Hc. apply (Hq (Force a c) Hc). }
  exists xs, nets', rows. split; [exact Ex|]. split; [exact E|]. split; [now rewrite L, Lx|]. split.
  { intros a c Ha Hc. destruct (V a c) as (row & Er & _); [lia|auto|eauto]. }
  intros c e p Hc He Hp. transitivity (sumn (length (s_atoms s)) (fun a => total xs (D N P (Force a c) xs) e p)); [|exact (totals_balance xs c e p Ex Hc He Hp)]. apply sumn_ext. intros a Ha.
  destruct (V a c) as (row & Er & Lr & Vr); [lia|auto|]. rewrite HL in Vr. rewrite (nth_error_nth _ _ _ Er). unfold first_parameter.
  change (list_sum (map (fun e => numConnections (p_net P e)) (seq 0 e))) with (first (p_net P) e). apply Vr; auto.
Qed.
End Balance.

(** ** Two atoms which see their own images *)
Lemma line_tuned a t : tuned_network (line_net a) 0 t (line_net t).
Proof.
  split; [repeat split|]. split.
  - intros l j k Hl Hj Hk. cbn in Hl, Hj, Hk. assert (j = 0%nat) by lia. assert (k = 0%nat) by lia. subst j k.
    destruct l as [|[|]]; [reflexivity|reflexivity|lia].
  - intros l k Hl Hk. cbn in Hl, Hk. assert (k = 0%nat) by lia. subst k. destruct l as [|[|]]; [reflexivity|reflexivity|lia].
Qed.
Lemma chain_tuned_tuned t : tuned (chain_pot chain_ang 0) 0 0 t (chain_tuned t).
Proof.
  split; [reflexivity|]. split; [reflexivity|]. split; [apply line_tuned|]. intros e He. cbn. destruct (Nat.eqb_spec e 0); [congruence|]. apply sn_refl.
Qed.
Lemma chain_one b f : one_output 2 (chain_pot f b).
Proof. intros e _. cbn. destruct (Nat.eqb e 0); reflexivity. Qed.

Lemma own_images_weights : exists N P rc s nsort fuel nets xs nets' rows a c row e p,
  sensible N rc P /\ 0 <= rc /\ is_sort nsort /\ one_output N P /\ trainable N P rc nsort fuel s /\ networks_of N P nets /\
  prepared nsort fuel (p_weight P) (setupMemoryAll N (map (p_fs P) (seq 0 N))) rc s = Some xs /\
  dPdc (lit "force") (setupMemoryAll N (map (p_fs P) (seq 0 N))) nets xs = Some (nets', rows) /\
  quantity_of s (Force a c) /\ nth_error rows (3 * a + c) = Some row /\ (e < N)%nat /\ (p < numConnections (p_net P e))%nat /\
  ~ parameter_derivative (plain_evaluation N nsort fuel rc s) P (Force a c) e p (nth (first_parameter P e + p) row 0).
Proof.
  set (P := chain_pot chain_ang 0). destruct chain_list as (nsort & fuel & s' & Hsort & Es').
  assert (HP : sensible 2 chain_rc P) by (apply chain_sensible; auto). assert (Hrc : 0 <= chain_rc) by (unfold chain_rc; lra).
  assert (Ht : trainable 2 P chain_rc nsort fuel chain).
  { split; [reflexivity|]. split; [exact chain_unprocessed|]. split; [eauto|]. split; [apply chain_evaluable; auto|apply chain_regular]. }
  assert (Hn : networks_of 2 P (p_net P)) by (intros e _; apply sn_refl).
  destruct (rows_balance 2 chain_rc P chain nsort fuel HP Hrc Hsort (chain_one _ _) Ht (p_net P) Hn) as (xs & nets' & rows & Ex & Ed & Lr & Hr & Hb).
  assert (Hp : (0 < numConnections (p_net P 0%nat))%nat) by (cbn; lia).
  specialize (Hb 1%nat 0%nat 0%nat ltac:(lia) ltac:(lia) Hp). change (length (s_atoms chain)) with 2%nat in Hb.
  (* the forces as functions of the weight *)
  assert (Ev : forall t, exists f0 f1, value_in (Force 0 1) (plain_evaluation 2 nsort fuel chain_rc chain (chain_tuned t)) f0 /\
     value_in (Force 1 1) (plain_evaluation 2 nsort fuel chain_rc chain (chain_tuned t)) f1 /\ f0 + f1 = t * (1/2)).
  { intros t. destruct (own_images_at t nsort fuel s' Hsort Es') as (E & ys & A & _ & L & C).
    destruct ys as [|y0 [|y1 [|]]]; try discriminate. exists (comp (e_f y0) 1), (comp (e_f y1) 1).
    split; [exists E, [y0; y1]; split; [exact A|exists y0; auto]|]. split; [exists E, [y0; y1]; split; [exact A|exists y1; auto]|].
    cbn [map rsum fold_right] in C. rewrite <- C. unfold rsum; cbn. unfold dot, chain_w; cbn. ring. }
  set (g := fun (a : nat) (t : R) => match plain_evaluation 2 nsort fuel chain_rc chain (chain_tuned t) with
     | Some (_, ys) => match nth_error ys a with Some y => comp (e_f y) 1 | None => 0 end | None => 0 end).
  assert (Hg : forall a t, (a < 2)%nat -> value_in (Force a 1) (plain_evaluation 2 nsort fuel chain_rc chain (chain_tuned t)) (g a t)).
  { intros a t Ha. unfold g. destruct (Ev t) as (f0 & f1 & (E & ys & A & y0 & B & _) & (E' & ys' & A' & y1 & B' & _) & _). rewrite A in A' |- *. injection A' as <- <-.
    exists E, ys. split; auto. destruct a as [|[|]]; [exists y0; rewrite B; auto|exists y1; rewrite B'; auto|lia]. }
  assert (Hsum : forall t, g 0%nat t + g 1%nat t = t * (1/2)).
  { intros t. unfold g. destruct (Ev t) as (f0 & f1 & (E & ys & A & y0 & B & ->) & (E' & ys' & A' & y1 & B' & ->) & H). rewrite A in A' |- *. injection A' as <- <-.
    rewrite B, B'. exact H. }
  destruct (Hr 0%nat 1%nat) as (r0 & E0); [cbn; lia|lia|]. destruct (Hr 1%nat 1%nat) as (r1 & E1); [cbn; lia|lia|].
  unfold sumn, rsum in Hb; cbn [seq map fold_right] in Hb. rewrite (nth_error_nth _ _ _ E0), (nth_error_nth _ _ _ E1) in Hb.
  set (v0 := nth (first_parameter P 0 + 0) r0 0) in *. set (v1 := nth (first_parameter P 0 + 0) r1 0) in *.
  assert (Hcur : tuned P 0 0 1 P) by exact (chain_tuned_tuned 1).
  assert (Ded : forall a v, (a < 2)%nat -> parameter_derivative (plain_evaluation 2 nsort fuel chain_rc chain) P (Force a 1) 0 0 v -> is_derive (g a) 1 v).
  { intros a v Ha Hd. apply (Hd 1 chain_tuned (g a)); auto. intros t. apply chain_tuned_tuned. }
  (* not both can be derivatives *)
  assert (Hnot : parameter_derivative (plain_evaluation 2 nsort fuel chain_rc chain) P (Force 0 1) 0 0 v0 ->
                 parameter_derivative (plain_evaluation 2 nsort fuel chain_rc chain) P (Force 1 1) 0 0 v1 -> False).
  { intros A B. apply Ded in A; [|lia]. apply Ded in B; [|lia]. assert (C := is_derive_plus _ _ _ _ _ A B).
    assert (C' : is_derive (fun t => t * (1/2)) 1 (v0 + v1)) by (apply (is_derive_ext (fun t => g 0%nat t + g 1%nat t)); [exact Hsum|exact C]).
    assert (Cd : is_derive (fun t => t * (1/2)) 1 (1/2)) by (auto_derive; [exact I|ring]).
    assert (X : v0 + v1 = 1/2) by (rewrite <- (is_derive_unique _ _ _ C'); exact (is_derive_unique _ _ _ Cd)). lra. }
  assert (Dec : ~ parameter_derivative (plain_evaluation 2 nsort fuel chain_rc chain) P (Force 0 1) 0 0 v0 \/
                ~ parameter_derivative (plain_evaluation 2 nsort fuel chain_rc chain) P (Force 1 1) 0 0 v1).
  { destruct (Classical_Prop.classic (parameter_derivative (plain_evaluation 2 nsort fuel chain_rc chain) P (Force 0 1) 0 0 v0)) as [H|H]; [right|left; exact H].
    intros H1. exact (Hnot H H1). }
  destruct Dec as [Dn|Dn].
  - exists 2%nat, P, chain_rc, chain, nsort, fuel, (p_net P), xs, nets', rows, 0%nat, 1%nat, r0, 0%nat, 0%nat.
    repeat (split; [first [assumption|apply chain_one|cbn; lia]|]). exact Dn.
  - exists 2%nat, P, chain_rc, chain, nsort, fuel, (p_net P), xs, nets', rows, 1%nat, 1%nat, r1, 0%nat, 0%nat.
    repeat (split; [first [assumption|apply chain_one|cbn; lia]|]). exact Dn.
Qed.
