(** The stored derivatives of the symmetry functions as functions of the
    environment: independent of the order of the neighbors, and the same for a
    rotated environment (C68, C70). *)
From Coq Require Import Reals ZArith Lra Lia Bool Arith Permutation.
From Coquelicot Require Import Coquelicot.
From Coq Require Import List.
From Verif Require Import Base.RealBase Base.Vec3 Base.SumR Base.Loop Model.CoreFunction Model.CutoffFunction
  Model.CompactScreening Model.Strings Model.Scaling Model.NeighborList Model.SymFunctions
  Spec.CompactSpec Spec.SymSpec Proofs.SymEval Proofs.SymTerms Proofs.SymKinds Proofs.SymKindsAng
  Proofs.SymGrad Proofs.SymInv.
Import ListNotations.
Local Open Scope R_scope.

(** Element, relative vector, and change of the relative vector. *)
Definition labelled := (nat * vec * vec)%type.
Definition nb_of (x : labelled) : neighbor := mkNb 0 0 (fst (fst x)) (norm (snd (fst x))) (snd (fst x)).
Definition change (Z : nat -> R) (factor : R) (k : kind) (l : list labelled) : R :=
  match body_of Z factor k with
  | RB b => rsum (map (fun x => (if rb_guard b (nb_of x) then rp1 b (nb_of x) else 0) * dot (snd (fst x)) (snd x)) l)
  | AB b => pair_sum (fun x y => apar b (nb_of x) (nb_of y) (snd x) (snd y)) l
  end.

Definition likewise (A : vec -> vec) (n n' : neighbor) : Prop :=
  nb_element n' = nb_element n /\ nb_d n' = nb_d n /\ nb_dr n' = A (nb_dr n).
Section Rotation.
Variable A : vec -> vec.
Hypothesis A_dot : forall x y, dot (A x) (A y) = dot x y.
Hypothesis A_sub : forall x y, A (vsub x y) = vsub (A x) (A y).
Lemma A_norm2 x : norm2 (A x) = norm2 x.
Proof. unfold norm2. apply A_dot. Qed.
Lemma apair_like Z factor k b nj nk nj' nk' : body_of Z factor k = AB b -> likewise A nj nj' -> likewise A nk nk' ->
  apair b nj' nk' = apair b nj nk.
Proof.
  intros E (E1 & D1 & R1) (E2 & D2 & R2). unfold apair.
  destruct k; cbn [body_of] in E; try discriminate; injection E as <-;
    cbn [ab_guardj ab_guardk ab_fdf ab_pair expAngn_body expAngw_body expAngnW_body compAngn_body compAngw_body compAngnW_body compAngwW_body];
    unfold angn_pair, angw_pair, compn_pair, compw_pair, jk_inside, in_shell; rewrite E1, D1, R1, E2, D2, R2, <- ?A_sub, ?A_norm2, ?A_dot; reflexivity.
Qed.
Lemma apar_like Z factor k b nj nk nj' nk' wj wk : body_of Z factor k = AB b -> likewise A nj nj' -> likewise A nk nk' ->
  apar b nj' nk' (A wj) (A wk) = apar b nj nk wj wk.
Proof.
  intros E H1 H2. unfold apar. rewrite (apair_like Z factor k b nj nk nj' nk' E H1 H2). destruct H1 as (_ & _ & ->), H2 as (_ & _ & ->).
  destruct (apair b nj nk) as [[? [[? ?] ?]]|]; auto. rewrite <- !A_sub, !A_dot. reflexivity.
Qed.
Lemma rad_like Z factor k b n n' : body_of Z factor k = RB b -> likewise A n n' -> rb_guard b n' = rb_guard b n /\ rp1 b n' = rp1 b n.
Proof.
  intros E (E1 & D1 & R1). unfold rp1.
  destruct k; cbn [body_of] in E; try discriminate; injection E as <-;
    cbn [rb_guard rb_fdf rb_p1 expRad_body expRadW_body compRad_body compRadW_body]; rewrite E1, D1; split; reflexivity.
Qed.
End Rotation.

Definition swapped (r : R * (R * R * R)) : R * (R * R * R) := let '(v, (p1, p2, p3)) := r in (v, (p2, p1, p3)).
Lemma ltR_sym_norm2 a b c : ltR (norm2 (vsub a b)) c = ltR (norm2 (vsub b a)) c.
Proof. replace (norm2 (vsub b a)) with (norm2 (vsub a b)); auto. unfold norm2, dot, vsub; cbn. ring. Qed.
Lemma norm2_vsub_sym a b : norm2 (vsub a b) = norm2 (vsub b a).
Proof. unfold norm2, dot, vsub; cbn. ring. Qed.
Lemma inv_sym a b : 1 / a / b = 1 / b / a.
Proof. unfold Rdiv. ring. Qed.

Lemma angn_sym w factor p nj nk fij fik : w nj nk = w nk nj ->
  angn_pair w factor p nk nj fik fij = option_map swapped (angn_pair w factor p nj nk fij fik).
Proof.
  intros W. unfold angn_pair. destruct fij as [a a'], fik as [b b']. rewrite (norm2_vsub_sym (nb_dr nj) (nb_dr nk)).
  destruct (cf_fdf (ea_fc p) (sqrt (norm2 (vsub (nb_dr nk) (nb_dr nj))))) as [c c'].
  rewrite (dot_comm (nb_dr nk) (nb_dr nj)), (inv_sym (nb_d nk) (nb_d nj)), <- W. cbn [option_map swapped].
  set (rv := 1 / nb_d nj / nb_d nk). set (co := dot (nb_dr nj) (nb_dr nk) * rv).
  set (rjk := sqrt (norm2 (vsub (nb_dr nk) (nb_dr nj)))).
  replace (exp (- ea_eta p * ((nb_d nk - ea_rs p) * (nb_d nk - ea_rs p) + (nb_d nj - ea_rs p) * (nb_d nj - ea_rs p) + (rjk - ea_rs p) * (rjk - ea_rs p))))
    with (exp (- ea_eta p * ((nb_d nj - ea_rs p) * (nb_d nj - ea_rs p) + (nb_d nk - ea_rs p) * (nb_d nk - ea_rs p) + (rjk - ea_rs p) * (rjk - ea_rs p))))
    by (f_equal; ring).
  set (fg := if leR _ 0 then 0 else _). unfold Rdiv. do 2 f_equal; [ring|]. f_equal; [f_equal; ring|ring].
Qed.
Lemma angw_sym factor p nj nk fij fik : angw_pair factor p nk nj fik fij = option_map swapped (angw_pair factor p nj nk fij fik).
Proof.
  unfold angw_pair. destruct fij as [a a'], fik as [b b'].
  rewrite (dot_comm (nb_dr nk) (nb_dr nj)), (inv_sym (nb_d nk) (nb_d nj)). cbn [option_map swapped].
  set (rv := 1 / nb_d nj / nb_d nk). set (co := dot (nb_dr nj) (nb_dr nk) * rv).
  replace (exp (- ea_eta p * ((nb_d nk - ea_rs p) * (nb_d nk - ea_rs p) + (nb_d nj - ea_rs p) * (nb_d nj - ea_rs p))))
    with (exp (- ea_eta p * ((nb_d nj - ea_rs p) * (nb_d nj - ea_rs p) + (nb_d nk - ea_rs p) * (nb_d nk - ea_rs p))))
    by (f_equal; ring).
  set (fg := if leR _ 0 then 0 else _). unfold Rdiv. do 2 f_equal; [ring|]. f_equal; [f_equal; ring|ring].
Qed.
Lemma compn_sym w factor p nj nk fij fik : w nj nk = w nk nj ->
  compn_pair w factor p nk nj fik fij = option_map swapped (compn_pair w factor p nj nk fij fik).
Proof.
  intros W. unfold compn_pair. destruct fij as [a a'], fik as [b b']. rewrite (norm2_vsub_sym (nb_dr nj) (nb_dr nk)).
  destruct (cp_fdf (ca_c p) (sqrt (norm2 (vsub (nb_dr nk) (nb_dr nj))))) as [c c'].
  rewrite (dot_comm (nb_dr nk) (nb_dr nj)), (inv_sym (nb_d nk) (nb_d nj)), <- W.
  set (rv := 1 / nb_d nj / nb_d nk). set (co := dot (nb_dr nj) (nb_dr nk) * rv).
  destruct (leR co (-1) || leR 1 co)%bool; [reflexivity|].
  destruct (ltR (acos co) (ca_left p) || ltR (ca_right p) (acos co))%bool; [reflexivity|].
  destruct (cp_fdf (ca_a p) (acos co)) as [g g']. cbn [option_map swapped]. unfold Rdiv. do 2 f_equal; [ring|]. f_equal; [f_equal; ring|ring].
Qed.
Lemma compw_sym w factor p nj nk fij fik : w nj nk = w nk nj ->
  compw_pair w factor p nk nj fik fij = option_map swapped (compw_pair w factor p nj nk fij fik).
Proof.
  intros W. unfold compw_pair. destruct fij as [a a'], fik as [b b'].
  rewrite (dot_comm (nb_dr nk) (nb_dr nj)), (inv_sym (nb_d nk) (nb_d nj)), <- W.
  set (rv := 1 / nb_d nj / nb_d nk). set (co := dot (nb_dr nj) (nb_dr nk) * rv).
  destruct (leR co (-1) || leR 1 co)%bool; [reflexivity|].
  destruct (ltR (acos co) (ca_left p) || ltR (ca_right p) (acos co))%bool; [reflexivity|].
  destruct (cp_fdf (ca_a p) (acos co)) as [g g']. cbn [option_map swapped]. unfold Rdiv. do 2 f_equal; [ring|]. f_equal; [f_equal; ring|ring].
Qed.
Lemma pairs_match_sym e1 e2 a b : (one_of e1 e2 a && pairs_match e1 e2 a b)%bool = (one_of e1 e2 b && pairs_match e1 e2 b a)%bool.
Proof.
  unfold one_of, pairs_match. destruct (Nat.eqb e1 a), (Nat.eqb e2 a), (Nat.eqb e1 b), (Nat.eqb e2 b); reflexivity.
Qed.
Lemma jk_inside_sym p nj nk : jk_inside p nj nk = jk_inside p nk nj.
Proof. unfold jk_inside. now rewrite (norm2_vsub_sym (nb_dr nj) (nb_dr nk)). Qed.
Lemma apair_sym Z factor k b nj nk : body_of Z factor k = AB b -> apair b nk nj = option_map swapped (apair b nj nk).
Proof.
  intros E. unfold apair.
  assert (G : (ab_guardj b nk && ab_guardk b nk nj)%bool = (ab_guardj b nj && ab_guardk b nj nk)%bool).
  { destruct k; cbn [body_of] in E; try discriminate; injection E as <-;
      cbn [ab_guardj ab_guardk expAngn_body expAngw_body expAngnW_body compAngn_body compAngw_body compAngnW_body compAngwW_body];
      rewrite ?(ltR_sym_norm2 (nb_dr nj) (nb_dr nk)), ?(jk_inside_sym p nj nk);
      try (assert (X := pairs_match_sym (ea_e1 p) (ea_e2 p) (nb_element nj) (nb_element nk)));
      try (assert (X := pairs_match_sym (ca_e1 p) (ca_e2 p) (nb_element nj) (nb_element nk)));
      repeat match goal with |- context [ltR ?x ?y] => destruct (ltR x y) end;
      repeat match goal with |- context [in_shell ?x ?y] => destruct (in_shell x y) end;
      repeat match goal with |- context [jk_inside ?x ?y ?z] => destruct (jk_inside x y z) end;
      rewrite ?andb_true_r, ?andb_false_r; auto. }
  rewrite G. destruct (ab_guardj b nj && ab_guardk b nj nk)%bool; [|reflexivity]. clear G.
  destruct k; cbn [body_of] in E; try discriminate; injection E as <-;
    cbn [ab_fdf ab_pair expAngn_body expAngw_body expAngnW_body compAngn_body compAngw_body compAngnW_body compAngwW_body];
    (apply angn_sym || apply angw_sym || apply compn_sym || apply compw_sym); ring.
Qed.
Lemma apar_sym Z factor k b nj nk wj wk : body_of Z factor k = AB b -> apar b nj nk wj wk = apar b nk nj wk wj.
Proof.
  intros E. unfold apar. rewrite (apair_sym Z factor k b nj nk E). destruct (apair b nj nk) as [[v [[p1 p2] p3]]|]; auto.
  cbn [option_map swapped]. unfold dot, vsub; cbn. ring.
Qed.

(** ** Order and rotation *)
Lemma change_permut Z factor k l l' : Permutation l l' -> change Z factor k l = change Z factor k l'.
Proof.
  intros H. unfold change. destruct (body_of Z factor k) as [b|b] eqn:E.
  - apply rsum_permut, Permutation_map, H.
  - apply pair_sum_permut; auto. intros x y. apply (apar_sym Z factor k b _ _ _ _ E).
Qed.
Lemma pair_sum_map {A B} (h : A -> B) (f : B -> B -> R) l : pair_sum f (map h l) = pair_sum (fun x y => f (h x) (h y)) l.
Proof. induction l as [|x l IH]; auto. cbn [map pair_sum]. now rewrite map_map, IH. Qed.
Lemma pair_sum_ext {A} (f h : A -> A -> R) l : (forall x y, f x y = h x y) -> pair_sum f l = pair_sum h l.
Proof. intros H. induction l as [|x l IH]; auto. cbn [pair_sum]. rewrite IH. f_equal. apply rsum_ext. auto. Qed.
Lemma change_rotated Z factor k (A : vec -> vec) l : (forall x y, dot (A x) (A y) = dot x y) -> (forall x y, A (vsub x y) = vsub (A x) (A y)) ->
  change Z factor k (map (fun x => (fst (fst x), A (snd (fst x)), A (snd x))) l) = change Z factor k l.
Proof.
  intros Hd Hs. assert (Nb : forall x : labelled, likewise A (nb_of x) (nb_of (fst (fst x), A (snd (fst x)), A (snd x)))).
  { intros [[e x] w]. split; [reflexivity|]. split; [|reflexivity]. unfold nb_of. cbn [fst snd nb_d]. unfold norm. f_equal. apply Hd. }
  unfold change. destruct (body_of Z factor k) as [b|b] eqn:E.
  - rewrite map_map. apply rsum_ext. intros x _. destruct (rad_like A Z factor k b _ _ E (Nb x)) as [-> ->]. cbn [fst snd]. now rewrite Hd.
  - rewrite pair_sum_map. apply pair_sum_ext. intros x y. cbn [fst snd]. apply (apar_like A Hd Hs Z factor k b _ _ _ _ _ _ E (Nb x) (Nb y)).
Qed.

(** ** What is stored *)
Definition labels (u : vec) (v : nat -> vec) (nbs : list neighbor) : list labelled :=
  map (fun jn => (nb_element (snd jn), nb_dr (snd jn), vsub u (v (fst jn)))) (List.combine (seq 0 (length nbs)) nbs).
Lemma nth_labels u v nbs j : nth_error (labels u v nbs) j = option_map (fun n => (nb_element n, nb_dr n, vsub u (v j))) (nth_error nbs j).
Proof. unfold labels. rewrite nth_error_map, nth_combine_seq. destruct (nth_error nbs j); reflexivity. Qed.
Lemma length_labels u v nbs : length (labels u v nbs) = length nbs.
Proof. unfold labels. rewrite map_length, combine_length, seq_length. lia. Qed.
Lemma like_id n (d : vec) (w : vec) : wf_nb n -> likewise (fun x => x) n (nb_of (nb_element n, nb_dr n, w)).
Proof. intros H. split; [reflexivity|]. split; [|reflexivity]. symmetry. exact H. Qed.

Lemma directional_change Z f a u v : good_list a -> admissible (sf_kind f) ->
  directional (sf_c f) (a_nbs a) (fun l => ev_at l (contributions Z f a)) u v =
  change Z (scalingFactor (sf_scaling (sf_c f))) (sf_kind f) (labels u v (a_nbs a)).
Proof.
  intros Hg Ha. unfold contributions, change. set (factor := scalingFactor (sf_scaling (sf_c f))).
  destruct (kind_cases Z factor (sf_kind f) Ha) as [(b & t & sm & Eb & G & _)|(b & t & ev & sm & Eb & G & _)]; rewrite Eb.
  - rewrite Pg_flat, (rsum_index _ (labels u v (a_nbs a))), length_labels. rewrite (sum_cut _ _ (length (a_nbs a))).
    + apply rsum_ext. intros j _. unfold nthR, at_nb. rewrite nth_labels. destruct (nth_error (a_nbs a) j) as [n|] eqn:En.
      * rewrite Pg_radial by auto. cbn [option_map fst snd].
        destruct (rad_like (fun x => x) Z factor (sf_kind f) b n _ Eb (like_id n vzero (vsub u (v j)) (wf_at a Hg j n En))) as [-> ->]. reflexivity.
      * rewrite Pg_nil. reflexivity.
    + apply (bound_ok a Hg).
    + intros j Hj. unfold at_nb. destruct (nth_error (a_nbs a) j) as [n|] eqn:En; [|apply Pg_nil].
      rewrite Pg_radial by auto. destruct (beyond a Hg _ j n (proj1 Hj) En) as (rc & E & H). rewrite (rg_stored _ _ _ _ _ G rc n E H). ring.
  - rewrite Pg_flat, pair_sum_index, length_labels.
    transitivity (rsum (map (fun j => rsum (map (fun l => nthR (a_nbs a) (fun nj => nthR (a_nbs a) (fun nk =>
         apar b nj nk (vsub u (v j)) (vsub u (v l))) l) j) (seq (j + 1) (bound a (ab_stored b) - (j + 1))))) (seq 0 (bound a (ab_stored b) - 1)))).
    { apply rsum_ext. intros j _. unfold at_nb at 1, aevrow. unfold nthR at 1.
      destruct (nth_error (a_nbs a) j) as [nj|] eqn:Ej.
      - rewrite Pg_flat. apply rsum_ext. intros l _. unfold at_nb, nthR. destruct (nth_error (a_nbs a) l) as [nl|] eqn:El.
        + now rewrite Pg_angular.
        + now rewrite Pg_nil.
      - rewrite Pg_nil. symmetry. apply rsum_zero. auto. }
    rewrite (pair_cut _ _ (length (a_nbs a))).
    + apply rsum_ext. intros j _. unfold nthR at 3. rewrite nth_labels. destruct (nth_error (a_nbs a) j) as [nj|] eqn:Ej; cbn [option_map].
      * apply rsum_ext. intros l _. unfold nthR. rewrite Ej, nth_labels. destruct (nth_error (a_nbs a) l) as [nl|] eqn:El; auto. cbn [option_map snd]. symmetry.
        apply (apar_like (fun x => x) ltac:(auto) ltac:(auto) Z factor (sf_kind f) b nj nl _ _ _ _ Eb);
          apply like_id; try exact vzero; eapply wf_at; eauto.
      * apply rsum_zero. intros l _. unfold nthR. now rewrite Ej.
    + apply (bound_ok a Hg).
    + intros j l Hl. unfold nthR. destruct (nth_error (a_nbs a) j) as [nj|] eqn:Ej; auto.
      destruct (nth_error (a_nbs a) l) as [nl|] eqn:El; auto. unfold apar, apair.
      destruct (beyond a Hg _ l nl (proj1 Hl) El) as (rc & E & H). rewrite (ag_stored _ _ _ _ _ _ G rc nj nl E H), andb_false_r. reflexivity.
Qed.
