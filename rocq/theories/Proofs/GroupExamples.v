(** Concrete cases for C29. *)
From Coq Require Import Reals Lra Lia ZArith Bool Arith Permutation.
From Coquelicot Require Import Coquelicot.
From Coq Require Import List.
From Verif Require Import Base.Vec3 Base.SumR Base.Loop Model.CoreFunction Model.CutoffFunction Model.CompactScreening
  Model.Strings Model.Scaling Model.NeighborList Model.SymFunctions Model.SymCache Model.SymSetup Model.SymGroups
  Spec.CompactSpec Spec.SymSpec Spec.GroupSpec Proofs.CutoffProofs Proofs.CompactProofs Proofs.SymEval Proofs.SymGrad
  Proofs.CacheProofs Proofs.SymAll Proofs.SymInv Proofs.SymApi Proofs.SymExamples Proofs.GroupAll Proofs.GroupApi.
Import ListNotations.
Local Open Scope R_scope.

(** ** The hypotheses can be met *)
(** Two narrow exponential angular functions which differ only in zeta (one
    group, the exponential is computed once), a radial and a compact one;
    scaling by a factor of two. *)
Definition ex_ang3 : symfnc := mkSF (ex_common 3) (ExpAngn (mkEA 0 1 1 0 (-1) 1 1 true 2 ex_fc)).
Definition ex_fs : list symfnc := [ex_rad; ex_ang; ex_comp; ex_ang3].
Definition ex_sc (i : nat) : scaling := mkScaling ST_SCALE 0 (1/2) (1/4) 1 0 1 2.

Lemma ex_groupable : good_list ex_atom /\ NoDup (map (fun f => sf_index (sf_c f)) ex_fs) /\
  (forall f, In f ex_fs -> no_slots f /\ admissible (sf_kind f) /\ evaluable (sf_kind f) (env_of (a_nbs ex_atom)) /\
     groupable_parameters (scalingFactor (ex_sc (sf_index (sf_c f)))) (sf_kind f) /\
     distinct_neighbors (sf_kind f) (env_of (a_nbs ex_atom))) /\
  (forall f h, In f ex_fs -> In h ex_fs -> same_radial_part (sf_kind f) (sf_kind h)).
Proof.
  assert (DN : on_pairs (fun x y : vec => x <> y) (env_of (a_nbs ex_atom))).
  { apply ex_pairs. apply vec_neq_x; lra. }
  split; [exact ex_good|]. split; [|split].
  - cbn. repeat constructor; cbn; intuition discriminate.
  - intros f [<-|[<-|[<-|[<-|[]]]]].
    + split; [intros e; reflexivity|]. split; [apply ex_smooth_rad|]. split; [apply ex_smooth_rad|]. split; exact Logic.I.
    + split; [intros e; reflexivity|]. split; [apply ex_smooth_ang|]. split; [apply ex_smooth_ang|].
      split; [|exact DN]. cbn. repeat split; lra.
    + split; [intros e; reflexivity|]. split; [apply ex_smooth_comp|]. split; [apply ex_smooth_comp|].
      split; [|exact Logic.I]. cbn. lra.
    + split; [intros e; reflexivity|]. split; [split; [exact ex_fc_ok|]; split; [cbn; lia|reflexivity]|].
      split; [split; [exact ex_nonzero|exact Logic.I]|]. split; [|exact DN]. cbn. repeat split; lra.
  - intros f h [<-|[<-|[<-|[<-|[]]]]] [<-|[<-|[<-|[<-|[]]]]]; cbn; auto.
Qed.

(** ** A negative shift is ignored *)
Definition neg_p : ea_par := mkEA 0 1 1 (-1) 1 1 1 true 2 ex_fc.
Definition neg_f : symfnc := mkSF (ex_common 0) (ExpAngw neg_p).
Lemma ex_group_fc : cf_configure CT_POLY2 2 0 = Some ex_fc.
Proof.
  unfold cf_configure, cf_setCutoffParameter.
  destruct (Rlt_dec 0 0); [lra|]. destruct (Rge_dec 0 1); [lra|]. reflexivity.
Qed.
Lemma ex_fdf1 : exists d, cf_fdf ex_fc 1 = (1/2, d).
Proof.
  unfold cf_fdf, ex_fc. cbn -[Rlt_dec Rge_dec Rle_dec Rplus Rminus Rmult Rdiv IZR].
  destruct (Rge_dec 1 2); [lra|]. destruct (Rlt_dec 1 (2 * 0)); [lra|]. eexists. f_equal. field.
Qed.
Definition wide_p (q : R) : ea_par := mkEA 0 1 1 q 1 1 1 true 2 ex_fc.
Definition wide_f (q : R) : symfnc := mkSF (ex_common 0) (ExpAngw (wide_p q)).
Lemma wide_setup q gsort msort : (forall l, Permutation l (gsort l)) -> (forall l, Permutation l (msort l)) ->
  setupSymmetryFunctionGroups gsort msort [wide_f q] =
  Some [GExpAng Wide ex_fc 2 0 1 [mkMember (ex_common 0) (wide_p q) true (Rpower 2 (1 - 1)) None]].
Proof.
  intros Hg Hm. unfold setupSymmetryFunctionGroups. cbn [fold_left place].
  rewrite (Permutation_length_1_inv (Hg [[wide_f q]])). cbn [oall].
  rewrite (Permutation_length_1_inv (Hm [wide_f q])). unfold make_group.
  cbn -[cf_configure Rpower Rminus IZR group_range ex_fc].
  destruct (group_range [wide_f q]). unfold group_fc. change (cf_type ex_fc) with CT_POLY2. change (cf_alpha ex_fc) with 0.
  rewrite ex_group_fc. reflexivity.
Qed.
Lemma wide_value q sc norm factor s : q <= 0 ->
  calculateGroups (fun _ => 1) ex_atom false
    [GExpAng Wide ex_fc 2 0 1 [mkMember (mkCommon 0 (fun _ => O) (fun _ => []) sc) (wide_p q) true norm (Some factor)]] s =
  Some (set_G 0 (scale sc (exp (-2) * (1/4) * (norm / factor))) s).
Proof.
  intros Hq. unfold calculateGroups, calculateGroup, expAng_group. crunch.
  rewrite !ltR_t by lra. crunch.
  destruct ex_fdf1 as (d & E). rewrite E.
  unfold expAng_pair. crunch.
  unfold expAng_aux. crunch. rewrite (proj2 (ltR_false 0 q)) by lra. crunch.
  replace (dot (mkVec 1 0 0) (mkVec 0 1 0) * (1 / 1 / 1)) with 0 by (unfold dot; cbn; field).
  rewrite (proj2 (leR_false (1 + 1 * 0) 0)) by lra. unfold zeta_pow. crunch.
  destruct (cf_fdf ex_fc (sqrt _)) as [u v]. unfold finish, each. crunch.
  do 3 f_equal. unfold upd; cbn -[exp IZR Rplus Rmult Rdiv Ropp Rinv].
  replace (- (1) * (1 * 1 + 1 * 1)) with (-2) by ring. unfold Rdiv. lra.
Qed.
Lemma wide_individual q sc s :
  calculateAll (fun _ => 1) [mkSF (mkCommon 0 (fun _ => O) (fun _ => []) sc) (ExpAngw (wide_p q))] ex_atom false s =
  Some (set_G 0 (scale sc (exp (-2 * (1 - q) * (1 - q)) * (1/4))) s).
Proof.
  unfold calculateAll, calculate, ang_calc, ang_outer. crunch.
  rewrite !ltR_t by lra. crunch. unfold ang_step. crunch. rewrite !ltR_t by lra. crunch.
  destruct ex_fdf1 as (d & E). rewrite E.
  unfold angw_pair. crunch.
  replace (dot (mkVec 1 0 0) (mkVec 0 1 0) * (1 / 1 / 1)) with 0 by (unfold dot; cbn; field).
  rewrite (proj2 (leR_false (1 + 1 * 0) 0)) by lra. unfold zeta_pow. crunch.
  replace (1 - 1) with 0 by ring. rewrite Rpower_O by lra. do 3 f_equal.
  replace (- (1) * ((1 - q) * (1 - q) + (1 - q) * (1 - q))) with (-2 * (1 - q) * (1 - q)) by ring. field.
Qed.
Lemma wide_fine q : no_slots (wide_f q) /\ admissible (sf_kind (wide_f q)) /\
  evaluable (sf_kind (wide_f q)) (env_of (a_nbs ex_atom)).
Proof.
  split; [intros e; reflexivity|]. split; [split; [exact ex_fc_ok|]; split; [cbn; lia|reflexivity]|].
  split; [exact ex_nonzero|exact Logic.I].
Qed.
Lemma set_G_same i v s : st_G (set_G i v s) i = v.
Proof. unfold set_G; cbn. apply upd_same. Qed.

Lemma negative_shift : exists fs a, good_list a /\ NoDup (map (fun f => sf_index (sf_c f)) fs) /\
  (forall f, In f fs -> no_slots f /\ admissible (sf_kind f) /\ evaluable (sf_kind f) (env_of (a_nbs a))) /\
  forall gsort msort, (forall l, Permutation l (gsort l)) -> (forall l, Permutation l (msort l)) ->
  exists gs s1 s2, setupSymmetryFunctionGroups gsort msort fs = Some gs /\
    calculateAll (fun _ => 1) (map (set_scaling (fun _ => no_scaling)) fs) a false allocated = Some s1 /\
    calculateGroups (fun _ => 1) a false (map (set_group_scaling (fun _ => no_scaling)) gs) allocated = Some s2 /\
    st_G s2 0%nat <> st_G s1 0%nat.
Proof.
  exists [wide_f (-1)], ex_atom. split; [exact ex_good|]. split; [repeat constructor; auto|].
  split; [intros f [<-|[]]; apply wide_fine|]. intros gsort msort Hg Hm.
  eexists _, _, _. split; [now apply wide_setup|]. split; [apply (wide_individual (-1) no_scaling)|].
  split; [apply (wide_value (-1) no_scaling); lra|]. rewrite !set_G_same.
  cbn -[exp Rpower Rmult Rdiv Rminus Rplus IZR Ropp]. replace (1 - 1) with 0 by ring. rewrite Rpower_O by lra.
  assert (L : exp (-2 * (1 - -1) * (1 - -1)) < exp (-2)) by (apply exp_increasing; lra). lra.
Qed.

(** ** Setting the scaling a second time *)
Lemma set_scaling_twice : exists fs a sc, good_list a /\ NoDup (map (fun f => sf_index (sf_c f)) fs) /\
  (forall f, In f fs -> no_slots f /\ admissible (sf_kind f) /\ evaluable (sf_kind f) (env_of (a_nbs a)) /\
     groupable_parameters (scalingFactor (sc (sf_index (sf_c f)))) (sf_kind f)) /\
  (forall i, exists ec s0 t l Smin Smax, setScalingType ec i s0 t l Smin Smax = Some (sc i)) /\
  forall gsort msort, (forall l, Permutation l (gsort l)) -> (forall l, Permutation l (msort l)) ->
  exists gs s1 s2, setupSymmetryFunctionGroups gsort msort fs = Some gs /\
    calculateAll (fun _ => 1) (map (set_scaling sc) (map (set_scaling sc) fs)) a false allocated = Some s1 /\
    calculateGroups (fun _ => 1) a false (map (set_group_scaling sc) (map (set_group_scaling sc) gs)) allocated = Some s2 /\
    st_G s2 0%nat <> st_G s1 0%nat.
Proof.
  exists [wide_f 0], ex_atom, ex_sc. split; [exact ex_good|]. split; [repeat constructor; auto|].
  split.
  { intros f [<-|[]]. destruct (wide_fine 0) as (A & B & C). split; auto. split; auto. split; auto. cbn. repeat split; lra. }
  split.
  { intros i. exists 0%nat, 0, ST_SCALE, (mkStatLine 1 (i + 1) 0 (1/2) (1/4) (Some 1)), 0, 1.
    unfold setScalingType, ex_sc. cbn -[Rminus Rdiv IZR Nat.add]. rewrite Nat.eqb_refl, andb_false_r. do 2 f_equal. field. }
  intros gsort msort Hg Hm.
  eexists _, _, _. split; [now apply wide_setup|]. split; [apply (wide_individual 0 (ex_sc 0))|].
  split; [apply (wide_value 0 (ex_sc 0)); lra|]. rewrite !set_G_same.
  cbn -[exp Rpower Rmult Rdiv Rminus Rplus IZR Ropp]. replace (1 - 1) with 0 by ring. rewrite Rpower_O by lra.
  replace (-2 * (1 - 0) * (1 - 0)) with (-2) by ring. assert (L := exp_pos (-2)). lra.
Qed.

(** ** Two subtypes with the same radial interval *)
Definition cpk (k : core_kind) : compact_function :=
  mkCompact ((4 + -4)/2) ((4 - -4)/2) (-4) 4 (1 / ((4 - -4)/2)) (core_config k false).
Lemma cpk_ok k : compact_setup (cpk k) (-4) 4.
Proof. exists k, false. unfold compact_config, cp_setLeftRight. destruct (Rge_dec (-4) 4); [lra|]. reflexivity. Qed.
Definition sub_p (k : core_kind) : ca_par := mkCA 0 1 (-4) 4 0 3 (cpk k) (ex_cp 0 3).
Definition sub_f (i : nat) (k : core_kind) : symfnc := mkSF (ex_common i) (CompAngn (sub_p k)).
Definition F (k : core_kind) (r : R) : R := fst (cp_fdf (cpk k) r).
Definition A90 : R := fst (cp_fdf (ex_cp 0 3) (acos 0)).
Lemma ex_rjk : norm2 (vsub (mkVec 0 1 0) (mkVec 1 0 0)) = 2.
Proof. unfold norm2; cbn. ring. Qed.
Lemma sqrt2_bounds : 1 < sqrt 2 < 2.
Proof.
  split.
  - rewrite <- sqrt_1 at 1. apply sqrt_lt_1; lra.
  - rewrite <- (sqrt_square 2) at 2 by lra. apply sqrt_lt_1; lra.
Qed.
Lemma acos0_bounds : 0 < acos 0 < 3.
Proof. rewrite acos_0. assert (B := PI_4). assert (B' := PI_RGT_0). lra. Qed.
Lemma sub_group i j kA kB s : F kA 1 <> 0 -> F kB 1 <> 0 -> i <> j ->
  exists s2, calculateGroups (fun _ => 1) ex_atom false
    [GCompAng true false 0 4 0 1 [mkMember (ex_common i) (sub_p kA) true 1 (Some 1); mkMember (ex_common j) (sub_p kB) false 1 (Some 1)]] s =
    Some s2 /\ st_G s2 j = F kB 1 * F kB 1 * F kA (sqrt 2) * A90.
Proof.
  intros NA NB Hij. assert (S2 := sqrt2_bounds). assert (AB := acos0_bounds).
  unfold F, A90 in *.
  unfold calculateGroups, calculateGroup, compAng_group. crunch.
  rewrite !ltR_t by lra. crunch.
  unfold compAng_radial, sub_p. crunch. rewrite !ltR_t by lra. crunch.
  rewrite ex_rjk.
  replace (dot (mkVec 1 0 0) (mkVec 0 1 0) * (1 / (1 * 1))) with 0 by (unfold dot; cbn; field).
  rewrite (proj2 (leR_false (4 * 4) 2)), (proj2 (leR_false 2 (0 * 0))), (proj2 (leR_false 0 (-1))), (proj2 (leR_false 1 0)) by lra.
  crunch. unfold compAng_member, upd. crunch.
  destruct (cp_fdf (cpk kA) 1) as [u u']. destruct (cp_fdf (cpk kB) 1) as [v v']. destruct (cp_fdf (cpk kA) (sqrt 2)) as [w w'].
  destruct (cp_fdf (ex_cp 0 3) (acos 0)) as [z z']. cbn [fst] in *.
  assert (EU : eqR u 0 = false) by (unfold eqR; destruct (Req_EM_T u 0); auto; contradiction).
  assert (EV : eqR v 0 = false) by (unfold eqR; destruct (Req_EM_T v 0); auto; contradiction).
  rewrite EU, EV. rewrite (proj2 (leR_false 1 (-4))), (proj2 (leR_false 4 1)), (proj2 (leR_false (sqrt 2) (-4))),
    (proj2 (leR_false 4 (sqrt 2))), (proj2 (leR_false (acos 0) 0)), (proj2 (leR_false 3 (acos 0))) by lra. crunch.
  unfold finish, each. crunch. eexists. split; [reflexivity|]. rewrite set_G_same. cbn -[IZR Rplus Rmult]. ring.
Qed.
Lemma sub_single i k s : calculate (fun _ => 1) (sub_f i k) ex_atom false s =
  Some (set_G i (F k 1 * F k 1 * F k (sqrt 2) * A90) s).
Proof.
  assert (S2 := sqrt2_bounds). assert (AB := acos0_bounds).
  unfold F, A90 in *. unfold calculate, sub_f, sub_p, ang_calc, ang_outer. crunch. unfold in_shell. crunch.
  rewrite !ltR_t by lra. crunch.
  unfold ang_step. crunch. unfold in_shell, jk_inside. crunch. rewrite ex_rjk. rewrite !ltR_t by lra. crunch.
  unfold compn_pair. crunch. rewrite ex_rjk.
  replace (dot (mkVec 1 0 0) (mkVec 0 1 0) * (1 / 1 / 1)) with 0 by (unfold dot; cbn; field).
  rewrite (proj2 (leR_false 0 (-1))), (proj2 (leR_false 1 0)) by lra.
  rewrite (proj2 (ltR_false (acos 0) 0)), (proj2 (ltR_false 3 (acos 0))) by lra. 
  destruct (cp_fdf (cpk k) 1) as [u u']. destruct (cp_fdf (cpk k) (sqrt 2)) as [w w'].
  destruct (cp_fdf (ex_cp 0 3) (acos 0)) as [z z']. crunch.
  destruct (Rlt_dec 0 (-4)); [lra|]. rewrite (proj2 (leR_false (4 * 4) 2)), (proj2 (leR_false 2 0)) by lra. crunch.
  do 2 f_equal. ring.
Qed.
Lemma F_values r : 0 <= r -> F CK_POLY1 r = (2 * (r/4) - 3) * (r/4) * (r/4) + 1 /\
  F CK_POLY2 r = ((15 - 6 * (r/4)) * (r/4) - 10) * (r/4) * ((r/4) * (r/4)) + 1.
Proof.
  intros H. unfold F, cp_fdf, cpk. cbn -[Rplus Rminus Rmult Rdiv IZR Rabs].
  replace ((r - (4 + -4) / 2) * (1 / ((4 - -4) / 2))) with (r/4) by field.
  rewrite Rabs_pos_eq by lra. split; reflexivity.
Qed.
Lemma F_facts : F CK_POLY1 1 <> 0 /\ F CK_POLY2 1 <> 0 /\ F CK_POLY1 (sqrt 2) <> F CK_POLY2 (sqrt 2).
Proof.
  destruct (F_values 1) as [-> ->]; [lra|]. split; [lra|]. split; [lra|].
  assert (B := sqrt2_bounds). destruct (F_values (sqrt 2)) as [-> ->]; [lra|].
  assert (Q : sqrt 2 * sqrt 2 = 2) by (apply sqrt_sqrt; lra).
  set (t := sqrt 2) in *. clearbody t. intros E.
  assert (E1 : (2 * (t/4) - 3) * (t/4) * (t/4) = (t * t) * (t/32 - 3/16)) by field.
  assert (E2 : ((15 - 6 * (t/4)) * (t/4) - 10) * (t/4) * ((t/4) * (t/4)) =
               (t * t) * (15 / 256 * (t * t) - 6 / 1024 * t * (t * t) - 10 / 64 * t)) by field.
  rewrite E1, E2, Q in E. assert (T : t = 26/17) by lra. rewrite T in Q. lra.
Qed.
Lemma A90_nonzero : A90 <> 0.
Proof.
  unfold A90. rewrite acos_0. unfold cp_fdf, ex_cp. cbn -[Rplus Rminus Rmult Rdiv IZR Rabs PI].
  assert (B := PI2_3_2). assert (B' := PI_4).
  replace ((PI / 2 - (3 + 0) / 2) * (1 / ((3 - 0) / 2))) with ((PI / 2 - 3/2) * (2/3)) by field.
  set (x := (PI / 2 - 3/2) * (2/3)). assert (X : 0 < x <= 1/3) by (unfold x; lra). clearbody x.
  rewrite Rabs_pos_eq by lra. assert (x * (x * x) <= 1/27).
  { assert (x * x <= 1/9) by nra. nra. }
  assert (0 <= (15 - 6 * x) * x * x * (x * x)).
  { repeat apply Rmult_le_pos; lra. }
  nra.
Qed.
Lemma sub_fine i k : no_slots (sub_f i k) /\ admissible (sf_kind (sub_f i k)) /\
  evaluable (sf_kind (sub_f i k)) (env_of (a_nbs ex_atom)) /\ groupable_parameters 1 (sf_kind (sub_f i k)).
Proof.
  split; [intros e; reflexivity|]. split; [split; [apply cpk_ok|apply ex_cp_ok; cbn; lra]|].
  split; [|cbn; lra]. split; [exact ex_nonzero|]. apply ex_pairs.
  split; [apply vec_neq_x; lra|]. split; [discriminate|]. rewrite ex_cos. lra.
Qed.

Lemma subtypes_mixed : exists fs a, good_list a /\ NoDup (map (fun f => sf_index (sf_c f)) fs) /\
  (forall f, In f fs -> no_slots f /\ admissible (sf_kind f) /\ evaluable (sf_kind f) (env_of (a_nbs a)) /\
     groupable_parameters 1 (sf_kind f)) /\
  forall gsort msort, (forall l, Permutation l (gsort l)) -> (forall l, Permutation l (msort l)) ->
  exists gs s1 s2, setupSymmetryFunctionGroups gsort msort fs = Some gs /\
    calculateAll (fun _ => 1) (map (set_scaling (fun _ => no_scaling)) fs) a false allocated = Some s1 /\
    calculateGroups (fun _ => 1) a false (map (set_group_scaling (fun _ => no_scaling)) gs) allocated = Some s2 /\
    exists i, st_G s2 i <> st_G s1 i.
Proof.
  exists [sub_f 0 CK_POLY1; sub_f 1 CK_POLY2], ex_atom. split; [exact ex_good|].
  split; [cbn; repeat constructor; cbn; intuition discriminate|].
  split; [intros f [<-|[<-|[]]]; apply sub_fine|]. intros gsort msort Hg Hm.
  set (f0 := sub_f 0 CK_POLY1). set (f1 := sub_f 1 CK_POLY2). destruct F_facts as (N1 & N2 & D). assert (A := A90_nonzero).
  assert (E1 : exists s1, calculateAll (fun _ => 1) (map (set_scaling (fun _ => no_scaling)) [f0; f1]) ex_atom false allocated = Some s1 /\
    st_G s1 0%nat = F CK_POLY1 1 * F CK_POLY1 1 * F CK_POLY1 (sqrt 2) * A90 /\
    st_G s1 1%nat = F CK_POLY2 1 * F CK_POLY2 1 * F CK_POLY2 (sqrt 2) * A90).
  { change (map (set_scaling (fun _ => no_scaling)) [f0; f1]) with [f0; f1]. unfold calculateAll. cbn [ofold].
    unfold f0, f1. rewrite sub_single, sub_single. eexists. split; [reflexivity|]. cbn -[F Rmult sqrt IZR A90]. auto. }
  destruct E1 as (s1 & E1 & G0 & G1).
  assert (RG : group_range [f0; f1] = (0, 4)).
  { unfold group_range, f0, f1. cbn -[Rmin Rmax IZR Rle_dec]. destruct (Rle_dec (-4) 0); [|lra].
    rewrite (Rmax_right 0 4), (Rmax_left 4 4) by lra. reflexivity. }
  assert (CH : comp_changed (sub_p CK_POLY1) (sub_p CK_POLY2) = false /\ comp_changed (sub_p CK_POLY2) (sub_p CK_POLY1) = false).
  { unfold comp_changed, eqR, sub_p. cbn -[IZR Req_EM_T]. destruct (Req_EM_T 4 4); [|lra]. destruct (Req_EM_T (-4) (-4)); [|lra].
    split; reflexivity. }
  assert (ST : forall l, l = [f0; f1] \/ l = [f1; f0] -> exists s2, option_map (fun g => [g]) (make_group [f0; f1] l) <> None /\
     match make_group [f0; f1] l with Some g => calculateGroups (fun _ => 1) ex_atom false [set_group_scaling (fun _ => no_scaling) g] allocated = Some s2
     | None => False end /\ exists i, st_G s2 i <> st_G s1 i).
  { intros l Hl. unfold make_group. rewrite RG. cbn [f0 sub_f sf_kind].
    destruct Hl as [->| ->].
    - destruct (sub_group 0 1 CK_POLY1 CK_POLY2 allocated N1 N2) as (s2 & E2 & G); [lia|].
      exists s2. cbn -[Rmult calculateGroups comp_changed sub_p IZR]. rewrite (proj1 CH). split; [discriminate|].
      split.
      + cbn -[Rmult calculateGroups comp_changed sub_p IZR]. exact E2.
      + exists 1%nat. rewrite G, G1. intros H. apply D.
        apply Rmult_eq_reg_r with (r := A90); auto. apply Rmult_eq_reg_l with (r := F CK_POLY2 1 * F CK_POLY2 1); [|nra].
        rewrite <- !Rmult_assoc. exact H.
    - destruct (sub_group 1 0 CK_POLY2 CK_POLY1 allocated N2 N1) as (s2 & E2 & G); [lia|].
      exists s2. cbn -[Rmult calculateGroups comp_changed sub_p IZR]. rewrite (proj2 CH). split; [discriminate|].
      split.
      + cbn -[Rmult calculateGroups comp_changed sub_p IZR]. exact E2.
      + exists 0%nat. rewrite G, G0. intros H. apply D.
        apply Rmult_eq_reg_r with (r := A90); auto. apply Rmult_eq_reg_l with (r := F CK_POLY1 1 * F CK_POLY1 1); [|nra].
        rewrite <- !Rmult_assoc. symmetry. exact H. }
  assert (P := Permutation_length_2_inv (Hm [f0; f1])).
  destruct (ST (msort [f0; f1]) P) as (s2 & NN & E2 & W).
  destruct (make_group [f0; f1] (msort [f0; f1])) as [g|] eqn:MG; [|contradiction].
  exists [g], s1, s2. split; [|split; [exact E1|split; [exact E2|exact W]]].
  unfold setupSymmetryFunctionGroups. cbn [fold_left place].
  replace (addMember (sf_kind f0) (sf_kind f1)) with true by reflexivity. cbn [app].
  rewrite (Permutation_length_1_inv (Hg [[f0; f1]])). cbn [oall]. now rewrite MG.
Qed.

(** ** With a cache *)
(** The two functions share a slot for one element only: evaluated one by one
    with this cache they fail (C32), in groups they do not. *)
Lemma ex_group_cached : exists fs' sizes,
  setupCache (text R) (text_dec Req_EM_T) (text_of R (fun x => x) 1) 2 [ex_rad; ex_ang] = Some (fs', sizes) /\
  numbered [ex_rad; ex_ang] /\ (forall f, In f [ex_rad; ex_ang] -> no_slots f) /\
  (forall f', In f' fs' -> group_both_cached (a_nbs ex_atom) f') /\ good_list ex_atom /\
  (forall f, In f [ex_rad; ex_ang] -> admissible (sf_kind f) /\ evaluable (sf_kind f) (env_of (a_nbs ex_atom)) /\
     groupable_parameters (scalingFactor (ex_sc (sf_index (sf_c f)))) (sf_kind f) /\
     distinct_neighbors (sf_kind f) (env_of (a_nbs ex_atom))) /\
  (forall f h, In f [ex_rad; ex_ang] -> In h [ex_rad; ex_ang] -> same_radial_part (sf_kind f) (sf_kind h)) /\
  fresh allocated /\ calculateAll (fun _ => 1) fs' ex_atom true allocated = None.
Proof.
  destruct ub_setup as (fs' & sizes & E & N). exists fs', sizes. split; [exact E|].
  assert (Nu : numbered [ex_rad; ex_ang]).
  { intros [|[|j]] f H; try (injection H as <-; reflexivity). destruct j; discriminate. }
  assert (Sl : forall f, In f [ex_rad; ex_ang] -> no_slots f) by (intros f [<-|[<-|[]]] e; reflexivity).
  split; [exact Nu|]. split; [exact Sl|].
  destruct ex_groupable as (Gl & _ & Fi & Sr).
  assert (Sub : forall f, In f [ex_rad; ex_ang] -> In f ex_fs) by (intros f [<-|[<-|[]]]; cbn; auto).
  split.
  { intros f' H. destruct (setup_slots _ (text_dec Req_EM_T) (text_of R (fun x => x) 1) 2 _ Nu Sl) as (fs2 & sz & E2 & _ & _ & _ & P).
    unfold ideal_cache in E. rewrite E in E2. injection E2 as <- <-. apply In_nth_error in H. destruct H as (j & H).
    destruct (P j f' H) as (f & ci & Hf & -> & _). destruct (nth_error_In _ _ Hf) as [<-|[<-|[]]]; exact Logic.I. }
  split; [exact Gl|]. split; [intros f Hf; apply (Fi f (Sub f Hf))|].
  split; [intros f h Hf Hh; apply Sr; auto|]. split; [|exact N].
  destruct ex_shared as (? & ? & _ & _ & _ & _ & _ & _ & _ & Fr). exact Fr.
Qed.
