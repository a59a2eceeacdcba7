(** Concrete cases for C26-C28 and C32. *)
From Coq Require Import Reals Lra Lia ZArith Bool Arith Permutation.
From Coquelicot Require Import Coquelicot.
From Coq Require Import List.
From Verif Require Import Base.Vec3 Base.SumR Base.Loop Model.CoreFunction Model.CutoffFunction Model.CompactScreening
  Model.Strings Model.Scaling Model.NeighborList Model.SymFunctions Model.SymCache
  Spec.CompactSpec Spec.SymSpec Proofs.CutoffProofs Proofs.CompactProofs Proofs.SymEval Proofs.SymGrad
  Proofs.CacheProofs Proofs.SymAll Proofs.SymInv Proofs.SymApi.
Import ListNotations.
Local Open Scope R_scope.

Definition ex_nb0 : neighbor := mkNb 1 0 0 1 (mkVec 1 0 0).
Definition ex_nb1 : neighbor := mkNb 2 0 1 1 (mkVec 0 1 0).
Definition ex_atom : atom := mkAtom 0 vzero true true 2 2 [1;1]%nat [0;1;2]%nat [ex_nb0; ex_nb1] [].
Definition no_scaling : scaling := mkScaling ST_NONE 0 0 0 0 0 0 1.
Definition ex_common (i : nat) : sf_common := mkCommon i (fun _ => i) (fun _ => []) no_scaling.

Definition ex_fc : cutoff_function := mkCF CT_POLY2 2 (1/2) (2 * 0) 0 (1 / (2 - 2 * 0)) (core_of CT_POLY2).
Lemma ex_fc_ok : cutoff_setup ex_fc 2.
Proof.
  split; [lra|]. exists CT_POLY2, 0. unfold cf_configure, cf_setCutoffParameter.
  destruct (Rlt_dec 0 0); [lra|]. destruct (Rge_dec 0 1); [lra|]. reflexivity.
Qed.
Definition ex_rad : symfnc := mkSF (ex_common 0) (ExpRad (mkER 0 1 0 2 ex_fc)).
Definition ex_ang : symfnc := mkSF (ex_common 1) (ExpAngn (mkEA 0 1 1 0 1 2 2 true 2 ex_fc)).
Definition ex_cp (l r : R) : compact_function := mkCompact ((r + l)/2) ((r - l)/2) l r (1 / ((r - l)/2)) (core_config CK_POLY2 false).
Lemma ex_cp_ok l r : l < r -> compact_setup (ex_cp l r) l r.
Proof.
  intros H. exists CK_POLY2, false. unfold compact_config, cp_setLeftRight. destruct (Rge_dec l r); [lra|]. reflexivity.
Qed.
Definition ex_comp : symfnc := mkSF (ex_common 2) (CompAngn (mkCA 0 1 0 2 0 3 (ex_cp 0 2) (ex_cp 0 3))).

Lemma ex_norms : norm (mkVec 1 0 0) = 1 /\ norm (mkVec 0 1 0) = 1.
Proof. unfold norm, norm2; cbn. split; replace (_ + _) with 1 by ring; apply sqrt_1. Qed.
Lemma ex_good : good_list ex_atom.
Proof.
  split; [reflexivity|]. split.
  - intros n [<-|[<-|[]]]; cbn [ex_nb0 ex_nb1 nb_d nb_dr]; symmetry; apply ex_norms.
  - intros rc. split; [cbn; lia|]. cbn. intros j n Hj Hn. destruct j as [|[|[|j]]]; try lia; discriminate.
Qed.
Lemma vec_neq_x a b c a' b' c' : a <> a' -> mkVec a b c <> mkVec a' b' c'.
Proof. intros H E. injection E; auto. Qed.
Lemma vec_neq_y a b c a' b' c' : b <> b' -> mkVec a b c <> mkVec a' b' c'.
Proof. intros H E. injection E; auto. Qed.
Lemma ex_cos : cos_angle (mkVec 1 0 0) (mkVec 0 1 0) = 0.
Proof. unfold cos_angle. destruct ex_norms as [-> ->]. unfold dot; cbn. field. Qed.
Lemma ex_nonzero n : In n (env_of (a_nbs ex_atom)) -> snd n <> vzero.
Proof. intros [<-|[<-|[]]]; cbn; [apply vec_neq_x|apply vec_neq_y]; lra. Qed.
Lemma ex_pairs (P : vec -> vec -> Prop) : P (mkVec 1 0 0) (mkVec 0 1 0) -> on_pairs P (env_of (a_nbs ex_atom)).
Proof.
  intros H j k n m Hjk Hn Hm. destruct j as [|[|j]], k as [|[|k]]; try lia; cbn in Hn, Hm; try discriminate.
  - injection Hn as <-. injection Hm as <-. exact H.
  - destruct k; discriminate.
  - destruct k; discriminate.
  - destruct j; discriminate.
Qed.
Lemma ex_smooth_rad : admissible (sf_kind ex_rad) /\ smooth_at (sf_kind ex_rad) (env_of (a_nbs ex_atom)).
Proof. split; [exact ex_fc_ok|]. split; [split; [exact ex_nonzero|exact I]|]. discriminate. Qed.
Lemma ex_smooth_ang : admissible (sf_kind ex_ang) /\ smooth_at (sf_kind ex_ang) (env_of (a_nbs ex_atom)).
Proof.
  split; [split; [exact ex_fc_ok|]; split; [cbn; lia|reflexivity]|].
  split; [split; [exact ex_nonzero|exact I]|]. split; [discriminate|]. apply ex_pairs. split.
  - apply vec_neq_x; lra.
  - right. left. cbn. lra.
Qed.
Lemma ex_smooth_comp : admissible (sf_kind ex_comp) /\ smooth_at (sf_kind ex_comp) (env_of (a_nbs ex_atom)).
Proof.
  split; [split; apply ex_cp_ok; cbn; lra|]. split; [|exact I]. split; [exact ex_nonzero|]. apply ex_pairs.
  split; [apply vec_neq_x; lra|]. split; [discriminate|]. rewrite ex_cos. lra.
Qed.
Lemma ex_scaling : scaling_setup no_scaling.
Proof. left. split; reflexivity. Qed.
Lemma ex_no_slots i : forall e, sf_ci (ex_common i) e = [].
Proof. reflexivity. Qed.
Lemma ex_all : (forall f, In f [ex_rad; ex_ang; ex_comp] -> no_slots f) /\
  forall f, In f [ex_rad; ex_ang; ex_comp] -> admissible (sf_kind f) /\ evaluable (sf_kind f) (env_of (a_nbs ex_atom)).
Proof.
  split.
  - intros f [<-|[<-|[<-|[]]]] e; reflexivity.
  - intros f [<-|[<-|[<-|[]]]]; split; first [apply ex_smooth_rad|apply ex_smooth_ang|apply ex_smooth_comp].
Qed.

(** Rotation by 90 degrees about the z axis followed by a translation. *)
Definition ex_motion (v : vec) : vec := mkVec (5 - vy v) (vx v) (vz v).
Lemma ex_isometry : isometry ex_motion.
Proof. intros x y. unfold norm. f_equal. unfold norm2, ex_motion; cbn. ring. Qed.

(** ** Collinear neighbours in an angular window around 0 *)
Definition col_nb0 : neighbor := mkNb 1 0 0 2 (mkVec 2 0 0).
Definition col_nb1 : neighbor := mkNb 2 0 0 3 (mkVec 3 0 0).
Definition col_atom : atom := mkAtom 0 vzero true true 2 2 [2]%nat [0;1;2]%nat [col_nb0; col_nb1] [].
Definition col_par : ca_par := mkCA 0 0 0 4 (-1) 1 (ex_cp 0 4) (ex_cp (-1) 1).
Definition col_sf : symfnc := mkSF (ex_common 0) (CompAngw col_par).
Lemma norm_x a : 0 <= a -> norm (mkVec a 0 0) = a.
Proof. intros H. unfold norm, norm2; cbn. replace (a * a + 0 * 0 + 0 * 0) with (a * a) by ring. now apply sqrt_square. Qed.
Lemma ltR_t x y : x < y -> ltR x y = true. Proof. intros; now apply ltR_true. Qed.
Lemma on_support_in l r f x : l < x < r -> on_support l r f x = f x.
Proof. intros H. unfold on_support. destruct (Rlt_dec l x); [|lra]. destruct (Rlt_dec x r); [|lra]. reflexivity. Qed.
Ltac crunch := cbn -[ltR leR IZR Rplus Rmult Rminus Rdiv Rinv Ropp acos sqrt exp norm2 norm dot cp_fdf cf_fdf
  ex_cp ex_fc ang_step compw_pair angn_pair compn_pair set_G dbl_max Rlt_dec].
Lemma collinear : exists f a s, admissible (sf_kind f) /\ good_list a /\ no_slots f /\
    (forall n, In n (env_of (a_nbs a)) -> snd n <> vzero) /\ sf_scaling (sf_c f) = no_scaling /\
    sf_value (fun _ => 1) (sf_kind f) (env_of (a_nbs a)) = 1/2 /\
    calculate (fun _ => 1) f a true allocated = Some s /\ st_G s (sf_index (sf_c f)) = 0.
Proof.
  exists col_sf, col_atom.
  assert (N0 : norm (mkVec 2 0 0) = 2) by (apply norm_x; lra).
  assert (N1 : norm (mkVec 3 0 0) = 3) by (apply norm_x; lra).
  assert (E : calculate (fun _ => 1) col_sf col_atom true allocated = Some (set_G 0 0 allocated)).
  { unfold calculate, ang_calc, ang_outer. crunch.
    unfold in_shell. crunch. rewrite !ltR_t by lra. crunch.
    unfold ang_step. crunch. unfold in_shell. crunch. rewrite !ltR_t by lra. crunch.
    unfold compw_pair. destruct (cp_fdf (ex_cp 0 4) 2) as [u v]. destruct (cp_fdf (ex_cp 0 4) 3) as [u' v']. crunch.
    replace (dot (mkVec 2 0 0) (mkVec 3 0 0) * (1 / 2 / 3)) with 1 by (unfold dot; cbn; field).
    replace (leR 1 1) with true by (symmetry; apply leR_true; lra). rewrite orb_true_r.
    do 2 f_equal. unfold scale; cbn. ring. }
  eexists. split; [split; apply ex_cp_ok; cbn; lra|]. split; [|split; [intros e; reflexivity|split; [|split; [reflexivity|split; [|split]]]]].
  - split; [reflexivity|]. split.
    + intros n [<-|[<-|[]]]; cbn; auto.
    + intros rc. split; [cbn; lia|]. cbn. intros j n Hj Hn. destruct j as [|[|[|j]]]; try lia; discriminate.
  - intros n [<-|[<-|[]]]; cbn; apply vec_neq_x; lra.
  - cbn [col_sf sf_kind sf_value col_par ca_e1 ca_e2]. cbn [env_of map col_atom a_nbs col_nb0 col_nb1 nb_element nb_dr pair_sum rsum].
    unfold only_pair. cbn [fst snd Nat.eqb andb orb]. unfold angular_compact_wide, rad_compact, ang_compact, cos_angle.
    rewrite N0, N1. cbn [col_par ca_rl ca_rc ca_c ca_left ca_right ca_a].
    replace (dot (mkVec 2 0 0) (mkVec 3 0 0) / (2 * 3)) with 1 by (unfold dot; cbn; field). rewrite acos_1.
    rewrite !on_support_in by lra.
    unfold cp_f, ex_cp. cbn [cp_center cp_scale cp_core]. 
    replace ((2 - (4 + 0) / 2) * (1 / ((4 - 0) / 2))) with 0 by field.
    replace ((3 - (4 + 0) / 2) * (1 / ((4 - 0) / 2))) with (1/2) by field.
    replace ((0 - (1 + -1) / 2) * (1 / ((1 - -1) / 2))) with 0 by field.
    rewrite Rabs_R0, (Rabs_pos_eq (1/2)) by lra. unfold core_f, core_config; cbn. field.
  - exact E.
  - unfold set_G; cbn. reflexivity.
Qed.

(** ** Cache: the wrong element is tested *)
Definition ideal_cache := (setupCache (text R) (text_dec Req_EM_T) (text_of R (fun x => x) 1)).
Lemma text_refl {T} (d : forall a b : T, {a = b} + {a <> b}) (k : text T) A (x y : A) :
  (if text_dec d k k then x else y) = x.
Proof. destruct (text_dec d k k); congruence. Qed.
Lemma ub_call ci s : ci 0%nat = [0;1]%nat -> ci 1%nat = [] ->
  calculate (fun _ => 1) (with_ci ci ex_ang) ex_atom true s = None.
Proof.
  intros C0 C1. unfold calculate, ang_calc, ang_outer. crunch. rewrite C0. rewrite !ltR_t by lra. crunch.
  unfold ang_step. crunch. rewrite C0, C1. rewrite !ltR_t by lra.
  replace (norm2 (vsub (mkVec 0 1 0) (mkVec 1 0 0))) with 2 by (unfold norm2; cbn; ring). rewrite !ltR_t by lra.
  crunch. reflexivity.
Qed.
Lemma ub_setup : exists fs' sizes, ideal_cache 2%nat [ex_rad; ex_ang] = Some (fs', sizes) /\
  calculateAll (fun _ => 1) fs' ex_atom true allocated = None.
Proof.
  assert (K : text_of R (fun x => x) 1 ex_rad = text_of R (fun x => x) 1 ex_ang) by reflexivity.
  unfold ideal_cache, setupCache, collect, fold_left, collect_one, identifiers.
  cbn [id_elements ex_rad ex_ang sf_kind er_e1 ea_e1 ea_e2 Nat.eqb flat_map app fold_left].
  fold ex_rad ex_ang. rewrite <- K. set (t := text_of R _ 1 ex_rad) in *.
  unfold setCacheIndices, prune_lists.
  cbn -[text_dec text_of allocated addCacheIndex]. rewrite !text_refl. cbn -[text_dec text_of allocated addCacheIndex].
  rewrite !text_refl. cbn -[text_dec text_of allocated addCacheIndex].
  unfold addCacheIndex.
  assert (I0 : identifiers (text R) (text_of R (fun x => x) 1) 2 ex_rad = [(0%nat, false, t); (0%nat, true, t)]) by reflexivity.
  assert (I1 : identifiers (text R) (text_of R (fun x => x) 1) 2 ex_ang =
    [(0%nat, false, t); (0%nat, true, t); (1%nat, false, t); (1%nat, true, t)]) by reflexivity.
  cbn [nth_error]. rewrite I0, I1. 
  repeat (cbn -[text_dec text_of allocated identifiers with_ci calculateAll]; rewrite ?text_refl).
  do 2 eexists. split; [reflexivity|]. unfold calculateAll. cbn [ofold].
  set (ci := upd _ 0%nat [0%nat; 1%nat]). destruct (calculate _ (with_ci ci ex_rad) ex_atom true allocated); auto.
  rewrite (ub_call ci); reflexivity.
Qed.
Lemma plain_ok fs : (forall f, In f fs -> In f [ex_rad; ex_ang; ex_comp]) ->
  exists s, calculateAll (fun _ => 1) fs ex_atom true allocated = Some s.
Proof.
  intros H. destruct ex_all as (A & B).
  destruct (calculateAll_effect (fun _ => 1) no_assignment ex_atom fs no_assignment_consistent ex_good) with (deriv := true) (s := allocated)
    as (s & E & _).
  - intros f Hf. split; [apply no_slots_ok, A; auto|]. apply B; auto.
  - apply no_coherent.
  - eauto.
Qed.
Lemma wrong_element : exists fs a fs' sizes s, numbered fs /\ (forall f, In f fs -> no_slots f) /\ good_list a /\
  (forall f, In f fs -> admissible (sf_kind f) /\ evaluable (sf_kind f) (env_of (a_nbs a))) /\
  ideal_cache 2%nat fs = Some (fs', sizes) /\
  calculateAll (fun _ => 1) fs a true allocated = Some s /\
  calculateAll (fun _ => 1) fs' a true allocated = None.
Proof.
  destruct ub_setup as (fs' & sizes & E & N). destruct (plain_ok [ex_rad; ex_ang]) as (s & S).
  { intros f [<-|[<-|[]]]; simpl; auto. }
  exists [ex_rad; ex_ang], ex_atom, fs', sizes, s. destruct ex_all as (A & B).
  assert (I : forall f, In f [ex_rad; ex_ang] -> In f [ex_rad; ex_ang; ex_comp]) by (intros f [<-|[<-|[]]]; simpl; auto).
  split; [|split; [|split; [|split; [|split; [|split]]]]]; auto.
  - intros [|[|j]] f H; try (injection H as <-; reflexivity). destruct j; discriminate.
  - exact ex_good.
Qed.

(** ** Cache: two cutoff radii printed with the same digits *)
Definition rc_near : R := 2 + / 10 ^ 9.
Definition near_fc (rc : R) : cutoff_function :=
  mkCF CT_POLY1 rc (1/rc) (rc * 0) 0 (1 / (rc - rc * 0)) (core_of CT_POLY1).
Lemma near_fc_ok rc : 0 < rc -> cutoff_setup (near_fc rc) rc.
Proof.
  intros H. split; auto. exists CT_POLY1, 0. unfold cf_configure, cf_setCutoffParameter.
  destruct (Rlt_dec 0 0); [lra|]. destruct (Rge_dec 0 1); [lra|]. reflexivity.
Qed.
Definition near0 : symfnc := mkSF (ex_common 0) (ExpRad (mkER 0 0 0 2 (near_fc 2))).
Definition near1 : symfnc := mkSF (ex_common 1) (ExpRad (mkER 0 0 0 rc_near (near_fc rc_near))).
Definition near_atom : atom := mkAtom 0 vzero true true 1 1 [1]%nat [0;1]%nat [ex_nb0] [].

Lemma digits_near : digits (rc_near / 1) = digits (2 / 1).
Proof.
  unfold digits, Int_part. f_equal.
  transitivity 200000001%Z.
  - symmetry. apply tech_up; unfold rc_near; [|];
    replace ((2 + / 10 ^ 9) / 1 * 10 ^ 8 + 1 / 2) with (200000000 + 1/10 + 1/2) by (field; lra); lra.
  - apply tech_up; replace (2 / 1 * 10 ^ 8 + 1 / 2) with (200000000 + 1/2) by (field; lra); lra.
Qed.
Notation digit_cache := (setupCache (text Z) (text_dec Z.eq_dec) (text_of Z digits 1)).
Lemma near_setup : exists ci sizes, ci 0%nat = [0;1]%nat /\
  digit_cache 1%nat [near0; near1] = Some ([with_ci ci near0; with_ci ci near1], sizes).
Proof.
  assert (K : text_of Z digits 1 near1 = text_of Z digits 1 near0).
  { unfold text_of, cut_text, near0, near1, near_fc; cbn [sf_kind er_fc er_rc cf_alpha cf_type]. now rewrite digits_near. }
  unfold setupCache, collect, fold_left, collect_one, identifiers.
  cbn [id_elements near0 near1 sf_kind er_e1 Nat.eqb flat_map app fold_left].
  fold near0 near1. rewrite K. set (t := text_of Z digits 1 near0) in *.
  unfold setCacheIndices, prune_lists.
  cbn -[text_dec text_of addCacheIndex]. rewrite !text_refl. cbn -[text_dec text_of addCacheIndex].
  rewrite !text_refl. cbn -[text_dec text_of addCacheIndex].
  unfold addCacheIndex.
  assert (I0 : identifiers (text Z) (text_of Z digits 1) 1 near0 = [(0%nat, false, t); (0%nat, true, t)]) by reflexivity.
  assert (I1 : identifiers (text Z) (text_of Z digits 1) 1 near1 = [(0%nat, false, t); (0%nat, true, t)]).
  { unfold identifiers. now rewrite K. }
  cbn [nth_error]. rewrite I0, I1.
  repeat (cbn -[text_dec text_of identifiers with_ci]; rewrite ?text_refl).
  do 2 eexists. split; [|reflexivity]. reflexivity.
Qed.
Definition near_val (rc : R) : R := exp (- 0 * (1 - 0) * (1 - 0)) * fst (cf_fdf (near_fc rc) 1).
Lemma near_fdf rc : 1 < rc -> fst (cf_fdf (near_fc rc) 1) = (2 * (1/rc) - 3) * (1/rc) * (1/rc) + 1 /\
  0 <= fst (cf_fdf (near_fc rc) 1).
Proof.
  intros H. destruct (near_fc_ok rc ltac:(lra)) as (H0 & t & al & E).
  rewrite (cf_fdf_eq _ _ _ _ H0 E). cbn [fst].
  assert (X : cf_f (near_fc rc) 1 = (2 * (1/rc) - 3) * (1/rc) * (1/rc) + 1).
  { unfold cf_f, near_fc, cf_fPtr; cbn -[Rge_dec Rlt_dec]. destruct (Rge_dec 1 rc); [lra|]. destruct (Rlt_dec 1 (rc * 0)); [lra|].
    unfold core_f; cbn. replace (rc - rc * 0) with rc by ring. replace ((1 - rc * 0) * (1 / rc)) with (1 / rc) by (field; lra). ring. }
  split; auto. rewrite X. assert (0 < 1 / rc) by (apply Rdiv_lt_0_compat; lra).
  assert (1 / rc < 1). { apply (Rmult_lt_reg_r rc); [lra|]. field_simplify; lra. }
  set (x := 1 / rc) in *. replace ((2 * x - 3) * x * x + 1) with ((1 - x) * (1 - x) * (1 + 2 * x)) by ring.
  apply Rmult_le_pos; [apply Rle_0_sqr|lra].
Qed.
Lemma near_rc : 1 < rc_near /\ 2 < rc_near.
Proof. unfold rc_near. assert (0 < / 10 ^ 9) by (apply Rinv_0_lt_compat; lra). lra. Qed.
Lemma near_differ : near_val 2 <> near_val rc_near.
Proof.
  unfold near_val. intros H. apply Rmult_eq_reg_l in H; [|apply Rgt_not_eq, exp_pos].
  destruct near_rc as (R1 & R2).
  rewrite (proj1 (near_fdf 2 ltac:(lra))), (proj1 (near_fdf rc_near R1)) in H.
  assert (0 < 1 / rc_near) by (apply Rdiv_lt_0_compat; lra).
  assert (1 / rc_near < 1 / 2). { apply (Rmult_lt_reg_r rc_near); [lra|]. replace (1 / rc_near * rc_near) with 1 by (field; lra). lra. }
  set (x := 1 / rc_near) in *. assert (X : (x - 1/2) * (2 * x * x - 2 * x - 1) = 0) by nra.
  apply Rmult_integral in X. destruct X; [lra|nra].
Qed.
Lemma near_cached ci : ci 0%nat = [0;1]%nat -> exists s,
  calculateAll (fun _ => 1) [with_ci ci near0; with_ci ci near1] near_atom false allocated = Some s /\
  st_G s 1%nat = near_val 2.
Proof.
  intros C. destruct near_rc as (R1 & R2). destruct (near_fdf 2 ltac:(lra)) as (_ & P).
  assert (X : cf_fdf (near_fc 2) 1 = (fst (cf_fdf (near_fc 2) 1), snd (cf_fdf (near_fc 2) 1))) by apply surjective_pairing.
  unfold calculateAll. cbn [ofold].
  assert (L : forall s, ltR (st_C s 0%nat 0%nat) 0 = true -> exists s', calculate (fun _ => 1) (with_ci ci near0) near_atom false s = Some s' /\
     st_C s' 0%nat 0%nat = fst (cf_fdf (near_fc 2) 1)).
  { intros s Hs. unfold calculate, rad_calc, rad_step. crunch. rewrite C, ltR_t by lra.
    unfold fetch. crunch. rewrite Hs. rewrite X. crunch. eexists. split; [reflexivity|]. cbn. reflexivity. }
  destruct (L allocated) as (s & E & V).
  { apply ltR_t. cbn. unfold dbl_max. assert (0 < 2 ^ 1023) by (apply pow_lt; lra).
    assert (/ 2 ^ 52 <= 1) by (rewrite <- Rinv_1; apply Rinv_le_contravar; [lra|apply pow_R1_Rle; lra]). nra. }
  rewrite E.
  assert (L' : forall s, ltR (st_C s 0%nat 0%nat) 0 = false -> exists s', calculate (fun _ => 1) (with_ci ci near1) near_atom false s = Some s' /\
     st_G s' 1%nat = exp (- 0 * (1 - 0) * (1 - 0)) * st_C s 0%nat 0%nat).
  { intros s0 Hs. unfold calculate, rad_calc, rad_step. crunch. rewrite C, ltR_t by lra.
    unfold fetch. crunch. rewrite Hs. crunch. eexists. split; [reflexivity|]. cbn -[exp Ropp Rminus Rmult IZR]. ring. }
  destruct (L' s) as (s' & E' & V'). { rewrite V. apply ltR_false. lra. }
  rewrite E'. exists s'. split; auto. rewrite V', V. reflexivity.
Qed.
Lemma near_plain : exists s, calculateAll (fun _ => 1) [near0; near1] near_atom false allocated = Some s /\ st_G s 1%nat = near_val rc_near.
Proof.
  destruct near_rc as (R1 & R2). unfold calculateAll. cbn [ofold].
  assert (L : forall s, exists s', calculate (fun _ => 1) near0 near_atom false s = Some s').
  { intros s. unfold calculate, rad_calc, rad_step. crunch. rewrite ltR_t by lra. crunch. eexists. reflexivity. }
  destruct (L allocated) as (s & ->).
  assert (L' : forall s, exists s', calculate (fun _ => 1) near1 near_atom false s = Some s' /\ st_G s' 1%nat = near_val rc_near).
  { intros s0. unfold calculate, rad_calc, rad_step. crunch. rewrite ltR_t by lra. crunch. eexists. split; [reflexivity|].
    unfold set_G, near_val. cbn -[exp Ropp Rminus Rmult IZR cf_fdf]. ring. }
  destruct (L' s) as (s' & -> & V). exists s'. auto.
Qed.
Lemma same_digits : exists fs a fs' sizes s s', numbered fs /\ (forall f, In f fs -> no_slots f) /\ good_list a /\
  (forall f, In f fs -> admissible (sf_kind f) /\ evaluable (sf_kind f) (env_of (a_nbs a))) /\
  setupCache (text Z) (text_dec Z.eq_dec) (text_of Z digits 1) 1 fs = Some (fs', sizes) /\
  calculateAll (fun _ => 1) fs a false allocated = Some s /\
  calculateAll (fun _ => 1) fs' a false allocated = Some s' /\ st_G s 1%nat <> st_G s' 1%nat.
Proof.
  destruct near_setup as (ci & sizes & C & E). destruct (near_cached ci C) as (s' & E' & V').
  destruct near_plain as (s & S & V). destruct near_rc as (R1 & R2).
  exists [near0; near1], near_atom, [with_ci ci near0; with_ci ci near1], sizes, s, s'.
  split; [|split; [|split; [|split; [|split; [|split; [|split]]]]]]; auto.
  - intros [|[|j]] f H; try (injection H as <-; reflexivity). destruct j; discriminate.
  - intros f [<-|[<-|[]]] e; reflexivity.
  - split; [reflexivity|]. split.
    + intros n [<-|[]]. cbn [ex_nb0 nb_d nb_dr]. symmetry. apply ex_norms.
    + intros rc. split; [cbn; lia|]. cbn. intros j n Hj Hn. destruct j as [|[|j]]; try lia; discriminate.
  - intros f Hf. assert (X : evaluable (sf_kind f) (env_of (a_nbs near_atom))).
    { destruct Hf as [<-|[<-|[]]]; (split; [|exact I]); intros n [<-|[]]; cbn; apply vec_neq_x; lra. }
    split; auto. destruct Hf as [<-|[<-|[]]]; apply near_fc_ok; cbn [er_rc]; lra.
  - rewrite V, V'. intros Q. apply near_differ. auto.
Qed.

(** Two radial functions which share their cutoff function. *)
Definition ex_rad2 : symfnc := mkSF (ex_common 1) (ExpRad (mkER 0 3 1 2 ex_fc)).
Lemma ex_shared : exists fs' sizes, ideal_cache 2%nat [ex_rad; ex_rad2] = Some (fs', sizes) /\ sizes 0%nat = 2%nat /\
  (forall f', In f' fs' -> both_cached (a_nbs ex_atom) f') /\ numbered [ex_rad; ex_rad2] /\ (forall f, In f [ex_rad; ex_rad2] -> no_slots f) /\
  (forall f, In f [ex_rad; ex_rad2] -> admissible (sf_kind f) /\ evaluable (sf_kind f) (env_of (a_nbs ex_atom))) /\
  good_list ex_atom /\ fresh allocated.
Proof.
  assert (K : text_of R (fun x => x) 1 ex_rad = text_of R (fun x => x) 1 ex_rad2) by reflexivity.
  unfold ideal_cache, setupCache, collect, fold_left, collect_one, identifiers.
  cbn [id_elements ex_rad ex_rad2 sf_kind er_e1 Nat.eqb flat_map app fold_left].
  fold ex_rad ex_rad2. rewrite <- K. set (t := text_of R _ 1 ex_rad) in *.
  unfold setCacheIndices, prune_lists.
  cbn -[text_dec text_of addCacheIndex allocated]. rewrite !text_refl. cbn -[text_dec text_of addCacheIndex allocated].
  rewrite !text_refl. cbn -[text_dec text_of addCacheIndex allocated].
  unfold addCacheIndex.
  assert (I0 : identifiers (text R) (text_of R (fun x => x) 1) 2 ex_rad = [(0%nat, false, t); (0%nat, true, t)]) by reflexivity.
  assert (I1 : identifiers (text R) (text_of R (fun x => x) 1) 2 ex_rad2 = [(0%nat, false, t); (0%nat, true, t)]) by reflexivity.
  cbn [nth_error]. rewrite I0, I1.
  repeat (cbn -[text_dec text_of identifiers with_ci allocated]; rewrite ?text_refl).
  do 2 eexists. split; [reflexivity|]. split; [reflexivity|]. split; [|split; [|split; [|split; [|split]]]].
  - intros f' [<-|[<-|[]]] H; discriminate.
  - intros [|[|j]] f H; try (injection H as <-; reflexivity). destruct j; discriminate.
  - intros f [<-|[<-|[]]] e; reflexivity.
  - intros f [<-|[<-|[]]]; (split; [exact ex_fc_ok|]); (split; [exact ex_nonzero|exact I]).
  - exact ex_good.
  - intros j c. cbn. unfold dbl_max. assert (0 < 2 ^ 1023) by (apply pow_lt; lra).
    assert (/ 2 ^ 52 <= 1) by (rewrite <- Rinv_1; apply Rinv_le_contravar; [lra|apply pow_R1_Rle; lra]). nra.
Qed.
