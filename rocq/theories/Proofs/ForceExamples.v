(** Examples for energies and forces: a chain of atoms which see their own
    periodic images. *)
From Coq Require Import Reals Lra ZArith List Lia Bool Arith Permutation Sorted.
From Coquelicot Require Import Coquelicot.
From Coq Require Import List.
From Verif Require Import Base.RealBase Base.Loop Base.Vec3 Base.SumR Model.CoreFunction Model.CutoffFunction Model.CompactScreening
  Model.NeuralNetwork Model.Scaling Model.Geometry Model.NeighborList
  Model.SymFunctions Model.SymSetup Model.Forces
  Spec.NetworkSpec Spec.GeometrySpec Spec.NeighborSpec Spec.SymSpec Spec.SetupSpec Spec.ForceSpec
  Proofs.GeometryProofs Proofs.NetLayout Proofs.NetForward Proofs.NetProofs Proofs.NeighborProofs Proofs.NeighborMore Proofs.SymEval Proofs.SymInv Proofs.SymExamples Proofs.SetupProofs
  Proofs.ForceNet Proofs.ForceLocal Proofs.ForceAssembly Proofs.ForceProofs.
Import ListNotations.
Local Open Scope R_scope.

Definition chain_box : mat := mkMat (mkVec 4 0 0) (mkVec 0 100 0) (mkVec 0 0 100).
Definition chain : structure :=
  mkStruct true chain_box [fresh_atom 0 vzero 2; fresh_atom 1 (mkVec 0 3 0) 2] 2 false false 0.
Definition chain_rc : R := 9/2.
Lemma chain_det : det chain_box = 40000. Proof. unfold det, dot, cross, chain_box; cbn. ring. Qed.

(** Layers of one neuron, identity: output = a * input. *)
Definition line_net (a : R) : network :=
  mkNetwork 3 (fun _ => 1%nat) (fun _ => AF_IDENTITY) false
    (fun l k => mkNeuron 0 0 0 0 0 0 0 0 0 0 0 (fun j => if Nat.eqb l 1 then a else 1)).
Lemma line_wf a : well_formed (line_net a).
Proof. split; [cbn; lia|]. intros l _. cbn. lia. Qed.
Lemma line_acts a : acts_known (line_net a).
Proof. intros l _. discriminate. Qed.
Lemma line_DEdG a G : calculateDEdG (evaluate (line_net a) G) 0 = a.
Proof.
  rewrite (ev_DEdG (line_net a) G 2 eq_refl ltac:(lia) (line_acts a)) by (cbn; lia).
  cbn. unfold sumn; cbn. unfold weight; cbn. unfold net_nrm; cbn. unfold delta; cbn. field.
Qed.
Lemma line_regular a G : every_neuron regular (evaluate (line_net a) G).
Proof.
  intros l k _ _. destruct (evaluate_shape (line_net a) G) as (_ & _ & E & _). rewrite E. exact I.
Qed.

Definition chain_fc : cutoff_function :=
  mkCF CT_COS chain_rc (1 / chain_rc) (chain_rc * (19/20)) (19/20) (1 / (chain_rc - chain_rc * (19/20))) core_init.
Lemma chain_fc_ok : cutoff_setup chain_fc chain_rc.
Proof.
  split; [unfold chain_rc; lra|]. exists CT_COS, (19/20). unfold cf_configure, cf_setCutoffParameter.
  destruct (Rlt_dec (19/20) 0); [lra|]. destruct (Rge_dec (19/20) 1); [lra|]. reflexivity.
Qed.
Definition chain_ang : symfnc := mkSF (ex_common 0) (ExpAngw (mkEA 0 1 0 0 1 1 1 true chain_rc chain_fc)).
Definition chain_rad : symfnc := mkSF (ex_common 0) (ExpRad (mkER 0 1 0 chain_rc chain_fc)).
(** Element 0 has the given function, element 1 the radial one. *)
Definition chain_pot (f : symfnc) (b : R) : potential :=
  mkPotential (fun e => if Nat.eqb e 0 then [f] else [chain_rad]) (fun e => if Nat.eqb e 0 then line_net 1 else line_net b) (fun _ => 1).

Lemma chain_sensible f b : f = chain_ang \/ f = chain_rad -> sensible 2 chain_rc (chain_pot f b).
Proof.
  assert (U : forall g, g = chain_ang \/ g = chain_rad -> usable chain_rc [g]).
  { intros g Hg. split; [discriminate|]. split.
    - intros [|[|j]] h E; try discriminate. injection E as <-. destruct Hg as [-> | ->]; reflexivity.
    - intros h [<-|[]]. destruct Hg as [-> | ->]; (split; [intros e; reflexivity|]); cbn.
      + split; [split; [apply chain_fc_ok|split; [cbn; lia|reflexivity]]|]. split; [left; auto|lra].
      + split; [apply chain_fc_ok|]. split; [left; auto|lra]. }
  intros Hf e He. cbn [chain_pot p_fs p_net]. destruct (Nat.eqb e 0); (split; [auto|split; [apply line_wf|split; [apply line_acts|reflexivity]]]).
Qed.
Lemma chain_unprocessed : unprocessed chain_rc chain.
Proof.
  split; [|split; [|split; [|split]]].
  - intros a [<-|[<-|[]]]; cbn; auto 10.
  - intros a [<-|[<-|[]]]; reflexivity.
  - intros a [<-|[<-|[]]]; reflexivity.
  - intros _. split; [cbn [chain s_box]; rewrite chain_det; lra|]. intros a [<-|[<-|[]]].
    + exists vzero. split; [unfold in_cell; cbn; lra|apply vec_eq; cbn; ring].
    + exists (mkVec 0 (3/100) 0). split; [unfold in_cell; cbn; lra|apply vec_eq; cbn; lra].
  - cbn. unfold chain_rc. lra.
Qed.

Lemma int_small (a : Z) (c : R) : IZR a * IZR a <= c -> c < 4 -> (a = 0 \/ a = 1 \/ a = -1)%Z.
Proof.
  intros H Hc. assert (-2 < a < 2)%Z; [|lia]. split; apply lt_IZR; [|]; nra.
Qed.
Lemma chain_seen0 j m : in_range chain chain_rc 0 j m <-> In (j, m) [(0%nat, (1, 0, 0)%Z); (0%nat, (-1, 0, 0)%Z); (1%nat, (0, 0, 0)%Z)].
Proof.
  split.
  - intros (ai & aj & Ei & Ej & _ & Hne & Hd). cbn in Ei. injection Ei as <-. destruct m as [[a b] c].
    apply norm_le_iff in Hd; [|unfold chain_rc; lra]. unfold chain_rc in Hd.
    destruct j as [|[|j]]; [| |destruct j; discriminate]; injection Ej as <-;
      unfold displacement, position_of_image, lattice, combine, norm2, vsub, vadd, smul in Hd; cbn in Hd.
    + assert (Hb : (b = 0 \/ b = 1 \/ b = -1)%Z) by (apply (int_small b 1); nra).
      assert (Hc : (c = 0 \/ c = 1 \/ c = -1)%Z) by (apply (int_small c 1); nra).
      assert (Ha : (a = 0 \/ a = 1 \/ a = -1)%Z) by (apply (int_small a 2); nra).
      destruct Hb as [->|[->| ->]]; destruct Hc as [->|[->| ->]]; try (exfalso; nra).
      destruct Ha as [->|[->| ->]]; [congruence|cbn; auto|cbn; auto].
    + assert (Hb : (b = 0 \/ b = 1 \/ b = -1)%Z) by (apply (int_small b 1); nra).
      assert (Hc : (c = 0 \/ c = 1 \/ c = -1)%Z) by (apply (int_small c 1); nra).
      assert (Ha : (a = 0 \/ a = 1 \/ a = -1)%Z) by (apply (int_small a 2); nra).
      destruct Hb as [->|[->| ->]]; destruct Hc as [->|[->| ->]]; try (exfalso; nra).
      destruct Ha as [->|[->| ->]]; try (exfalso; nra). cbn; auto.
  - intros H. cbn in H. destruct H as [[= <- <-]|[[= <- <-]|[[= <- <-]|[]]]]; do 2 eexists; (split; [reflexivity|]); (split; [reflexivity|]);
      (split; [discriminate|]); (split; [discriminate|]); apply norm_le_iff; unfold chain_rc; try lra;
      unfold displacement, position_of_image, lattice, combine, norm2, vsub, vadd, smul; cbn; lra.
Qed.
Lemma chain_seen1 j m : in_range chain chain_rc 1 j m <-> In (j, m) [(1%nat, (1, 0, 0)%Z); (1%nat, (-1, 0, 0)%Z); (0%nat, (0, 0, 0)%Z)].
Proof.
  split.
  - intros (ai & aj & Ei & Ej & _ & Hne & Hd). cbn in Ei. injection Ei as <-. destruct m as [[a b] c].
    apply norm_le_iff in Hd; [|unfold chain_rc; lra]. unfold chain_rc in Hd.
    destruct j as [|[|j]]; [| |destruct j; discriminate]; injection Ej as <-;
      unfold displacement, position_of_image, lattice, combine, norm2, vsub, vadd, smul in Hd; cbn in Hd.
    + assert (Hb : (b = 0 \/ b = 1 \/ b = -1)%Z) by (apply (int_small b 1); nra).
      assert (Hc : (c = 0 \/ c = 1 \/ c = -1)%Z) by (apply (int_small c 1); nra).
      assert (Ha : (a = 0 \/ a = 1 \/ a = -1)%Z) by (apply (int_small a 2); nra).
      destruct Hb as [->|[->| ->]]; destruct Hc as [->|[->| ->]]; try (exfalso; nra).
      destruct Ha as [->|[->| ->]]; try (exfalso; nra). cbn; auto.
    + assert (Hb : (b = 0 \/ b = 1 \/ b = -1)%Z) by (apply (int_small b 1); nra).
      assert (Hc : (c = 0 \/ c = 1 \/ c = -1)%Z) by (apply (int_small c 1); nra).
      assert (Ha : (a = 0 \/ a = 1 \/ a = -1)%Z) by (apply (int_small a 2); nra).
      destruct Hb as [->|[->| ->]]; destruct Hc as [->|[->| ->]]; try (exfalso; nra).
      destruct Ha as [->|[->| ->]]; [congruence|cbn; auto|cbn; auto].
  - intros H. cbn in H. destruct H as [[= <- <-]|[[= <- <-]|[[= <- <-]|[]]]]; do 2 eexists; (split; [reflexivity|]); (split; [reflexivity|]);
      (split; [discriminate|]); (split; [discriminate|]); apply norm_le_iff; unfold chain_rc; try lra;
      unfold displacement, position_of_image, lattice, combine, norm2, vsub, vadd, smul; cbn; lra.
Qed.
Lemma chain_distinct i e x : neighbourhood chain chain_rc i e -> In x e -> snd x <> vzero.
Proof.
  intros (L & _ & HL & F) Hx. destruct (Forall2_in_r _ _ _ x F Hx) as ([j m] & Hp & ai & aj & Ei & Ej & ->). apply HL in Hp. cbn [fst snd] in *.
  intros E.
  assert (Hi : (i < 2)%nat) by (change 2%nat with (length (s_atoms chain)); apply nth_error_Some; congruence).
  destruct i as [|[|]]; [| |lia]; [apply chain_seen0 in Hp|apply chain_seen1 in Hp];
    (cbn in Hp; destruct Hp as [[= <- <-]|[[= <- <-]|[[= <- <-]|[]]]]); cbn in Ei, Ej; injection Ei as <-; injection Ej as <-;
    apply (f_equal norm2) in E; unfold displacement, position_of_image, lattice, combine, norm2, vsub, vadd, smul, vzero in E; cbn in E; lra.
Qed.
Lemma chain_smooth f b : f = chain_ang \/ f = chain_rad -> everywhere (chain_pot f b) chain_rc chain smooth_at.
Proof.
  intros Hf i a e g Hi He Hg. assert (Hg' : g = chain_ang \/ g = chain_rad).
  { cbn [chain_pot p_fs] in Hg. destruct (Nat.eqb _ 0); destruct Hg as [<-|[]]; auto. }
  assert (D := chain_distinct i e). destruct Hg' as [-> | ->]; (split; [split; [intros n Hn; exact (D n He Hn)|exact I]|]).
  - split; [discriminate|]. intros j k x y _ _ _. right. right. cbn. split; [lra|]. rewrite Rabs_R1. lra.
  - discriminate.
Qed.
Lemma chain_evaluable f b : f = chain_ang \/ f = chain_rad -> everywhere (chain_pot f b) chain_rc chain evaluable.
Proof. intros Hf i a e g Hi He Hg. apply (chain_smooth f b Hf i a e g Hi He Hg). Qed.
Lemma chain_regular f b : regular_networks (chain_pot f b) chain_rc chain.
Proof. intros i a e _ _. cbn [chain_pot p_net]. destruct (Nat.eqb _ 0); apply line_regular. Qed.

Lemma chain_list : exists nsort fuel s', is_sort nsort /\ calculateNeighborList nsort fuel chain_rc false chain = Some s'.
Proof.
  destruct id_sort_exists as [nsort Hs]. destruct (list_terminates nsort chain_rc false chain) as (f0 & F).
  - apply chain_unprocessed.
  - intros _. cbn [chain s_box]. rewrite chain_det. lra.
  - destruct (F f0 (le_n _)) as (s' & E). eauto 10.
Qed.

(** ** Own images and angular functions *)
Lemma chain_cut r : r < 4.2 -> cf_f chain_fc r = 1.
Proof.
  intros H. unfold cf_f, cf_fPtr. cbn [chain_fc cf_rc cf_type cf_rci]. unfold chain_rc.
  destruct (Rge_dec r (9/2)); [lra|]. destruct (Rlt_dec r _); [reflexivity|lra].
Qed.
Definition chain_w : vec := mkVec 0 1 0.
Lemma chain_value t : -1 < t < 1 ->
  sf_value (fun _ => 1) (sf_kind chain_ang) [(0%nat, mkVec 4 (-t) 0); (0%nat, mkVec (-4) (-t) 0); (1%nat, mkVec 0 (-3) 0)] =
  2 * (1 + t / sqrt (16 + t * t)).
Proof.
  intros Ht. assert (Hs : 4 <= sqrt (16 + t * t) < 4.2).
  { split.
    - rewrite <- (sqrt_square 4) by lra. apply sqrt_le_1; nra.
    - rewrite <- (sqrt_square 4.2) by lra. apply sqrt_lt_1; nra. }
  assert (N1 : norm (mkVec 4 (-t) 0) = sqrt (16 + t * t)) by (unfold norm, norm2; cbn; f_equal; ring).
  assert (N2 : norm (mkVec (-4) (-t) 0) = sqrt (16 + t * t)) by (unfold norm, norm2; cbn; f_equal; ring).
  assert (N3 : norm (mkVec 0 (-3) 0) = 3).
  { unfold norm, norm2; cbn. replace (_ + _) with (3 * 3) by ring. apply sqrt_square. lra. }
  assert (T : forall x, norm x = sqrt (16 + t * t) -> dot x (mkVec 0 (-3) 0) = 3 * t ->
    angular_gauss_wide (mkEA 0 1 0 0 1 1 1 true chain_rc chain_fc) x (mkVec 0 (-3) 0) = 1 + t / sqrt (16 + t * t)).
  { intros x Nx Dx. unfold angular_gauss_wide, cos_angle. cbn [ea_lambda ea_zeta ea_eta ea_rs ea_fc]. rewrite Nx, Dx, N3.
    rewrite !chain_cut by lra. rewrite Ropp_0, Rmult_0_l, exp_0.
    replace (1 + 1 * (3 * t / (sqrt (16 + t * t) * 3))) with (1 + t / sqrt (16 + t * t)) by (field; lra).
    assert (-1 < t / sqrt (16 + t * t)).
    { apply (Rmult_lt_reg_r (sqrt (16 + t * t))); [lra|]. unfold Rdiv. rewrite Rmult_assoc, Rinv_l by lra. lra. }
    unfold clipped_power. destruct (Rle_dec _ 0); [lra|]. rewrite Rpower_1 by lra. ring. }
  unfold sf_value. cbn [sf_kind chain_ang pair_sum map rsum fold_right ea_e1 ea_e2 ea_zeta].
  unfold only_pair. cbn [fst snd Nat.eqb andb orb].
  rewrite (T _ N1), (T _ N2) by (unfold dot; cbn; ring).
  replace (1 - 1) with 0 by ring. rewrite Rpower_O by lra. ring.
Qed.
Lemma chain_derive : is_derive (fun t => 2 * (1 + t / sqrt (16 + t * t))) 0 (1/2).
Proof.
  assert (H4 : sqrt (16 + 0 * 0) = 4) by (replace (16 + 0 * 0) with (4 * 4) by ring; apply sqrt_square; lra).
  auto_derive; rewrite ?Rmult_0_l, ?Rplus_0_r in *; [split; [lra|]; split; [rewrite H4; lra|exact I]|]. rewrite !H4. field.
Qed.

(** The first weight of the network of element 0 is [a]. *)
Definition chain_tuned (a : R) : potential :=
  mkPotential (p_fs (chain_pot chain_ang 0)) (fun e => if Nat.eqb e 0 then line_net a else line_net 0) (fun _ => 1).
Lemma tuned_chain_sensible a : sensible 2 chain_rc (chain_tuned a).
Proof.
  intros e He. destruct (chain_sensible chain_ang 0 (or_introl eq_refl) e He) as (U & _). split; [exact U|]. cbn [chain_tuned p_net p_fs chain_pot].
  destruct (Nat.eqb e 0); (split; [apply line_wf|split; [apply line_acts|reflexivity]]).
Qed.
Lemma own_images_at a nsort fuel s' : is_sort nsort -> calculateNeighborList nsort fuel chain_rc false chain = Some s' -> exists E ys,
  evaluateNNP nsort fuel (fun _ => 1) (setupMemoryAll 2 (map (p_fs (chain_pot chain_ang 0)) (seq 0 2))) (p_net (chain_tuned a)) chain_rc chain = Some (E, ys) /\
  has_energy (chain_tuned a) chain_rc chain E /\ length ys = 2%nat /\
  rsum (map (fun y => dot (e_f y) chain_w) ys) = a * (1/2).
Proof.
  intros Hsort Es'. set (P := chain_tuned a).
  assert (HP : sensible 2 chain_rc P) by apply tuned_chain_sensible.
  assert (Hrc : 0 <= chain_rc) by (unfold chain_rc; lra).
  assert (HN : s_numElements chain = 2%nat) by reflexivity.
  destruct (evaluation_stages 2 chain_rc P chain nsort fuel s' HP Hrc HN chain_unprocessed Hsort Es' (chain_evaluable chain_ang 0 (or_introl eq_refl)))
    as (xs & ys & Ev & Lx & Ly & Hready & Hsym & HY).
  exists (calculateEnergy xs), ys. split; [exact Ev|]. split; [eapply energy_stage; eauto using chain_unprocessed, all_functions, all_done|]. split; [exact Ly|].
  transitivity (sumn 2 (fun i => Fdot 2 P chain xs i chain_w)).
  { rewrite (rsum_nth (mkEAtom (fresh_atom 0 vzero 0) (mkStore (fun _ => 0) (fun _ => vzero) (fun _ _ => 0)) (fun _ => 0) 0 vzero)), Ly.
    apply sumn_ext. intros i Hi. destruct (nth_error ys i) as [y|] eqn:Ey; [|apply nth_error_None in Ey; rewrite Ly in Ey; cbn in Ey; lia].
    rewrite (nth_error_nth _ _ _ Ey). destruct (HY i y Ey) as (x & _ & _ & D). apply D. }
  change 2%nat with (length (s_atoms chain)) at 1.
  rewrite (total_force_own 2 chain_rc P chain HN xs Lx (all_functions _ _ _ _ _ Hready) chain_w).
  change (length (s_atoms chain)) with 2%nat. unfold sumn at 1. cbn [seq map rsum fold_right].
  assert (H0 : nth_error xs 0 = Some (nth 0 xs (mkEAtom (mkAtom 0 vzero false false 0 0 [] [] [] []) (mkStore (fun _ => 0) (fun _ => vzero) (fun _ _ => 0)) (fun _ => 0) 0 vzero)))
    by (apply nth_error_nth'; rewrite Lx; cbn; lia).
  assert (H1 : nth_error xs 1 = Some (nth 1 xs (mkEAtom (mkAtom 0 vzero false false 0 0 [] [] [] []) (mkStore (fun _ => 0) (fun _ => vzero) (fun _ _ => 0)) (fun _ => 0) 0 vzero)))
    by (apply nth_error_nth'; rewrite Lx; cbn; lia).
  destruct (Hready 0%nat _ H0) as (a0 & E0 & L0 & SD0 & ND0). destruct (Hready 1%nat _ H1) as (a1 & E1 & L1 & SD1 & ND1).
  cbn in E0, E1. injection E0 as <-. injection E1 as <-.
  assert (A0 : a_element (e_atom (nth 0 xs (mkEAtom (mkAtom 0 vzero false false 0 0 [] [] [] []) (mkStore (fun _ => 0) (fun _ => vzero) (fun _ _ => 0)) (fun _ => 0) 0 vzero))) = 0%nat) by apply L0.
  assert (A1 : a_element (e_atom (nth 1 xs (mkEAtom (mkAtom 0 vzero false false 0 0 [] [] [] []) (mkStore (fun _ => 0) (fun _ => vzero) (fun _ _ => 0)) (fun _ => 0) 0 vzero))) = 1%nat) by apply L1.
  destruct ND0 as (_ & ND0). destruct ND1 as (_ & ND1). rewrite A0 in ND0. rewrite A1 in ND1. rewrite A0, A1.
  change (length (p_fs P 0%nat)) with 1%nat. change (length (p_fs P 1%nat)) with 1%nat. unfold sumn. cbn [seq map rsum fold_right].
  rewrite ND0, ND1 by (cbn; lia). change (p_net P 0%nat) with (line_net a). change (p_net P 1%nat) with (line_net 0). rewrite !line_DEdG.
  match goal with |- a * ?T + 0 + (0 * _ + 0 + 0) = _ => assert (X : T = 1/2); [|rewrite X; lra] end.
  assert (Hj : (0 < length (s_atoms chain))%nat) by (cbn; lia).
  pose proof (own_derive 2 chain_rc P chain HP HN chain_unprocessed xs Lx (all_functions _ _ _ _ _ Hready) chain_w 0 0 chain_ang Hj) as D.
  cbv zeta beta in D. rewrite A0 in D. specialize (D eq_refl).
  specialize (D ltac:(apply (chain_smooth chain_ang 0 (or_introl eq_refl) 0%nat (fresh_atom 0 vzero 2)); [reflexivity|eapply listed_neighbourhood; [|exact L0]; reflexivity|cbn; auto])).
  apply is_derive_unique in D. rewrite <- D. apply is_derive_unique.
  apply (is_derive_ext_loc (fun t => 2 * (1 + t / sqrt (16 + t * t)))); [|exact chain_derive].
  exists (mkposreal 1 ltac:(lra)). intros t Ht.
  assert (Ht' : -1 < t < 1).
  { unfold ball in Ht; cbn in Ht. unfold AbsRing_ball, abs, minus, plus, opp in Ht; cbn in Ht. rewrite Ropp_0, Rplus_0_r in Ht.
    apply Rabs_def2 in Ht. lra. }
  rewrite <- chain_value by exact Ht'. cbn [chain_ang sf_c ex_common sf_scaling no_scaling scale scalingType]. apply sf_value_permut.
  destruct L0 as (_ & _ & _ & _ & (L & N1 & N2 & N3) & _). unfold shifted.
  set (g := fun p : nat * image => (match fst p with O => O | _ => 1%nat end, vsub (displacement chain (fresh_atom 0 vzero 2)
      (nth (fst p) (s_atoms chain) (fresh_atom 0 vzero 2)) (snd p)) (smul t (if Nat.eqb (fst p) 0 then chain_w else vzero)))).
  assert (PL : Permutation [(0%nat, (1, 0, 0)%Z); (0%nat, (-1, 0, 0)%Z); (1%nat, (0, 0, 0)%Z)] L).
  { apply NoDup_Permutation; auto.
    - repeat constructor; cbn; intuition discriminate.
    - intros [j m]. rewrite N2. symmetry. apply chain_seen0. }
  assert (EL : map (fun m => (nb_element m, vsub (nb_dr m) (smul t (if Nat.eqb (nb_index m) 0 then chain_w else vzero)))) 
      (a_nbs (e_atom (nth 0 xs (mkEAtom (mkAtom 0 vzero false false 0 0 [] [] [] []) (mkStore (fun _ => 0) (fun _ => vzero) (fun _ _ => 0)) (fun _ => 0) 0 vzero)))) = map g L).
  { clear - N3. induction N3 as [|p m L l H _ IH]; [reflexivity|]. cbn [map]. rewrite IH. f_equal.
    destruct H as (aj & Ej & H1 & _ & H3 & H4 & _). unfold g. rewrite H1, H3, H4, (nth_error_nth _ _ _ Ej).
    f_equal. destruct (fst p) as [|[|q]]; cbn in Ej; [injection Ej as <-; reflexivity|injection Ej as <-; reflexivity|destruct q; discriminate]. }
  rewrite EL. eapply perm_trans; [|apply (Permutation_map g PL)].
  match goal with |- Permutation ?A ?B => replace B with A; [apply Permutation_refl|] end. cbn [map]. unfold g. cbn [fst snd nth Nat.eqb chain s_atoms].
  repeat f_equal; apply vec_eq; unfold displacement, position_of_image, lattice, combine, chain_w, vsub, vadd, smul, vzero; cbn; ring.
Qed.

Lemma own_images : exists nsort fuel E ys, is_sort nsort /\
  evaluateNNP nsort fuel (fun _ => 1) (setupMemoryAll 2 (map (p_fs (chain_pot chain_ang 0)) (seq 0 2))) (p_net (chain_pot chain_ang 0)) chain_rc chain = Some (E, ys) /\
  has_energy (chain_pot chain_ang 0) chain_rc chain E /\
  rsum (map (fun y => dot (e_f y) chain_w) ys) = 1/2.
Proof.
  destruct chain_list as (nsort & fuel & s' & Hsort & Es'). destruct (own_images_at 1 nsort fuel s' Hsort Es') as (E & ys & A & B & _ & C).
  exists nsort, fuel, E, ys. split; [exact Hsort|]. split; [exact A|]. split; [exact B|]. rewrite C. ring.
Qed.

(** Moving all atoms together does not change the energy. *)
Lemma translated_energy P rc s E w t : has_energy P rc s E -> has_energy P rc (displaced (fun _ => w) t s) E.
Proof.
  intros (es & L & H & ->). exists es. rewrite displaced_length. split; auto.
  assert (D : forall ai aj m, displacement (displaced (fun _ => w) t s)
     (mkAtom (a_element ai) (vadd (a_r ai) (smul t w)) (a_hasNL ai) (a_sorted ai) (a_numN ai) (a_numU ai) (a_perEl ai) (a_unique ai) (a_nbs ai) (a_cutoffs ai))
     (mkAtom (a_element aj) (vadd (a_r aj) (smul t w)) (a_hasNL aj) (a_sorted aj) (a_numN aj) (a_numU aj) (a_perEl aj) (a_unique aj) (a_nbs aj) (a_cutoffs aj)) m
     = displacement s ai aj m).
  { intros ai aj m. unfold displacement, position_of_image. cbn [displaced set_atoms s_box a_r]. vring. }
  split.
  - intros i e He. destruct (H i e He) as (Ls & N1 & N2 & N3). exists Ls. split; auto. split.
    + intros j m. rewrite N2. unfold in_range. cbn [displaced set_atoms s_periodic]. split.
      * intros (ai & aj & Ei & Ej & R1 & R2 & R3).
        pose proof (displaced_atom (fun _ => w) t s i) as Xi. pose proof (displaced_atom (fun _ => w) t s j) as Xj. rewrite Ei in Xi. rewrite Ej in Xj.
        do 2 eexists. split; [exact Xi|]. split; [exact Xj|]. split; auto. split; auto. rewrite D. auto.
      * intros (ai & aj & Ei & Ej & R1 & R2 & R3).
        pose proof (displaced_atom (fun _ => w) t s i) as Xi. pose proof (displaced_atom (fun _ => w) t s j) as Xj. rewrite Xi in Ei. rewrite Xj in Ej.
        destruct (nth_error (s_atoms s) i) as [bi|]; [|discriminate]. destruct (nth_error (s_atoms s) j) as [bj|]; [|discriminate].
        cbn in Ei, Ej. injection Ei as <-. injection Ej as <-. exists bi, bj. rewrite D in R3. auto.
    + clear - N3 D. induction N3 as [|p x Ls e Hx _ IH]; constructor; auto.
      destruct Hx as (ai & aj & Ei & Ej & ->).
      pose proof (displaced_atom (fun _ => w) t s i) as Xi. pose proof (displaced_atom (fun _ => w) t s (fst p)) as Xj. rewrite Ei in Xi. rewrite Ej in Xj.
      do 2 eexists. split; [exact Xi|]. split; [exact Xj|]. rewrite D. reflexivity.
  - f_equal. unfold displaced. cbn [set_atoms s_atoms]. clear.
    assert (G : forall l es o, map (fun p => atomic_energy (p_weight P) (p_fs P (a_element (fst p))) (p_net P (a_element (fst p))) (snd p)) (List.combine l es) =
      map (fun p => atomic_energy (p_weight P) (p_fs P (a_element (fst p))) (p_net P (a_element (fst p))) (snd p))
       (List.combine (map (fun x => mkAtom (a_element (snd x)) (vadd (a_r (snd x)) (smul t w)) (a_hasNL (snd x)) (a_sorted (snd x)) (a_numN (snd x)) (a_numU (snd x)) (a_perEl (snd x)) (a_unique (snd x)) (a_nbs (snd x)) (a_cutoffs (snd x)))
          (List.combine (seq o (length l)) l)) es)).
    { clear. induction l as [|a l IH]; intros [|e es] o; auto. cbn [length seq List.combine map fst snd a_element]. f_equal. apply IH. }
    apply G.
Qed.

Lemma own_images_gradient : exists P rc s nsort fuel E ys u Ef, sensible 2 rc P /\ unprocessed rc s /\ is_sort nsort /\ everywhere P rc s smooth_at /\ regular_networks P rc s /\
  evaluateNNP nsort fuel (p_weight P) (setupMemoryAll 2 (map (p_fs P) (seq 0 2))) (p_net P) rc s = Some (E, ys) /\
  (forall t, has_energy P rc (displaced u t s) (Ef t)) /\
  ~ is_derive Ef 0 (- rsum (map (fun iy => dot (e_f (snd iy)) (u (fst iy))) (List.combine (seq 0 (length ys)) ys))).
Proof.
  destruct own_images as (nsort & fuel & E & ys & Hsort & Ev & HE & HF).
  exists (chain_pot chain_ang 0), chain_rc, chain, nsort, fuel, E, ys, (fun _ => chain_w), (fun _ => E).
  split; [apply chain_sensible; auto|]. split; [exact chain_unprocessed|]. split; [exact Hsort|]. split; [apply chain_smooth; auto|].
  split; [apply chain_regular|]. split; [exact Ev|]. split; [intros t; now apply translated_energy|].
  intros D. apply is_derive_unique in D. rewrite Derive_const in D.
  assert (X : rsum (map (fun iy => dot (e_f (snd iy)) chain_w) (List.combine (seq 0 (length ys)) ys)) = 1/2).
  { rewrite <- HF. f_equal. apply list_nth_ext. intros i. rewrite !nth_error_map, Proofs.SymGrad.nth_combine_seq. destruct (nth_error ys i); reflexivity. }
  rewrite X in D. lra.
Qed.
Lemma own_images_total : exists P rc s nsort fuel E ys w, sensible 2 rc P /\ unprocessed rc s /\ is_sort nsort /\ everywhere P rc s smooth_at /\ regular_networks P rc s /\
  evaluateNNP nsort fuel (p_weight P) (setupMemoryAll 2 (map (p_fs P) (seq 0 2))) (p_net P) rc s = Some (E, ys) /\
  rsum (map (fun y => dot (e_f y) w) ys) <> 0.
Proof.
  destruct own_images as (nsort & fuel & E & ys & Hsort & Ev & HE & HF).
  exists (chain_pot chain_ang 0), chain_rc, chain, nsort, fuel, E, ys, chain_w.
  split; [apply chain_sensible; auto|]. split; [exact chain_unprocessed|]. split; [exact Hsort|]. split; [apply chain_smooth; auto|].
  split; [apply chain_regular|]. split; [exact Ev|]. rewrite HF. lra.
Qed.

(** ** Three atoms without periodic boundary *)
Definition three : structure :=
  mkStruct false chain_box [fresh_atom 0 vzero 2; fresh_atom 0 (mkVec 4 0 0) 2; fresh_atom 1 (mkVec 0 3 0) 2] 2 false false 0.
Lemma three_unprocessed : unprocessed chain_rc three.
Proof.
  split; [|split; [|split; [|split]]].
  - intros a [<-|[<-|[<-|[]]]]; cbn; auto 10.
  - intros a [<-|[<-|[<-|[]]]]; reflexivity.
  - intros a [<-|[<-|[<-|[]]]]; reflexivity.
  - discriminate.
  - cbn. unfold chain_rc. lra.
Qed.
Lemma three_no_self : no_self_image three chain_rc.
Proof. intros i m (ai & aj & _ & _ & H & Hne & _). rewrite (H eq_refl) in Hne. congruence. Qed.
Lemma three_smooth_all P : (forall e g, In g (p_fs P e) -> sf_kind g = sf_kind chain_ang \/ sf_kind g = sf_kind chain_rad) ->
  everywhere P chain_rc three smooth_at.
Proof.
  intros HP i a e g Hi He Hg. apply HP in Hg as Hg'.
  assert (D : forall x, In x e -> snd x <> vzero).
  { intros x Hx. destruct He as (L & _ & HL & F). destruct (Forall2_in_r _ _ _ x F Hx) as ([j m] & Hp & ai & aj & Ei & Ej & ->).
    apply HL in Hp. destruct Hp as (_ & _ & _ & _ & Hm & Hne & _). cbn [fst snd] in *. rewrite (Hm eq_refl) in *. intros E.
    apply (f_equal norm2) in E.
    destruct i as [|[|[|i]]]; [| | |destruct i; discriminate]; (destruct j as [|[|[|j]]]; [| | |destruct j; discriminate]); try congruence;
      cbn in Ei, Ej; injection Ei as <-; injection Ej as <-;
      unfold displacement, position_of_image, lattice, combine, norm2, vsub, vadd, smul, vzero in E; cbn in E; lra. }
  destruct Hg' as [-> | ->]; (split; [split; [exact D|exact I]|]).
  - split; [discriminate|]. intros j k x y _ _ _. right. right. cbn. split; [lra|]. rewrite Rabs_R1. lra.
  - discriminate.
Qed.
Lemma three_smooth : everywhere (chain_pot chain_ang 1) chain_rc three smooth_at.
Proof. apply three_smooth_all. intros e g Hg. cbn [chain_pot p_fs] in Hg. destruct (Nat.eqb _ 0); destruct Hg as [<-|[]]; auto. Qed.
Lemma three_list : exists nsort fuel s', is_sort nsort /\ calculateNeighborList nsort fuel chain_rc false three = Some s'.
Proof.
  destruct id_sort_exists as [nsort Hs]. destruct (list_terminates nsort chain_rc false three) as (f0 & F).
  - apply three_unprocessed.
  - discriminate.
  - destruct (F f0 (le_n _)) as (s' & E). eauto 10.
Qed.
Lemma three_range : in_range three chain_rc 0 1 (0, 0, 0)%Z /\ in_range three chain_rc 0 2 (0, 0, 0)%Z.
Proof.
  split; do 2 eexists; (split; [reflexivity|]); (split; [reflexivity|]); (split; [reflexivity|]); (split; [discriminate|]);
    apply norm_le_iff; unfold chain_rc; try lra; unfold displacement, position_of_image, lattice, combine, norm2, vsub, vadd, smul; cbn; lra.
Qed.
Lemma three_ok : sensible 2 chain_rc (chain_pot chain_ang 1) /\ unprocessed chain_rc three /\
  (exists nsort fuel s', is_sort nsort /\ calculateNeighborList nsort fuel chain_rc false three = Some s') /\
  everywhere (chain_pot chain_ang 1) chain_rc three smooth_at /\ regular_networks (chain_pot chain_ang 1) chain_rc three /\ no_self_image three chain_rc /\
  in_range three chain_rc 0 1 (0, 0, 0)%Z /\ in_range three chain_rc 0 2 (0, 0, 0)%Z.
Proof.
  split; [apply chain_sensible; auto|]. split; [exact three_unprocessed|]. split; [exact three_list|]. split; [exact three_smooth|].
  split; [intros i a e _ _; cbn [chain_pot p_net]; destruct (Nat.eqb _ 0); apply line_regular|]. split; [exact three_no_self|exact three_range].
Qed.
Lemma chain_ok : sensible 2 chain_rc (chain_pot chain_rad 1) /\ unprocessed chain_rc chain /\
  (exists nsort fuel s', is_sort nsort /\ calculateNeighborList nsort fuel chain_rc false chain = Some s') /\
  everywhere (chain_pot chain_rad 1) chain_rc chain smooth_at /\ regular_networks (chain_pot chain_rad 1) chain_rc chain /\
  (forall e f, In f (p_fs (chain_pot chain_rad 1) e) -> radial (sf_kind f)) /\ in_range chain chain_rc 0 0 (1, 0, 0)%Z.
Proof.
  split; [apply chain_sensible; auto|]. split; [exact chain_unprocessed|]. split; [exact chain_list|]. split; [apply chain_smooth; auto|].
  split; [apply chain_regular|]. split; [|apply chain_seen0; cbn; auto].
  intros e f H. cbn [chain_pot p_fs] in H. destruct (Nat.eqb e 0); destruct H as [<-|[]]; exact I.
Qed.

(** ** Final forms *)
Theorem forces_gradient N rc P s nsort fuel s' : sensible N rc P -> 0 <= rc -> s_numElements s = N -> unprocessed rc s -> is_sort nsort ->
  calculateNeighborList nsort fuel rc false s = Some s' -> everywhere P rc s smooth_at -> regular_networks P rc s ->
  (no_self_image s rc \/ forall e f, In f (p_fs P e) -> radial (sf_kind f)) ->
  exists E ys, evaluateNNP nsort fuel (p_weight P) (setupMemoryAll N (map (p_fs P) (seq 0 N))) (p_net P) rc s = Some (E, ys) /\
    has_energy P rc s E /\ length ys = length (s_atoms s) /\
    forall u Ef, (forall t, has_energy P rc (displaced u t s) (Ef t)) ->
       is_derive Ef 0 (- rsum (map (fun iy => dot (e_f (snd iy)) (u (fst iy))) (List.combine (seq 0 (length ys)) ys))).
Proof.
  intros HP Hrc HN Hs Hsort E Hsm Hre Hh.
  destruct (evaluation N rc P s nsort fuel s' HP Hrc HN Hs Hsort E) as (En & ys & A & B & C & _ & _ & D).
  { intros i a e f H1 H2 H3. apply (Hsm i a e f H1 H2 H3). }
  exists En, ys. split; [exact A|]. split; [exact B|]. split; [exact C|]. exact (D Hsm Hre Hh).
Qed.
Theorem energy_evaluated N rc P s nsort fuel s' : sensible N rc P -> 0 <= rc -> s_numElements s = N -> unprocessed rc s -> is_sort nsort ->
  calculateNeighborList nsort fuel rc false s = Some s' -> everywhere P rc s evaluable ->
  exists E ys, evaluateNNP nsort fuel (p_weight P) (setupMemoryAll N (map (p_fs P) (seq 0 N))) (p_net P) rc s = Some (E, ys) /\
    has_energy P rc s E /\ (forall E', has_energy P rc s E' -> E' = E) /\ E = rsum (map e_energy ys).
Proof.
  intros HP Hrc HN Hs Hsort E Hev.
  destruct (evaluation N rc P s nsort fuel s' HP Hrc HN Hs Hsort E Hev) as (En & ys & A & B & C & D & _).
  exists En, ys. split; [exact A|]. split; [exact B|]. split; [|exact D].
  intros E' HE'. eapply energy_unique; eauto.
Qed.
Theorem forces_balanced N rc P s nsort fuel s' : sensible N rc P -> 0 <= rc -> s_numElements s = N -> unprocessed rc s -> is_sort nsort ->
  calculateNeighborList nsort fuel rc false s = Some s' -> everywhere P rc s evaluable ->
  (no_self_image s rc \/ forall e f, In f (p_fs P e) -> radial (sf_kind f)) ->
  exists E ys, evaluateNNP nsort fuel (p_weight P) (setupMemoryAll N (map (p_fs P) (seq 0 N))) (p_net P) rc s = Some (E, ys) /\
    forall w, rsum (map (fun y => dot (e_f y) w) ys) = 0.
Proof.
  intros HP Hrc HN Hs Hsort E Hev Hh.
  destruct (evaluation N rc P s nsort fuel s' HP Hrc HN Hs Hsort E Hev) as (En & ys & A & B & C & D & F & _).
  exists En, ys. split; [exact A|exact (F Hh)].
Qed.
