(** The data set normalization tool (C103). *)
From Coq Require Import Reals Lra Lia List Arith Bool.
From Verif Require Import Base.Vec3 Base.SumR Model.SymLines Model.NormTool Spec.NormalizationSpec Spec.NormToolSpec Proofs.NormalizationProofs.
From Coq Require Import List.
Import ListNotations.
Local Open Scope R_scope.

Definition fs3 (a : ntatom) : R := vx (nt_fRef a) + vy (nt_fRef a) + vz (nt_fRef a).
Definition maxabs (l : list R) : R := fold_right (fun q m => Rmax m (Rabs q)) 0 l.

Lemma max_if a b : (if Rlt_dec a b then b else a) = Rmax a b.
Proof. unfold Rmax. destruct (Rlt_dec a b), (Rle_dec a b); lra. Qed.
Lemma maxabs_nonneg l : 0 <= maxabs l.
Proof. induction l as [|q l IH]; cbn; [lra|]. fold (maxabs l). apply Rle_trans with (maxabs l); [exact IH|apply Rmax_l]. Qed.
Lemma maxabs_ge l q : In q l -> Rabs q <= maxabs l.
Proof.
  induction l as [|x l IH]; intros H; [destruct H|]. cbn. fold (maxabs l). destruct H as [->|H]; [apply Rmax_r|].
  apply Rle_trans with (maxabs l); [now apply IH|apply Rmax_l].
Qed.
Lemma maxabs_in l : 0 < maxabs l -> exists q, In q l /\ Rabs q = maxabs l.
Proof.
  induction l as [|x l IH]; cbn; [lra|]. fold (maxabs l). intros H. unfold Rmax in *. destruct (Rle_dec (maxabs l) (Rabs x)).
  - exists x. split; [now left|reflexivity].
  - destruct (IH H) as (q & I & E). exists q. split; [now right|exact E].
Qed.
Lemma maxabs_app l l' : maxabs (l ++ l') = Rmax (maxabs l) (maxabs l').
Proof.
  induction l as [|x l IH]; cbn [app].
  - cbn. rewrite Rmax_right; [reflexivity|apply maxabs_nonneg].
  - change (maxabs (x :: l ++ l')) with (Rmax (maxabs (l ++ l')) (Rabs x)). rewrite IH.
    change (maxabs (x :: l)) with (Rmax (maxabs l) (Rabs x)).
    rewrite <- (Rmax_assoc (maxabs l) (Rabs x)), (Rmax_comm (Rabs x)), Rmax_assoc. reflexivity.
Qed.

Lemma rsum_single x : rsum [x] = x.
Proof. unfold rsum. cbn. ring. Qed.
Lemma first_atoms l : forall c, fold_left firstAtom l c =
  mkNTA (nc_structures c) (nc_atoms c) (nc_energy c) (nc_force c + rsum (map fs3 l)) (fold_left (fun m a => Rmax m (Rabs (nt_chargeRef a))) l (nc_charge c)).
Proof.
  induction l as [|a l IH]; intros c; cbn [fold_left].
  - cbn. rewrite Rplus_0_r. destruct c; reflexivity.
  - rewrite IH. unfold firstAtom. cbn [nc_structures nc_atoms nc_energy nc_force nc_charge map]. rewrite max_if. f_equal.
    change (rsum (fs3 a :: map fs3 l)) with (fs3 a + rsum (map fs3 l)). unfold fs3 at 2. ring.
Qed.
Lemma fold_max l : forall m, 0 <= m -> fold_left (fun m a => Rmax m (Rabs (nt_chargeRef a))) l m = Rmax m (maxabs (map nt_chargeRef l)).
Proof.
  induction l as [|a l IH]; intros m Hm; cbn [fold_left map].
  - cbn. now rewrite Rmax_left.
  - rewrite IH by (apply Rle_trans with m; [exact Hm|apply Rmax_l]).
    change (maxabs (nt_chargeRef a :: map nt_chargeRef l)) with (Rmax (maxabs (map nt_chargeRef l)) (Rabs (nt_chargeRef a))).
    rewrite (Rmax_comm (maxabs _)), Rmax_assoc. reflexivity.
Qed.
Definition epa (s : ntstruct) : R := ns_energyRef s / INR (ns_numAtoms s).
Lemma first_loop ss : firstLoop ss = mkNTA (length ss) (list_sum (map ns_numAtoms ss)) (rsum (map epa ss))
  (rsum (map (fun s => rsum (map fs3 (ns_atoms s))) ss)) (maxabs (set_charges ss)).
Proof.
  unfold firstLoop. rewrite <- (rev_involutive ss). set (l := rev ss). clearbody l.
  induction l as [|s l IH].
  - reflexivity.
  - cbn [rev]. rewrite fold_left_app, IH. cbn [fold_left]. rewrite first_atoms. cbn [nc_structures nc_atoms nc_energy nc_force nc_charge].
    rewrite fold_max by apply maxabs_nonneg. unfold set_charges. rewrite app_length, !map_app, list_sum_app, !rsum_app, flat_map_app, maxabs_app.
    cbn [length map list_sum fold_right flat_map]. rewrite app_nil_r. f_equal; try lia.
    + unfold rsum, epa. cbn. lra.
    + rewrite (rsum_single (rsum (map fs3 (ns_atoms s)))). reflexivity.
Qed.
Lemma max_procs procs : fold_right Rmax 0 (map (fun ss => maxabs (set_charges ss)) procs) = maxabs (set_charges (concat procs)).
Proof.
  induction procs as [|p l IH]; [reflexivity|]. cbn [map fold_right concat]. rewrite IH. unfold set_charges. now rewrite flat_map_app, maxabs_app.
Qed.
Lemma reduce_loop procs : reduceLoop (map firstLoop procs) = firstLoop (concat procs).
Proof.
  unfold reduceLoop. rewrite !map_map.
  rewrite (map_ext _ (@length ntstruct)) by (intros ss; now rewrite first_loop).
  rewrite (map_ext (fun x => nc_atoms (firstLoop x)) (fun ss => list_sum (map ns_numAtoms ss))) by (intros ss; now rewrite first_loop).
  rewrite (map_ext (fun x => nc_energy (firstLoop x)) (fun ss => rsum (map epa ss))) by (intros ss; now rewrite first_loop).
  rewrite (map_ext (fun x => nc_force (firstLoop x)) (fun ss => rsum (map (fun s => rsum (map fs3 (ns_atoms s))) ss))) by (intros ss; now rewrite first_loop).
  rewrite (map_ext (fun x => nc_charge (firstLoop x)) (fun ss => maxabs (set_charges ss))) by (intros ss; now rewrite first_loop).
  rewrite first_loop, length_procs, list_sum_procs, !rsum_procs, max_procs. reflexivity.
Qed.

Definition dev3 (mf : R) (a : ntatom) : R := (vx (nt_fRef a) - mf) ^ 2 + (vy (nt_fRef a) - mf) ^ 2 + (vz (nt_fRef a) - mf) ^ 2.
Lemma second_atoms mf l : forall c, fold_left (fun (c : R * R) a =>
    let d0 := vx (nt_fRef a) - mf in let d1 := vy (nt_fRef a) - mf in let d2 := vz (nt_fRef a) - mf in
    (fst c, snd c + d0 * d0 + d1 * d1 + d2 * d2)) l c = (fst c, snd c + rsum (map (dev3 mf) l)).
Proof.
  induction l as [|a l IH]; intros c; cbn [fold_left].
  - cbn. rewrite Rplus_0_r. now destruct c.
  - rewrite IH. cbn [fst snd map]. f_equal. change (rsum (dev3 mf a :: map (dev3 mf) l)) with (dev3 mf a + rsum (map (dev3 mf) l)). unfold dev3 at 2. ring.
Qed.
Lemma second_loop me mf ss : secondLoop me mf ss =
  (rsum (map (fun s => (epa s - me) ^ 2) ss), rsum (map (fun s => rsum (map (dev3 mf) (ns_atoms s))) ss)).
Proof.
  unfold secondLoop.
  assert (G : forall c, fold_left (fun c s =>
      let ediff := ns_energyRef s / INR (ns_numAtoms s) - me in
      fold_left (fun c a =>
          let d0 := vx (nt_fRef a) - mf in let d1 := vy (nt_fRef a) - mf in let d2 := vz (nt_fRef a) - mf in
          (fst c, snd c + d0 * d0 + d1 * d1 + d2 * d2)) (ns_atoms s) (fst c + ediff * ediff, snd c)) ss c =
    (fst c + rsum (map (fun s => (epa s - me) ^ 2) ss), snd c + rsum (map (fun s => rsum (map (dev3 mf) (ns_atoms s))) ss))).
  { induction ss as [|s ss IH]; intros c; cbn [fold_left map].
    - unfold rsum. cbn. rewrite !Rplus_0_r. now destruct c.
    - rewrite IH. cbv zeta. rewrite second_atoms. cbn [fst snd]. unfold rsum. cbn [fold_right]. unfold epa. f_equal; ring. }
  rewrite G. cbn [fst snd]. now rewrite !Rplus_0_l.
Qed.

Lemma sum_comp (g : R -> R) ss : rsum (map (fun s => rsum (map (fun a => g (vx (nt_fRef a)) + g (vy (nt_fRef a)) + g (vz (nt_fRef a))) (ns_atoms s))) ss) =
  rsum (map g (set_forces ss)).
Proof.
  assert (A : forall l, rsum (map (fun a => g (vx (nt_fRef a)) + g (vy (nt_fRef a)) + g (vz (nt_fRef a))) l) = rsum (map g (atom_forces l))).
  { induction l as [|a l IH]; [reflexivity|]. unfold atom_forces. cbn [flat_map map]. rewrite map_app, rsum_app. fold (atom_forces l). rewrite <- IH.
    unfold rsum. cbn. ring. }
  induction ss as [|s ss IH]; [reflexivity|]. unfold set_forces. cbn [flat_map map]. rewrite map_app, rsum_app. fold (set_forces ss).
  rewrite <- IH, <- A. reflexivity.
Qed.
Lemma count_forces ss : (forall s, In s ss -> filled s) -> length (set_forces ss) = (3 * list_sum (map ns_numAtoms ss))%nat.
Proof.
  induction ss as [|s ss IH]; intros H; [reflexivity|]. unfold set_forces. cbn [flat_map map]. rewrite app_length. fold (set_forces ss).
  rewrite IH by (intros; apply H; now right). destruct (H s (or_introl eq_refl)) as [E _].
  assert (A : forall l, length (atom_forces l) = (3 * length l)%nat).
  { induction l as [|a l IHl]; [reflexivity|]. unfold atom_forces. cbn [flat_map components app length]. fold (atom_forces l). lia. }
  rewrite A. change (list_sum (ns_numAtoms s :: map ns_numAtoms ss)) with (ns_numAtoms s + list_sum (map ns_numAtoms ss))%nat. lia.
Qed.
Lemma energies_epa ss : (forall s, In s ss -> filled s) -> set_energies ss = map epa ss.
Proof. intros H. unfold set_energies, epa. apply map_ext_in. intros s I. now rewrite (proj1 (H s I)). Qed.

Lemma factors_are procs : let all := concat procs in all <> [] -> (forall s, In s all -> filled s) ->
  findFactors procs = mkFactors (mean (set_energies all)) (1 / deviation (set_energies all))
    (deviation (set_forces all) / deviation (set_energies all))
    (if Rlt_dec 0 (maxabs (set_charges all)) then 1 / maxabs (set_charges all) else 1).
Proof.
  intros all Ne H. unfold findFactors. rewrite reduce_loop. fold all. rewrite first_loop. cbn [nc_structures nc_atoms nc_energy nc_force nc_charge].
  set (me := rsum (map epa all) / INR (length all)). set (mf := _ / INR (3 * list_sum (map ns_numAtoms all))).
  assert (Em : me = mean (set_energies all)) by (unfold mean; rewrite energies_epa, map_length by exact H; reflexivity).
  assert (Ef : mf = mean (set_forces all)).
  { unfold mean, mf. rewrite count_forces by exact H. f_equal. rewrite <- (map_id (set_forces all)), <- (sum_comp (fun x => x)). reflexivity. }
  rewrite !map_map.
  rewrite (map_ext (fun x => fst (secondLoop me mf x)) (fun ss => rsum (map (fun s => (epa s - me) ^ 2) ss))) by (intros ss; now rewrite second_loop).
  rewrite (map_ext (fun x => snd (secondLoop me mf x)) (fun ss => rsum (map (fun s => rsum (map (dev3 mf) (ns_atoms s))) ss))) by (intros ss; now rewrite second_loop).
  rewrite !rsum_procs. fold all.
  assert (N1 : (0 < length all)%nat) by (destruct all; [congruence|cbn; lia]).
  assert (N2 : (0 < 3 * list_sum (map ns_numAtoms all))%nat).
  { destruct all as [|s r] eqn:Ea; [congruence|]. destruct (H s (or_introl eq_refl)) as [E A]. cbn [map].
    change (list_sum (ns_numAtoms s :: map ns_numAtoms r)) with (ns_numAtoms s + list_sum (map ns_numAtoms r))%nat.
    rewrite E. destruct (ns_atoms s); [congruence|]. cbn [length]. lia. }
  assert (D1 : sqrt (rsum (map (fun s => (epa s - me) ^ 2) all) / INR (length all - 1)) = deviation (set_energies all)).
  { unfold deviation. rewrite <- Em, energies_epa, map_map, map_length, minus_one by assumption. reflexivity. }
  assert (D2 : sqrt (rsum (map (fun s => rsum (map (dev3 mf) (ns_atoms s))) all) / INR (3 * list_sum (map ns_numAtoms all) - 1)) = deviation (set_forces all)).
  { unfold deviation. rewrite <- Ef, count_forces, minus_one by assumption. f_equal. f_equal.
    rewrite <- (sum_comp (fun x => (x - mf) ^ 2)). reflexivity. }
  rewrite D1, D2, Em. reflexivity.
Qed.

Section Converted.
Variables (m cE cL cQ : R).
Let conv := convertStructure m cE cL cQ.
Lemma conv_energies ss : (forall s, In s ss -> filled s) -> set_energies (map conv ss) = map (fun x => (x - m) * cE) (set_energies ss).
Proof.
  intros H. unfold set_energies. rewrite !map_map. apply map_ext_in. intros s I. destruct (H s I) as [E A].
  unfold conv, convertStructure. cbn [ns_energyRef ns_atoms]. rewrite map_length, E. field.
  apply not_0_INR. destruct (ns_atoms s); [congruence|discriminate].
Qed.
Lemma conv_forces ss : set_forces (map conv ss) = map (fun x => (x - 0) * (cE / cL)) (set_forces ss).
Proof.
  assert (A : forall l, atom_forces (map (fun a => mkNT (smul cL (nt_r a)) (smul (cE / cL) (nt_fRef a)) (nt_chargeRef a * cQ)) l) =
    map (fun x => (x - 0) * (cE / cL)) (atom_forces l)).
  { induction l as [|a l IH]; [reflexivity|]. unfold atom_forces. cbn [flat_map map]. rewrite map_app. f_equal; [|exact IH].
    unfold components, smul. cbn. rewrite !Rminus_0_r. reflexivity. }
  induction ss as [|s ss IH]; [reflexivity|]. unfold set_forces. cbn [flat_map map]. rewrite map_app. f_equal; [|exact IH].
  unfold conv, convertStructure. cbn [ns_atoms]. apply A.
Qed.
Lemma conv_charges ss : set_charges (map conv ss) = map (fun q => q * cQ) (set_charges ss).
Proof.
  induction ss as [|s ss IH]; [reflexivity|]. unfold set_charges. cbn [flat_map map]. rewrite map_app. f_equal; [|exact IH].
  unfold conv, convertStructure. cbn [ns_atoms]. rewrite !map_map. reflexivity.
Qed.
End Converted.

Lemma smul_back a c v : c <> 0 -> a * c = 1 -> v = smul a (smul c v).
Proof. intros _ H. apply vec_eq; unfold smul; cbn; rewrite Rmult_assoc, (Rmult_comm c a), H; ring. Qed.
Lemma conv_same f s : fa_energy f <> 0 -> fa_length f <> 0 -> fa_charge f <> 0 -> filled s ->
  same_structure f s (convertStructure (fa_mean f) (fa_energy f) (fa_length f) (fa_charge f) s).
Proof.
  intros HE HL HQ [E _]. unfold same_structure, convertStructure. cbn [ns_numAtoms ns_energyRef ns_chargeRef ns_box ns_atoms m0 m1 m2].
  split; [reflexivity|]. split; [rewrite E; field; exact HE|]. split; [field; exact HQ|].
  assert (L : / fa_length f * fa_length f = 1) by (field; exact HL).
  split; [now apply smul_back|]. split; [now apply smul_back|]. split; [now apply smul_back|].
  clear E. induction (ns_atoms s) as [|a l IH]; cbn [map]; constructor; auto. unfold same_atom. cbn [nt_r nt_fRef nt_chargeRef].
  split; [now apply smul_back|]. split; [|field; exact HQ]. apply smul_back.
  - intros Z. apply HE. replace (fa_energy f) with (fa_energy f / fa_length f * fa_length f) by (field; exact HL). rewrite Z. ring.
  - field. split; auto.
Qed.

Lemma tool_ok procs : let all := concat procs in
  (forall s, In s all -> filled s) -> deviation (set_energies all) <> 0 -> deviation (set_forces all) <> 0 ->
  exists f out, normTool false procs = Done (f, out) /\
    Forall2 (Forall2 (same_structure f)) procs out /\
    mean (set_energies (concat out)) = 0 /\ deviation (set_energies (concat out)) = 1 /\ deviation (set_forces (concat out)) = 1 /\
    (forall q, In q (set_charges (concat out)) -> Rabs q <= 1) /\
    ((exists q, In q (set_charges all) /\ q <> 0) -> exists q, In q (set_charges (concat out)) /\ Rabs q = 1) /\
    ((forall q, In q (set_charges all) -> q = 0) -> fa_charge f = 1).
Proof.
  intros all H DE DF.
  assert (NeE := deviation_nonempty _ DE).
  assert (Ne : all <> []) by (intros Z; apply NeE; rewrite Z; reflexivity).
  assert (PE := deviation_nonneg (set_energies all)). assert (PF := deviation_nonneg (set_forces all)).
  set (f := findFactors procs). assert (Ff := factors_are procs Ne H). fold all f in Ff.
  set (M := maxabs (set_charges all)) in *.
  assert (FE : fa_energy f = 1 / deviation (set_energies all)) by (rewrite Ff; reflexivity).
  assert (FL : fa_length f = deviation (set_forces all) / deviation (set_energies all)) by (rewrite Ff; reflexivity).
  assert (FQ : fa_charge f = if Rlt_dec 0 M then 1 / M else 1) by (rewrite Ff; reflexivity).
  assert (Fm : fa_mean f = mean (set_energies all)) by (rewrite Ff; reflexivity).
  assert (E0 : fa_energy f <> 0) by (rewrite FE; intros Z; apply (Rmult_eq_compat_r (deviation (set_energies all))) in Z; field_simplify in Z; lra).
  assert (L0 : fa_length f <> 0).
  { rewrite FL. intros Z. apply DF. replace (deviation (set_forces all)) with (deviation (set_forces all) / deviation (set_energies all) * deviation (set_energies all)) by (field; exact DE).
    rewrite Z. ring. }
  assert (Q0 : 0 < fa_charge f).
  { rewrite FQ. destruct (Rlt_dec 0 M); [|lra]. apply Rdiv_lt_0_compat; lra. }
  exists f, (map (map (convertStructure (fa_mean f) (fa_energy f) (fa_length f) (fa_charge f))) procs).
  split; [reflexivity|].
  assert (C : concat (map (map (convertStructure (fa_mean f) (fa_energy f) (fa_length f) (fa_charge f))) procs) =
    map (convertStructure (fa_mean f) (fa_energy f) (fa_length f) (fa_charge f)) all) by (symmetry; apply concat_map).
  rewrite C. split.
  - assert (G : forall l, (forall s, In s (concat l) -> filled s) ->
      Forall2 (Forall2 (same_structure f)) l (map (map (convertStructure (fa_mean f) (fa_energy f) (fa_length f) (fa_charge f))) l)).
    { induction l as [|p l IH]; intros Hl; cbn [map]; constructor.
      - assert (Hp : forall s, In s p -> filled s) by (intros; apply Hl; cbn; apply in_or_app; now left).
        clear - Hp E0 L0 Q0. induction p as [|s p IH]; cbn [map]; constructor.
        + apply conv_same; auto; [lra|]. apply Hp. now left.
        + apply IH. intros; apply Hp; now right.
      - apply IH. intros; apply Hl; cbn; apply in_or_app; now right. }
    apply G. exact H.
  - rewrite conv_energies by exact H. rewrite conv_forces, conv_charges.
    rewrite mean_affine by exact NeE. rewrite !deviation_affine. split; [rewrite Fm; ring|]. split.
    { rewrite FE, Rabs_right; [field; exact DE|]. apply Rle_ge. left. apply Rdiv_lt_0_compat; lra. }
    split.
    { assert (X : fa_energy f / fa_length f = 1 / deviation (set_forces all)) by (rewrite FE, FL; field; split; auto).
      rewrite X, Rabs_right; [field; exact DF|]. apply Rle_ge. left. apply Rdiv_lt_0_compat; lra. }
    split; [|split].
    + intros q I. apply in_map_iff in I as (q0 & <- & I). assert (B := maxabs_ge _ _ I). fold M in B.
      rewrite Rabs_mult, (Rabs_right (fa_charge f)) by lra. rewrite FQ. destruct (Rlt_dec 0 M) as [P|P].
      * apply Rmult_le_reg_r with M; [exact P|]. field_simplify; lra.
      * pose proof (Rabs_pos q0). lra.
    + intros (q0 & I & Z). assert (B := maxabs_ge _ _ I). fold M in B. assert (P := Rabs_pos_lt _ Z).
      destruct (maxabs_in (set_charges all)) as (q & Iq & Eq); [fold M; lra|]. fold M in Eq.
      exists (q * fa_charge f). split; [apply in_map_iff; exists q; auto|].
      rewrite Rabs_mult, (Rabs_right (fa_charge f)), Eq, FQ by lra. destruct (Rlt_dec 0 M); [field; lra|lra].
    + intros Z. rewrite FQ. destruct (Rlt_dec 0 M) as [P|P]; [|reflexivity]. destruct (maxabs_in _ P) as (q & Iq & Eq).
      rewrite (Z q Iq), Rabs_R0 in Eq. fold M in Eq. lra.
Qed.
Lemma factors_invariant procs procs' : concat procs = concat procs' -> (forall s, In s (concat procs) -> filled s) -> concat procs <> [] ->
  forall f out f' out', normTool false procs = Done (f, out) -> normTool false procs' = Done (f', out') -> f = f' /\ concat out = concat out'.
Proof.
  intros E H Ne f out f' out' A B.
  assert (F : findFactors procs = findFactors procs').
  { assert (A1 := factors_are procs Ne H). assert (B1 := factors_are procs'). cbv zeta in A1, B1. rewrite <- E in B1. specialize (B1 Ne H). now rewrite A1, B1. }
  unfold normTool in A, B. cbv zeta in A, B. rewrite F in A. set (g := findFactors procs') in *. clearbody g.
  injection A as <- <-. injection B as <- <-. split; [reflexivity|]. now rewrite <- !concat_map, E.
Qed.

(** Two processes with one structure each, and one without. *)
Definition ex_atom (x q : R) : ntatom := mkNT vzero (mkVec x 0 0) q.
Definition ex_box : mat := mkMat (mkVec 1 0 0) (mkVec 0 1 0) (mkVec 0 0 1).
Definition ex_procs : list (list ntstruct) :=
  [[mkNS 1 1 0 ex_box [ex_atom 3 0]]; []; [mkNS 2 6 1 ex_box [ex_atom 0 2; ex_atom 0 (-1)]]].
Lemma dev_pos l x y : In x l -> In y l -> x <> y -> deviation l <> 0.
Proof.
  intros Ix Iy N. unfold deviation. set (mu := mean l).
  assert (L2 : (2 <= length l)%nat).
  { destruct l as [|a [|b r]]; [destruct Ix| |cbn; lia]. destruct Ix as [->|[]], Iy as [->|[]]. congruence. }
  assert (P : 0 < rsum (map (fun z => (z - mu) ^ 2) l)).
  { assert (S : exists z, In z l /\ z <> mu) by (destruct (Req_dec x mu); [exists y; split; [auto|congruence]|now exists x]).
    destruct S as (z & I & Z). clearbody mu. clear - I Z. induction l as [|a l IH]; [destruct I|]. unfold rsum. cbn [map fold_right]. fold (rsum (map (fun z => (z - mu) ^ 2) l)).
    assert (A : 0 <= rsum (map (fun z => (z - mu) ^ 2) l)) by (apply rsum_nonneg; intros w Iw; apply in_map_iff in Iw as (v & <- & _); apply pow2_ge_0).
    destruct I as [->|I]; [|specialize (IH I); pose proof (pow2_ge_0 (a - mu)); lra].
    assert (X := Rlt_0_sqr (z - mu) ltac:(lra)). unfold Rsqr in X. replace ((z - mu) ^ 2) with ((z - mu) * (z - mu)) by ring. lra. }
  assert (Q : 0 < INR (length l) - 1) by (apply le_INR in L2; cbn in L2; lra).
  intros E. apply sqrt_eq_0 in E; [|left; now apply Rdiv_lt_0_compat]. assert (X := Rdiv_lt_0_compat _ _ P Q). lra.
Qed.
Lemma ex_ok : (forall s, In s (concat ex_procs) -> filled s) /\ deviation (set_energies (concat ex_procs)) <> 0 /\
  deviation (set_forces (concat ex_procs)) <> 0 /\ exists q, In q (set_charges (concat ex_procs)) /\ q <> 0.
Proof.
  split; [|split; [|split]].
  - intros s [<-|[<-|[]]]; split; cbn; auto; discriminate.
  - apply (dev_pos _ 1 3); [left; cbn; lra|right; left; cbn; lra|lra].
  - apply (dev_pos _ 3 0); [left; reflexivity|right; left; reflexivity|lra].
  - exists 2. split; [right; left; reflexivity|lra].
Qed.
