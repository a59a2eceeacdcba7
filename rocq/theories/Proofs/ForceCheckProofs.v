(** Analytic and numeric forces compared by nnp-checkf. *)
From Coq Require Import Reals Lra ZArith Ascii String Bool Arith Lia.
From Coquelicot Require Import Coquelicot.
From Coq Require Import List.
From Verif Require Import Base.Loop Base.Vec3 Base.SumR Model.Strings Model.Printf Model.Settings Model.SymLines Model.StructureFile Model.DataFiles Model.Dataset Model.ForceCheck
  Spec.StringSpec Spec.DatasetSpec Spec.ErrorSpec Spec.ForceCheckSpec
  Proofs.StringProofs Proofs.PrintfProofs Proofs.StructureFileText Proofs.SymLineProofs Proofs.DataFilesText Proofs.NumericForceProofs Proofs.LearningCurveProofs.
From Coq Require Import List.
Import ListNotations.
Local Open Scope R_scope.

(** ** Comments *)
Definition sgn_of (i : nat) : Z := (2 * Z.of_nat ((i mod 6) / 3) - 1)%Z.
Lemma decomp k : exists a m, (k = 6 * a + m /\ m < 6 /\ k / 6 = a /\ k mod 3 = m mod 3 /\ k mod 6 = m)%nat.
Proof.
  exists (k / 6)%nat, (k mod 6)%nat. assert (D := Nat.div_mod k 6 ltac:(lia)). assert (B := Nat.mod_upper_bound k 6 ltac:(lia)). repeat split; auto.
  rewrite D at 1. replace (6 * (k / 6) + k mod 6)%nat with (k mod 6 + (2 * (k / 6)) * 3)%nat by lia. now apply Nat.mod_add.
Qed.
Lemma sgn_cases i : (sgn_of i = 1%Z /\ (i = 6 * (i / 6) + 3 + i mod 3)%nat) \/ (sgn_of i = (-1)%Z /\ (i = 6 * (i / 6) + i mod 3)%nat).
Proof.
  unfold sgn_of. destruct (decomp i) as (a & m & E & B & -> & -> & ->).
  do 6 (destruct m as [|m]; [first [left; split; [reflexivity|cbn; lia]|right; split; [reflexivity|cbn; lia]]|]). lia.
Qed.
Lemma no_space_d n : ~ In ch_space (print_d n).
Proof.
  intros I. destruct (digits_of n) as (k & E & _). rewrite E in I. destruct (decimals_digits k _ _ I) as (d & D & X).
  assert (C : exists j, d = Z.of_nat j /\ (j < 10)%nat) by (exists (Z.to_nat d); lia). destruct C as (j & -> & J). clear - J X.
  do 10 (destruct j as [|j]; [discriminate X|]). lia.
Qed.
Lemma comment_words count a x sg : sg = 1%Z \/ sg = (-1)%Z ->
  Strings.split (copy_comment (inr (count, a, x, sg))) ch_space = [print_d count; print_d a; print_d x; print_int sg].
Proof.
  intros Hs. change (copy_comment (inr (count, a, x, sg))) with (join [ch_space] [print_d count; print_d a; print_d x; print_int sg]).
  apply split_join.
  - discriminate.
  - intros w [<-|[<-|[<-|[<-|[]]]]]; try apply no_space_d. destruct Hs as [->| ->].
    + apply (no_space_d 1).
    + intros [X|X]; [discriminate X|]. now apply (no_space_d 1) in X.
  - destruct Hs as [->| ->]; discriminate.
Qed.
Lemma comment_not_original count a x sg : str_eqb (copy_comment (inr (count, a, x, sg))) (lit "original") = false.
Proof.
  destruct (str_eqb _ _) eqn:E; auto. apply str_eqb_true in E. exfalso.
  assert (I : In ch_space (lit "original")). { rewrite <- E. unfold copy_comment. apply in_or_app. right. now left. }
  cbn in I. repeat destruct I as [I|I]; try discriminate I; auto.
Qed.
Lemma size_at_print l i n : nth_error l i = Some (print_d n) -> fits n -> size_at l i = Done n.
Proof.
  intros E F. unfold size_at, at_. rewrite E. cbn [throwing bindo]. rewrite atoi_print by auto. cbn [bindo].
  destruct (Z.ltb_spec (Z.of_nat n) 0); [lia|]. now rewrite Nat2Z.id.
Qed.

Section Check.
Variables (energy : list vec -> R) (force : list vec -> components) (remap : vec -> vec) (P : nat) (delta : R) (pos : list vec) (f0 fRef0 : components).
Hypothesis HP : (1 <= P)%nat.
Let N := List.length pos.
Hypothesis HN : fits (6 * N).
Notation cp := (copy remap delta pos).
Definition E_of (i : nat) : R := energy (n_pos (cp i)).

Lemma collect_copy c i : (i < 6 * N)%nat -> collect_one energy (6 * N) (cp i) c =
  Done (mkColl (Base.Loop.upd (cl_energy c) i (E_of i)) (Base.Loop.upd (cl_atom c) i (i / 6)%nat) (Base.Loop.upd (cl_xyz c) i (i mod 3)%nat) (Base.Loop.upd (cl_sign c) i (sgn_of i))).
Proof.
  intros Hi. unfold collect_one. cbv zeta. cbn [copy n_comment]. fold (sgn_of i). rewrite comment_not_original.
  assert (S : sgn_of i = 1%Z \/ sgn_of i = (-1)%Z) by (destruct (sgn_cases i) as [[? _]|[? _]]; auto).
  rewrite comment_words by auto.
  assert (Fi : fits i) by (unfold fits in *; lia).
  assert (Fa : fits (i / 6)) by (unfold fits in *; assert (i / 6 <= i)%nat by (apply Nat.div_le_upper_bound; lia); lia).
  assert (Fx : fits (i mod 3)) by (unfold fits in *; assert (i mod 3 < 3)%nat by (apply Nat.mod_upper_bound; lia); lia).
  rewrite (size_at_print _ 0 i), (size_at_print _ 1 (i / 6)), (size_at_print _ 2 (i mod 3)) by auto. cbn [bindo at_ nth_error throwing].
  replace (atoi (print_int (sgn_of i))) with (Done (sgn_of i)) by (destruct S as [->| ->]; vm_compute; reflexivity).
  cbn [bindo]. destruct (Nat.ltb_spec i (6 * N)); [|lia]. reflexivity.
Qed.
Definition holds (c : collected) (i : nat) : Prop := cl_energy c i = E_of i /\ cl_atom c i = (i / 6)%nat /\ cl_xyz c i = (i mod 3)%nat /\ cl_sign c i = sgn_of i.
Definition empty (c : collected) (i : nat) : Prop := cl_energy c i = 0 /\ cl_atom c i = 0%nat /\ cl_xyz c i = 0%nat /\ cl_sign c i = 0%Z.
Lemma collect_seq k : forall a c, (a + k <= 6 * N)%nat -> exists c', foldo (collect_one energy (6 * N)) (map cp (seq a k)) c = Done c' /\
  forall j, ((a <= j < a + k)%nat -> holds c' j) /\ (~ (a <= j < a + k)%nat -> cl_energy c' j = cl_energy c j /\ cl_atom c' j = cl_atom c j /\ cl_xyz c' j = cl_xyz c j /\ cl_sign c' j = cl_sign c j).
Proof.
  induction k as [|k IH]; intros a c H; cbn [seq map foldo].
  - exists c. split; auto. intros j. split; [lia|auto].
  - rewrite collect_copy by lia. cbn [bindo]. match goal with |- context [foldo _ _ ?c1] => destruct (IH (S a) c1 ltac:(lia)) as (c' & E & G) end.
    exists c'. split; auto. intros j. destruct (G j) as [G1 G2]. split; intros Hj.
    + destruct (Nat.eq_dec j a) as [->|Ne]; [|apply G1; lia].
      destruct G2 as (A & B & C & D); [lia|]. cbn [cl_energy cl_atom cl_xyz cl_sign] in *. rewrite upd_same in A. rewrite upd_same in B. rewrite upd_same in C. rewrite upd_same in D. repeat split; auto.
    + destruct G2 as (A & B & C & D); [lia|]. cbn [cl_energy cl_atom cl_xyz cl_sign] in *. rewrite upd_other in A by lia. rewrite upd_other in B by lia. rewrite upd_other in C by lia. rewrite upd_other in D by lia. auto.
Qed.
Notation starts := (starts P pos).
Notation nlen := (nlen P pos).
Lemma starts_mono p q : (p <= q)%nat -> (starts p <= starts q)%nat.
Proof. intros H. induction H as [|q H IH]; auto. rewrite starts_S by auto. lia. Qed.
Lemma collect_process p : (p < P)%nat -> exists c, collect_all energy (6 * N) (prepareNumericForces remap P p delta pos) = Done c /\
  forall j, ((starts p <= j < starts (S p))%nat -> holds c j) /\ (~ (starts p <= j < starts (S p))%nat -> empty c j).
Proof.
  intros Hp. unfold collect_all. rewrite prepare_eq by auto. rewrite starts_S by auto.
  destruct (collect_seq (nlen p) (starts p) no_data) as (c & E & G).
  { unfold N. rewrite <- starts_S by auto. rewrite <- (starts_all P pos HP). apply starts_mono. lia. }
  exists c. split; [|exact G]. destruct (Nat.eqb p 0); cbn [app]; auto.
Qed.
Lemma mapo_snoc {A B} (f : A -> outcome B) l x ys y : mapo f l = Done ys -> f x = Done y -> mapo f (l ++ [x]) = Done (ys ++ [y]).
Proof.
  revert ys. induction l as [|a l IH]; intros ys E Ex; cbn [mapo app] in *.
  - injection E as <-. rewrite Ex. reflexivity.
  - destruct (f a) as [b| |]; try discriminate E. cbn [bindo] in *. destruct (mapo f l) as [bs| |]; try discriminate E. cbn [bindo] in E. injection E as <-.
    rewrite (IH bs) by auto. reflexivity.
Qed.
Lemma collect_procs k : (k <= P)%nat -> exists data, mapo (fun p => collect_all energy (6 * N) (prepareNumericForces remap P p delta pos)) (seq 0 k) = Done data /\
  forall j, ((j < starts k)%nat -> holds (reduce_data data) j) /\ ((starts k <= j)%nat -> empty (reduce_data data) j).
Proof.
  induction k as [|k IH]; intros Hk.
  - exists []. split; auto. intros j. split; [cbn; lia|]. intros _. repeat split.
  - destruct IH as (data & E & G); [lia|]. destruct (collect_process k ltac:(lia)) as (c & Ec & Gc).
    exists (data ++ [c]). split; [rewrite seq_S; apply mapo_snoc; auto|].
    assert (M := starts_mono k (S k) ltac:(lia)).
    unfold reduce_data. rewrite fold_left_app. cbn [fold_left]. fold (reduce_data data).
    intros j. destruct (G j) as [G1 G2], (Gc j) as [C1 C2]. unfold holds, empty, sum_data in *. cbn [cl_energy cl_atom cl_xyz cl_sign]. split; intros Hj.
    + destruct (Nat.lt_ge_cases j (starts k)) as [L|L].
      * destruct (G1 L) as (-> & -> & -> & ->). destruct C2 as (-> & -> & -> & ->); [lia|]. rewrite Rplus_0_r, !Nat.add_0_r, Z.add_0_r. auto.
      * destruct (G2 L) as (-> & -> & -> & ->). destruct C1 as (-> & -> & -> & ->); [lia|]. rewrite Rplus_0_l. auto.
    + destruct G2 as (-> & -> & -> & ->); [lia|]. destruct C2 as (-> & -> & -> & ->); [lia|]. rewrite Rplus_0_l. auto.
Qed.

(** ** Assignment *)
Lemma foldo_snoc {A S} (f : A -> S -> outcome S) l x s s' : foldo f l s = Done s' -> foldo f (l ++ [x]) s = f x s'.
Proof.
  revert s. induction l as [|a l IH]; intros s E; cbn [foldo app] in *.
  - injection E as <-. destruct (f x s); reflexivity.
  - destruct (f a s) as [t| |]; try discriminate E. cbn [bindo] in *. now apply IH.
Qed.
Lemma component_same f a x v : set_component f a x v a x = v.
Proof. unfold set_component. now rewrite !upd_same. Qed.
Lemma component_other f a x v b y : a <> b \/ x <> y -> set_component f a x v b y = f b y.
Proof.
  intros H. unfold set_component. destruct (Nat.eq_dec b a) as [->|Ne]; [|now rewrite upd_other].
  rewrite upd_same. destruct H as [H|H]; [congruence|]. now rewrite upd_other by auto.
Qed.
Lemma assign_all all s k : (forall j, (j < 6 * N)%nat -> holds all j) -> (k <= 6 * N)%nat -> exists pm, foldo (assign_energies N all) (seq 0 k) s = Done pm /\
  forall a x, (x < 3)%nat -> ((6 * a + 3 + x < k)%nat -> fst pm a x = E_of (6 * a + 3 + x)) /\ ((6 * a + x < k)%nat -> snd pm a x = E_of (6 * a + x)).
Proof.
  intros H. induction k as [|k IH]; intros Hk.
  - exists s. split; auto. intros a x _. split; lia.
  - destruct IH as (pm & E & G); [lia|]. rewrite seq_S, (foldo_snoc _ _ _ _ pm) by auto. cbn [Nat.add]. unfold assign_energies.
    destruct (H k ltac:(lia)) as (-> & -> & -> & ->).
    assert (Ha : (k / 6 < N)%nat) by (apply Nat.div_lt_upper_bound; lia). assert (Hx : (k mod 3 < 3)%nat) by (apply Nat.mod_upper_bound; lia).
    destruct (Nat.ltb_spec (k / 6) N); [|lia]. destruct (Nat.ltb_spec (k mod 3) 3); [|lia]. cbn [negb].
    destruct (sgn_cases k) as [[-> Ek]|[-> Ek]]; cbn [Z.eqb Pos.eqb].
    + eexists. split; [reflexivity|]. intros a x X. cbn [fst snd]. destruct (G a x X) as [G1 G2]. split; intros L.
      * destruct (Nat.eq_dec (6 * a + 3 + x) k) as [Q|Q].
        -- assert (a = k / 6 /\ x = k mod 3)%nat as [-> ->] by lia. rewrite component_same. congruence.
        -- rewrite component_other by lia. apply G1. lia.
      * apply G2. lia.
    + eexists. split; [reflexivity|]. intros a x X. cbn [fst snd]. destruct (G a x X) as [G1 G2]. split; intros L.
      * apply G1. lia.
      * destruct (Nat.eq_dec (6 * a + x) k) as [Q|Q].
        -- assert (a = k / 6 /\ x = k mod 3)%nat as [-> ->] by lia. rewrite component_same. congruence.
        -- rewrite component_other by lia. apply G2. lia.
Qed.

(** ** Rows and summary *)
Lemma fold_errors rows : forall s m, fold_left (fun s r => let error := Rabs (cr_numeric r - cr_analytic r) in (fst s + error, std_max error (snd s))) rows (s, m) =
  (s + rsum (map (fun r => Rabs (cr_numeric r - cr_analytic r)) rows), fold_left (fun m r => std_max (Rabs (cr_numeric r - cr_analytic r)) m) rows m).
Proof.
  induction rows as [|r rows IH]; intros s m; cbn [fold_left map rsum fold_right fst snd]; [now rewrite Rplus_0_r|].
  cbv zeta. rewrite IH. f_equal. cbn [rsum]. ring.
Qed.
Lemma fold_max (rows : list check_row) : forall m, 0 <= m -> let mx := fold_left (fun m r => std_max (Rabs (cr_numeric r - cr_analytic r)) m) rows m in
  m <= mx /\ (forall r, In r rows -> Rabs (cr_numeric r - cr_analytic r) <= mx) /\ (mx = m \/ exists r, In r rows /\ mx = Rabs (cr_numeric r - cr_analytic r)).
Proof.
  induction rows as [|r rows IH]; intros m Hm; cbn [fold_left]; cbv zeta.
  - split; [lra|]. split; [easy|auto].
  - set (e := Rabs (cr_numeric r - cr_analytic r)) in *. assert (He : 0 <= e) by apply Rabs_pos.
    assert (X : e <= std_max e m /\ m <= std_max e m /\ (std_max e m = e \/ std_max e m = m)) by (unfold std_max; destruct (Rlt_dec e m); lra).
    destruct X as (X1 & X2 & X3). destruct (IH (std_max e m) ltac:(lra)) as (A & B & C). split; [lra|]. split.
    + intros q [<-|I]; [fold e; lra|auto].
    + destruct C as [C|(q & I & C)].
      * rewrite C. destruct X3 as [->| ->]; [right; exists r; split; [now left|reflexivity]|now left].
      * right. exists q. split; [now right|auto].
Qed.
Lemma rows_positions plus minus frc n : map (fun r => (cr_atom r, cr_xyz r)) (check_rows n delta plus minus frc) = flat_map (fun i => [(i, 0); (i, 1); (i, 2)]%nat) (seq 0 n).
Proof. unfold check_rows. induction (seq 0 n) as [|i l IH]; auto. cbn [flat_map]. rewrite map_app, IH. reflexivity. Qed.
Lemma positions_length n : forall s, List.length (flat_map (fun i => [(i, 0); (i, 1); (i, 2)]%nat) (seq s n)) = (3 * n)%nat.
Proof. induction n as [|n IH]; intros s; auto. cbn [seq flat_map List.length app]. rewrite IH. lia. Qed.
Theorem check_report : delta <> 0 -> pos <> [] -> exists c, check_structure energy force remap P delta pos f0 fRef0 = Done c /\
  map (fun r => (cr_atom r, cr_xyz r)) (ck_rows c) = flat_map (fun i => [(i, 0); (i, 1); (i, 2)]%nat) (seq 0 (List.length pos)) /\
  (forall r, In r (ck_rows c) -> cr_analytic r = force pos (cr_atom r) (cr_xyz r) /\
     exists forth back, displaced_positions remap delta pos (cr_atom r, cr_xyz r, 1%Z) forth /\ displaced_positions remap delta pos (cr_atom r, cr_xyz r, (-1)%Z) back /\
       cr_numeric r = - (energy forth - energy back) / (2 * delta)) /\
  ck_numForces c = List.length (ck_rows c) /\
  ck_mean c = mae (map (fun r => cr_numeric r - cr_analytic r) (ck_rows c)) /\
  (forall r, In r (ck_rows c) -> Rabs (cr_numeric r - cr_analytic r) <= ck_max c) /\
  (exists r, In r (ck_rows c) /\ Rabs (cr_numeric r - cr_analytic r) = ck_max c) /\
  (ck_warning c = true <-> exists r, In r (ck_rows c) /\ 10 * delta ^ 2 < Rabs (cr_numeric r - cr_analytic r)).
Proof.
  intros _ Hne. unfold check_structure. cbv zeta. fold N. replace (1 + 6 * N - 1)%nat with (6 * N)%nat by lia.
  destruct (collect_procs P) as (data & -> & G); [lia|]. cbn [bindo]. rewrite (starts_all P pos HP) in G. fold N in G.
  destruct (assign_all (reduce_data data) (fRef0, f0) (6 * N)) as (pm & -> & A); [intros j Hj; now apply G|lia|]. cbn [bindo].
  rewrite (prepare_eq remap P delta pos HP 0) by lia. cbn [Nat.eqb app nth_error throwing bindo n_pos].
  set (rows := check_rows N delta (fst pm) (snd pm) (force pos)). eexists. split; [reflexivity|]. unfold summarise. rewrite fold_errors.
  assert (F := fold_max rows 0 ltac:(lra)). cbv zeta in F.
  set (mx := fold_left _ rows 0) in *. cbn [ck_rows ck_numForces ck_mean ck_max ck_warning]. destruct F as (_ & F1 & F2).
  assert (L : List.length rows = (3 * N)%nat).
  { rewrite <- (map_length (fun r => (cr_atom r, cr_xyz r)) rows). unfold rows. rewrite rows_positions. apply positions_length. }
  assert (NZ : (0 < N)%nat) by (unfold N; destruct pos; [congruence|cbn; lia]).
  assert (F3 : exists r, In r rows /\ Rabs (cr_numeric r - cr_analytic r) = mx).
  { destruct F2 as [F2|(r & I & F2)]; [|exists r; auto]. destruct rows as [|r rs] eqn:Er; [cbn in L; lia|].
    exists r. split; [now left|]. assert (X := F1 r (or_introl eq_refl)). assert (Y := Rabs_pos (cr_numeric r - cr_analytic r)). lra. }
  split; [apply rows_positions|]. split; [|split; [now rewrite L|split; [|split; [auto|split; [exact F3|]]]]].
  - intros r I. unfold rows, check_rows in I. apply in_flat_map in I as (i & Hi & I). apply in_map_iff in I as (j & <- & Hj). apply in_seq in Hi, Hj.
    cbn [cr_atom cr_xyz cr_analytic cr_numeric]. split; auto. destruct (A i j ltac:(lia)) as [A1 A2].
    exists (n_pos (cp (6 * i + 3 + j))), (n_pos (cp (6 * i + j))).
    assert (Lb : label_of (6 * i + 3 + j) = (i, j, 1%Z) /\ label_of (6 * i + j) = (i, j, (-1)%Z)).
    { unfold label_of. destruct (decomp (6 * i + 3 + j)) as (a & m & Ea & Bm & -> & -> & ->). destruct (decomp (6 * i + j)) as (b & q & Eb & Bq & -> & -> & ->).
      assert (a = i /\ m = 3 + j /\ b = i /\ q = j)%nat as (-> & -> & -> & ->) by lia.
      destruct j as [|[|[|j]]]; [| | |lia]; split; reflexivity. }
    destruct Lb as [L1 L2]. split; [rewrite <- L1; apply copy_displaced|]. split; [rewrite <- L2; apply copy_displaced|].
    rewrite A1, A2 by lia. reflexivity.
  - unfold mae, mean. rewrite !map_length, L, map_map, Rplus_0_l. reflexivity.
  - destruct (Rlt_dec (10 * delta * delta) mx) as [W|W]; split; try easy.
    + intros _. destruct F3 as (r & I & E). exists r. split; auto. rewrite E. replace (delta ^ 2) with (delta * delta) by ring. lra.
    + intros (r & I & X). exfalso. apply W. specialize (F1 r I). replace (delta ^ 2) with (delta * delta) in X by ring. lra.
Qed.
End Check.

(** ** Accuracy of the difference quotient *)
Lemma open_abs eta (t : R) : Rabs t < eta -> locally t (fun u => Rabs u < eta).
Proof. intros H. apply (open_comp (fun u => Rabs u) (fun x => x < eta)); [intros; apply continuous_Rabs|apply open_lt|exact H]. Qed.
Lemma odd_derive (g g1 : R -> R) (s t : R) : is_derive g t (g1 t) -> is_derive g (- t) (g1 (- t)) -> is_derive (fun u => g u + s * g (- u)) t (g1 t + - s * g1 (- t)).
Proof.
  intros A B. assert (C : is_derive (fun u => g (- u)) t (- g1 (- t))).
  { assert (O : is_derive (fun u : R => - u) t (-1)) by (auto_derive; auto; ring).
    assert (Q := is_derive_comp g (fun u : R => - u) t (g1 (- t)) (-1) B O). replace (- g1 (- t)) with (scal (-1) (g1 (- t))); [exact Q|]. unfold scal; cbn; unfold mult; cbn. ring. }
  assert (Q := is_derive_plus g (fun u => s * g (- u)) t (g1 t) (s * - g1 (- t)) A (is_derive_scal (fun u => g (- u)) t s (- g1 (- t)) C)).
  replace (g1 t + - s * g1 (- t)) with (plus (g1 t) (s * - g1 (- t))); [exact Q|]. unfold plus; cbn. ring.
Qed.
Lemma central_difference g g1 g2 g3 eta delta M : 0 < delta < eta ->
  (forall t, Rabs t < eta -> is_derive g t (g1 t) /\ is_derive g1 t (g2 t) /\ is_derive g2 t (g3 t)) ->
  (forall t, Rabs t <= delta -> Rabs (g3 t) <= M) ->
  Rabs ((g delta - g (- delta)) / (2 * delta) - g1 0) <= M * delta ^ 2 / 6.
Proof.
  intros [Hd He] D B. set (phi := fun u : R => g u + -1 * g (- u)).
  assert (Ab : forall t, Rabs t < eta -> Rabs (- t) < eta) by (intros t; now rewrite Rabs_Ropp).
  assert (D1 : forall t, Rabs t < eta -> is_derive phi t (g1 t + 1 * g1 (- t))).
  { intros t Ht. replace 1 with (- -1) by ring. apply (odd_derive g g1 (-1)); apply D; auto. }
  assert (E1 : forall t, Rabs t < eta -> Derive_n phi 1 t = g1 t + 1 * g1 (- t)) by (intros t Ht; apply is_derive_unique; auto).
  assert (D2 : forall t, Rabs t < eta -> is_derive (Derive_n phi 1) t (g2 t + -1 * g2 (- t))).
  { intros t Ht. apply (is_derive_ext_loc (fun u => g1 u + 1 * g1 (- u))).
    - apply (filter_imp (fun u => Rabs u < eta)); [intros u Hu; symmetry; now apply E1|now apply open_abs].
    - change (-1) with (- 1). apply (odd_derive g1 g2 1); apply D; auto. }
  assert (E2 : forall t, Rabs t < eta -> Derive_n phi 2 t = g2 t + -1 * g2 (- t)) by (intros t Ht; apply is_derive_unique; auto).
  assert (D3 : forall t, Rabs t < eta -> is_derive (Derive_n phi 2) t (g3 t + 1 * g3 (- t))).
  { intros t Ht. apply (is_derive_ext_loc (fun u => g2 u + -1 * g2 (- u))).
    - apply (filter_imp (fun u => Rabs u < eta)); [intros u Hu; symmetry; now apply E2|now apply open_abs].
    - replace 1 with (- -1) by ring. apply (odd_derive g2 g3 (-1)); apply D; auto. }
  assert (E3 : forall t, Rabs t < eta -> Derive_n phi 3 t = g3 t + 1 * g3 (- t)) by (intros t Ht; apply is_derive_unique; auto).
  destruct (Taylor_Lagrange phi 2 0 delta Hd) as (z & Hz & T).
  { intros t Ht k Hk. assert (At : Rabs t < eta) by (rewrite Rabs_pos_eq; lra).
    destruct k as [|[|[|[|k]]]]; [exact Logic.I| | | |lia].
    - exists (g1 t + 1 * g1 (- t)). now apply D1.
    - exists (g2 t + -1 * g2 (- t)). now apply D2.
    - exists (g3 t + 1 * g3 (- t)). now apply D3. }
  assert (A0 : Rabs 0 < eta) by (rewrite Rabs_R0; lra). assert (Az : Rabs z < eta) by (rewrite Rabs_pos_eq; lra).
  cbn [sum_f_R0] in T. rewrite E3, E2, E1 in T by auto. change (Derive_n phi 0 0) with (phi 0) in T. unfold phi in T. rewrite Ropp_0 in T.
  cbn [fact Nat.mul Nat.add] in T. replace (INR 6) with 6 in T by (cbn; ring). replace (INR 2) with 2 in T by (cbn; ring). change (INR 1) with 1 in T.
  assert (X : g delta - g (- delta) = 2 * delta * g1 0 + delta ^ 3 / 6 * (g3 z + g3 (- z))).
  { replace (g delta - g (- delta)) with (g delta + -1 * g (- delta)) by ring. rewrite T. field. }
  rewrite X. replace ((2 * delta * g1 0 + delta ^ 3 / 6 * (g3 z + g3 (- z))) / (2 * delta) - g1 0) with (delta ^ 2 / 12 * (g3 z + g3 (- z))) by (field; lra).
  rewrite Rabs_mult, (Rabs_pos_eq (delta ^ 2 / 12)) by nra.
  assert (B1 : Rabs (g3 z) <= M) by (apply B; rewrite Rabs_pos_eq; lra). assert (B2 : Rabs (g3 (- z)) <= M) by (apply B; rewrite Rabs_Ropp, Rabs_pos_eq; lra).
  assert (Tr := Rabs_triang (g3 z) (g3 (- z))). assert (0 <= delta ^ 2 / 12) by nra. nra.
Qed.
Theorem second_order energy force remap P delta pos f0 fRef0 c r M : (1 <= P)%nat -> fits (6 * List.length pos) -> 0 < delta -> pos <> [] ->
  check_structure energy force remap P delta pos f0 fRef0 = Done c -> In r (ck_rows c) ->
  smooth_along energy remap delta pos (cr_atom r) (cr_xyz r) (- cr_analytic r) M -> Rabs (cr_numeric r - cr_analytic r) <= M * delta ^ 2 / 6.
Proof.
  intros HP HN Hd Hne E I (g & g1 & g2 & g3 & eta & He & Hl & D & G & B).
  destruct (check_report energy force remap P delta pos f0 fRef0 HP HN ltac:(lra) Hne) as (c' & E' & _ & R & _). rewrite E in E'. injection E' as <-.
  destruct (R r I) as (_ & p & m & Dp & Dm & ->).
  rewrite (He _ _ (or_introl eq_refl) Dp), (He _ _ (or_intror eq_refl) Dm).
  assert (X := central_difference g g1 g2 g3 eta delta M ltac:(lra) D B). rewrite G in X.
  replace (1 * delta) with delta by ring. replace (-1 * delta) with (- delta) by ring.
  replace (- (g delta - g (- delta)) / (2 * delta) - cr_analytic r) with (- ((g delta - g (- delta)) / (2 * delta) - - cr_analytic r)) by (field; lra).
  now rewrite Rabs_Ropp.
Qed.
Theorem no_warning energy force remap P delta pos f0 fRef0 c : (1 <= P)%nat -> fits (6 * List.length pos) -> 0 < delta -> pos <> [] ->
  check_structure energy force remap P delta pos f0 fRef0 = Done c ->
  (forall i j, (i < List.length pos)%nat -> (j < 3)%nat -> smooth_along energy remap delta pos i j (- force pos i j) 60) -> ck_warning c = false.
Proof.
  intros HP HN Hd Hne E S. destruct (ck_warning c) eqn:W; auto. exfalso.
  destruct (check_report energy force remap P delta pos f0 fRef0 HP HN ltac:(lra) Hne) as (c' & E' & Po & R & _ & _ & _ & _ & Wa). rewrite E in E'. injection E' as <-.
  apply Wa in W as (r & I & X). destruct (R r I) as (A & _).
  assert (Rg : (cr_atom r < List.length pos)%nat /\ (cr_xyz r < 3)%nat).
  { assert (J : In (cr_atom r, cr_xyz r) (map (fun r => (cr_atom r, cr_xyz r)) (ck_rows c))) by (apply in_map_iff; eauto).
    rewrite Po in J. apply in_flat_map in J as (i & Hi & J). apply in_seq in Hi. destruct J as [J|[J|[J|[]]]]; injection J as <- <-; lia. }
  assert (Y := second_order energy force remap P delta pos f0 fRef0 c r 60 HP HN Hd Hne E I). rewrite A in Y.
  specialize (Y (S _ _ (proj1 Rg) (proj2 Rg))). rewrite A in X. lra.
Qed.

(** ** Text *)
Lemma fmt24_field v : field (lit " " ++ fmt24 v) (print_E 16 v) /\ (List.length (fmt24 v) <= 24)%nat.
Proof.
  destruct (pad_left (print_E 16 v) 24) as (b & A & B & L). destruct (print_plain_any 16 v). split.
  - exists (lit " " ++ b). split; [discriminate|]. split; [constructor; auto|]. split; [unfold fmt24; rewrite B; now rewrite app_assoc|auto].
  - unfold fmt24. rewrite L. assert (Q := print_length_any 16 v). lia.
Qed.
Theorem check_text is r : fits (is + 1) -> fits (cr_atom r + 1) -> (cr_xyz r < 3)%nat -> exists l, check_line is r = Done (l ++ [ch_lf]) /\ ~ In ch_lf l /\
  is_words l [print_d (is + 1); print_d (cr_atom r + 1); print_d (cr_xyz r); print_E 16 (cr_analytic r); print_E 16 (cr_numeric r)].
Proof.
  intros F1 F2 Hx. assert (F3 : fits (cr_xyz r)) by (unfold fits; lia).
  destruct (fmt_d_field 10 (is + 1) ltac:(lia)) as [_ L1]. destruct (fmt_d_field 10 (cr_atom r + 1) ltac:(lia)) as [D2 L2]. destruct (fmt_d_field 3 (cr_xyz r) ltac:(lia)) as [D3 L3].
  specialize (L1 F1). specialize (L2 F2). specialize (L3 F3). destruct (fmt24_field (cr_analytic r)) as [D4 L4], (fmt24_field (cr_numeric r)) as [D5 L5].
  unfold check_line. match goal with |- context [line ?X] => set (t := X) end.
  assert (Lt : (List.length t < 1023)%nat).
  { unfold t. rewrite !app_length. change (List.length (lit " ")) with 1%nat. lia. }
  rewrite line_short by auto. cbn [undefined_if_long]. exists t. split; auto.
  destruct (pad_left (print_d (is + 1)) 10) as (p & Bb & Eb & _). destruct (print_d_plain (is + 1)) as (Pp & Pn & _).
  set (us := [lit " " ++ fmt_d 10 (cr_atom r + 1); lit " " ++ fmt_d 3 (cr_xyz r); lit " " ++ fmt24 (cr_analytic r); lit " " ++ fmt24 (cr_numeric r)]).
  assert (Et : t = p ++ print_d (is + 1) ++ List.concat us).
  { unfold t, us. cbn [List.concat]. unfold fmt_d at 1. rewrite Eb, app_nil_r, <- !app_assoc. reflexivity. }
  destruct (padded_fields p _ us [print_d (cr_atom r + 1); print_d (cr_xyz r); print_E 16 (cr_analytic r); print_E 16 (cr_numeric r)] Bb Pp Pn ltac:(repeat constructor; auto)) as [W X].
  rewrite <- Et in W, X. split; auto. now apply words_of_is.
Qed.

(** ** Example: one harmonic degree of freedom per coordinate *)
Definition harmonic (pos : list vec) : R := rsum (map (fun v => vx v * vx v + vy v * vy v + vz v * vz v) pos).
Definition spring (pos : list vec) : components := fun i j => let v := nth i pos vzero in - 2 * (match j with O => vx v | 1%nat => vy v | _ => vz v end).
Lemma spring_case i j : (i < 2)%nat -> (j < 3)%nat -> smooth_along harmonic (fun v => v) (1 / 100) [mkVec 1 2 3; mkVec 0 0 1] i j (- spring [mkVec 1 2 3; mkVec 0 0 1] i j) 60.
Proof.
  intros Hi Hj. set (pos := [mkVec 1 2 3; mkVec 0 0 1]). set (a := match j with O => vx (nth i pos vzero) | 1%nat => vy (nth i pos vzero) | _ => vz (nth i pos vzero) end).
  exists (fun t => 15 + 2 * a * t + t * t), (fun t => 2 * a + 2 * t), (fun _ => 2), (fun _ => 0), 1. split; [|split; [lra|split; [|split]]].
  - intros sg q Hs (L & A & B). destruct q as [|u [|w [|y q]]]; try discriminate L.
    destruct i as [|[|i]]; [| |lia].
    + specialize (A 1%nat ltac:(lia)). specialize (B _ eq_refl). cbn in A, B. injection A as ->. injection B as ->. unfold a, harmonic. cbn.
      destruct Hs as [->| ->], j as [|[|[|j]]]; try lia; cbn; field.
    + specialize (A 0%nat ltac:(lia)). specialize (B _ eq_refl). cbn in A, B. injection A as ->. injection B as ->. unfold a, harmonic. cbn.
      destruct Hs as [->| ->], j as [|[|[|j]]]; try lia; cbn; field.
  - intros t _. clearbody a. split; [|split]; [auto_derive; [auto|ring]|auto_derive; [auto|ring]|apply @is_derive_const].
  - change (2 * a + 2 * 0 = - (- 2 * a)). ring.
  - intros t _. rewrite Rabs_R0. lra.
Qed.
Lemma spring_check : exists c, check_structure harmonic spring (fun v => v) 4 (1 / 100) [mkVec 1 2 3; mkVec 0 0 1] (fun _ _ => 7) (fun _ _ => 8) = Done c /\
  List.length (ck_rows c) = 6%nat /\ ck_warning c = false.
Proof.
  assert (F : fits (6 * 2)) by (unfold fits; lia).
  destruct (check_report harmonic spring (fun v => v) 4 (1 / 100) [mkVec 1 2 3; mkVec 0 0 1] (fun _ _ => 7) (fun _ _ => 8) ltac:(lia) F ltac:(lra) ltac:(discriminate)) as (c & E & Po & _).
  exists c. split; auto. split.
  - rewrite <- (map_length (fun r => (cr_atom r, cr_xyz r))), Po. reflexivity.
  - apply (no_warning harmonic spring (fun v => v) 4 (1 / 100) [mkVec 1 2 3; mkVec 0 0 1] (fun _ _ => 7) (fun _ _ => 8) c ltac:(lia) F ltac:(lra) ltac:(discriminate) E). intros i j Hi Hj. now apply spring_case.
Qed.
