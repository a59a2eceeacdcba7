(** C75: the 4G evaluation of isolated structures. *)
From Coq Require Import Reals Lra ZArith List Lia Bool Arith Permutation Sorted.
From Coquelicot Require Import Coquelicot.
From Coq Require Import List.
From Verif Require Import Base.RealBase Base.Loop Base.Vec3 Base.SumR Base.Linear Base.Implicit Model.NeuralNetwork Model.Scaling Model.NeighborList Model.SymFunctions
  Model.SymSetup Model.Forces Model.CompactScreening Model.Electrostatics Model.Evaluation4G
  Spec.NetworkSpec Spec.GeometrySpec Spec.NeighborSpec Spec.SymSpec Spec.SetupSpec Spec.ForceSpec Spec.CompactSpec Spec.ElecSpec Spec.Evaluation4GSpec
  Proofs.NetForward Proofs.NeighborProofs Proofs.CutoffMapProofs Proofs.SymGrad Proofs.SetupProofs Proofs.ForceNet Proofs.ForceLocal Proofs.ForceAssembly Proofs.ForceProofs
  Proofs.Truncate Proofs.LongLists Proofs.CutForces Proofs.ChiForces Proofs.Stages4G Proofs.Curves4G Proofs.ElecCore Proofs.ElecFill Proofs.ElecQeq Proofs.ElecIsolated.
Import ListNotations.
Local Open Scope R_scope.

Lemma ofold_total {A B} (f : A -> B -> option B) l : (forall i b, f i b <> None) -> forall b, exists b', ofold f l b = Some b'.
Proof.
  intros H. induction l as [|i l IH]; intros b; cbn [ofold]; eauto. destruct (f i b) as [b1|] eqn:E; [apply IH|]. now elim (H i b).
Qed.
Lemma isolated_total solve fuel W P c r : cs_periodic c = false -> calculateElectrostaticEnergy solve fuel W P c = Some r ->
  exists D pE dQ, chargeEquilibration solve fuel W P c = Some (r, D, (pE, dQ)).
Proof.
  intros Hp E. unfold chargeEquilibration. rewrite E. unfold calculateDAdrQ. rewrite Hp. unfold calculateElectrostaticEnergyDerivatives. rewrite Hp.
  match goal with |- context[ofold ?f ?l ?b] =>
    let H := fresh in assert (H : forall i b0, f i b0 <> None) by (intros; discriminate); destruct (ofold_total f l H b) as ([pE dQ] & ->) end.
  eauto.
Qed.
Lemma locally_of d (Pr : R -> Prop) : 0 < d -> (forall t, Rabs t < d -> Pr t) -> locally 0 Pr.
Proof.
  intros Hd H. exists (mkposreal d Hd). intros t Ht. apply H. unfold ball in Ht; cbn in Ht. unfold AbsRing_ball in Ht.
  unfold abs, minus, plus, opp in Ht; cbn in Ht. now rewrite Ropp_0, Rplus_0_r in Ht.
Qed.
Lemma fold_rsum {A} (f : A -> R) l : forall b, fold_left (fun s x => s + f x) l b = b + rsum (map f l).
Proof. induction l as [|a l IH]; intros b; cbn; [ring|]. rewrite IH. ring. Qed.

Section Main.
Variables (N : nat) (rc : R) (Q : potential4) (s : structure) (solve : solver) (fuel : nat) (W : ewald) (Qref : R) (neg : R -> R).
Hypothesis HQ : sensible4 N rc Q.
Hypothesis Hrc : 0 <= rc.
Hypothesis HN : s_numElements s = N.
Hypothesis Hs : unprocessed rc s.
Hypothesis Hper : s_periodic s = false.
Hypothesis Hsolve : exact_solver solve.
Hypothesis Hch : chargeable Q s.
Hypothesis Hneg : forall x, neg x = q_unit Q * x.
Let n := length (s_atoms s).
Let elems := setupMemoryAll N (map (q_fs Q) (seq 0 N)).
Let E := element_parameters (q_hardness Q) (q_sigma Q) (q_screening Q) (q_eps Q).
Variable s' : structure.
Hypothesis Hper' : s_periodic s' = s_periodic s.
Hypothesis Hlen' : length (s_atoms s') = n.
Hypothesis Hsym : forall i j ai aj, nth_error (s_atoms s') i = Some ai -> nth_error (s_atoms s') j = Some aj ->
    Permutation (map nb_dr (filter (fun n => Nat.eqb (nb_index n) j) (a_nbs ai)))
              (map (fun n => vopp (nb_dr n)) (filter (fun n => Nat.eqb (nb_index n) i) (a_nbs aj))).
Variable xs : list eatom.
Hypothesis Hxlen : length xs = n.
Hypothesis Hx : forall i x, nth_error xs i = Some x -> prep N rc Q s s' i (e_atom x) (e_store x) /\ e_f x = vzero.
Let ys := elecNetworks neg (q_elec Q) xs.
Let cs := charged_structure s' Qref ys.

Lemma ys_at i : (i < n)%nat -> exists x y, nth_error xs i = Some x /\ nth_error ys i = Some y /\ f_e y = x /\ cat cs i = mkCAtom (e_atom x) (f_chi y).
Proof.
  intros Hi. destruct (elec_stage N rc Q s s' HQ HN Hlen' neg xs Hxlen Hx) as [L H]. fold ys in L, H.
  destruct (nth_error ys i) as [y|] eqn:Ey; [|apply nth_error_None in Ey; fold n in L; lia].
  destruct (H i y Ey) as (x & Ex & Ef & _). exists x, y. split; auto. split; auto. split; auto.
  unfold cat, cs, charged_structure; cbn [cs_atoms]. erewrite nth_error_nth; [|rewrite nth_error_map, Ey; reflexivity]. cbn. now rewrite Ef.
Qed.
Lemma cs_num : cnum cs = n.
Proof. unfold cnum, cs, charged_structure; cbn [cs_atoms]. rewrite map_length. apply (elec_stage N rc Q s s' HQ HN Hlen' neg xs Hxlen Hx). Qed.
Lemma sites_num st : cnum (charge_sites st) = length (s_atoms st).
Proof. unfold cnum, charge_sites; cbn [cs_atoms]. apply map_length. Qed.
Lemma sites_at st i a : nth_error (s_atoms st) i = Some a -> cna (charge_sites st) i = a.
Proof. intros H. unfold cna, cat, charge_sites; cbn [cs_atoms]. erewrite nth_error_nth; [|rewrite nth_error_map, H; reflexivity]. reflexivity. Qed.
Lemma cs_sites : same_sites cs (charge_sites s).
Proof.
  split; [now rewrite cs_num, sites_num|]. intros i Hi. rewrite cs_num in Hi. destruct (ys_at i Hi) as (x & y & Ex & _ & _ & Ec).
  destruct (Hx i x Ex) as ((ai & A & _ & B1 & B2 & _) & _). unfold cel, cpos. rewrite (sites_at s i ai A). unfold cna. rewrite Ec. auto.
Qed.
Lemma cs_distances : distances_valid cs.
Proof.
  intros i m Hi Hm. rewrite cs_num in Hi. destruct (ys_at i Hi) as (x & y & Ex & _ & _ & Ec). unfold cna in Hm. rewrite Ec in Hm.
  destruct (Hx i x Ex) as ((ai & _ & _ & _ & _ & _ & ((_ & D & _) & _) & _) & _). auto.
Qed.
Lemma cs_per : cs_periodic cs = false.
Proof. unfold cs, charged_structure; cbn. congruence. Qed.
Lemma cs_posed : well_posed (cnum cs) (J_of (q_hardness Q) cs) (isolated_U (q_sigma Q) (q_eps Q) cs).
Proof.
  apply (same_posed _ _ _ (charge_sites s)).
  - destruct cs_sites as [A B]. split; auto. intros i Hi. rewrite <- A in Hi. destruct (B i Hi). auto.
  - rewrite sites_num. apply Hch.
Qed.

Lemma main_stage : exists r D pE dQ, chargeEquilibration solve fuel W E cs = Some (r, D, (pE, dQ)) /\
  sumn n (er_Q r) = Qref /\
  (forall i, (i < n)%nat -> electronegativity n (chi_of cs) (J_of (q_hardness Q) cs) (isolated_U (q_sigma Q) (q_eps Q) cs) (er_Q r) i = - er_lambda r) /\
  er_energy r = isolated_energy (q_sigma Q) (q_eps Q) (q_screening Q) cs (er_Q r) /\ nonsingular (n + 1) (er_A r).
Proof.
  destruct HQ as (He & Hsg & _).
  assert (Hn : (0 < cnum cs)%nat) by (rewrite cs_num; apply Hch).
  destruct (isolated_equilibrium (q_hardness Q) (q_sigma Q) (q_screening Q) (q_eps Q) cs He Hsg cs_per solve fuel W Hsolve Hn cs_posed) as (r & Er & R1 & R2 & R3).
  fold E in Er. destruct (isolated_total solve fuel W E cs r cs_per Er) as (D & pE & dQ & EC).
  exists r, D, pE, dQ. split; auto. rewrite cs_num in *. split; [exact R1|]. split; [exact R2|]. split; [exact R3|].
  destruct (isolated_run (q_hardness Q) (q_sigma Q) (q_screening Q) (q_eps Q) He Hsg solve fuel W cs cs_per) as (r' & Er' & EA & _).
  fold E in Er', EA. rewrite Er in Er'. injection Er' as <-. rewrite EA, cs_num.
  apply (border_nonsingular n (J_of (q_hardness Q) cs) (isolated_U (q_sigma Q) (q_eps Q) cs)); auto.
  - intros i j Hi Hj. apply fill_isolated_U; rewrite cs_num; auto.
  - rewrite <- cs_num. apply cs_posed.
Qed.

Variables (r : eresult) (D : vmatrix) (pE : nat -> vec) (dQ : nat -> R).
Hypothesis Hce : chargeEquilibration solve fuel W E cs = Some (r, D, (pE, dQ)).
Hypothesis HQsum : sumn n (er_Q r) = Qref.
Hypothesis Hel : forall i, (i < n)%nat -> electronegativity n (chi_of cs) (J_of (q_hardness Q) cs) (isolated_U (q_sigma Q) (q_eps Q) cs) (er_Q r) i = - er_lambda r.
Hypothesis Hen : er_energy r = isolated_energy (q_sigma Q) (q_eps Q) (q_screening Q) cs (er_Q r).
Hypothesis Hns : nonsingular (n + 1) (er_A r).
Let zs := shortNetworks elems (q_short Q) (set_charges (er_Q r) ys).
Lemma zs_len : length zs = n.
Proof. apply (short_stage N rc Q s s' HQ HN Hlen' neg xs Hxlen Hx (er_Q r)). Qed.
Lemma zs_prep i z : nth_error zs i = Some z -> zprep N rc Q s s' neg (er_Q r) i z.
Proof. intros H. now apply (short_stage N rc Q s s' HQ HN Hlen' neg xs Hxlen Hx (er_Q r)). Qed.
Let zat := z_ex N s zs HN zs_len.

Lemma chi_value i z : nth_error zs i = Some z -> chi_of cs i = atom_chi Q (zel z) (zenv rc z).
Proof.
  intros Hz. assert (Hi := z_lt s zs zs_len i z Hz). fold n in Hi.
  destruct (short_stage N rc Q s s' HQ HN Hlen' neg xs Hxlen Hx (er_Q r)) as [_ H]. destruct (H i z Hz) as (Pz & y & Ey & _ & Ec).
  destruct (ys_at i Hi) as (x & y' & _ & Ey' & _ & Ecat). unfold ys in Ey'. rewrite Ey in Ey'. injection Ey' as <-.
  unfold chi_of. rewrite Ecat. cbn [c_chi]. rewrite <- Ec. pose proof Pz as (_ & _ & -> & _). rewrite Hneg. unfold atom_chi. f_equal. fold (zel z).
  destruct HQ as (_ & _ & _ & HQe). destruct (HQe _ (z_el N rc Q s s' neg (er_Q r) zs zs_prep i z Hz)) as (_ & (Hwf & Hact & HI) & _).
  destruct (z_layers _ Hwf) as (LT & EL). apply (alike_output _ _ _ _ (alike_refl _) Hwf Hact) with (LT := LT); auto.
  intros k Hk. apply (z_G N rc Q s s' neg (er_Q r) zs HN zs_len zs_prep i z Hz). congruence.
Qed.
Lemma energy_value i z : nth_error zs i = Some z -> e_energy (f_e z) = atom_energy Q (zel z) (zenv rc z) (er_Q r i).
Proof.
  intros Hz. destruct (zs_prep i z Hz) as (_ & _ & _ & _ & -> & _). unfold atom_energy. fold (zel z).
  destruct HQ as (_ & _ & _ & HQe). destruct (HQe _ (z_el N rc Q s s' neg (er_Q r) zs zs_prep i z Hz)) as (_ & _ & (Hwf & Hact & HI)).
  destruct (z_layers _ Hwf) as (LT & EL). apply (alike_output _ _ _ _ (alike_refl _) Hwf Hact) with (LT := LT); auto.
  intros k Hk. unfold with_charge, charge_input. destruct (Nat.ltb_spec k (length (q_fs Q (zel z)))); auto.
  now apply (z_G N rc Q s s' neg (er_Q r) zs HN zs_len zs_prep i z Hz).
Qed.
Lemma main_energy q : (forall i, (i < n)%nat -> q i = er_Q r i) -> has_energy4 Q rc Qref s (calculateEnergy4G (er_energy r) zs) (er_energy r) q.
Proof.
  intros Hq. exists (map (zenv rc) zs). fold n. split; [rewrite map_length; apply zs_len|].
  assert (He : forall i z, nth_error zs i = Some z -> nth i (map (zenv rc) zs) [] = zenv rc z).
  { intros i z Hz. apply nth_error_nth. now rewrite nth_error_map, Hz. }
  split; [|split; [|split]].
  - intros i e Hi. rewrite nth_error_map in Hi. destruct (nth_error zs i) as [z|] eqn:Ez; [|discriminate]. injection Hi as <-.
    apply (z_near N rc Q s s' neg (er_Q r) zs zs_prep i z Ez).
  - split. { fold n. rewrite <- HQsum. now apply sumn_ext. }
    exists (- er_lambda r). intros i Hi. fold n in Hi |- *. rewrite <- (Hel i Hi). destruct (zat i Hi) as (z & Ez).
    destruct (z_element N rc Q s s' neg (er_Q r) zs zs_prep i z Ez) as (_ & _ & _ & Ee).
    assert (S' := cs_sites). apply electronegativity_ext; auto.
    + rewrite Ee, (He i z Ez). symmetry. now apply chi_value.
    + symmetry. apply same_J; auto. now rewrite cs_num.
    + intros j Hj. symmetry. apply same_U; auto; now rewrite cs_num.
  - rewrite Hen. apply same_energy; [apply cs_sites|]. intros i Hi. rewrite cs_num in Hi. symmetry. auto.
  - unfold calculateEnergy4G. rewrite fold_rsum, Rplus_0_l. f_equal. rewrite (rsum_nth (mkFAtom (mkEAtom (fresh_atom 0 vzero 0) (mkStore (fun _ => 0) (fun _ => vzero) (fun _ _ => 0)) (fun _ => 0) 0 vzero) 0 (fun _ => 0) 0 vzero) (fun x => e_energy (f_e x))), zs_len.
    apply sumn_ext. intros i Hi. destruct (zat i Hi) as (z & Ez). rewrite (nth_error_nth _ _ _ Ez), (He i z Ez).
    destruct (z_element N rc Q s s' neg (er_Q r) zs zs_prep i z Ez) as (_ & _ & _ & ->). rewrite Hq by auto. now apply energy_value.
Qed.
Lemma main_charge : calculateCharge zs = Qref.
Proof.
  unfold calculateCharge. rewrite fold_rsum, Rplus_0_l. rewrite (rsum_nth (mkFAtom (mkEAtom (fresh_atom 0 vzero 0) (mkStore (fun _ => 0) (fun _ => vzero) (fun _ _ => 0)) (fun _ => 0) 0 vzero) 0 (fun _ => 0) 0 vzero) f_charge), zs_len.
  rewrite <- HQsum. apply sumn_ext. intros i Hi. destruct (zat i Hi) as (z & Ez). rewrite (nth_error_nth _ _ _ Ez). now destruct (zs_prep i z Ez) as (_ & -> & _).
Qed.

(** ** Forces *)
Lemma isolated_harmless : harmless rc (Pe Q) s.
Proof. left. intros i m (ai & aj & _ & _ & H1 & H2 & _). apply H2. now rewrite (H1 Hper). Qed.
Let Xs := map (chi_atom rc) zs.
Let ws := map (cut rc) (map f_e zs).
Let d0 : eatom := mkEAtom (mkAtom 0 vzero false false 0 0 [] [] [] []) (mkStore (fun _ => 0) (fun _ => vzero) (fun _ _ => 0)) (fun _ => 0) 0 vzero.
Lemma ws_nth j z : nth_error zs j = Some z -> nth j ws d0 = cut rc (f_e z).
Proof. intros H. apply nth_error_nth. unfold ws. now rewrite !nth_error_map, H. Qed.
Lemma rate_ws u j c z : nth_error zs j = Some z -> TD N (Pe Q) ws j c (u j) (everyone ws u j) = rate N rc Q zs u j c.
Proof.
  intros Ez. unfold rate, TD, everyone. fold d0 Xs. rewrite (ws_nth j z Ez). unfold Xs. rewrite !(z_at rc zs j z Ez). reflexivity.
Qed.
Lemma main_forces : exists ys' T, calculateForces elems rc (map f_e zs) = Some ys' /\ dChidr_rows elems rc zs = Some T /\
  let fshort := fun i => match nth_error ys' i with Some y => e_f y | None => vzero end in
  (forall u, power n fshort u = - sumn n (fun j => match nth_error zs j with
     | Some z => sumn (length (q_fs Q (zel z))) (fun c => e_dEdG (f_e z) c * rate N rc Q zs u j c) | None => 0 end)) /\
  (forall u j z, nth_error zs j = Some z -> sumn n (fun a => dot (row_entry T j a) (u a)) =
     sumn (length (q_fs Q (zel z))) (fun c => f_dChidG z c * rate N rc Q zs u j c)).
Proof.
  destruct (short_forces N rc Q s s' HQ HN Hs Hlen' Hsym neg xs Hxlen Hx (er_Q r)) as (ys' & E1 & L1 & F1). fold elems ys zs in E1, F1.
  destruct (rows_ok N rc (Pe Q) s (Pe_sensible N rc Q HQ) HN Hs zs zs_len) as (T & ET & RT).
  { intros i z Ez. apply (z_with N rc Q s s' neg (er_Q r) i z). now apply zs_prep. }
  { intros i z Ez. destruct (zs_prep i z Ez) as ((ai & A) & _). apply A. }
  { intros i z Ez. destruct (zs_prep i z Ez) as ((ai & A) & _). apply A. }
  exists ys', T. split; [exact E1|]. split; [exact ET|]. split.
  - intros u. unfold power. rewrite (sumn_ext n _ (fun i => Fdot N (Pe Q) s ws i (u i))).
    2:{ intros i Hi. destruct (F1 i Hi) as (y & Ey & D1). rewrite Ey. apply D1. }
    pose proof (work N rc (Pe Q) s HN ws (ws_len N rc Q s s' HQ HN Hlen' neg xs Hxlen Hx (er_Q r)) (ws_prep N rc Q s s' HQ HN Hlen' neg xs Hxlen Hx (er_Q r)) u) as Wk.
    cbv beta in Wk. fold d0 n in Wk. rewrite Wk. f_equal. apply sumn_ext. intros j Hj. destruct (zat j Hj) as (z & Ez). rewrite Ez, (ws_nth j z Ez).
    apply sumn_ext. intros c Hc. cbn [cut e_dEdG]. f_equal. rewrite <- (rate_ws u j c z Ez).
    pose proof (TD_all N rc (Pe Q) s HN ws (ws_len N rc Q s s' HQ HN Hlen' neg xs Hxlen Hx (er_Q r)) (ws_prep N rc Q s s' HQ HN Hlen' neg xs Hxlen Hx (er_Q r))
       (ws_sym N rc Q s s' HQ HN Hlen' Hsym neg xs Hxlen Hx (er_Q r)) u j c isolated_harmless Hj) as TA.
    cbv beta in TA. fold d0 in TA. rewrite (ws_nth j z Ez) in TA. apply TA. exact Hc.
  - intros u j z Ez. apply (RT j z Ez u).
Qed.
Let lambdaT := calculateForceLambdaTotal solve cs (er_A r) dQ (dEdQ elems zs).
Let lambdaE := calculateForceLambdaElec solve cs (er_A r) dQ.
Lemma main_result : exists ys', calculateForces4G solve elems rc cs r D (pE, dQ) zs = Some ys' /\ length ys' = n /\
  (forall i, (i < n)%nat -> nth i (map f_charge ys') 0 = er_Q r i) /\
  (everywhere4 Q rc s smooth_at -> regular_networks4 Q rc s (fun i => nth i (map f_charge ys') 0) -> separated (charge_sites s) ->
   forall u E0 Eel q, locally 0 (fun t => has_energy4 Q rc Qref (displaced u t s) (E0 t) (Eel t) (q t)) ->
   is_derive E0 0 (- work_rate (map (fun x => e_f (f_e x)) ys') u) /\ is_derive Eel 0 (- work_rate (map f_fElec ys') u)).
Proof.
  destruct main_forces as (yf & T & E1 & ET & HF & HT). unfold calculateForces4G. rewrite E1, ET. cbn [fst snd]. fold lambdaT lambdaE.
  set (fshort := fun i => match nth_error yf i with Some y => e_f y | None => vzero end) in *.
  rewrite zs_len. fold n. set (F := forces4G n lambdaT lambdaE pE D (row_entry T) fshort).
  eexists. split; [reflexivity|]. set (res := mapi _ zs).
  assert (Lr : length res = n) by (unfold res; rewrite mapi_length; apply zs_len). split; auto.
  assert (At : forall i, (i < n)%nat -> exists y, nth_error res i = Some y /\ f_charge y = er_Q r i /\ e_f (f_e y) = fst (F i) /\ f_fElec y = snd (F i)).
  { intros i Hi. destruct (zat i Hi) as (z & Ez). unfold res. eexists. rewrite nth_error_mapi, Ez. cbn [option_map]. split; [reflexivity|].
    cbn [f_charge f_e e_f f_fElec]. destruct (zs_prep i z Ez) as (_ & -> & _). auto. }
  assert (Hq0 : forall i, (i < n)%nat -> nth i (map f_charge res) 0 = er_Q r i).
  { intros i Hi. destruct (At i Hi) as (y & Ey & <- & _). apply nth_error_nth. now rewrite nth_error_map, Ey. }
  split; [exact Hq0|]. intros Hsm Hreg' Hsep u E0 Eel q HE.
  assert (Hreg : regular_networks4 Q rc s (er_Q r)).
  { intros i a e Hi Hnb. rewrite <- (Hq0 i); [apply Hreg'; auto|]. unfold n. apply nth_error_Some. congruence. }
  assert (P1 : work_rate (map (fun x => e_f (f_e x)) res) u = power n (fun i => fst (F i)) u).
  { unfold work_rate, power. rewrite map_length, Lr. apply sumn_ext. intros i Hi. destruct (At i Hi) as (y & Ey & _ & <- & _). f_equal.
    apply nth_error_nth. now rewrite nth_error_map, Ey. }
  assert (P2 : work_rate (map f_fElec res) u = power n (fun i => snd (F i)) u).
  { unfold work_rate, power. rewrite map_length, Lr. apply sumn_ext. intros i Hi. destruct (At i Hi) as (y & Ey & _ & _ & <-). f_equal.
    apply nth_error_nth. now rewrite nth_error_map, Ey. }
  rewrite P1, P2. clear P1 P2.
  pose proof HQ as (He & Hsg & (k & ia & ib & Hfs) & _).
  set (chi := fun t i => chi_t rc Q zs u i t).
  assert (Hchi0 : forall i, (i < cnum cs)%nat -> chi 0 i = chi_of cs i).
  { intros i Hi. rewrite cs_num in Hi. destruct (zat i Hi) as (z & Ez). unfold chi, chi_t. rewrite Ez, curve_0. symmetry. now apply chi_value. }
  assert (Hseps : separated cs).
  { apply (same_separated (charge_sites s)); auto. destruct cs_sites as [A B]. split; auto. intros i Hi. rewrite <- A in Hi. destruct (B i Hi). auto. }
  pose proof (isolated_forces (q_hardness Q) (q_sigma Q) (q_screening Q) (q_eps Q) He Hsg solve fuel W cs u chi cs_per Hseps cs_distances Hchi0
     k ia ib Hfs r D pE dQ (row_entry T) (short_t rc Q s zs u) fshort (dEdQ elems zs) Hsolve Hce) as IF.
  rewrite cs_num in IF. specialize (IF Hns). cbv zeta in IF. fold E lambdaT lambdaE F in IF.
  destruct IF as [IF1 IF2].
  { intros j Hj. destruct (zat j Hj) as (z & Ez). rewrite (HT u j z Ez).
    apply (chi_derive N rc Q s s' neg (er_Q r) zs HQ HN zs_len zs_prep Hneg u Hsm Hreg j z Ez). }
  { rewrite HF, Ropp_involutive. apply (short_derive N rc Q s s' neg (er_Q r) zs HQ HN zs_len zs_prep u Hsm Hreg). }
  (** identification near the start *)
  set (m := fun t => moved u t (chi t) cs) in *.
  assert (HL : locally 0 (fun t => nonsingular (n + 1) (border n (fill_isolated E (m t))))).
  { apply (regular_near n (fun t => fill_isolated E (m t)) (iso_dU (q_hardness Q) (q_sigma Q) (q_screening Q) (q_eps Q) cs u)).
    - destruct (isolated_run (q_hardness Q) (q_sigma Q) (q_screening Q) (q_eps Q) He Hsg solve fuel W cs cs_per) as (r' & Er' & EA & _).
      unfold chargeEquilibration in Hce. unfold E in Hce at 1. rewrite Er' in Hce. 
      assert (r' = r) as ->. { destruct (calculateDAdrQ _ _ _ _ _ _ _) as [[? ?]|]; [|discriminate]. destruct (calculateElectrostaticEnergyDerivatives _ _ _ _ _); [|discriminate]. congruence. }
      rewrite cs_num in EA. fold E in EA. rewrite EA in Hns. unfold m. rewrite (moved_zero u (chi 0) cs cs_distances Hchi0). exact Hns.
    - intros i j Hi Hj. rewrite <- cs_num in Hi, Hj.
      apply (is_derive_ext (fun t => (if Nat.eqb i j then J_of (q_hardness Q) cs i else 0) + isoU (q_sigma Q) (q_eps Q) cs u chi t i j)).
      { intros t. unfold E, m. rewrite fill_isolated_U by (now rewrite moved_num). f_equal. unfold J_of. now rewrite moved_cel. }
      eapply is_derive_eq; [apply (is_derive_plus (fun _ => if Nat.eqb i j then J_of (q_hardness Q) cs i else 0) (fun t => isoU (q_sigma Q) (q_eps Q) cs u chi t i j))|].
      + apply is_derive_const.
      + apply (isoU_derive (q_hardness Q) (q_sigma Q) (q_screening Q) (q_eps Q) He Hsg cs u chi Hseps); auto.
      + cbn. unfold plus, zero; cbn. ring. }
  destruct (near_inputs N rc Q s s' neg (er_Q r) zs HQ HN zs_len zs_prep u) as (d & Hd & HI). { rewrite Hper; discriminate. }
  assert (Hloc : locally 0 (fun t => Eel t = electrostatic_energy solve fuel W E (m t) /\
     E0 t = electrostatic_energy solve fuel W E (m t) + short_t rc Q s zs u t (charges solve fuel W E (m t)))).
  { generalize (filter_and _ _ HE (filter_and _ _ HL (locally_of d _ Hd (fun t Ht => Ht)))). apply filter_imp.
    intros t (Ht & Hnst & Hdt). destruct Ht as (es & Les & Hes & (Hsum & l & Heq) & HEel & HE0). rewrite displaced_length in *. fold n in Les, Hsum, Heq, HE0.
    assert (SS : same_sites (charge_sites (displaced u t s)) (m t)).
    { split; [rewrite sites_num, displaced_length; unfold m; now rewrite moved_num, cs_num|]. intros i Hi. rewrite sites_num, displaced_length in Hi. fold n in Hi.
      assert (Hi' : (i < cnum cs)%nat) by now rewrite cs_num. unfold m. rewrite moved_cel, moved_cpos by auto.
      destruct cs_sites as [_ B]. destruct (B i Hi') as [B1 B2]. rewrite B1, B2.
      destruct (nth_error (s_atoms s) i) as [ai|] eqn:Ei; [|apply nth_error_None in Ei; fold n in Ei; lia].
      pose proof (displaced_atom u t s i) as DA. rewrite Ei in DA. cbn [option_map] in DA. unfold cel, cpos. rewrite (sites_at _ i _ DA), (sites_at _ i _ Ei). auto. }
    assert (NM : cnum (m t) = n) by (unfold m; now rewrite moved_num, cs_num).
    assert (NS : cnum (charge_sites (displaced u t s)) = n) by (rewrite sites_num; apply displaced_length).
    assert (Emb : forall i z, nth_error zs i = Some z -> element_of (displaced u t s) i = zel z /\
       forall c, sf_input (q_weight Q) (q_fs Q (zel z)) (nth i es []) c = sf_input (q_weight Q) (q_fs Q (zel z)) (curve rc zs u i z t) c).
    { intros i z Ez. assert (Hi := z_lt s zs zs_len i z Ez). fold n in Hi. split.
      - destruct (z_element N rc Q s s' neg (er_Q r) zs zs_prep i z Ez) as (ai & Ei & Ee & _). unfold element_of.
        pose proof (displaced_atom u t s i) as DA. rewrite Ei in DA. cbn [option_map] in DA. now rewrite (nth_error_nth _ _ _ DA).
      - intros c. apply (HI t es Hdt Hes i z); auto. apply nth_error_nth'. lia. }
    assert (Hw : well_posed (cnum (m t)) (J_of (q_hardness Q) (m t)) (isolated_U (q_sigma Q) (q_eps Q) (m t))).
    { rewrite NM. apply (nonsingular_posed n _ _ (fill_isolated E (m t))); auto. intros i j Hi Hj. apply fill_isolated_U; now rewrite NM. }
    assert (Hn0 : (0 < cnum (m t))%nat) by (rewrite NM; apply Hch).
    destruct (isolated_equilibrium (q_hardness Q) (q_sigma Q) (q_screening Q) (q_eps Q) (m t) He Hsg cs_per solve fuel W Hsolve Hn0 Hw) as (rt & Ert & R1 & R2 & R3).
    fold E in Ert. assert (EC : charges solve fuel W E (m t) = er_Q rt) by (unfold charges; now rewrite Ert).
    assert (EL : electrostatic_energy solve fuel W E (m t) = er_energy rt) by (unfold electrostatic_energy; now rewrite Ert).
    rewrite NM in R1, R2, Hw.
    assert (Hq : forall i, (i < n)%nat -> q t i = er_Q rt i).
    { apply (posed_unique n (chi_of (m t)) (J_of (q_hardness Q) (m t)) (isolated_U (q_sigma Q) (q_eps Q) (m t)) Qref (q t) (er_Q rt) l (- er_lambda rt) Hw); auto.
      intros i Hi. rewrite <- (Heq i Hi). destruct (zat i Hi) as (z & Ez). destruct (Emb i z Ez) as (B1 & B2).
      apply electronegativity_ext; auto.
      - unfold chi_of, m. rewrite moved_chi by now rewrite cs_num. unfold chi, chi_t. rewrite Ez. unfold atom_chi. rewrite B1. f_equal. symmetry. now apply evaluate_ext.
      - symmetry. apply same_J; auto. now rewrite NS.
      - intros j Hj. symmetry. apply same_U; auto; now rewrite NS. }
    assert (EE : Eel t = electrostatic_energy solve fuel W E (m t)).
    { rewrite HEel, EL, R3. apply same_energy; auto. intros i Hi. rewrite NS in Hi. auto. }
    split; [exact EE|]. rewrite HE0, <- EE, EC, Rplus_comm. f_equal. unfold short_t. apply sumn_ext. intros i Hi. destruct (zat i Hi) as (z & Ez). rewrite Ez.
    destruct (Emb i z Ez) as (B1 & B2). rewrite B1, (Hq i Hi). unfold atom_energy. apply evaluate_ext. intros c. unfold charge_input.
    destruct (Nat.ltb c (length (q_fs Q (zel z)))); auto. }
  split.
  - refine (is_derive_ext_loc _ _ _ _ _ IF1). generalize Hloc. apply filter_imp. intros t [_ ->]. reflexivity.
  - refine (is_derive_ext_loc _ _ _ _ _ IF2). generalize Hloc. apply filter_imp. intros t [-> _]. reflexivity.
Qed.
End Main.

Theorem evaluation4G_isolated N rc Q s nsort solve fuel W cutoffs Qref normalize convEnergy convCharge :
  sensible4 N rc Q -> 0 <= rc -> s_numElements s = N -> unprocessed rc s -> is_sort nsort -> exact_solver solve -> (N <= length cutoffs)%nat ->
  s_periodic s = false -> chargeable Q s -> everywhere4 Q rc s evaluable -> q_unit Q = negativity normalize convEnergy convCharge 1 ->
  exists r, evaluateNNP4G nsort solve fuel W (element_parameters (q_hardness Q) (q_sigma Q) (q_screening Q) (q_eps Q)) (q_weight Q)
      (setupMemoryAll N (map (q_fs Q) (seq 0 N))) (q_elec Q) (q_short Q) (negativity normalize convEnergy convCharge) rc cutoffs Qref s = Some r /\
    length (r4_atoms r) = length (s_atoms s) /\ r4_charge r = Qref /\
    has_energy4 Q rc Qref s (r4_energy r) (r4_energyElec r) (fun i => nth i (map f_charge (r4_atoms r)) 0) /\
    (everywhere4 Q rc s smooth_at -> regular_networks4 Q rc s (fun i => nth i (map f_charge (r4_atoms r)) 0) -> separated (charge_sites s) ->
     forall u E Eel q, locally 0 (fun t => has_energy4 Q rc Qref (displaced u t s) (E t) (Eel t) (q t)) ->
     is_derive E 0 (- work_rate (map (fun x => e_f (f_e x)) (r4_atoms r)) u) /\ is_derive Eel 0 (- work_rate (map f_fElec (r4_atoms r)) u)).
Proof.
  intros HQ Hrc HN Hs Hsort Hsolve Hcut Hper Hch Hev Hunit.
  set (neg := negativity normalize convEnergy convCharge) in *.
  assert (Hneg : forall x, neg x = q_unit Q * x). { intros x. rewrite Hunit. unfold neg, negativity. destruct normalize; unfold Rdiv; ring. }
  set (R0 := Rmax (sc_outer (q_screening Q)) rc).
  assert (HR0 : rc <= R0) by apply Rmax_r.
  unfold evaluateNNP4G.
  assert (EM : calculateMaxCutoffRadiusOverall W (sc_outer (ep_fs (element_parameters (q_hardness Q) (q_sigma Q) (q_screening Q) (q_eps Q)))) rc s = with_maxrc R0 s).
  { unfold calculateMaxCutoffRadiusOverall, with_maxrc. rewrite Hper. reflexivity. }
  rewrite EM.
  assert (EL : exists s', calculateNeighborListCutoffs nsort fuel rc cutoffs (with_maxrc R0 s) = Some s').
  { pose proof Hs as (Hl & _ & Hc & _). unfold calculateNeighborListCutoffs. 
    destruct (nonper_total nsort rc true (with_maxrc R0 s) Hper Hl) as (s1 & E1). rewrite (nonper_fuel nsort fuel 0) by exact Hper. rewrite E1.
    destruct (cutoff_map_correct nsort 0 rc cutoffs (with_maxrc R0 s) s1 Hsort Hl Hc) as (s2 & E2 & _); auto; [|eauto].
    intros a Ha. destruct (Hl a Ha) as (_ & _ & _ & _ & H & _). rewrite HN in H. lia. }
  destruct EL as (s' & EL). rewrite EL.
  destruct (long_stage N rc R0 s Hrc HR0 HN Hs nsort fuel cutoffs s' Hsort Hcut EL) as (L1 & L2 & _ & _ & L3 & L4).
  destruct (functions_stage N rc Q s s' HQ HN Hs L1 L3 Hev) as (xs & Exs & Lx & Hx). rewrite Exs.
  destruct (main_stage N rc Q s solve fuel W Qref neg HQ HN Hper Hsolve Hch s' L2 L1 xs Lx Hx) as (r & D & pE & dQ & Ece & M1 & M2 & M3 & M4).
  rewrite Ece.
  destruct (main_result N rc Q s solve fuel W Qref neg HQ HN Hs Hper Hsolve Hch Hneg s' L2 L1 L4 xs Lx Hx r D pE dQ Ece M4) as (ys & Ey & Ly & Hq & HG).
  rewrite Ey. eexists. split; [reflexivity|]. cbn [r4_atoms r4_charge r4_energy r4_energyElec].
  split; [exact Ly|]. split; [apply (main_charge N rc Q s Qref neg HQ HN s' L1 xs Lx Hx r M1)|]. split; [|exact HG].
  apply (main_energy N rc Q s Qref neg HQ HN Hneg s' L1 xs Lx Hx r M1 M2 M3). exact Hq.
Qed.
