(** Stages of the 4G evaluation: symmetry functions on long lists, networks,
    forces. *)
From Coq Require Import Reals Lra ZArith List Lia Bool Arith Permutation Sorted.
From Coquelicot Require Import Coquelicot.
From Coq Require Import List.
From Verif Require Import Base.RealBase Base.Loop Base.Vec3 Base.SumR Model.NeuralNetwork Model.Scaling Model.NeighborList Model.SymFunctions Model.SymSetup Model.Forces
  Model.Electrostatics Model.Evaluation4G
  Spec.NetworkSpec Spec.GeometrySpec Spec.NeighborSpec Spec.SymSpec Spec.SetupSpec Spec.ForceSpec Spec.ElecSpec Spec.Evaluation4GSpec
  Proofs.NetForward Proofs.NeighborProofs Proofs.NeighborMore Proofs.CutoffMapProofs Proofs.SetupProofs Proofs.ForceNet Proofs.ForceAssembly Proofs.ForceProofs Proofs.Truncate Proofs.LongLists
  Proofs.CutForces Proofs.ChiForces.
Import ListNotations.
Local Open Scope R_scope.

Section Networks.
Variables (N : nat) (base : nat -> network).
Hypothesis Hb : forall e, (e < N)%nat -> well_formed (base e) /\ acts_known (base e).
Lemma run_networks : forall l nets, (forall e, (e < N)%nat -> alike (nets e) (base e)) -> (forall p, In p l -> (fst p < N)%nat) ->
  length (runNetworks nets l) = length l /\
  forall i el G, nth_error l i = Some (el, G) -> exists net, nth_error (runNetworks nets l) i = Some net /\
    getOutput net 0 = getOutput (evaluate (base el) G) 0 /\
    forall c, (c < numNeurons (base el) 0)%nat -> calculateDEdG net c = calculateDEdG (evaluate (base el) G) c.
Proof.
  induction l as [|[el G] l IH]; intros nets Hn Hl; cbn [runNetworks].
  - split; auto. intros [|i] el G; discriminate.
  - change (propagate (setInput G (nets el))) with (evaluate (nets el) G). set (net := evaluate (nets el) G).
    assert (Hel : (el < N)%nat) by apply (Hl (el, G) (or_introl eq_refl)). destruct (Hb el Hel) as [Hwf Hact].
    destruct (numLayers (base el)) as [|LT] eqn:EL; [destruct Hwf as [H3 _]; rewrite EL in H3; lia|].
    destruct (IH (upd nets el net)) as [L H].
    { intros e He. destruct (Nat.eq_dec e el) as [->|Hne]; [|rewrite upd_other; auto]. rewrite upd_same.
      eapply alike_trans; [|apply Hn; auto]. apply alike_evaluate.
      - apply (alike_well_formed _ _ (Hn el Hel)). auto.
      - apply (alike_acts _ _ (Hn el Hel)). auto. }
    { intros p Hp. apply Hl. now right. }
    split; [cbn [length]; now rewrite L|]. intros [|i] el' G' E; cbn [nth_error] in *; [|now apply H].
    injection E as <- <-. exists net. split; auto. split.
    + apply (alike_output _ _ _ _ (Hn el Hel) Hwf Hact) with (LT := LT); auto.
    + intros c Hc. apply (alike_DEdG _ _ _ _ (Hn el Hel) Hwf Hact) with (LT := LT); auto.
Qed.
End Networks.

Section Stages.
Variables (N : nat) (rc : R) (Q : potential4) (s s' : structure).
Hypothesis HQ : sensible4 N rc Q.
Hypothesis Hrc : 0 <= rc.
Hypothesis HN : s_numElements s = N.
Hypothesis Hs : unprocessed rc s.
Let n := length (s_atoms s).
Let elems := setupMemoryAll N (map (q_fs Q) (seq 0 N)).
Definition Pe : potential := mkPotential (q_fs Q) (q_elec Q) (q_weight Q).
Lemma Pe_sensible : sensible N rc Pe.
Proof. intros e He. destruct HQ as (_ & _ & _ & H). destruct (H e He) as (A & B & _). split; auto. Qed.

Hypothesis Hlen' : length (s_atoms s') = n.
Hypothesis Hatoms : forall i ai, nth_error (s_atoms s) i = Some ai -> exists ai', nth_error (s_atoms s') i = Some ai' /\ a_r ai' = a_r ai /\
     long N n rc i ai' /\ listed N rc s i ai (cut_atom rc ai').
Hypothesis Hsym : forall i j ai aj, nth_error (s_atoms s') i = Some ai -> nth_error (s_atoms s') j = Some aj ->
    Permutation (map nb_dr (filter (fun n => Nat.eqb (nb_index n) j) (a_nbs ai)))
              (map (fun n => vopp (nb_dr n)) (filter (fun n => Nat.eqb (nb_index n) i) (a_nbs aj))).
Hypothesis Hev : everywhere4 Q rc s evaluable.

Definition prep (i : nat) (a : atom) (st : store) : Prop :=
  exists ai, nth_error (s_atoms s) i = Some ai /\ nth_error (s_atoms s') i = Some a /\ a_r a = a_r ai /\ a_element a = a_element ai /\
    (a_element a < N)%nat /\ long N n rc i a /\ untouched a rc st /\ listed N rc s i ai (cut_atom rc a) /\ sf_done N Pe (cut_atom rc a) st.

Lemma sf_long i ai ai' : nth_error (s_atoms s) i = Some ai -> nth_error (s_atoms s') i = Some ai' -> a_r ai' = a_r ai -> long N n rc i ai' ->
  listed N rc s i ai (cut_atom rc ai') -> exists st, sf_atom (q_weight Q) elems ai' = Some (mkEAtom ai' st (fun _ => 0) 0 vzero) /\ prep i ai' st.
Proof.
  intros Hi Hi' Hr Hl Hlis.
  assert (Ee : a_element ai' = a_element ai) by apply Hlis.
  assert (He : (a_element ai' < N)%nat). { rewrite Ee, <- HN. apply Hs. eapply nth_error_In; eauto. }
  destruct (sf_stage N rc Pe Pe_sensible (cut_atom rc ai')) as (st & E & D).
  { exact He. }
  { apply Hlis. }
  { intros m Hm. now apply Hlis. }
  { intros f Hf. apply (Hev i ai); auto.
    - eapply listed_neighbourhood; eauto.
    - rewrite <- Ee. exact Hf. }
  destruct (HQ) as (_ & _ & _ & HQe). destruct (HQe _ He) as ((Hne & Hnum & Hf) & _).
  assert (Hfs : forall f', In f' (el_fs (el_of N Pe (a_element ai'))) -> no_slots f' /\ cutoff_of (sf_kind f') <= rc).
  { destruct (memory_tables N _ _ _ _ Hnum (el_of_memory N Pe (a_element ai'))) as (_ & HL & _ & F). intros f' Hf'.
    apply In_nth_error in Hf' as (c & Hc). destruct (nth_error (q_fs Q (a_element ai')) c) as [f|] eqn:Ef.
    2:{ apply nth_error_None in Ef. assert (c < length (el_fs (el_of N Pe (a_element ai'))))%nat by (apply nth_error_Some; congruence). cbn [Pe p_fs] in HL. lia. }
    destruct (F c f Ef) as (f2 & E2 & K1 & _ & K3 & _). rewrite Hc in E2. injection E2 as <-.
    destruct (Hf f (nth_error_In _ _ Ef)) as (A & _ & _ & B). split; [|rewrite K1; auto]. intros e. rewrite K3. apply A. }
  unfold sf_atom in E. cbn [cut_atom a_element] in E.
  assert (EE : nth_error elems (a_element ai') = Some (el_of N Pe (a_element ai'))) by apply (elem_at N Pe _ He).
  change (setupMemoryAll N (map (p_fs Pe) (seq 0 N))) with elems in E. rewrite EE in E.
  exists st. unfold sf_atom. rewrite EE. destruct (Nat.eqb (length (el_fs (el_of N Pe (a_element ai')))) 0); [discriminate|].
  change (p_weight Pe) with (q_weight Q) in E. fold (cut_atom rc ai') in E.
  rewrite (calculateAll_cut N n rc i ai' _ _ Hl Hfs).
  destruct (calculateAll (q_weight Q) (el_fs (el_of N Pe (a_element ai'))) (cut_atom rc ai') true allocated) as [st'|] eqn:Est; [|discriminate].
  injection E as E. split; [now rewrite E|]. exists ai.
  split; [auto|]. split; [auto|]. split; [auto|]. split; [auto|]. split; [auto|]. split; [auto|]. split; [|split; [auto|exact D]].
  subst st'. rewrite <- (calculateAll_cut N n rc i ai' _ _ Hl Hfs) in Est.
  apply (calculateAll_untouched ai' rc (q_weight Q) (el_fs (el_of N Pe (a_element ai'))) true); auto. intros f Hin. now apply Hfs.
Qed.

Lemma functions_stage : exists xs, calculateSymmetryFunctions (q_weight Q) elems (s_atoms s') = Some xs /\ length xs = n /\
  forall i x, nth_error xs i = Some x -> prep i (e_atom x) (e_store x) /\ e_f x = vzero.
Proof.
  assert (H : forall i a, nth_error (s_atoms s') i = Some a -> exists st, sf_atom (q_weight Q) elems a = Some (mkEAtom a st (fun _ => 0) 0 vzero) /\ prep i a st).
  { intros i a Ha. destruct (nth_error (s_atoms s) i) as [ai|] eqn:Ei.
    - destruct (Hatoms i ai Ei) as (a' & E' & A & B & C). rewrite Ha in E'. injection E' as <-. eapply sf_long; eauto.
    - apply nth_error_None in Ei. assert (i < length (s_atoms s'))%nat by (apply nth_error_Some; congruence). fold n in Ei. lia. }
  destruct (sequence_some (map (sf_atom (q_weight Q) elems) (s_atoms s'))) as [xs Exs].
  { intros o Ho. apply in_map_iff in Ho as (a & <- & Ha). apply In_nth_error in Ha as (i & Hi). destruct (H i a Hi) as (st & -> & _). discriminate. }
  exists xs. split; auto. apply sequence_spec in Exs as [L E]. rewrite map_length in L. split; [congruence|].
  intros i x Hx. destruct (nth_error (s_atoms s') i) as [a|] eqn:Ea.
  - destruct (H i a Ea) as (st & E1 & D). specialize (E i (Some (mkEAtom a st (fun _ => 0) 0 vzero))).
    rewrite nth_error_map, Ea in E. cbn [option_map] in E. rewrite E1 in E. specialize (E eq_refl). rewrite Hx in E. injection E as <-. auto.
  - apply nth_error_None in Ea. assert (i < length xs)%nat by (apply nth_error_Some; congruence). lia.
Qed.

Lemma nth_combine {A B} : forall (l : list A) (m : list B) i, length l = length m -> nth_error (List.combine l m) i =
  match nth_error l i, nth_error m i with Some a, Some b => Some (a, b) | _, _ => None end.
Proof. induction l as [|a l IH]; intros [|b m] [|i] H; cbn in *; try discriminate; auto. Qed.

Variable neg : R -> R.
Variable xs : list eatom.
Hypothesis Hxlen : length xs = n.
Hypothesis Hx : forall i x, nth_error xs i = Some x -> prep i (e_atom x) (e_store x) /\ e_f x = vzero.

Lemma elec_stage : length (elecNetworks neg (q_elec Q) xs) = n /\
  forall i y, nth_error (elecNetworks neg (q_elec Q) xs) i = Some y -> exists x, nth_error xs i = Some x /\ f_e y = x /\
    f_chi y = neg (getOutput (evaluate (q_elec Q (a_element (e_atom x))) (st_G (e_store x))) 0) /\
    forall c, (c < length (q_fs Q (a_element (e_atom x))))%nat ->
      f_dChidG y c = neg (calculateDEdG (evaluate (q_elec Q (a_element (e_atom x))) (st_G (e_store x))) c).
Proof.
  destruct HQ as (_ & _ & _ & HQe).
  destruct (run_networks N (q_elec Q)) with (nets := q_elec Q) (l := map (fun x => (a_element (e_atom x), st_G (e_store x))) xs) as [L H].
  { intros e He. destruct (HQe e He) as (_ & (A & B & _) & _). auto. }
  { intros; apply alike_refl. }
  { intros p Hp. apply in_map_iff in Hp as (x & <- & Hin). apply In_nth_error in Hin as (i & Hi). destruct (Hx i x Hi) as ((ai & _ & _ & _ & _ & A & _) & _). exact A. }
  rewrite map_length in L. unfold elecNetworks. split; [rewrite map_length, combine_length, L; lia|].
  intros i y Hy. rewrite nth_error_map, nth_combine in Hy by auto. destruct (nth_error xs i) as [x|] eqn:Ex; [|discriminate].
  destruct (H i (a_element (e_atom x)) (st_G (e_store x))) as (net & En & Eo & Ed).
  { rewrite nth_error_map, Ex. reflexivity. }
  rewrite En in Hy. cbn [option_map fst snd] in Hy. injection Hy as <-. exists x. cbn [f_e f_chi f_dChidG].
  split; [auto|]. split; [auto|]. split; [now rewrite Eo|]. intros c Hc. rewrite Ed; auto.
  destruct (Hx i x Ex) as ((ai & _ & _ & _ & _ & A & _) & _). destruct (HQe _ A) as (_ & (_ & _ & B) & _). now rewrite B.
Qed.

Variable q : nat -> R.
Let zs := shortNetworks elems (q_short Q) (set_charges q (elecNetworks neg (q_elec Q) xs)).
Definition zprep (i : nat) (z : fatom) : Prop :=
  let x := f_e z in let el := a_element (e_atom x) in
  prep i (e_atom x) (e_store x) /\ f_charge z = q i /\
  f_chi z = neg (getOutput (evaluate (q_elec Q el) (st_G (e_store x))) 0) /\
  (forall c, (c < length (q_fs Q el))%nat -> f_dChidG z c = neg (calculateDEdG (evaluate (q_elec Q el) (st_G (e_store x))) c)) /\
  e_energy x = getOutput (evaluate (q_short Q el) (with_charge (length (q_fs Q el)) (st_G (e_store x)) (q i))) 0 /\
  (forall c, (c <= length (q_fs Q el))%nat ->
     e_dEdG x c = calculateDEdG (evaluate (q_short Q el) (with_charge (length (q_fs Q el)) (st_G (e_store x)) (q i))) c) /\
  numG elems x = length (q_fs Q el).
Lemma short_stage : length zs = n /\ forall i z, nth_error zs i = Some z -> zprep i z /\
  exists y, nth_error (elecNetworks neg (q_elec Q) xs) i = Some y /\ e_atom (f_e z) = e_atom (f_e y) /\ f_chi z = f_chi y.
Proof.
  destruct elec_stage as [Ly Hy]. set (ys := elecNetworks neg (q_elec Q) xs) in *.
  assert (Lc : length (set_charges q ys) = n) by (unfold set_charges; now rewrite mapi_length).
  assert (HC : forall i w, nth_error (set_charges q ys) i = Some w -> exists y, nth_error ys i = Some y /\ w = mkFAtom (f_e y) (f_chi y) (f_dChidG y) (q i) (f_fElec y)).
  { intros i w Hw. unfold set_charges in Hw. rewrite nth_error_mapi in Hw. destruct (nth_error ys i) as [y|]; [|discriminate]. cbn in Hw. injection Hw as <-. eauto. }
  destruct HQ as (_ & _ & _ & HQe).
  assert (HG : forall i a st, prep i a st -> forall x, e_atom x = a -> numG elems x = length (q_fs Q (a_element a))).
  { intros i a st (ai & _ & _ & _ & _ & A & _ & _ & _ & (B & _)) x Ex. unfold numG. rewrite Ex.
    assert (EE : nth_error elems (a_element a) = Some (el_of N Pe (a_element a))) by apply (elem_at N Pe _ A). rewrite EE. exact B. }
  set (inp := fun x : fatom => (a_element (e_atom (f_e x)), with_charge (numG elems (f_e x)) (st_G (e_store (f_e x))) (f_charge x))).
  destruct (run_networks N (q_short Q)) with (nets := q_short Q) (l := map inp (set_charges q ys)) as [L H].
  { intros e He. destruct (HQe e He) as (_ & _ & (A & B & _)). auto. }
  { intros; apply alike_refl. }
  { intros p Hp. apply in_map_iff in Hp as (w & <- & Hin). apply In_nth_error in Hin as (i & Hi). destruct (HC i w Hi) as (y & Ey & ->).
    destruct (Hy i y Ey) as (x & Ex & -> & _). destruct (Hx i x Ex) as ((ai & _ & _ & _ & _ & A & _) & _). exact A. }
  rewrite map_length in L.
  split; [unfold zs, shortNetworks; fold ys; fold inp; rewrite map_length, combine_length, L; lia|].
  intros i z Hz. unfold zs, shortNetworks in Hz. fold ys inp in Hz. rewrite nth_error_map, nth_combine in Hz by auto.
  destruct (nth_error (set_charges q ys) i) as [w|] eqn:Ew; [|discriminate]. destruct (HC i w Ew) as (y & Ey & ->).
  destruct (Hy i y Ey) as (x & Ex & Efe & Echi & Edchi). destruct (Hx i x Ex) as (Px & Fx).
  destruct (H i (a_element (e_atom x)) (with_charge (length (q_fs Q (a_element (e_atom x)))) (st_G (e_store x)) (q i))) as (net & En & Eo & Ed).
  { rewrite nth_error_map, Ew. unfold inp. cbn [option_map f_e f_charge]. rewrite Efe. now rewrite (HG i _ _ Px x eq_refl). }
  rewrite En in Hz. cbn [option_map fst snd f_e f_chi f_dChidG f_charge f_fElec] in Hz. injection Hz as <-. rewrite Efe in *.
  split; [|exists y; cbn [f_e e_atom f_chi]; rewrite Efe; auto].
  unfold zprep. cbn [f_e e_atom e_store e_energy e_dEdG f_charge f_chi f_dChidG].
  split; [auto|]. split; [auto|]. split; [auto|]. split; [auto|]. split; [exact Eo|]. split.
  - intros c Hc. apply Ed. destruct Px as (ai & _ & _ & _ & _ & A & _). destruct (HQe _ A) as (_ & _ & (_ & _ & ->)). lia.
  - apply (HG i _ _ Px). reflexivity.
Qed.

(** ** Forces *)
Let ws := map (cut rc) (map f_e zs).
Lemma z_with i z : zprep i z -> with_functions N rc Pe s i (chi_atom rc z) /\ with_functions N rc Pe s i (cut rc (f_e z)).
Proof.
  intros ((ai & A1 & _ & _ & _ & _ & _ & _ & A2 & A3) & _). split; exists ai; auto.
Qed.
Lemma ws_at i w : nth_error ws i = Some w -> exists z, nth_error zs i = Some z /\ w = cut rc (f_e z).
Proof. unfold ws. rewrite !nth_error_map. destruct (nth_error zs i) as [z|]; [|discriminate]. intros [= <-]. eauto. Qed.
Lemma ws_len : length ws = n.
Proof. unfold ws. rewrite !map_length. apply short_stage. Qed.
Lemma ws_prep i w : nth_error ws i = Some w -> with_functions N rc Pe s i w.
Proof. intros H. destruct (ws_at i w H) as (z & Ez & ->). apply z_with. now apply short_stage. Qed.
Lemma near_symmetric a b i j : long N n rc i a -> long N n rc j b -> 
    Permutation (map nb_dr (filter (fun n => Nat.eqb (nb_index n) j) (a_nbs a)))
              (map (fun n => vopp (nb_dr n)) (filter (fun n => Nat.eqb (nb_index n) i) (a_nbs b))) ->
    Permutation (map nb_dr (filter (fun n => Nat.eqb (nb_index n) j) (near rc a)))
              (map (fun n => vopp (nb_dr n)) (filter (fun n => Nat.eqb (nb_index n) i) (near rc b))).
Proof.
  intros ((_ & Da & _) & Na & _) ((_ & Db & _) & Nb & _) Hp. rewrite Na, Nb.
  set (p := fun x : vec => if Rle_dec (norm x) rc then true else false).
  assert (F : forall (l : list neighbor) (g : neighbor -> vec) k, (forall m, In m l -> nb_d m = norm (g m)) ->
     map g (filter (fun n => Nat.eqb (nb_index n) k) (filter (upto rc) l)) = filter p (map g (filter (fun n => Nat.eqb (nb_index n) k) l))).
  { induction l as [|m l IH]; intros g k Hg; auto. cbn [filter]. 
    assert (Em : upto rc m = p (g m)). { unfold upto, p. now rewrite (Hg m (or_introl eq_refl)). }
    destruct (upto rc m) eqn:E1; cbn [filter]; destruct (Nat.eqb (nb_index m) k); cbn [map filter]; rewrite <- ?Em, IH; auto; intros; apply Hg; now right. }
  rewrite (F (a_nbs a) nb_dr j), (F (a_nbs b) (fun n => vopp (nb_dr n)) i); auto.
  - clear - Hp. induction Hp; cbn; auto.
    + destruct (p x); auto.
    + destruct (p x), (p y); auto. apply perm_swap.
    + eapply Permutation_trans; eauto.
  - intros m Hm. rewrite norm_opp. auto.
Qed.
Lemma ws_sym i j x y : nth_error ws i = Some x -> nth_error ws j = Some y ->
    Permutation (map nb_dr (filter (fun n => Nat.eqb (nb_index n) j) (a_nbs (e_atom x))))
              (map (fun n => vopp (nb_dr n)) (filter (fun n => Nat.eqb (nb_index n) i) (a_nbs (e_atom y)))).
Proof.
  intros Hi Hj. destruct (ws_at i x Hi) as (z & Ez & ->). destruct (ws_at j y Hj) as (z' & Ez' & ->).
  destruct short_stage as [_ Hz]. destruct (Hz i z Ez) as (((ai & _ & A2 & _ & _ & _ & A & _) & _) & _). destruct (Hz j z' Ez') as (((aj & _ & B2 & _ & _ & _ & B & _) & _) & _).
  cbn [cut e_atom cut_atom a_nbs]. apply near_symmetric; auto.
Qed.
Let d0 : eatom := mkEAtom (mkAtom 0 vzero false false 0 0 [] [] [] []) (mkStore (fun _ => 0) (fun _ => vzero) (fun _ _ => 0)) (fun _ => 0) 0 vzero.
Lemma short_forces : exists ys, calculateForces elems rc (map f_e zs) = Some ys /\ length ys = n /\
  forall i, (i < n)%nat -> exists y, nth_error ys i = Some y /\ forall w, dot (e_f y) w = Fdot N Pe s ws i w.
Proof.
  destruct (force_stage N rc Pe s Pe_sensible HN Hs ws ws_len ws_prep ws_sym) as (ys' & E & L & H).
  destruct short_stage as [Lz Hz].
  assert (Hfe : forall i x, nth_error (map f_e zs) i = Some x -> exists z, nth_error zs i = Some z /\ x = f_e z).
  { intros i x. rewrite nth_error_map. destruct (nth_error zs i) as [z|]; [|discriminate]. intros [= <-]. eauto. }
  destruct HQ as (_ & _ & _ & HQe).
  destruct (forces_cut N n rc Pe) with (xs := map f_e zs) (ys' := ys') as (ys & Ey & Ly & Hy).
  - intros e He. destruct (HQe e He) as ((_ & A & _) & _). exact A.
  - rewrite map_length. exact Lz.
  - intros i x Hix. destruct (Hfe i x Hix) as (z & Ez & ->). destruct (Hz i z Ez) as (((ai & A) & _) & _). apply A.
  - intros i x Hix. destruct (Hfe i x Hix) as (z & Ez & ->). destruct (Hz i z Ez) as (((ai & A) & _) & _). apply A.
  - intros i x Hix. destruct (Hfe i x Hix) as (z & Ez & ->). destruct (Hz i z Ez) as (((ai & A) & _) & _). apply A.
  - intros i j x y Hix Hjy. destruct (Hfe i x Hix) as (z & Ez & ->). destruct (Hfe j y Hjy) as (z' & Ez' & ->).
    destruct (Hz i z Ez) as (((ai & _ & A & _) & _) & _). destruct (Hz j z' Ez') as (((aj & _ & B & _) & _) & _). apply Hsym; auto.
  - exact E.
  - exists ys. split; [exact Ey|]. split; [exact Ly|]. intros i Hi. destruct (H i Hi) as (y' & Ey' & _ & _ & _ & _ & D).
    destruct (Hy i y' Ey') as (x & y & _ & Ey1 & ->). eexists. split; [exact Ey1|]. exact D.
Qed.
End Stages.
