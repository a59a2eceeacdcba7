(** Set-up of the LAMMPS pair style (C85) and counting of extrapolation warnings (C86). *)
From Coq Require Import Reals ZArith Ascii String Bool Arith List.
From Verif Require Import Model.Strings Model.SymLines Model.ElementMap Model.LammpsInterface Model.LammpsSetup Model.LammpsLimits
  Spec.StringSpec Spec.ElementSpec Spec.LammpsSpec Spec.LammpsSetupSpec Spec.LammpsLimitsSpec
  Proofs.LammpsSetupProofs Proofs.LammpsSetupCoeff Proofs.LammpsSetupMain Proofs.LammpsLimitsProofs.
From Coq Require Import List.
Import ListNotations.

(** C85: a mapping text "t1:name1,t2:name2,...", with blanks anywhere, is accepted if and only if the cutoff of LAMMPS covers the symmetry functions, there
    are not more entries than elements, all types exist and all names are elements of the potential; then each type is treated as the element named last for
    it, and types without an entry are ignored. *)
Theorem C85_mapping : forall m ws text es cf ce rc n,
  elements_of m ws -> good_units m cf -> es <> [] -> (forall t s, In (t, s) es -> name_ok s /\ (Z.of_nat t < 2 ^ 31)%Z) -> mapping_text es text ->
  match initialize m text cf ce rc n with
  | Done itf => covers m cf rc /\ List.length es <= List.length ws /\ (forall t s, In (t, s) es -> t <= n /\ In s ws) /\
                same_potential m cf ce itf /\ forall t, 1 <= t <= n -> treats m itf t (assigned es t)
  | Thrown => ~ covers m cf rc \/ List.length ws < List.length es \/ exists t s, In (t, s) es /\ (n < t \/ ~ In s ws)
  | Undefined => False
  end.
Proof. exact mapping_theorem. Qed.
Print Assumptions C85_mapping.
Example C85_mapping_ex : elements_of ho_mode [lit "H"; lit "O"] /\ good_units ho_mode (1/2) /\
  exists itf, initialize ho_mode (lit " 3:O, 1 :	H") (1/2) 7 6 4 = Done itf /\
  mapping_text [(3, lit "O"); (1, lit "H")] (lit " 3:O, 1 :	H") /\
  (if_ignore itf 1 = false /\ if_element itf 1 = 0) /\ if_ignore itf 2 = true /\ (if_ignore itf 3 = false /\ if_element itf 3 = 1) /\ if_ignore itf 4 = true.
Proof. exact (conj ho_elements (conj (ho_units (1/2) ltac:(Lra.lra)) mapping_example)). Qed.

(** C85: without a mapping text, types stand for the elements in the order of the atomic numbers; this is accepted if and only if there are as many types as
    elements and the cutoff of LAMMPS is large enough. *)
Theorem C85_default_mapping : forall m ws cf ce rc n, elements_of m ws -> good_units m cf ->
  match initialize m [] cf ce rc n with
  | Done itf => covers m cf rc /\ n = List.length ws /\ same_potential m cf ce itf /\
                (forall t, 1 <= t <= n -> exists s, In s ws /\ treats m itf t (Some s)) /\
                (forall t u s s' a b, 1 <= t <= n -> 1 <= u <= n -> treats m itf t (Some s) -> treats m itf u (Some s') ->
                   element_Z s a -> element_Z s' b -> (t < u <-> a < b))
  | Thrown => ~ covers m cf rc \/ n <> List.length ws
  | Undefined => False
  end.
Proof. exact default_theorem. Qed.
Print Assumptions C85_default_mapping.

(** C85: an entry without colon is rejected. *)
Theorem C85_malformed_rejected : forall m text pieces s cf ce rc n,
  filter (fun c => negb (Ascii.eqb c " " || Ascii.eqb c (ascii_of_nat 9))) text = join [","%char] pieces ->
  (forall p, In p pieces -> ~ In ","%char p) -> last pieces [] <> [] -> In s pieces -> ~ In ":"%char s ->
  initialize m text cf ce rc n = Thrown.
Proof. exact malformed_theorem. Qed.
Print Assumptions C85_malformed_rejected.

(** C85: the names given with pair_coeff: each type is treated as the element named, types named NULL are ignored, and the pair style handles exactly the pairs
    of named types.  Missing: NULL for the last type, where this is false, see below. *)
Theorem C85_pair_coeff_partial : forall m ws names cf ce rc,
  elements_of m ws -> good_units m cf -> names <> [] -> (Z.of_nat (List.length names) < 2 ^ 31)%Z -> (forall s, In s names -> name_ok s) ->
  last names [] <> lit "NULL" ->
  exists emap set, coeff (List.length names) (lit "*" :: lit "*" :: names) = Done (emap, set) /\
    (forall i j, In (i, j) set <-> 1 <= i <= j /\ j <= List.length names /\ named names i <> None /\ named names j <> None) /\
    match init_style m emap cf ce rc (List.length names) with
    | Done itf => covers m cf rc /\ List.length (used_names names) <= List.length ws /\ (forall s, In s (used_names names) -> In s ws) /\
                  same_potential m cf ce itf /\ forall t, 1 <= t <= List.length names -> treats m itf t (named names t)
    | Thrown => ~ covers m cf rc \/ List.length ws < List.length (used_names names) \/ exists s, In s (used_names names) /\ ~ In s ws
    | Undefined => False
    end.
Proof. exact pair_coeff_theorem. Qed.
Print Assumptions C85_pair_coeff_partial.
Example C85_pair_coeff_ex : elements_of ho_mode [lit "H"; lit "O"] /\ good_units ho_mode (1/2) /\ covers ho_mode (1/2) 6 /\
  (forall s, In s [lit "O"; lit "NULL"; lit "H"] -> name_ok s) /\
  exists itf, coeff 3 (lit "*" :: lit "*" :: [lit "O"; lit "NULL"; lit "H"]) = Done (lit "1:O,3:H", [(1, 1); (1, 3); (3, 3)]) /\
    init_style ho_mode (lit "1:O,3:H") (1/2) 7 6 3 = Done itf /\
    (if_ignore itf 1 = false /\ if_element itf 1 = 1) /\ if_ignore itf 2 = true /\ (if_ignore itf 3 = false /\ if_element itf 3 = 0) /\
    configured itf (fun i => S (i mod 3)) 4 9 2.
Proof. exact coeff_example. Qed.
(** The array element of the last type is not initialized (pair_hdnnp.cpp:198). *)
Theorem C85_last_type_null_refuted : exists m ws names, elements_of m ws /\ names <> [] /\ List.length (used_names names) <= List.length ws /\
  (forall s, In s (used_names names) -> In s ws) /\ coeff (List.length names) (lit "*" :: lit "*" :: names) = Undefined.
Proof. exact last_null_refuted. Qed.
Print Assumptions C85_last_type_null_refuted.
Theorem C85_last_type_null_always : forall names, names <> [] -> last names [] = lit "NULL" ->
  coeff (List.length names) (lit "*" :: lit "*" :: names) = Undefined.
Proof. exact coeff_last_null. Qed.
Print Assumptions C85_last_type_null_always.

(** C85: after a successful set-up the conditions of C58 hold: every type in use is ignored or has an element of the potential, units can be converted, and the
    neighbor lists of LAMMPS reach as far as the symmetry functions. *)
Theorem C85_ready_for_use : forall m ws emap cf ce rc n itf types nlocal nall,
  elements_of m ws -> good_units m cf -> ce <> 0%R -> (md_normalize m = true -> md_convEnergy m <> 0%R) -> List.length (md_offsets m) = List.length ws ->
  nlocal <= nall -> (forall i, i < nall -> 1 <= types i <= n) -> init_style m emap cf ce rc n = Done itf ->
  configured itf types nlocal nall (List.length ws) /\ (md_cutoff m <= rc * length_unit itf)%R.
Proof. exact configured_theorem. Qed.
Print Assumptions C85_ready_for_use.

(** C85: several types of the same element are rejected as soon as there are more types than elements. *)
Theorem C85_shared_element_refuted : exists m ws names emap set cf rc, elements_of m ws /\ good_units m cf /\ covers m cf rc /\
  (forall s, In s names -> In s ws) /\ coeff (List.length names) (lit "*" :: lit "*" :: names) = Done (emap, set) /\
  forall ce, init_style m emap cf ce rc (List.length names) = Thrown.
Proof. exact shared_refuted. Qed.
Print Assumptions C85_shared_element_refuted.
(** C85: type 0, contradictory entries and texts without entries are accepted. *)
Theorem C85_type_zero_refuted : exists m ws text es itf, elements_of m ws /\ mapping_text es text /\ In (0, lit "H") es /\ assigned es 1 = None /\
  initialize m text 1 1 6 2 = Done itf /\ if_ignore itf 1 = true.
Proof. exact zero_type_refuted. Qed.
Print Assumptions C85_type_zero_refuted.
Theorem C85_contradiction_refuted : exists m ws text es itf, elements_of m ws /\ mapping_text es text /\ In (1, lit "H") es /\ In (1, lit "O") es /\
  initialize m text 1 1 6 2 = Done itf /\ if_ignore itf 2 = true /\ treats m itf 1 (Some (lit "O")).
Proof. exact twice_refuted. Qed.
Print Assumptions C85_contradiction_refuted.
Theorem C85_blank_mapping_refuted : exists m ws itf, elements_of m ws /\ initialize m (lit " ") 1 1 6 2 = Done itf /\
  forall t, 1 <= t <= 2 -> if_ignore itf t = true.
Proof. exact blank_refuted. Qed.
Print Assumptions C85_blank_mapping_refuted.

(** C86: the simulation is stopped in the first call in which the warnings of some process (all so far, or those of the call with "resetew yes") exceed the
    limit, and not otherwise. *)
Theorem C86_stop : forall o P steps lines st, active o -> for_processes P steps -> simulate o steps (repeat no_warnings P) = (lines, st) ->
  (st = false /\ List.length lines = List.length steps /\ forall k, (k < List.length steps)%nat -> ~ too_many o P steps k) \/
  (st = true /\ exists k, (k < List.length steps)%nat /\ List.length lines = S k /\ too_many o P steps k /\ forall j, (j < k)%nat -> ~ too_many o P steps j).
Proof. exact stop_theorem. Qed.
Print Assumptions C86_stop.
Example C86_nonvacuous : for_processes 2 example_steps /\
  simulate (mkEW false 2 4 false) example_steps (repeat no_warnings 2) =
    ([Some (98%Z, 1%Z, (IZR 1 / IZR 2)%R); None; Some (100%Z, 5%Z, (IZR 5 / IZR 2)%R); None; Some (102%Z, 6%Z, (IZR 6 / IZR 2)%R)], true) /\
  too_many (mkEW false 2 4 false) 2 example_steps 4.
Proof. exact example_run. Qed.

(** C86: without limit, summaries and display nothing is written and the simulation goes on. *)
Theorem C86_inactive : forall o P steps, ~ active o -> simulate o steps (repeat no_warnings P) = (repeat None (List.length steps), false).
Proof. exact inactive_theorem. Qed.
Print Assumptions C86_inactive.

(** C86: a summary is written exactly in the calls whose time step is a multiple of the interval; it gives the number of warnings of all processes since the
    last summary. *)
Theorem C86_summary : forall o P steps lines st, for_processes P steps -> simulate o steps (repeat no_warnings P) = (lines, st) ->
  forall k line, nth_error lines k = Some line ->
  match line with
  | None => ~ due o steps k
  | Some (ts, W, r) => due o steps k /\ ts = time steps k /\ r = (IZR W / IZR (ew_sum o))%R /\
      exists m, window o steps m k /\ W = zsum (seq m (S k - m)) (all_processes P steps)
  end.
Proof. exact summary_theorem. Qed.
Print Assumptions C86_summary.
(** C86: for consecutive time steps the number of calls since the last summary is the interval, hence the rate is right.  Missing: the first summary, see below. *)
Theorem C86_rate_partial : forall o steps m k, (forall i, (i < List.length steps)%nat -> time steps i = (time steps 0 + Z.of_nat i)%Z) ->
  (k < List.length steps)%nat -> due o steps k -> window o steps m k -> (0 < m)%nat -> Z.of_nat (S k - m) = ew_sum o.
Proof. exact interval_theorem. Qed.
Print Assumptions C86_rate_partial.
Theorem C86_first_rate_refuted : exists o P steps lines W r, for_processes P steps /\ List.length steps = 1%nat /\
  simulate o steps (repeat no_warnings P) = (lines, false) /\ lines = [Some (0%Z, W, r)] /\
  W = all_processes P steps 0 /\ r <> (IZR W / INR (List.length steps))%R.
Proof. exact first_rate. Qed.
Print Assumptions C86_first_rate_refuted.
(** C86: maxew 0 is logged as "No extrapolation warning limit set", but the first warning stops the simulation. *)
Theorem C86_no_limit_refuted : exists o P steps lines, limitMessage (ew_max o) = None /\ for_processes P steps /\
  simulate o steps (repeat no_warnings P) = (lines, true).
Proof. exact no_limit. Qed.
Print Assumptions C86_no_limit_refuted.
(** C86: a negative limit stops the simulation without any warning if warnings are displayed, and never if not. *)
Theorem C86_negative_limit_refuted : exists P steps, for_processes P steps /\ (forall k p, count steps k p = 0%Z) /\
  (exists lines, simulate (mkEW true 0 (-1) false) steps (repeat no_warnings P) = (lines, true)) /\
  (forall steps', exists lines, simulate (mkEW false 0 (-1) false) steps' (repeat no_warnings P) = (lines, false)).
Proof. exact negative_limit. Qed.
Print Assumptions C86_negative_limit_refuted.
(** C86: processes count for themselves, the total may exceed the limit. *)
Theorem C86_total_refuted : exists o P steps lines, for_processes P steps /\ ew_reset o = false /\
  simulate o steps (repeat no_warnings P) = (lines, false) /\
  (ew_max o < zsum (seq 0 (List.length steps)) (all_processes P steps))%Z.
Proof. exact per_process. Qed.
Print Assumptions C86_total_refuted.
