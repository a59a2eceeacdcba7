(** Model of the choice of the Ewald parameters: src/libnnp/EwaldSetup.cpp,
    EwaldTruncJackson.cpp, EwaldTruncKolafaFixR.cpp, EwaldTruncKolafaOptEta.cpp,
    IEwaldTrunc.h, and of Mode::setupElectrostatics (Mode.cpp:368-518).

    The flags for the log (newCutoffsWerePublished, isEstimateReliable) and all
    log output are left out. *)
From Coq Require Import Reals ZArith Ascii String Bool Arith.
From Coq Require Import List.
From Verif Require Import Base.AssocMap Model.Strings Model.Printf Model.ElementMap Model.CoreFunction Model.CompactScreening
  Model.Units Model.SymFunctions Model.SymSetup Model.Settings Model.SymLines Model.NetworkSetup Model.DataFiles Model.Electrostatics.
Import ListNotations.
Local Open Scope R_scope.

(** pow(x, y) for x >= 0 and y > 0. *)
Definition c_pow (x y : R) : R := if Req_EM_T x 0 then 0 else Rpower x y.

(** IEwaldTrunc.h:12-20 struct EwaldGlobalSettings. *)
Record ewald_settings := mkES { es_precision : R; es_maxCharge : R; es_maxQSigma : R; es_fourPiEps : R }.
Definition es_init : ewald_settings := mkES (/ 10 ^ 6) 1 1 1.
(** IEwaldTrunc.h:37-60 struct EwaldParameters ([ewald] in Electrostatics.v). *)
Definition ew_init : ewald := mkEwald 0 0 0.
Definition ew_toPhysicalUnits (convLength : R) (W : ewald) : ewald :=
  mkEwald (ew_eta W / convLength) (ew_rCut W / convLength) (ew_kCut W * convLength).
Definition ew_toNormalizedUnits (convLength : R) (W : ewald) : ewald := ew_toPhysicalUnits (1 / convLength) W.

(** EwaldSetup.h:15-20 enum EWALDTruncMethod. *)
Inductive trunc_method := JACKSON_CATLOW | KOLAFA_PERRAM.
(** The implementations and the members they keep from one call to the next
    (the other members are set before they are read). *)
Inductive trunc :=
| TJackson (volume : R)
| TFixR (volume : R) (numAtoms : nat)
| TOptEta (volume : R) (numAtoms : nat) (s eta : R).
(** EwaldSetup.h:22-80 class EwaldSetup; [sw_impl] = None: truncImpl == nullptr. *)
Record ewald_setup := mkEwaldSetup {
  sw_params : ewald; sw_method : trunc_method; sw_settings : ewald_settings; sw_impl : option trunc
}.
(** EwaldSetup.cpp:29-34, the constructor. *)
Definition sw_init : ewald_setup := mkEwaldSetup ew_init JACKSON_CATLOW es_init None.
(** EwaldSetup.h:82-90 setMaxQSigma, setTruncMethod. *)
Definition setTruncMethod (m : trunc_method) (e : ewald_setup) : ewald_setup :=
  mkEwaldSetup (sw_params e) m (sw_settings e) (sw_impl e).
Definition setMaxQSigma (maxWidth : R) (e : ewald_setup) : ewald_setup :=
  let g := sw_settings e in
  mkEwaldSetup (sw_params e) (sw_method e) (mkES (es_precision g) (es_maxCharge g) maxWidth (es_fourPiEps g)) (sw_impl e).

(** EwaldSetup.cpp:36-72 readFromArgs (the members of new objects: EwaldTrunc*.h). *)
Definition readFromArgs (args : list str) (e : ewald_setup) : outcome ewald_setup :=
  let n := List.length args in
  let g := sw_settings e in
  let consistent := match sw_method e with
                    | JACKSON_CATLOW => Nat.eqb n 1
                    | KOLAFA_PERRAM => Nat.leb 1 n && Nat.leb n 3
                    end in
  if negb consistent then Thrown else
  precision <- number_at args 0;
  if Rle_dec precision 0 then Thrown else
  match sw_method e with
  | JACKSON_CATLOW =>
      Done (mkEwaldSetup (sw_params e) (sw_method e) (mkES precision (es_maxCharge g) (es_maxQSigma g) (es_fourPiEps g)) (Some (TJackson 0)))
  | KOLAFA_PERRAM =>
      q <- (if Nat.leb 2 n then number_at args 1 else Done (es_maxCharge g));
      let g := mkES precision q (es_maxQSigma g) (es_fourPiEps g) in
      if Nat.eqb n 2 then Done (mkEwaldSetup (sw_params e) (sw_method e) g (Some (TOptEta 0 0 1 1)))
      else if Nat.eqb n 3 then
        rc <- number_at args 2;
        let W := sw_params e in
        Done (mkEwaldSetup (mkEwald (ew_eta W) rc (ew_kCut W)) (sw_method e) g (Some (TFixR 0 0)))
      else Done (mkEwaldSetup (sw_params e) (sw_method e) g (sw_impl e))
  end.

(** EwaldSetup.cpp:74-86 toNormalizedUnits. *)
Definition sw_toNormalizedUnits (convEnergy convLength : R) (e : ewald_setup) : ewald_setup :=
  match sw_method e with
  | JACKSON_CATLOW => e
  | KOLAFA_PERRAM =>
      let g := sw_settings e in
      mkEwaldSetup (ew_toNormalizedUnits convLength (sw_params e)) (sw_method e)
        (mkES (es_precision g * (convEnergy / convLength)) (es_maxCharge g) (es_maxQSigma g)
              (es_fourPiEps g / (convLength * convEnergy)))
        (sw_impl e)
  end.

(** Result of a method with loops: [None] = still running after [fuel] rounds;
    otherwise the object left behind and whether the method returned (true) or
    threw (false). *)
Definition run (A : Type) := option (A * bool).

(** ** EwaldTruncJackson.cpp:42-58 *)
Definition jackson_eta (volume : R) : R := 1 / sqrt (2 * PI) * c_pow volume (1 / 3).
Definition jackson_rCut (eta prec : R) : R := sqrt (- 2 * ln prec) * eta.
Definition jackson_kCut (eta prec : R) : R := sqrt (- 2 * ln prec) / eta.
(** EwaldTruncJackson.cpp:11-34 calculateParameters. *)
Definition jackson_calculate (V : R) (volume : R) (e : ewald_setup) : ewald_setup * bool :=
  let g := sw_settings e in
  let W := sw_params e in
  let out W := mkEwaldSetup W (sw_method e) g (Some (TJackson V)) in
  if Req_EM_T V volume then (e, true) else
  if Rge_dec (es_precision g) 1 then (out W, false) else
  let eta := jackson_eta V in
  if Rle_dec eta 0 then (out (mkEwald eta (ew_rCut W) (ew_kCut W)), false) else
  (out (mkEwald eta (jackson_rCut eta (es_precision g)) (jackson_kCut eta (es_precision g))), true).

Definition acceptError : R := / 10 ^ 10.

(** ** EwaldTruncKolafaFixR.cpp *)
(** Lines 88-91 calculateC. *)
Definition fixr_C (qMax : R) (numAtoms : nat) (volume fourPiEps : R) : R :=
  2 * qMax ^ 2 * sqrt (INR numAtoms / volume) / fourPiEps.
(** Lines 49-57 calculateEta; [None] = runtime_error. *)
Definition fixr_eta (C rCut prec : R) : option R :=
  let x := sqrt (rCut / 2) * prec / C in
  if Rge_dec x 1 then None else Some (rCut / sqrt (- 2 * ln x)).
(** Lines 59-86 calculateKCut: the loop. *)
Fixpoint kcut_loop (fuel : nat) (eta y kCut relX relY : R) : option R :=
  match fuel with
  | O => None
  | S fuel =>
    if (ltR acceptError relX || ltR acceptError relY)%bool then
      let kOld := kCut in
      let kCut := kCut - 2 * kCut / (1 + 2 * (kCut * eta) ^ 2) * (- (1) + sqrt kCut * exp ((kCut * eta) ^ 2 / 2) * y) in
      if Rle_dec kCut 0 then kcut_loop fuel eta y (kOld / 2) relX relY
      else kcut_loop fuel eta y kCut (Rabs ((kCut - kOld) / kCut))
                     (Rabs ((1 / sqrt kCut * exp (- (kCut * eta) ^ 2 / 2) - y) / y))
    else Some kCut
  end.
Definition fixr_kCut (fuel : nat) (C eta prec : R) : option R :=
  kcut_loop fuel eta (eta * prec / (sqrt 2 * C)) (1 / eta) 1 1.
(** Volume and number of atoms as in the previous call. *)
Definition unchanged (V : R) (N : nat) (volume : R) (numAtoms : nat) : bool :=
  (eqR V volume && Nat.eqb N numAtoms)%bool.
(** Lines 12-35 calculateParameters. *)
Definition fixr_calculate (fuel : nat) (V : R) (N : nat) (volume : R) (numAtoms : nat) (e : ewald_setup) : run ewald_setup :=
  let g := sw_settings e in
  let W := sw_params e in
  let out W := mkEwaldSetup W (sw_method e) g (Some (TFixR V N)) in
  if unchanged V N volume numAtoms then Some (e, true) else
  if Req_EM_T (ew_rCut W) 0 then Some (out W, false) else
  let C := fixr_C (es_maxCharge g) N V (es_fourPiEps g) in
  match fixr_eta C (ew_rCut W) (es_precision g) with
  | None => Some (out W, false)
  | Some eta =>
    match fixr_kCut fuel C eta (es_precision g) with
    | None => None
    | Some kCut => Some (out (mkEwald eta (ew_rCut W) kCut), true)
    end
  end.

(** ** EwaldTruncKolafaOptEta.cpp *)
(** Lines 105-108 calculateC. *)
Definition opt_C (qMax : R) (numAtoms : nat) (volume fourPiEps : R) : R :=
  c_pow 2 (3 / 4) * qMax ^ 2 * sqrt (INR numAtoms / volume) / fourPiEps.
(** Lines 77-103 calculateS: the loop. *)
Fixpoint s_loop (fuel : nat) (y s relX relY : R) : option R :=
  match fuel with
  | O => None
  | S fuel =>
    if (ltR acceptError relX || ltR acceptError relY)%bool then
      let step := 2 * s / (4 * s ^ 2 + 1) * (1 - sqrt s / exp (- s ^ 2) * y) in
      if Rle_dec s (- step) then s_loop fuel y (s / 2) relX relY
      else
        let s := s + step in
        s_loop fuel y s (Rabs (step / s)) (Rabs ((exp (- s ^ 2) / sqrt s - y) / y))
    else Some s
  end.
Definition calculateS (fuel : nat) (prec C eta s : R) : option R :=
  let y := prec / C * sqrt (eta / 2) in
  s_loop fuel y (if Rle_dec s 0 then 1 / 2 else s) 1 1.
(** Line 14. *)
Definition TrOverTk : R := 3676 / 1000.
(** Lines 46-66 calculateEta: the loop; the result is (s, eta). *)
Fixpoint eta_loop (fuel : nat) (prec C eta0 s eta relError : R) : option (R * R) :=
  match fuel with
  | O => None
  | S fuel =>
    if ltR acceptError relError then
      match calculateS fuel prec C eta s with
      | None => None
      | Some s =>
        let oldEta := eta in
        let eta := eta0 * c_pow (1 + 1 / (2 * s ^ 2)) (1 / 6) in
        eta_loop fuel prec C eta0 s eta (Rabs (oldEta - eta) / eta)
      end
    else Some (s, eta)
  end.
Definition opt_eta0 (volume : R) : R := c_pow (1 / TrOverTk * volume ^ 2 / (2 * PI) ^ 3) (1 / 6).
Definition calculateEta (fuel : nat) (prec C volume : R) : option (R * R) :=
  let eta0 := opt_eta0 volume in
  eta_loop fuel prec C eta0 1 eta0 1.
(** Lines 16-38 calculateParameters, 67-75. *)
Definition opt_calculate (fuel : nat) (V : R) (N : nat) (volume : R) (numAtoms : nat) (e : ewald_setup) : run ewald_setup :=
  let g := sw_settings e in
  if unchanged V N volume numAtoms then Some (e, true) else
  let C := opt_C (es_maxCharge g) N V (es_fourPiEps g) in
  match calculateEta fuel (es_precision g) C V with
  | None => None
  | Some (s, eta) =>
    let eta := Rmax eta (es_maxQSigma g) in
    Some (mkEwaldSetup (mkEwald eta (sqrt 2 * eta * s) (sqrt 2 * s / eta)) (sw_method e) g (Some (TOptEta V N s eta)), true)
  end.

(** EwaldSetup.cpp:88-94 calculateParameters. *)
Definition calculateParameters (fuel : nat) (V : R) (N : nat) (e : ewald_setup) : run ewald_setup :=
  match sw_impl e with
  | None => Some (e, false)
  | Some (TJackson volume) => Some (jackson_calculate V volume e)
  | Some (TFixR volume numAtoms) => fixr_calculate fuel V N volume numAtoms e
  | Some (TOptEta volume numAtoms _ _) => opt_calculate fuel V N volume numAtoms e
  end.

(** ** Structures *)
(** What matters of a structure: periodic or not, volume, number of atoms. *)
Record cell := mkCell { ce_periodic : bool; ce_volume : R; ce_numAtoms : nat }.
(** Structure.cpp:273-285 calculateMaxCutoffRadiusOverall: the radius up to
    which the neighbor list is made (calculateNeighborList, Structure.cpp:291),
    and the setup left behind.  [None]: not finished, or exception. *)
Definition maxCutoffRadiusOverall (fuel : nat) (rcutScreen maxCutoffRadius : R) (c : cell) (e : ewald_setup) : option (R * ewald_setup) :=
  let m := Rmax rcutScreen maxCutoffRadius in
  if ce_periodic c then
    match calculateParameters fuel (ce_volume c) (ce_numAtoms c) e with
    | Some (e, true) => Some (Rmax m (ew_rCut (sw_params e)), e)
    | _ => None
    end
  else Some (m, e).
(** Mode.cpp:1967-2008 evaluateNNP up to chargeEquilibration, which calls
    calculateElectrostaticEnergy with the parameters in ewaldSetup: radius of
    the neighbor list and the parameters used. *)
Definition evaluation_parameters (fuel : nat) (rcutScreen maxCutoffRadius : R) (c : cell) (e : ewald_setup)
  : option ((R * ewald) * ewald_setup) :=
  match maxCutoffRadiusOverall fuel rcutScreen maxCutoffRadius c e with
  | Some (m, e) => Some ((m, sw_params e), e)
  | None => None
  end.
(** Evaluation of structures one after the other (nnp-predict, nnp-dataset). *)
Fixpoint evaluate_all (fuel : nat) (rcutScreen maxCutoffRadius : R) (cs : list cell) (e : ewald_setup) : option (list (R * ewald)) :=
  match cs with
  | [] => Some []
  | c :: cs =>
    match evaluation_parameters fuel rcutScreen maxCutoffRadius c e with
    | None => None
    | Some (r, e) => match evaluate_all fuel rcutScreen maxCutoffRadius cs e with Some rs => Some (r :: rs) | None => None end
    end
  end.
(** Training.cpp:1247-1300 calculateNeighborLists: the radii of the lists of all
    structures and the setup left behind ... *)
Fixpoint train_neighbor_lists (fuel : nat) (rcutScreen maxCutoffRadius : R) (cs : list cell) (e : ewald_setup)
  : option (list R * ewald_setup) :=
  match cs with
  | [] => Some ([], e)
  | c :: cs =>
    match maxCutoffRadiusOverall fuel rcutScreen maxCutoffRadius c e with
    | None => None
    | Some (m, e) =>
      match train_neighbor_lists fuel rcutScreen maxCutoffRadius cs e with
      | Some (ms, e) => Some (m :: ms, e)
      | None => None
      end
    end
  end.
(** ... and Training.cpp:1427-1441, 2366, 2399, 2422: charge equilibration of
    any of the structures afterwards, without calculateParameters. *)
Definition training_parameters (fuel : nat) (rcutScreen maxCutoffRadius : R) (cs : list cell) (e : ewald_setup) : option (list (R * ewald)) :=
  match train_neighbor_lists fuel rcutScreen maxCutoffRadius cs e with
  | Some (ms, e) => Some (map (fun m => (m, sw_params e)) ms)
  | None => None
  end.

(** ** Mode::setupElectrostatics *)
(** CoreFunction.cpp:87-105 setType(string). *)
Definition core_of (w : str) : outcome core_kind :=
  throwing (mget str_eqb w [(lit "c", CK_COS); (lit "p1", CK_POLY1); (lit "p2", CK_POLY2); (lit "p3", CK_POLY3);
                            (lit "p4", CK_POLY4); (lit "e", CK_EXP)]).
(** Element.cpp:61-62, Mode.h: what setupElectrostatics sets; hardness and
    qsigma of all elements. *)
Record electro := mkElectro { el_hardness : list R; el_qsigma : list R; el_ewald : ewald_setup; el_fourPiEps : R; el_fs : screening_function }.
(** Mode.cpp:40-53, Element.cpp:61-62. *)
Definition electro_init (numElements : nat) : electro :=
  mkElectro (repeat 0 numElements) (repeat 0 numElements) sw_init 1 sc_init.
(** The conversion factors; normalize == false: not used. *)
Record conversion := mkConv { cv_normalize : bool; cv_energy : R; cv_length : R; cv_charge : R }.
(** Mode.cpp:381-389, 423-425: normalized("hardness", ...). *)
Definition normalized_hardness (cv : conversion) (h : R) : outcome R :=
  if cv_normalize cv then throwing (normalized (cv_energy cv) (cv_length cv) (cv_charge cv) (lit "hardness") h) else Done h.
Definition hardness_line (cv : conversion) (em : element_map) (v : str * nat) (hs : list R) : outcome (list R) :=
  let args := words_of (fst v) in
  e <- element_at em args 0; h <- number_at args 1; h <- normalized_hardness cv h; set_at e h hs.
(** Mode.cpp:402-427: from files, given by their texts, one for each element;
    [Undefined] stands for a NaN, which is stored and used. *)
Definition hardness_file (cv : conversion) (text : str) : outcome R :=
  h <- readHardness text;
  match h with None => Undefined | Some h => normalized_hardness cv h end.
(** Mode.cpp:431-445: one line of fixed_gausswidth. *)
Definition gausswidth_line (cv : conversion) (em : element_map) (v : str * nat) (st : list R * R) : outcome (list R * R) :=
  let args := words_of (fst v) in
  e <- element_at em args 0; q <- number_at args 1;
  let q := if cv_normalize cv then q * cv_length cv else q in
  l <- set_at e q (fst st); Done (l, Rmax q (snd st)).
(** Mode.cpp:456-467 truncation method. *)
Definition method_of (v : option str) (e : ewald_setup) : ewald_setup :=
  match v with
  | None => setTruncMethod JACKSON_CATLOW e
  | Some w =>
    let e := if str_eqb w (lit "0") then setTruncMethod JACKSON_CATLOW e else e in
    if str_eqb w (lit "1") then setTruncMethod KOLAFA_PERRAM e else e
  end.
(** Mode.cpp:469-485 precision. *)
Definition setup_ewald (cv : conversion) (method prec : option str) (maxQsigma : R) (e : ewald_setup) : outcome ewald_setup :=
  let e := method_of method e in
  match prec with
  | Some w =>
    e <- readFromArgs (split w ch_space) e;
    let e := setMaxQSigma maxQsigma e in
    Done (if cv_normalize cv then sw_toNormalizedUnits (cv_energy cv) (cv_length cv) e else e)
  | None => match sw_method e with KOLAFA_PERRAM => Thrown | JACKSON_CATLOW => Done e end
  end.
(** Mode.cpp:494-498. *)
Definition setup_fourPiEps (cv : conversion) (v : option str) (eps : R) : R :=
  let eps := match v with Some w => atof w | None => eps end in
  if cv_normalize cv then eps * (cv_charge cv ^ 2 / (cv_length cv * cv_energy cv)) else eps.
(** Mode.cpp:500-516. *)
Definition setup_screening (cv : conversion) (v : option str) (fs : screening_function) : outcome screening_function :=
  match v with
  | Some w =>
    let args := split w ch_space in
    inner <- number_at args 0; outer <- number_at args 1;
    let type := match nth_error args 2 with Some t => t | None => lit "c" end in
    fs <- throwing (sc_setInnerOuter inner outer fs);
    k <- core_of type;
    let fs := sc_setCoreFunction k fs in
    Done (if cv_normalize cv then sc_changeLengthUnits (cv_length cv) fs else fs)
  | None => throwing (sc_setInnerOuter (- 2) (- (1)) fs)
  end.
(** Mode.cpp:368-518; [files] = None: initialHardness == true. *)
Definition setupElectrostatics (cv : conversion) (em : element_map) (files : option (list str)) (s : settings) (m : electro) : outcome electro :=
  hs <- match files with
        | None => ls <- throwing (getValues s (lit "initial_hardness")); foldo (hardness_line cv em) ls (el_hardness m)
        | Some ts => mapo (hardness_file cv) ts
        end;
  ls <- throwing (getValues s (lit "fixed_gausswidth"));
  qs <- foldo (gausswidth_line cv em) ls (el_qsigma m, 0);
  method <- value_of s (lit "ewald_truncation_error_method");
  prec <- value_of s (lit "ewald_prec");
  ew <- setup_ewald cv method prec (snd qs) (el_ewald m);
  eps <- value_of s (lit "four_pi_epsilon");
  screen <- value_of s (lit "screen_electrostatics");
  fs <- setup_screening cv screen (el_fs m);
  Done (mkElectro hs (fst qs) ew (setup_fourPiEps cv eps (el_fourPiEps m)) fs).
