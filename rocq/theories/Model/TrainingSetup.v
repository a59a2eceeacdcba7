(** Model of the set-up of a training from the settings and of the loop over the
    epochs: src/libnnptrain/Training.cpp: setStage, setupTraining,
    setupSelectionMode, setupFileOutput, setupUpdatePlan (the numbers of patterns
    and updates), checkSelectionMode, advance, loop and the names and times of the
    files written in the loop.

    What a single update does to the networks is modelled elsewhere
    (Selection.v, UpdatePlan.v, Updaters.v, WeightDerivatives.v).  Output to the
    log and the timers are left out. *)
From Coq Require Import Reals ZArith Ascii String Bool Arith.
From Flocq Require Import Core.
From Coq Require Import List.
From Verif Require Import Base.AssocMap Model.Strings Model.Printf Model.Settings Model.SymLines Model.NetworkSetup Model.DataFiles
  Model.Updaters Model.Selection Model.UpdatePlan.
Import ListNotations.
Local Open Scope R_scope.

(** settings.keywordExists(k), settings[k] (Settings.cpp:199-219, 251-254). *)
Definition has (s : settings) (k : str) : outcome bool := throwing (keywordExists s k false).
Definition get (s : settings) (k : str) : outcome str := throwing (getValue s k).
Definition get_int (s : settings) (k : str) : outcome Z := w <- get s k; atoi w.
Definition get_real (s : settings) (k : str) : outcome R := w <- get s k; Done (atof w).

(** ** Properties and stages *)
(** The strings "energy", "force" and "charge" used as names. *)
Inductive property := Energy | Force | Charge.
Definition name_of (k : property) : str :=
  match k with Energy => lit "energy" | Force => lit "force" | Charge => lit "charge" end.
Definition property_eqb (a b : property) : bool :=
  match a, b with Energy, Energy | Force, Force | Charge, Charge => true | _, _ => false end.

(** Training.h:405-507 class Property: the members set before and used by the
    loop.  The map selectionModeSchedule is an association list; size_t values
    are integers in [0, 2^64). *)
Record tprop := mkTrain {
  tr_key : property; tr_metric : str;
  tr_schedule : list (Z * selectionMode); tr_mode : selectionMode; tr_threshold : R; tr_trials : Z;
  tr_every : Z; tr_always : Z;
  tr_fraction : R; tr_batch : Z; tr_patterns : Z; tr_updates : Z }.
(** Training.cpp:4085-4137, constructor, and the error metrics it sets. *)
Definition metrics_of (k : property) : list str :=
  match k with
  | Energy => [lit "RMSEpa"; lit "RMSE"; lit "MAEpa"; lit "MAE"]
  | Force | Charge => [lit "RMSE"; lit "MAE"]
  end.
Definition new_property (k : property) : tprop :=
  mkTrain k (hd [] (metrics_of k)) [] SM_RANDOM 0 0 0 0 0 0 0 0.

(** Training.cpp:379-427, the first call of setStage: training properties pk and
    name of the trained networks. *)
Definition setStage (s : settings) (nnp : nnpType) (stage : nat) : outcome (list property * str) :=
  forces <- has s (lit "use_short_forces");
  let short := (Energy :: (if forces : bool then [Force] else []), lit "short") in
  match nnp with
  | HDNNP_2G => Done short
  | HDNNP_4G | HDNNP_Q =>
      if Nat.eqb stage 1 then Done ([Charge], lit "elec")
      else if Nat.eqb stage 2 then Done short
      else Thrown
  end.

(** ** Selection modes *)
(** Training.cpp:3723-3745: values of the enumeration known to the code. *)
Definition selection_of (z : Z) : outcome selectionMode :=
  if Z.eqb z 0 then Done SM_RANDOM else if Z.eqb z 1 then Done SM_SORT else if Z.eqb z 2 then Done SM_THRESHOLD else Thrown.
(** Training.cpp:3702-3747.  (size_t)atoi(...) of a negative number wraps around. *)
Definition int_at (l : list str) (i : nat) : outcome Z := w <- at_ l i; atoi w.
Definition readSchedule (value : str) : outcome (list (Z * selectionMode)) :=
  let args := split value ch_space in
  if negb (Nat.odd (List.length args)) then Thrown else
  first <- int_at args 0;
  m <- foldo (fun i m => e <- int_at args i; v <- int_at args (i + 1); Done (mset Z.eqb (to_size e) v m))
         (map (fun j => 2 * j + 1)%nat (seq 0 (Nat.div2 (List.length args)))) [(0%Z, first)];
  mapo (fun e => v <- selection_of (snd e); Done (fst e, v)) m.

Definition set_schedule (m : list (Z * selectionMode)) (p : tprop) : tprop :=
  mkTrain (tr_key p) (tr_metric p) m (match mget Z.eqb 0%Z m with Some v => v | None => SM_RANDOM end)
    (tr_threshold p) (tr_trials p) (tr_every p) (tr_always p) (tr_fraction p) (tr_batch p) (tr_patterns p) (tr_updates p).
Definition set_threshold (t : R) (p : tprop) : tprop :=
  mkTrain (tr_key p) (tr_metric p) (tr_schedule p) (tr_mode p)
    t (tr_trials p) (tr_every p) (tr_always p) (tr_fraction p) (tr_batch p) (tr_patterns p) (tr_updates p).
Definition set_trials (t : Z) (p : tprop) : tprop :=
  mkTrain (tr_key p) (tr_metric p) (tr_schedule p) (tr_mode p)
    (tr_threshold p) t (tr_every p) (tr_always p) (tr_fraction p) (tr_batch p) (tr_patterns p) (tr_updates p).
(** All properties ([None], "all") or one of them. *)
Definition in_scope (scope : option property) (p : tprop) : bool :=
  match scope with None => true | Some k => property_eqb k (tr_key p) end.
Definition apply_to (scope : option property) (f : tprop -> tprop) (ps : list tprop) : list tprop :=
  map (fun p => if in_scope scope p then f p else p) ps.
Definition suffix_of (scope : option property) : str :=
  match scope with None => [] | Some k => lit "_" ++ name_of k end.
(** Training.cpp:3669-3775; it is only called for "all" and the properties pk.
    The test in lines 3681-3697 whether there is anything to do only saves a
    line of output. *)
Definition setupSelectionMode (s : settings) (scope : option property) (ps : list tprop) : outcome (list tprop) :=
  let kw (base : string) := lit base ++ suffix_of scope in
  b <- has s (kw "selection_mode"%string);
  ps <- (if b : bool then v <- get s (kw "selection_mode"%string); m <- readSchedule v; Done (apply_to scope (set_schedule m) ps) else Done ps);
  b <- has s (kw "rmse_threshold"%string);
  ps <- (if b : bool then t <- get_real s (kw "rmse_threshold"%string); Done (apply_to scope (set_threshold t) ps) else Done ps);
  b <- has s (kw "rmse_threshold_trials"%string);
  if b : bool then t <- get_int s (kw "rmse_threshold_trials"%string); Done (apply_to scope (set_trials (to_size t)) ps) else Done ps.
(** Training.cpp:930-931. *)
Definition setupSelectionModes (s : settings) (ps : list tprop) : outcome (list tprop) :=
  ps <- setupSelectionMode s None ps;
  foldo (fun k ps => setupSelectionMode s (Some k) ps) (map tr_key ps) ps.

(** Training.cpp:2114-2145 for one property. *)
Definition set_mode (v : selectionMode) (p : tprop) : tprop :=
  mkTrain (tr_key p) (tr_metric p) (tr_schedule p) v (tr_threshold p) (tr_trials p)
    (tr_every p) (tr_always p) (tr_fraction p) (tr_batch p) (tr_patterns p) (tr_updates p).
Definition checkSelectionMode (epoch : nat) (p : tprop) : tprop :=
  match mget Z.eqb (Z.of_nat epoch) (tr_schedule p) with Some v => set_mode v p | None => p end.

(** ** Output files *)
(** Training.cpp:3793-3834: how often files are written; [old] are the values
    before. *)
Definition fileOutput (s : settings) (keyword : str) (old : Z * Z) : outcome (Z * Z) :=
  b <- has s keyword;
  if b : bool then
    value <- get s keyword;
    let v := words_of value in
    if Nat.eqb (List.length v) 1 then e <- int_at v 0; Done (to_size e, snd old)
    else if Nat.eqb (List.length v) 2 then e <- int_at v 0; a <- int_at v 1; Done (to_size e, to_size a)
    else Done (1%Z, snd old)
  else Done old.
Definition compare_keyword (k : property) : str :=
  match k with Energy => lit "write_trainpoints" | Force => lit "write_trainforces" | Charge => lit "write_traincharges" end.
(** Training.cpp:3777-3837 for a property. *)
Definition setupFileOutput (s : settings) (p : tprop) : outcome tprop :=
  o <- fileOutput s (compare_keyword (tr_key p)) (tr_every p, tr_always p);
  Done (mkTrain (tr_key p) (tr_metric p) (tr_schedule p) (tr_mode p) (tr_threshold p) (tr_trials p)
          (fst o) (snd o) (tr_fraction p) (tr_batch p) (tr_patterns p) (tr_updates p)).

(** ** Update plan *)
(** static_cast<size_t>(x): undefined if the integral part is not a size_t. *)
Definition to_size_t (x : R) : outcome Z :=
  let z := Ztrunc x in if (Z.leb 0 z && Z.ltb z (2 ^ 64))%bool then Done z else Undefined.
(** numTrainPatterns (sum over all processes, selectSets) and number of update
    candidates of this process. *)
Record counts := mkCounts { n_train : nat; n_cands : nat }.
Definition member (k : property) (ps : list tprop) : bool := existsb (fun p => property_eqb k (tr_key p)) ps.
(** Training.cpp:3849-3872.  Without force patterns the quotient is infinite or
    NaN and its conversion in 3878 or 3885 undefined. *)
Definition epochFraction (s : settings) (cs : property -> counts) (ps : list tprop) (k : property) : outcome R :=
  ratio <- (if property_eqb k Force && member Energy ps then has s (lit "force_energy_ratio") else Done false);
  if ratio : bool then
    r <- get_real s (lit "force_energy_ratio");
    if Nat.eqb (n_train (cs Force)) 0 then Undefined
    else Done (INR (n_train (cs Energy)) * r / INR (n_train (cs Force)))
  else get_real s (name_of k ++ lit "_fraction").
(** Training.cpp:3839-3888 (setupUpdatePlan up to patternsPerUpdate and
    numUpdates; the rest is in UpdatePlan.v). *)
Definition setupUpdatePlan (s : settings) (numProcs : nat) (cs : property -> counts) (ps : list tprop) (p : tprop) : outcome tprop :=
  f <- epochFraction s cs ps (tr_key p);
  b <- get_int s (lit "task_batch_size_" ++ name_of (tr_key p));
  let b := to_size b in
  n <- (if Z.eqb b 0 then patterns <- to_size_t (INR (n_cands (cs (tr_key p))) * f); Done (patterns, 1%Z)
        else u <- to_size_t (INR (n_train (cs (tr_key p))) * f / IZR b / INR numProcs); Done (b, u));
  Done (mkTrain (tr_key p) (tr_metric p) (tr_schedule p) (tr_mode p) (tr_threshold p) (tr_trials p)
          (tr_every p) (tr_always p) f b (fst n) (snd n)).

(** ** Error metric *)
Definition set_metric (m : str) (p : tprop) : tprop :=
  mkTrain (tr_key p) m (tr_schedule p) (tr_mode p) (tr_threshold p) (tr_trials p)
    (tr_every p) (tr_always p) (tr_fraction p) (tr_batch p) (tr_patterns p) (tr_updates p).
(** Training.cpp:777-815: displayMetric of the three properties. *)
Definition metric_of (s : settings) : outcome (property -> str) :=
  let metrics (e f q : string) (k : property) := lit match k with Energy => e | Force => f | Charge => q end in
  b <- has s (lit "main_error_metric");
  if b : bool then
    v <- get s (lit "main_error_metric");
    if str_eqb v (lit "RMSEpa") then Done (metrics "RMSEpa" "RMSE" "RMSE")%string
    else if str_eqb v (lit "RMSE") then Done (metrics "RMSE" "RMSE" "RMSE")%string
    else if str_eqb v (lit "MAEpa") then Done (metrics "MAEpa" "MAE" "MAE")%string
    else if str_eqb v (lit "MAE") then Done (metrics "MAE" "MAE" "MAE")%string
    else Thrown
  else Done (metrics "RMSEpa" "RMSE" "RMSE")%string.

(** ** Updaters *)
Inductive updaterType := UT_GD | UT_KF.
Inductive updater_obj := UK (k : kalman) | UG (g : descent).
(** Training.cpp:817-840; the Levenberg-Marquardt algorithm throws. *)
Definition updater_type_of (z : Z) : outcome updaterType :=
  if Z.eqb z 0 then Done UT_GD else if Z.eqb z 1 then Done UT_KF else Thrown.
(** Training.cpp:842-866. *)
Definition parallel_of (z : Z) : outcome parallelMode :=
  if Z.eqb z 0 then Done PM_TRAIN_RK0 else if Z.eqb z 1 then Done PM_TRAIN_ALL else Thrown.
(** Training.cpp:868-896. *)
Definition jacobian_of (z : Z) : outcome jacobianMode :=
  if Z.eqb z 0 then Done JM_SUM else if Z.eqb z 1 then Done JM_TASK else if Z.eqb z 2 then Done JM_FULL else Thrown.
(** Training.cpp:910-914 and initializeWeightsMemory 334-377. *)
Definition strategy_of (z : Z) : outcome updateStrategy :=
  if Z.eqb z 0 then Done US_COMBINED else if Z.eqb z 1 then Done US_ELEMENT else Thrown.
(** GradientDescent.cpp:38-42, KalmanFilter.cpp:48-52. *)
Definition descent_of (z : Z) : outcome dtype := if Z.eqb z 0 then Done DT_FIXED else if Z.eqb z 1 then Done DT_ADAM else Thrown.
Definition kalman_of (z : Z) : outcome ktype := if Z.eqb z 0 then Done KT_STANDARD else if Z.eqb z 1 then Done KT_FADINGMEMORY else Thrown.

(** Training.cpp:1082-1107 for one updater; [type] as read from the settings. *)
Definition descentParameters (s : settings) (type : dtype) (g : descent) : outcome descent :=
  match type with
  | DT_FIXED => eta <- get_real s (lit "gradient_eta"); Done (setParametersFixed eta g)
  | DT_ADAM =>
      eta <- get_real s (lit "gradient_adam_eta"); beta1 <- get_real s (lit "gradient_adam_beta1");
      beta2 <- get_real s (lit "gradient_adam_beta2"); eps <- get_real s (lit "gradient_adam_epsilon");
      Done (setParametersAdam eta beta1 beta2 eps g)
  end.
(** Training.cpp:1108-1172.  Division by 0.0, when no updates are planned, gives
    an infinite qtau in the code and 0 here; no theorem uses this case. *)
Definition kalmanParameters (s : settings) (totalUpdates : R) (type : ktype) (k : kalman) : outcome kalman :=
  epsilon <- get_real s (lit "kalman_epsilon"); q0 <- get_real s (lit "kalman_q0");
  qtau <- get_real s (lit "kalman_qtau"); qmin <- get_real s (lit "kalman_qmin");
  let qtau := qtau / totalUpdates in
  match type with
  | KT_STANDARD =>
      eta0 <- get_real s (lit "kalman_eta");
      hastau <- has s (lit "kalman_etatau"); hasmax <- has s (lit "kalman_etamax");
      em <- (if (hastau && hasmax)%bool
             then tau <- get_real s (lit "kalman_etatau"); m <- get_real s (lit "kalman_etamax"); Done (tau / totalUpdates, m)
             else Done (1, eta0));
      Done (setParametersStandard epsilon q0 qtau qmin eta0 (fst em) (snd em) k)
  | KT_FADINGMEMORY =>
      lambda <- get_real s (lit "kalman_lambda_short"); nu <- get_real s (lit "kalman_nue_short");
      Done (setParametersFadingMemory epsilon q0 qtau qmin lambda nu k)
  end.
(** Training.cpp:1041-1172: the updaters of a process that has some ([holds]);
    [sizes] and [ws] are the numbers of weights of the updaters and their values.
    A process without updaters only reads the type. *)
Definition makeUpdaters (s : settings) (holds : bool) (type : updaterType) (totalUpdates : R) (sizes : list nat) (ws : nat -> vector)
  : outcome (list updater_obj) :=
  match type with
  | UT_GD =>
      t <- get_int s (lit "gradient_type");
      if holds then
        mapo (fun i => d <- descent_of t; n <- throwing (nth_error sizes i); g <- throwing (new_descent n d (ws i));
                       g <- descentParameters s d g; Done (UG g)) (seq 0 (List.length sizes))
      else Done []
  | UT_KF =>
      t <- get_int s (lit "kalman_type");
      if holds then
        mapo (fun i => d <- kalman_of t; n <- throwing (nth_error sizes i); k <- throwing (new_kalman n d (ws i));
                       k <- kalmanParameters s totalUpdates d k; Done (UK k)) (seq 0 (List.length sizes))
      else Done []
  end.

(** ** setupTraining *)
(** The state of a Training object as far as it matters here. *)
Record training := mkTraining {
  t_nnp : nnpType; t_stage : nat; t_nnId : str; t_props : list tprop;
  t_useForces : bool; t_forceWeight : R;
  t_type : updaterType; t_parallel : parallelMode; t_jacobian : jacobianMode; t_strategy : updateStrategy;
  t_numEpochs : Z; t_weights : Z * Z; t_neurons : Z * Z; t_trainlog : bool; t_freeMemory : bool;
  t_updaters : list updater_obj; t_epoch : nat }.
(** What setupTraining finds besides the settings: this process, the networks'
    numbers of connections (one per element) with their values, and the result of
    selectSets. *)
Record surroundings := mkSur {
  su_rank : nat; su_numProcs : nat; su_conn : list nat; su_values : updateStrategy -> nat -> vector; su_counts : property -> counts }.

Definition is_4G (nnp : nnpType) : bool := match nnp with HDNNP_4G => true | _ => false end.
Definition is_2G (nnp : nnpType) : bool := match nnp with HDNNP_2G => true | _ => false end.
(** Training.cpp:752-770; members keep their initial values otherwise (51-61). *)
Definition forceWeight_of (s : settings) (nnp : nnpType) (stage : nat) : outcome (bool * R) :=
  if (is_2G nnp || Nat.eqb stage 2)%bool then
    u <- has s (lit "use_short_forces");
    if u : bool then
      b <- has s (lit "force_weight");
      if b : bool then w <- get_real s (lit "force_weight"); Done (true, w) else Done (true, 1)
    else Done (false, 0)
  else Done (false, 0).
Definition total_updates (ps : list tprop) : R := fold_left (fun t p => t + IZR (tr_updates p)) ps 0.
(** Training.cpp:737-1207 after setStage (379-427), on a new object: the value of
    updateStrategy in 904-908 is the one of the constructor (42), US_COMBINED.
    The header of the training log is not modelled. *)
Definition setupTraining (s : settings) (nnp : nnpType) (stage : nat) (e : surroundings) : outcome training :=
  st <- setStage s nnp stage;
  let ps := map new_property (fst st) in
  _ <- (if (negb (is_2G nnp) && negb (Nat.eqb stage 1 || Nat.eqb stage 2))%bool then Thrown else Done tt);
  fw <- forceWeight_of s nnp stage;
  metric <- metric_of s;
  let ps := map (fun p => set_metric (metric (tr_key p)) p) ps in
  type <- (z <- get_int s (lit "updater_type"); updater_type_of z);
  par <- (z <- get_int s (lit "parallel_mode"); parallel_of z);
  jac <- (z <- get_int s (lit "jacobian_mode"); jacobian_of z);
  _ <- (match type, jac with UT_GD, JM_SUM => Done tt | UT_GD, _ => Thrown | UT_KF, _ => Done tt end);
  _ <- (let before := US_COMBINED in
        match before with US_ELEMENT => if is_2G nnp then Done tt else Thrown | US_COMBINED => Done tt end);
  strat <- (z <- get_int s (lit "update_strategy"); strategy_of z);
  let y := mkLayout par jac strat (is_4G nnp && Nat.eqb stage 1)%bool (su_conn e) [] in
  let sizes := numWeightsPerUpdater y in
  ps <- setupSelectionModes s ps;
  repeated <- has s (lit "repeated_energy_update");
  _ <- (if (fst fw && repeated)%bool then Thrown else Done tt);
  memorize <- has s (lit "memorize_symfunc_results");
  epochs <- get_int s (lit "epochs");
  ps <- mapo (setupFileOutput s) ps;
  weights <- fileOutput s (lit "write_weights_epoch") (0%Z, 0%Z);
  neurons <- fileOutput s (lit "write_neuronstats") (0%Z, 0%Z);
  trainlog <- has s (lit "write_trainlog");
  ps <- mapo (setupUpdatePlan s (su_numProcs e) (su_counts e) ps) ps;
  us <- makeUpdaters s (Nat.eqb (su_rank e) 0 || match par with PM_TRAIN_ALL => true | PM_TRAIN_RK0 => false end)%bool
          type (total_updates ps) sizes (su_values e strat);
  Done (mkTraining nnp stage (snd st) ps (fst fw) (snd fw) type par jac strat (to_size epochs) weights neurons trainlog (negb memorize) us 0).

(** ** Names of files *)
(** Conversions %03zu, %06zu and %06d of a number >= 0 (C library). *)
Definition fmt_0 (w n : nat) : str := pad (print_d n) w "0"%char false.
(** Suffix of 4G and Q files, e.g. Training.cpp:1738-1742. *)
Definition stage_suffix (t : training) : str := if is_2G (t_nnp t) then [] else lit ".stage-" ++ print_d (t_stage t).
(** Training.cpp:1526-1533. *)
Definition compare_names (k : property) (epoch : nat) : list str :=
  let middle := match k with Energy => lit "points" | Force => lit "forces" | Charge => lit "charges" end in
  [lit "train" ++ middle ++ lit "." ++ fmt_0 6 epoch ++ lit ".out"; lit "test" ++ middle ++ lit "." ++ fmt_0 6 epoch ++ lit ".out"].
(** Training.cpp:1684-1697 and 1668-1669, 1726-1728 and 1708-1709. *)
Definition weights_name (t : training) (Z epoch : nat) : str :=
  (if (is_2G (t_nnp t) || Nat.eqb (t_stage t) 2)%bool then lit "weights" else if Nat.eqb (t_stage t) 1 then lit "weightse" else [])
  ++ lit "." ++ fmt_0 3 Z ++ lit "." ++ fmt_0 6 epoch ++ lit ".out".
Definition hardness_name (Z epoch : nat) : str := lit "hardness." ++ fmt_0 3 Z ++ lit "." ++ fmt_0 6 epoch ++ lit ".out".
(** Training.cpp:1736-1742, 1949-1955, 1972-1994 (default names in Training.h)
    and 3987-3995. *)
Definition curve_name (t : training) : str := lit "learning-curve.out" ++ stage_suffix t.
Definition neurons_name (t : training) (epoch : nat) : str :=
  lit "neuron-stats." ++ t_nnId t ++ lit "." ++ fmt_0 6 epoch ++ lit ".out" ++ stage_suffix t.
Definition status_name (t : training) (Z : nat) : str :=
  lit "updater." ++ fmt_0 3 (match t_strategy t with US_COMBINED => 0%nat | US_ELEMENT => Z end) ++ lit ".out" ++ stage_suffix t.
Definition timing_name (t : training) : str := lit "timing.out" ++ stage_suffix t.

(** ** The loop *)
(** Training.cpp:1525-1526, 1681-1682, 1722-1724, 1945-1947: is this an epoch for
    which files are written? *)
Definition due (o : Z * Z) (epoch : nat) : bool :=
  let e := Z.of_nat epoch in
  (Z.ltb 0 (fst o) && (Z.eqb (e mod fst o) 0 || Z.leb e (snd o)))%bool.
(** A file written (or continued: [w_append]) with data of an epoch. *)
Record write := mkWrite { w_name : str; w_append : bool; w_epoch : nat }.
(** The files on disk: for each name the epochs whose data it holds, in order. *)
Definition files := list (str * list nat).
Definition write_file (w : write) (f : files) : files :=
  if w_append w then mset str_eqb (w_name w) (match mget str_eqb (w_name w) f with Some l => l | None => [] end ++ [w_epoch w]) f
  else mset str_eqb (w_name w) [w_epoch w] f.
Definition write_files (ws : list write) (f : files) : files := fold_left (fun f w => write_file w f) ws f.

Section Loop.
(** Atomic numbers of the elements. *)
Variable zs : list nat.
(** Training.cpp:1515-1543: comparison files. *)
Definition compareFiles (ps : list tprop) (epoch : nat) : list write :=
  flat_map (fun p => if due (tr_every p, tr_always p) epoch
                     then map (fun n => mkWrite n false epoch) (compare_names (tr_key p) epoch) else []) ps.
(** Training.cpp:1679-1700. *)
Definition writeWeightsEpoch (t : training) (epoch : nat) : list write :=
  if due (t_weights t) epoch then map (fun Z => mkWrite (weights_name t Z epoch) false epoch) zs else [].
(** Training.cpp:1720-1732. *)
Definition writeHardnessEpoch (t : training) (epoch : nat) : list write :=
  if (due (t_weights t) epoch && is_4G (t_nnp t) && Nat.eqb (t_stage t) 1)%bool
  then map (fun Z => mkWrite (hardness_name Z epoch) false epoch) zs else [].
(** Training.cpp:1734-1842: name and rows only. *)
Definition writeLearningCurve (t : training) (append : bool) (epoch : nat) : list write :=
  [mkWrite (curve_name t) append epoch].
(** Training.cpp:1972-2006. *)
Definition writeUpdaterStatus (t : training) (append : bool) (epoch : nat) : list write :=
  map (fun Z => mkWrite (status_name t Z) append epoch)
      (match t_strategy t with US_COMBINED => [0%nat] | US_ELEMENT => zs end).
(** Training.cpp:1943-1960. *)
Definition writeNeuronStatisticsEpoch (t : training) (epoch : nat) : list write :=
  if due (t_neurons t) epoch then [mkWrite (neurons_name t epoch) false epoch] else [].
(** What is written after the updates of an epoch (2160-2178 and 2220-2242);
    [append] = false in epoch 0.  The comparison files are combined from those
    of all processes; everything is written by process 0. *)
Definition epochFiles (t : training) (append : bool) (epoch : nat) : list write :=
  compareFiles (t_props t) epoch ++ writeWeightsEpoch t epoch ++ writeHardnessEpoch t epoch ++
  writeLearningCurve t append epoch ++ writeUpdaterStatus t append epoch ++ writeNeuronStatisticsEpoch t epoch.

(** One update: the property with its state at that time (its selectionMode,
    threshold and trials are read by update). *)
Record step := mkStep { sp_epoch : nat; sp_prop : tprop }.
(** The order of the candidates at the beginning of an epoch (2196-2200). *)
Inductive order := Sorted | Shuffled.
Record ordering := mkOrdering { or_epoch : nat; or_key : property; or_how : order }.
(** Random shuffle of the schedule of each epoch, and what the updaters get to
    see in the n-th update (errors and Jacobian). *)
Variable shuffle : nat -> list nat -> list nat.
Variable inv : nat -> matrix -> matrix.
Variable kobs : nat -> nat -> observation.
Variable gobs : nat -> nat -> R * vector.
(** Training.cpp:2982-2997, all updaters of this process; [n]: number of the
    update. *)
Definition updateAll (n : nat) (us : list updater_obj) : list updater_obj :=
  map (fun iu => match snd iu with
                 | UK k => UK (kalman_update inv (kobs n (fst iu)) k)
                 | UG g => UG (descent_update (gobs n (fst iu)) g)
                 end) (List.combine (seq 0 (List.length us)) us).
Record loop_state := mkLoop { lo_training : training; lo_steps : list step; lo_orders : list ordering; lo_writes : list write }.
Definition with_props (ps : list tprop) (t : training) : training :=
  mkTraining (t_nnp t) (t_stage t) (t_nnId t) ps (t_useForces t) (t_forceWeight t) (t_type t) (t_parallel t) (t_jacobian t)
    (t_strategy t) (t_numEpochs t) (t_weights t) (t_neurons t) (t_trainlog t) (t_freeMemory t) (t_updaters t) (t_epoch t).
Definition with_updaters (us : list updater_obj) (t : training) : training :=
  mkTraining (t_nnp t) (t_stage t) (t_nnId t) (t_props t) (t_useForces t) (t_forceWeight t) (t_type t) (t_parallel t) (t_jacobian t)
    (t_strategy t) (t_numEpochs t) (t_weights t) (t_neurons t) (t_trainlog t) (t_freeMemory t) us (t_epoch t).
Definition with_epoch (n : nat) (t : training) : training :=
  mkTraining (t_nnp t) (t_stage t) (t_nnId t) (t_props t) (t_useForces t) (t_forceWeight t) (t_type t) (t_parallel t) (t_jacobian t)
    (t_strategy t) (t_numEpochs t) (t_weights t) (t_neurons t) (t_trainlog t) (t_freeMemory t) (t_updaters t) n.
(** Training.cpp:3461-3465. *)
Definition advance (t : training) : bool := Z.ltb (Z.of_nat (t_epoch t)) (t_numEpochs t).
(** Training.cpp:2206-2211: one entry of the schedule; pk.at(i) throws. *)
Definition updateStep (i : nat) (x : loop_state) : outcome loop_state :=
  let t := lo_training x in
  p <- throwing (nth_error (t_props t) i);
  Done (mkLoop (with_updaters (updateAll (List.length (lo_steps x)) (t_updaters t)) t)
          (lo_steps x ++ [mkStep (t_epoch t) p]) (lo_orders x) (lo_writes x)).
(** Training.cpp:2184-2245: one pass. *)
Definition pass (x : loop_state) : outcome loop_state :=
  let t := with_epoch (S (t_epoch (lo_training x))) (lo_training x) in
  let epoch := t_epoch t in
  let t := with_props (map (checkSelectionMode epoch) (t_props t)) t in
  let orders := map (fun p => mkOrdering epoch (tr_key p) (match tr_mode p with SM_SORT => Sorted | _ => Shuffled end)) (t_props t) in
  let schedule := setEpochSchedule (shuffle epoch) (map (fun p => Z.to_nat (tr_updates p)) (t_props t)) in
  x <- foldo updateStep schedule (mkLoop t (lo_steps x) (lo_orders x ++ orders) (lo_writes x));
  let t := lo_training x in
  Done (mkLoop t (lo_steps x) (lo_orders x)
          (lo_writes x ++ epochFiles t true epoch ++ [mkWrite (timing_name t) (negb (Nat.eqb epoch 1)) epoch])).
(** Training.cpp:2182-2245; [None]: more than [fuel] passes. *)
Fixpoint passes (fuel : nat) (x : loop_state) : option (outcome loop_state) :=
  if advance (lo_training x) then
    match fuel with
    | O => None
    | S fuel => match pass x with
                | Done x => passes fuel x
                | Thrown => Some Thrown
                | Undefined => Some Undefined
                end
    end
  else Some (Done x).
(** Training.cpp:2147-2254. *)
Definition loop (fuel : nat) (t : training) : option (outcome loop_state) :=
  passes fuel (mkLoop t [] [] (epochFiles t false (t_epoch t))).
End Loop.
