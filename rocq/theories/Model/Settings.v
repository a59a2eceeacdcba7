(** Model of src/libnnp/Settings.{h,cpp} and Key.h, and of the settings-file
    writers of Mode.cpp. *)
From Coq Require Import String List Ascii Arith Bool.
From Verif Require Import Base.AssocMap Model.Strings.
Import ListNotations.

(** Settings.cpp:36-133, the main keywords (descriptions, all empty, dropped). *)
Definition main_keywords : list str := map lit
 ["number_of_elements"; "elements"; "atom_energy"; "cutoff_type"; "symfunction_short"; 
 "scale_symmetry_functions"; "scale_min_short"; "scale_max_short"; 
 "center_symmetry_functions"; "scale_symmetry_functions_sigma"; "global_hidden_layers_short"; 
 "global_hidden_layers_electrostatic"; "global_nodes_short"; "global_nodes_electrostatic"; 
 "global_activation_short"; "global_activation_electrostatic"; "element_hidden_layers_short"; 
 "element_hidden_layers_electrostatic"; "element_nodes_short"; "element_nodes_electrostatic"; 
 "element_activation_short"; "element_activation_electrostatic"; "normalize_nodes"; 
 "mean_energy"; "conv_length"; "conv_energy"; "conv_charge"; "nnp_type"; "fixed_gausswidth"; 
 "ewald_truncation_error_method"; "ewald_prec"; "screen_electrostatics"; "four_pi_epsilon"; 
 "random_seed"; "test_fraction"; "epochs"; "normalize_data_set"; "use_short_forces"; 
 "rmse_threshold"; "rmse_threshold_energy"; "rmse_threshold_force"; "rmse_threshold_charge"; 
 "rmse_threshold_trials"; "rmse_threshold_trials_energy"; "rmse_threshold_trials_force"; 
 "rmse_threshold_trials_charge"; "energy_fraction"; "force_fraction"; "force_energy_ratio"; 
 "charge_fraction"; "use_old_weights_short"; "use_old_weights_charge"; "weights_min"; 
 "weights_max"; "initial_hardness"; "nguyen_widrow_weights_short"; 
 "nguyen_widrow_weights_charge"; "precondition_weights"; "main_error_metric"; 
 "write_trainpoints"; "write_trainforces"; "write_traincharges"; "write_weights_epoch"; 
 "write_neuronstats"; "write_trainlog"; "repeated_energy_update"; "updater_type"; 
 "parallel_mode"; "jacobian_mode"; "update_strategy"; "selection_mode"; 
 "selection_mode_energy"; "selection_mode_force"; "selection_mode_charge"; 
 "task_batch_size_energy"; "task_batch_size_force"; "task_batch_size_charge"; "gradient_type"; 
 "gradient_eta"; "gradient_adam_eta"; "gradient_adam_beta1"; "gradient_adam_beta2"; 
 "gradient_adam_epsilon"; "kalman_type"; "kalman_epsilon"; "kalman_eta"; "kalman_etatau"; 
 "kalman_etamax"; "kalman_q0"; "kalman_qtau"; "kalman_qmin"; "kalman_lambda_short"; 
 "kalman_nue_short"; "memorize_symfunc_results"; "force_weight"]%string.

(** Settings.cpp:135-141 alternative keyword names. *)
Definition alternative_names : list (str * list str) := map (fun p => (lit (fst p), map lit (snd p)))
 [("nnp_type", ["nnp_generation"; "nnp_type_gen"; "nnp_gen"]);
  ("rmse_threshold_energy", ["short_energy_error_threshold"]);
  ("rmse_threshold_force", ["short_force_error_threshold"]);
  ("energy_fraction", ["short_energy_fraction"]);
  ("force_fraction", ["short_force_fraction"]);
  ("symfunction_short", ["symfunction"])]%string.

(** Settings.cpp:143-173: every main keyword and each of its alternatives maps
    to the same shared Key object; that object is represented by its list of
    spellings (main name first, Key.h:26).  The map order is irrelevant to the
    functions below except for the order of log lines, which are not modelled. *)
Definition key_of (k : str) : list str :=
  k :: match mget str_eqb k alternative_names with Some a => a | None => [] end.
Definition knownKeywords : list (str * list str) :=
  flat_map (fun k => map (fun n => (n, key_of k)) (key_of k)) main_keywords.

(** Key.h:25 hasUniqueKeyword. *)
Definition hasUniqueKeyword (k : list str) : bool := Nat.eqb (List.length k) 1.

(** Settings.h:41: multimap keyword -> (value, line number).  Represented by
    the list of entries in insertion order.  Iteration over one key
    (equal_range) yields insertion order (C++11); [find] is only guaranteed to
    return some entry with that key, libstdc++ returns the first one, which is
    what is modelled. *)
Definition contents := list (str * (str * nat)).
Definition c_find (k : str) (c : contents) : option (str * nat) := mget str_eqb k c.
Definition c_has (k : str) (c : contents) : bool :=
  match c_find k c with Some _ => true | None => false end.
Definition c_range (k : str) (c : contents) : contents := filter (fun e => str_eqb k (fst e)) c.
Definition c_count (k : str) (c : contents) : nat := List.length (c_range k c).

(** Settings.cpp:276-299 readFile, applied to the whole text of the file:
    std::getline in a loop; same behaviour as split with delimiter '\n'. *)
Definition readFile (text : str) : list str := split text ch_lf.

(** line.erase(line.find(d)) if present (Settings.cpp:338-345). *)
Fixpoint cut_at (d : ascii) (s : str) : str :=
  match s with
  | [] => []
  | c :: s' => if ch_eqb c d then [] else c :: cut_at d s'
  end.

Definition ch_hash : ascii := "#"%char.
Definition ch_bang : ascii := "!"%char.

(** Settings.cpp:325-377: one iteration of the parsing loop; [None] = the line
    is skipped. *)
Definition parse_line (line : str) (i : nat) : option (str * (str * nat)) :=
  match line with
  | [] => None
  | _ =>
    if str_eqb line [ch_cr] then None else
    let line := cut_at ch_hash line in
    let line := cut_at ch_bang line in
    match find_first_not_of [ch_space] line 0 with
    | None => None
    | Some _ =>
        let line := reduce line in
        match find_first_of [ch_space] line 0 with
        | None => Some (line, ([], i))
        | Some p => Some (substr line 0 p, (skipn (p + 1) line, i))
        end
    end
  end.

Fixpoint parse_loop (ls : list str) (i : nat) : contents :=
  match ls with
  | [] => []
  | l :: ls' => match parse_line l i with
                | Some e => e :: parse_loop ls' (S i)
                | None => parse_loop ls' (S i)
                end
  end.

(** Settings.cpp:414-420 exceptions from the duplicate check. *)
Definition repeat_exceptions : list str := map lit
 ["symfunction"; "symfunction_short"; "atom_energy"; "element_nodes_short"; "fixed_gausswidth";
  "initial_hardness"]%string.
Definition mem (s : str) (l : list str) : bool := existsb (str_eqb s) l.

(** Settings.cpp:391-459 sanityCheck: (problems, critical). *)
Definition sanityCheck (c : contents) : nat * nat :=
  let unknown := List.length (filter (fun e => match mget str_eqb (fst e) knownKeywords with
                                               | None => true | Some _ => false end) c) in
  let multiple := List.length (filter (fun e => Nat.ltb 1 (c_count (fst e) c)
                                         && negb (mem (fst e) repeat_exceptions)) knownKeywords) in
  let versions := List.length (filter (fun e => negb (hasUniqueKeyword (snd e))
                                         && Nat.ltb 1 (List.length (filter (fun k => c_has k c) (snd e))))
                                      knownKeywords) in
  (unknown + multiple + versions, multiple + versions).

(** Settings object: lines, contents (Settings.h:143-151; log and fileName not
    modelled). *)
Record settings := mkSettings { s_lines : list str; s_contents : contents }.
Definition settings_init : settings := mkSettings [] [].

(** Settings.cpp:187-193 loadFile: appends to [lines] and parses ALL lines,
    inserting into the existing multimap; returns the number of critical
    problems. *)
Definition loadFile (s : settings) (text : str) : settings * nat :=
  let lines := s_lines s ++ readFile text in
  let c := s_contents s ++ parse_loop lines 0 in
  (mkSettings lines c, snd (sanityCheck c)).

(** Settings.cpp:199-219 keywordExists; [None] = runtime_error. *)
Definition keywordExists (s : settings) (keyword : str) (exact : bool) : option bool :=
  match mget str_eqb keyword knownKeywords with
  | None => None
  | Some key => if exact || hasUniqueKeyword key then Some (c_has keyword (s_contents s))
                else Some (existsb (fun a => c_has a (s_contents s)) key)
  end.

(** Settings.cpp:221-249 keywordCheck; [None] = runtime_error. *)
Definition keywordCheck (s : settings) (keyword : str) : option str :=
  match keywordExists s keyword false, mget str_eqb keyword knownKeywords with
  | Some true, Some key =>
      match keywordExists s keyword true with
      | Some true => Some keyword
      | Some false => match find (fun a => c_has a (s_contents s)) key with
                      | Some a => Some a
                      | None => Some keyword
                      end
      | None => None
      end
  | _, _ => None
  end.

(** Settings.cpp:256-259 getValue(string); [None] = exception.  Dereferencing
    end() cannot happen here ([getValue_deref] in the proofs). *)
Definition getValue (s : settings) (keyword : str) : option str :=
  match keywordCheck s keyword with
  | None => None
  | Some k => match c_find k (s_contents s) with Some v => Some (fst v) | None => None end
  end.

(** Settings.cpp:261-264 getValues. *)
Definition getValues (s : settings) (keyword : str) : option (list (str * nat)) :=
  match keywordCheck s keyword with
  | None => None
  | Some k => Some (map snd (c_range k (s_contents s)))
  end.

(** Settings.cpp:301-321 writeSettingsFile: the text written.  A replacement is
    written without a newline of its own.  The missing [throw] at line 306 is
    not modelled (the stream is assumed open). *)
Fixpoint write_lines (ls : list str) (i : nat) (repl : list (nat * str)) : str :=
  match ls with
  | [] => []
  | l :: ls' => match mget Nat.eqb i repl with
                | Some r => r
                | None => l ++ [ch_lf]
                end ++ write_lines ls' (S i) repl
  end.
Definition writeSettingsFile (s : settings) (repl : list (nat * str)) : str :=
  write_lines (s_lines s) 0 repl.

(** Mode.cpp:2204-2219 writePrunedSettingsFile: the text written. *)
Fixpoint pruned_lines (ls : list str) (i : nat) (prune : list nat) : str :=
  match ls with
  | [] => []
  | l :: ls' => (if existsb (Nat.eqb i) prune then lit "# " else []) ++ l ++ [ch_lf]
                ++ pruned_lines ls' (S i) prune
  end.
Definition writePrunedSettingsFile (s : settings) (prune : list nat) : str :=
  pruned_lines (s_lines s) 0 prune.
