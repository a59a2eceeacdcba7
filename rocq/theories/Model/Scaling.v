(** Model of symmetry function scaling and statistics:
    SymFnc.cpp (setScalingType, scale, unscale), SymFncStatistics.cpp,
    Element.cpp (updateSymmetryFunctionStatistics), and the MPI reduction and
    scaling file contents of Dataset.cpp. *)
From Coq Require Import Reals List Arith Bool.
From Verif Require Import Base.AssocMap Model.Strings.
Import ListNotations.
Local Open Scope R_scope.

(** SymFnc.h: enum ScalingType. *)
Inductive scaling_type := ST_NONE | ST_SCALE | ST_CENTER | ST_SCALECENTER | ST_SCALESIGMA.

(** The scaling members of SymFnc (SymFnc.h). *)
Record scaling := mkScaling {
  scalingType : scaling_type;
  s_Gmin : R; s_Gmax : R; s_Gmean : R; s_Gsigma : R;
  s_Smin : R; s_Smax : R;
  scalingFactor : R
}.

(** The columns of one line of the scaling file after atoi/atof (text to number
    conversion is not modelled); the sigma column may be missing. *)
Record stat_line := mkStatLine {
  l_ec : nat; l_index : nat; l_min : R; l_max : R; l_mean : R; l_sigma : option R
}.

(** SymFnc.cpp:52-98 setScalingType.  [ec], [index] are the members of the
    symmetry function (0-based); [sigma0] is the previous value of Gsigma (kept
    if the column is missing).  [None] = runtime_error.  The consistency check
    only fires if BOTH columns disagree, as in the code. *)
Definition setScalingType (ec index : nat) (sigma0 : R) (t : scaling_type) (l : stat_line) (Smin Smax : R)
  : option scaling :=
  if (negb (Nat.eqb (l_ec l) (ec + 1)) && negb (Nat.eqb (l_index l) (index + 1)))%bool then None
  else
    let Gmin := l_min l in
    let Gmax := l_max l in
    let Gmean := l_mean l in
    let Gsigma := match l_sigma l with Some s => s | None => sigma0 end in
    let f := match t with
             | ST_NONE => 1
             | ST_SCALE => (Smax - Smin) / (Gmax - Gmin)
             | ST_CENTER => 1
             | ST_SCALECENTER => (Smax - Smin) / (Gmax - Gmin)
             | ST_SCALESIGMA => (Smax - Smin) / Gsigma
             end in
    Some (mkScaling t Gmin Gmax Gmean Gsigma Smin Smax f).

(** SymFnc.cpp:169-195 scale. *)
Definition scale (s : scaling) (value : R) : R :=
  match scalingType s with
  | ST_NONE => value
  | ST_SCALE => s_Smin s + scalingFactor s * (value - s_Gmin s)
  | ST_CENTER => value - s_Gmean s
  | ST_SCALECENTER => s_Smin s + scalingFactor s * (value - s_Gmean s)
  | ST_SCALESIGMA => s_Smin s + scalingFactor s * (value - s_Gmean s)
  end.

(** SymFnc.cpp:197-223 unscale. *)
Definition unscale (s : scaling) (value : R) : R :=
  match scalingType s with
  | ST_NONE => value
  | ST_SCALE => (value - s_Smin s) / scalingFactor s + s_Gmin s
  | ST_CENTER => value + s_Gmean s
  | ST_SCALECENTER => (value - s_Smin s) / scalingFactor s + s_Gmean s
  | ST_SCALESIGMA => (value - s_Smin s) / scalingFactor s + s_Gmean s
  end.

(** numeric_limits<double>::max() and 1000 * epsilon(). *)
Definition dbl_max : R := (2 - / 2 ^ 52) * 2 ^ 1023.
Definition ew_epsilon : R := 1000 * / 2 ^ 52.

(** SymFncStatistics.h:33-75 Container (type and element string, which are only
    copied through, are kept; vectors as lists in push order). *)
Record container := mkContainer {
  c_count : nat; c_countEW : nat; c_type : nat;
  c_min : R; c_max : R; c_Gmin : R; c_Gmax : R; c_sum : R; c_sum2 : R;
  c_element : str;
  c_structureEW : list nat; c_atomEW : list nat; c_valueEW : list R
}.

(** SymFncStatistics.cpp:25-37. *)
Definition container_init : container :=
  mkContainer 0 0 0 dbl_max (- dbl_max) 0 0 0 0 [] [] [] [].

(** SymFncStatistics.cpp:47-56 and 58-70. *)
Definition c_resetStatistics (c : container) : container :=
  mkContainer 0 (c_countEW c) (c_type c) dbl_max (- dbl_max) (c_Gmin c) (c_Gmax c) 0 0
    (c_element c) (c_structureEW c) (c_atomEW c) (c_valueEW c).
Definition c_resetEW (c : container) : container :=
  mkContainer (c_count c) 0 0 (c_min c) (c_max c) 0 0 (c_sum c) (c_sum2 c) [] [] [] [].

(** The map [data]; operator[] creates a fresh container. *)
Definition stat_data := list (nat * container).
Definition sd_get (d : stat_data) (i : nat) : container :=
  match mget Nat.eqb i d with Some c => c | None => container_init end.

(** SymFncStatistics.cpp:80-89 addValue. *)
Definition c_addValue (c : container) (v : R) : container :=
  mkContainer (c_count c + 1) (c_countEW c) (c_type c)
    (Rmin (c_min c) v) (Rmax (c_max c) v) (c_Gmin c) (c_Gmax c) (c_sum c + v) (c_sum2 c + v * v)
    (c_element c) (c_structureEW c) (c_atomEW c) (c_valueEW c).
Definition addValue (d : stat_data) (i : nat) (v : R) : stat_data :=
  mset Nat.eqb i (c_addValue (sd_get d i) v) d.

(** SymFncStatistics.cpp:91-110 addExtrapolationWarning. *)
Definition c_addEW (c : container) (type : nat) (v Gmin Gmax : R) (el : str) (iS iA : nat) : container :=
  mkContainer (c_count c) (c_countEW c + 1) type (c_min c) (c_max c) Gmin Gmax (c_sum c) (c_sum2 c)
    el (c_structureEW c ++ [iS]) (c_atomEW c ++ [iA]) (c_valueEW c ++ [v]).
Definition addExtrapolationWarning (d : stat_data) (i type : nat) (v Gmin Gmax : R) (el : str) (iS iA : nat)
  : stat_data := mset Nat.eqb i (c_addEW (sd_get d i) type v Gmin Gmax el iS iA) d.

(** SymFncStatistics.cpp:139-150 countExtrapolationWarnings. *)
Definition countExtrapolationWarnings (d : stat_data) : nat :=
  fold_left (fun n p => (n + c_countEW (snd p))%nat) d 0%nat.

(** SymFncStatistics.cpp:152-173 resetStatistics, resetExtrapolationWarnings. *)
Definition resetStatistics (d : stat_data) : stat_data := map (fun p => (fst p, c_resetStatistics (snd p))) d.
Definition resetExtrapolationWarnings (d : stat_data) : stat_data := map (fun p => (fst p, c_resetEW (snd p))) d.

(** What updateSymmetryFunctionStatistics reads of a symmetry function. *)
Record sf_stat := mkSfStat { sf_scaling : scaling; sf_index : nat; sf_type : nat }.
Record flags := mkFlags { f_collectStatistics : bool; f_collectEW : bool; f_stopOnEW : bool }.

(** Element.cpp:482-537, one iteration.  [None] = out_of_range thrown; the
    message written to cerr is not modelled.  State: (warning count, data). *)
Definition ew_test (s : scaling) (value : R) : bool :=
  if Rlt_dec (value + ew_epsilon) (s_Gmin s) then true
  else if Rlt_dec (s_Gmax s) (value - ew_epsilon) then true else false.
Definition update_one (fl : flags) (symbol : str) (iS iA : nat) (st : option (nat * stat_data)) (p : sf_stat * R)
  : option (nat * stat_data) :=
  match st with
  | None => None
  | Some (n, d) =>
      let (sf, g) := p in
      let s := sf_scaling sf in
      let value := unscale s g in
      let d := if f_collectStatistics fl then addValue d (sf_index sf) g else d in
      if ew_test s value then
        let d := if f_collectEW fl
                 then addExtrapolationWarning d (sf_index sf) (sf_type sf) value (s_Gmin s) (s_Gmax s) symbol iS iA
                 else d in
        if f_stopOnEW fl then None else Some ((n + 1)%nat, d)
      else Some (n, d)
  end.

(** Element.cpp:462-541 updateSymmetryFunctionStatistics, for an atom of this
    element ([G] has one entry per symmetry function, checked at 472-476). *)
Definition updateStatistics (fl : flags) (symbol : str) (iS iA : nat) (d : stat_data)
  (sfs : list sf_stat) (G : list R) : option (nat * stat_data) :=
  if Nat.eqb (length G) (length sfs)
  then fold_left (update_one fl symbol iS iA) (combine sfs G) (Some (0%nat, d))
  else None.

(** A history: consecutive calls for atoms [(iS, iA, G)] of one element; the
    state is (sum of the returned warning counts, data). *)
Definition update_atoms (fl : flags) (symbol : str) (sfs : list sf_stat) (d : stat_data)
  (atoms : list (nat * nat * list R)) : option (nat * stat_data) :=
  fold_left (fun st a => match st with
     | None => None
     | Some (n, d) => match updateStatistics fl symbol (fst (fst a)) (snd (fst a)) d sfs (snd a) with
                      | None => None
                      | Some (n', d') => Some ((n + n')%nat, d')
                      end
     end) atoms (Some (0%nat, d)).

(** Dataset.cpp:974-1002 collectSymmetryFunctionStatistics: MPI_Allreduce of the
    five numbers over the ranks ([ranks] holds the container of each rank; the
    other members of a container are not reduced and are omitted here).  The
    start values of the minimum and maximum are neutral because every container
    already starts from them. *)
Definition allreduce_stats (ranks : list container) : nat * R * R * R * R :=
  (fold_right (fun c n => (c_count c + n)%nat) 0%nat ranks,
   fold_right (fun c m => Rmin (c_min c) m) dbl_max ranks,
   fold_right (fun c m => Rmax (c_max c) m) (- dbl_max) ranks,
   fold_right (fun c s => c_sum c + s) 0 ranks,
   fold_right (fun c s => c_sum2 c + s) 0 ranks).

(** Dataset.cpp:1070-1077: the numbers written to the scaling file. *)
Definition file_mean (n : nat) (sum : R) : R := sum / INR n.
Definition file_sigma (n : nat) (sum sum2 : R) : R := sqrt ((sum2 - sum * sum / INR n) / (INR n - 1)).
