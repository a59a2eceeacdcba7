(** Model of the symmetry function scaling file and of the weights files: the
    text written by training tools and read back by every other application.
    A file is its text; numbers are written and read as in Printf.v. *)
From Coq Require Import Reals ZArith Ascii String Bool Arith.
From Flocq Require Import Core.
From Coq Require Import List.
From Verif Require Import Base.AssocMap Model.Strings Model.Printf Model.Settings Model.Scaling Model.SymLines
  Model.StructureFile Model.NeuralNetwork.
Import ListNotations.
Local Open Scope R_scope.

(** ** Integers as text *)
(** Number of decimal digits of z >= 0 (at least one). *)
Fixpoint digit_count (fuel : nat) (z : Z) : nat :=
  match fuel with
  | O => 1
  | S k => if Z.ltb z 10 then 1%nat else S (digit_count k (z / 10))
  end.
(** Conversions %d and %zu and operator<< of a number >= 0 (C library; the
    callers pass size_t values for %d, which prints the same digits below 2^31). *)
Definition print_d (n : nat) : str :=
  decimals (digit_count (Z.to_nat (Z.log2 (Z.of_nat n))) (Z.of_nat n)) (Z.of_nat n).
(** Conversion %<w>d. *)
Definition fmt_d (w n : nat) : str := pad (print_d n) w ch_space false.

(** ** File headers *)
(** utility.cpp:111-223 createFileHeader; [Thrown]: columns of different sizes
    (119-124), or no column at all, where 168 wraps around and 193 asks for a
    string longer than max_size.  std::left/right with setw(n) pad to n
    characters.  The width of the first column is reduced by two (185, 200); all
    callers pass at least two, smaller values (where the difference wraps
    around) are not modelled. *)
Definition header_start (c : ascii) : str := [c; ch_space].
Definition sep_line (c : ascii) (n : nat) : str := repeat c n ++ [ch_lf].
Definition max_width (names : list str) : nat := fold_left (fun w n => Nat.max w (List.length n)) names 0%nat.
Definition column_width_at (sizes : list nat) (i : nat) : nat :=
  let n := nth i sizes 0%nat in if Nat.eqb i 0 then (n - 2)%nat else n.
Definition createFileHeader (title : list str) (colSize : list nat) (colName colInfo : list str) (c : ascii) : outcome (list str) :=
  if negb (Nat.eqb (List.length colSize) (List.length colName) && Nat.eqb (List.length colName) (List.length colInfo)) then Thrown
  else if Nat.eqb (List.length colSize) 0 then Thrown
  else
    let cols := seq 0 (List.length colSize) in
    let widthNames := max_width colName in
    let widthData := (fold_left (fun w n => w + n + 1) colSize 0 - 1)%nat in
    Done ([sep_line c 80] ++
          map (fun t => header_start c ++ t ++ [ch_lf]) title ++
          [sep_line c 80;
           header_start c ++ pad (lit "Col") 4 ch_space true ++ lit " " ++ pad (lit "Name") widthNames ch_space true ++
             lit " Description" ++ [ch_lf];
           sep_line c 80] ++
          map (fun i => header_start c ++ pad (print_d (i + 1)) 4 ch_space true ++ lit " " ++
                        pad (nth i colName []) widthNames ch_space true ++ lit " " ++ nth i colInfo [] ++ [ch_lf]) cols ++
          [sep_line c (if Nat.ltb 80 widthData then widthData else 80%nat);
           [c] ++ List.concat (map (fun i => lit " " ++ pad (print_d (i + 1)) (column_width_at colSize i) ch_space false) cols) ++ [ch_lf];
           [c] ++ List.concat (map (fun i => lit " " ++ pad (firstn (column_width_at colSize i) (nth i colName []))
                                                             (column_width_at colSize i) ch_space false) cols) ++ [ch_lf];
           sep_line c widthData]).
(** utility.cpp:225-235 appendLinesToFile: the text written. *)
Definition appendLines (ls : list str) : str := List.concat ls.

(** ** Scaling file, writing *)
(** The four numbers of one symmetry function. *)
Record sf_row := mkSfRow { r_min : R; r_max : R; r_mean : R; r_sigma : R }.
(** Dataset.cpp:1068-1074: the numbers for one symmetry function.  With fewer
    than two values the code writes "nan" or "inf", which is not modelled. *)
Definition row_of (c : container) : sf_row :=
  mkSfRow (c_min c) (c_max c) (file_mean (c_count c) (c_sum c)) (file_sigma (c_count c) (c_sum c) (c_sum2 c)).
(** Dataset.cpp:1066-1068: all symmetry functions of an element with [n] of them;
    statistics.data.at(i) throws if there is none. *)
Definition rows_of (n : nat) (d : stat_data) : outcome (list sf_row) :=
  mapo (fun i => c <- throwing (mget Nat.eqb i d); Done (row_of c)) (seq 0 n).
(** Dataset.cpp:1075-1081; strpr into a buffer of 1024 characters. *)
Definition undefined_if_long (t : option str) : outcome str := match t with Some t => Done t | None => Undefined end.
Definition scaling_line (ec i : nat) (r : sf_row) : outcome str :=
  undefined_if_long (line (fmt_d 10 (ec + 1) ++ lit " " ++ fmt_d 10 (i + 1) ++ numbers [r_min r; r_max r; r_mean r; r_sigma r])).
(** Dataset.cpp:1020-1043. *)
Definition scaling_header : outcome (list str) :=
  createFileHeader [lit "Symmetry function scaling data."] [10; 10; 24; 24; 24; 24]%nat
    [lit "e_index"; lit "sf_index"; lit "sf_min"; lit "sf_max"; lit "sf_mean"; lit "sf_sigma"]
    [lit "Element index."; lit "Symmetry function index."; lit "Symmetry function minimum.";
     lit "Symmetry function maximum."; lit "Symmetry function mean."; lit "Symmetry function sigma."] ch_hash.
(** Dataset.cpp:1004-1101 writeSymmetryFunctionScaling on rank 0; [elements] are
    the rows of each element, the index of an element is its position
    (Mode.cpp:322-366).  Output to the log is not modelled. *)
Definition number_list {A} (l : list A) : list (nat * A) := List.combine (seq 0 (List.length l)) l.
Definition writeScaling (elements : list (list sf_row)) : outcome str :=
  h <- scaling_header;
  ls <- mapo (fun e => mapo (fun r => scaling_line (fst e) (fst r) (snd r)) (number_list (snd e))) (number_list elements);
  Done (appendLines h ++ List.concat (map (@List.concat _) ls)).
(** The same, starting from the statistics. *)
Definition writeStatistics (elements : list (nat * stat_data)) : outcome str :=
  rows <- mapo (fun e => rows_of (fst e) (snd e)) elements; writeScaling rows.

(** ** Scaling file, reading *)
(** Mode.cpp:720-786: scaling type and target range. *)
Definition exists_key (s : settings) (k : string) : outcome bool := throwing (keywordExists s (lit k) false).
Definition scaling_type_of (s : settings) : outcome scaling_type :=
  scale <- exists_key s "scale_symmetry_functions"; center <- exists_key s "center_symmetry_functions";
  sigma <- exists_key s "scale_symmetry_functions_sigma";
  Done (if (scale && negb center)%bool then ST_SCALE
        else if (negb scale && center)%bool then ST_CENTER
        else if (scale && center)%bool then ST_SCALECENTER
        else if sigma then ST_SCALESIGMA else ST_NONE).
Definition value_or (s : settings) (k : string) (default : R) : outcome R :=
  b <- exists_key s k; if (b : bool) then (w <- throwing (getValue s (lit k)); Done (atof w)) else Done default.
Definition target_range (s : settings) (t : scaling_type) : outcome (R * R) :=
  match t with
  | ST_SCALE | ST_SCALECENTER | ST_SCALESIGMA =>
      lo <- value_or s "scale_min_short" 0; hi <- value_or s "scale_max_short" 1; Done (lo, hi)
  | ST_NONE | ST_CENTER => Done (0, 0)
  end.
(** Mode.cpp:799-804: all lines but comments; line.at(0) throws for an empty
    line. *)
Definition keep_line (l : str) (acc : list str) : outcome (list str) :=
  c <- throwing (nth_error l 0); Done (if ch_eqb c ch_hash then acc else acc ++ [l]).
Definition scaling_data (text : str) : outcome (list str) := foldo keep_line (Strings.split text ch_lf) [].

(** The members of a symmetry function used here (SymFnc.h: ec, index, Gsigma). *)
Record sf_id := mkSfId { id_ec : nat; id_index : nat; id_sigma : R }.
(** SymFnc.cpp:52-98 setScalingType from the text.  The second comparison is
    evaluated only if the first one differs.  A negative number converted to
    size_t differs from every index, as the 0 it becomes here. *)
Definition setScalingLine (f : sf_id) (t : scaling_type) (l : str) (Smin Smax : R) : outcome scaling :=
  let s := words_of l in
  w0 <- at_ s 0; a <- atoi w0;
  b <- (if Nat.eqb (Z.to_nat a) (id_ec f + 1) then Done (Z.of_nat (id_index f + 1)) else w1 <- at_ s 1; atoi w1);
  if (negb (Nat.eqb (Z.to_nat a) (id_ec f + 1)) && negb (Nat.eqb (Z.to_nat b) (id_index f + 1)))%bool then Thrown
  else
    mn <- SymLines.number_at s 2; mx <- SymLines.number_at s 3; mean <- SymLines.number_at s 4;
    sigma <- (match nth_error s 5 with Some w => Done (Some (atof w)) | None => Done None end);
    throwing (setScalingType (id_ec f) (id_index f) (id_sigma f) t
                (mkStatLine (Z.to_nat a) (Z.to_nat b) mn mx mean sigma) Smin Smax).
(** Element.cpp:364-379 setScaling (the scaling factors of groups are copies). *)
Definition setScaling (t : scaling_type) (fs : list sf_id) (ls : list str) (Smin Smax : R) : outcome (list scaling) :=
  mapo (fun p => l <- throwing (nth_error ls (fst p)); setScalingLine (snd p) t l Smin Smax) (number_list fs).
(** Mode.cpp:820-834: one element after the other; erase beyond the end is
    undefined. *)
Definition scale_elements (t : scaling_type) (Smin Smax : R) (elements : list (list sf_id)) (ls : list str)
  : outcome (list str * list (list scaling)) :=
  foldo (fun fs st =>
    sc <- setScaling t fs (fst st) Smin Smax;
    if Nat.leb (List.length fs) (List.length (fst st)) then Done (skipn (List.length fs) (fst st), snd st ++ [sc]) else Undefined)
    elements (ls, []).
(** Mode.cpp:712-840 setupSymmetryFunctionScaling; [elements] are the symmetry
    functions of each element, the result is their scaling. *)
Definition setupScaling (s : settings) (text : str) (elements : list (list sf_id)) : outcome (list (list scaling)) :=
  t <- scaling_type_of s; range <- target_range s t; ls <- scaling_data text;
  r <- scale_elements t (fst range) (snd range) elements ls; Done (snd r).

(** ** Weights file *)
(** NeuralNetwork.cpp:565-588: one row. *)
Definition weights_line (r : conn_row) : outcome str :=
  undefined_if_long (line (fmt24 (row_value r) ++ (if row_isweight r then lit " a " else lit " b ") ++ fmt_d 9 (row_index r) ++
    lit " " ++ fmt_d 5 (row_ls r) ++ lit " " ++ fmt_d 5 (row_ns r) ++
    match row_end r with Some (l, n) => lit " " ++ fmt_d 5 l ++ lit " " ++ fmt_d 5 n | None => [] end)).
(** NeuralNetwork.cpp:531-560. *)
Definition weights_header : outcome (list str) :=
  createFileHeader [lit "Neural network connection values (weights and biases)."] [24; 1; 9; 5; 5; 5; 5]%nat
    [lit "connection"; lit "t"; lit "index"; lit "l_s"; lit "n_s"; lit "l_e"; lit "n_e"]
    [lit "Neural network connection value."; lit "Connection type (a = weight, b = bias).";
     lit "Index enumerating weights."; lit "Starting point layer (end point layer for biases).";
     lit "Starting point neuron in starting layer (end point neuron for biases).";
     lit "End point layer."; lit "End point neuron in end layer."] ch_hash.
(** NeuralNetwork.cpp:529-591 writeConnections. *)
Definition writeWeights (net : network) : outcome str :=
  h <- weights_header; ls <- mapo weights_line (writeConnections net); Done (appendLines h ++ List.concat ls).

(** utility.cpp:247-290 readColumnsFromFile for one column; [None] = NaN, written
    for lines with too few words. *)
Definition is_data (comment : ascii) (l : str) : bool := match l with [] => false | c :: _ => negb (ch_eqb c comment) end.
Definition readColumn (col : nat) (text : str) : list (option R) :=
  map (fun l => match nth_error (words_of l) col with Some w => Some (atof w) | None => None end)
      (filter (is_data ch_hash) (Strings.split text ch_lf)).
(** Mode.cpp:2270-2289 readNeuralNetworkWeights for one element.  setConnections
    reads numConnections values starting at the first one, without knowing how
    many there are: [Undefined] if there are fewer.  [Done None]: some weight
    becomes NaN. *)
Fixpoint all_some {A} (l : list (option A)) : option (list A) :=
  match l with
  | [] => Some []
  | Some x :: l => match all_some l with Some r => Some (x :: r) | None => None end
  | None :: _ => None
  end.
Definition readWeights (net : network) (text : str) : outcome (option network) :=
  let w := readColumn 0 text in
  if Nat.ltb (List.length w) (numConnections net) then Undefined
  else if Nat.eqb (List.length w) 0 then Undefined
  else match all_some (firstn (numConnections net) w) with
       | None => Done None
       | Some v => Done (Some (setConnections (fun p => nth p v 0) net))
       end.

(** ** Hardness file *)
(** Training.cpp:1702-1717 writeHardness for one element: operator<< with the
    default precision of six digits.  The stream chooses between fixed and
    scientific layout and removes trailing zeros; only the digits matter to the
    value, the layout used here is always scientific. *)
Definition writeHardness (h : R) : str := print_E 5 h ++ [ch_lf].
(** Mode.cpp:411-418; [Done None] = NaN.  Normalization is not modelled here. *)
Definition readHardness (text : str) : outcome (option R) :=
  match readColumn 0 text with [v] => Done v | _ => Thrown end.
