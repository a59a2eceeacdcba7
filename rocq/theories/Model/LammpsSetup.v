(** Model of the set-up of pair style hdnnp: PairHDNNP::coeff and init_style
    (src/interface/LAMMPS/src/ML-HDNNP/pair_hdnnp.cpp) and
    InterfaceLammps::initialize (src/libnnpif/LAMMPS/InterfaceLammps.cpp).

    The potential has already been read (InterfaceLammps.cpp:71-93; see
    Settings.v, NetworkSetup.v, SymLines.v, Scaling.v); its data are in [mode].
    error->all and exceptions are [Thrown].  Left out: log output, the number of
    the process. *)
From Coq Require Import Reals ZArith Ascii String Bool Arith List.
From Verif Require Import Base.AssocMap Model.Strings Model.Printf Model.SymLines Model.ElementMap Model.DataFiles Model.LammpsInterface.
Import ListNotations.

(** Mode.h: members used by the interface. *)
Record mode := mkMode {
  md_em : element_map; md_offsets : list R; md_cutoff : R;
  md_normalize : bool; md_convLength : R; md_convEnergy : R; md_mean : R
}.

(** C++ library std::stoi: invalid_argument without digits, out_of_range for
    values which do not fit; the rest of the text is ignored. *)
Definition stoi (s : str) : outcome Z :=
  let (neg, s) := scan_sign (skip_space s) in
  let '(v, n, _) := scan_digits s 0 in
  let z := (if neg then - v else v)%Z in
  if Nat.eqb n 0 then Thrown else if in_int z then Done z else Thrown.

(** ** pair_coeff *)
Definition ch_comma : ascii := ","%char.
Definition ch_colon : ascii := ":"%char.
Definition null_name : str := lit "NULL".
(** pair_hdnnp.cpp:197-198: array [map] of n+1 values, of which the first n are
    set to zero; [None] is an indeterminate value. *)
Definition fresh_map (n : nat) : list (option Z) := repeat (Some 0%Z) n ++ [None].
(** pair_hdnnp.cpp:200-207, one pass of the loop (i is the LAMMPS type i - 1 of
    the code). *)
Definition addName (s : str * list (option Z)) (x : nat * str) : str * list (option Z) :=
  let '(emap, m) := s in
  let '(i, name) := x in
  if str_eqb name null_name then s
  else ((match emap with [] => [] | _ => emap ++ [ch_comma] end) ++ print_d i ++ [ch_colon] ++ name,
        firstn i m ++ Some 1%Z :: skipn (S i) m).
(** Reading map[i]; an indeterminate value or an index out of bounds is
    undefined behaviour. *)
Definition read_map (m : list (option Z)) (i : nat) : outcome Z :=
  match nth_error m i with Some (Some z) => Done z | _ => Undefined end.
(** pair_hdnnp.cpp:209-215: pairs of types for which setflag is set. *)
Definition flagPair (m : list (option Z)) (set : list (nat * nat)) (ij : nat * nat) : outcome (list (nat * nat)) :=
  a <- read_map m (fst ij);
  if Z.ltb 0 a
  then b <- read_map m (snd ij); Done (if Z.ltb 0 b then set ++ [ij] else set)
  else Done set.
Definition flag_pairs (n : nat) : list (nat * nat) :=
  flat_map (fun i => map (fun j => (i, j)) (seq i (S n - i))) (seq 1 n).
(** pair_hdnnp.cpp:186-220 coeff with ntypes = n: the element mapping string and
    the pairs of types handled by the pair style. *)
Definition coeff (n : nat) (args : list str) : outcome (str * list (nat * nat)) :=
  if negb (Nat.eqb (List.length args) (2 + n)) then Thrown
  else match args with
       | a0 :: a1 :: names =>
         if (negb (str_eqb a0 (lit "*")) || negb (str_eqb a1 (lit "*")))%bool then Thrown
         else let '(emap, m) := fold_left addName (combine (seq 1 n) names) ([], fresh_map n) in
              set <- foldo (fun ij set => flagPair m set ij) (flag_pairs n) [];
              if Nat.eqb (List.length set) 0 then Thrown else Done (emap, set)
       | _ => Thrown
       end.

(** ** Initialization of the interface *)
(** InterfaceLammps.cpp:489-493 getMaxCutoffRadius. *)
Definition getMaxCutoffRadius (m : mode) (cflength : R) : R :=
  (if md_normalize m then md_cutoff m / md_convLength m / cflength else md_cutoff m / cflength)%R.

(** mapTypeToElement and mapElementToType. *)
Definition type_map := (list (Z * nat) * list (nat * Z))%type.
Definition map_type (t : Z) (e : nat) (s : type_map) : type_map :=
  (mset Z.eqb t e (fst s), mset Nat.eqb e t (snd s)).
(** InterfaceLammps.cpp:171-186 default mapping. *)
Definition defaultMapping (em : element_map) (ntypes : nat) : outcome type_map :=
  if negb (Nat.eqb (em_size em) ntypes) then Thrown
  else Done (fold_left (fun s i => map_type (Z.of_nat (i + 1)) i s) (seq 0 ntypes) ([], [])).
(** reduce(trim(emap), " \t", ""). *)
Definition without_blanks (emap : str) : str :=
  match reduce_opt (trim emap ws_default) ws_default [] with Some r => r | None => [] end.
(** InterfaceLammps.cpp:200-220, one pass of the loop. *)
Definition addEntry (em : element_map) (ntypes : nat) (s : str) (m : type_map) : outcome type_map :=
  let typeString := split s ch_colon in
  if negb (Nat.eqb (List.length typeString) 2) then Thrown
  else w <- at_ typeString 0;
       t <- stoi w;
       if Z.ltb (Z.of_nat ntypes) t then Thrown
       else e <- element_at em typeString 1;
            Done (map_type t e m).
(** InterfaceLammps.cpp:188-221 mapping given by the user. *)
Definition readMapping (em : element_map) (ntypes : nat) (emap : str) : outcome type_map :=
  let emapSplit := split (without_blanks emap) ch_comma in
  if Nat.ltb (em_size em) (List.length emapSplit) then Thrown
  else foldo (addEntry em ntypes) emapSplit ([], []).
(** InterfaceLammps.cpp:227-244: the table in the log (elementMap[e],
    atomicNumber(e)) and ignoreType. *)
Definition tableLine (em : element_map) (m : type_map) (i : nat) (ignore : list (Z * bool)) : outcome (list (Z * bool)) :=
  match mget Z.eqb (Z.of_nat i) (fst m) with
  | Some e => s <- throwing (em_symbol em e); _ <- throwing (atomicNumber s);
              Done (mset Z.eqb (Z.of_nat i) false ignore)
  | None => Done (mset Z.eqb (Z.of_nat i) true ignore)
  end.

(** InterfaceLammps.cpp:51-255 initialize, after reading the potential.  Result:
    the state read by the other member functions (LammpsInterface.v);
    ignoreType[t] and mapTypeToElement[t] of missing types are false and 0. *)
Definition initialize (m : mode) (emap : str) (cflength cfenergy lammpsCutoff : R) (ntypes : nat) : outcome interface :=
  let em := md_em m in
  if Rlt_dec lammpsCutoff (getMaxCutoffRadius m cflength) then Thrown
  else tm <- (match emap with [] => defaultMapping em ntypes | _ => readMapping em ntypes emap end);
       ignore <- foldo (tableLine em tm) (seq 1 ntypes) [];
       Done (mkInterface
         (fun t => match mget Z.eqb (Z.of_nat t) ignore with Some b => b | None => false end)
         (fun t => match mget Z.eqb (Z.of_nat t) (fst tm) with Some e => e | None => 0%nat end)
         (em_size em) (md_offsets m) (md_normalize m) cflength cfenergy (md_convLength m) (md_convEnergy m) (md_mean m)).
(** pair_hdnnp.cpp:226-248 init_style for a fresh interface. *)
Definition init_style (m : mode) (emap : str) (cflength cfenergy maxCutoffRadius : R) (ntypes : nat) : outcome interface :=
  I <- initialize m emap cflength cfenergy maxCutoffRadius ntypes;
  if Rlt_dec maxCutoffRadius (getMaxCutoffRadius m cflength) then Thrown else Done I.
