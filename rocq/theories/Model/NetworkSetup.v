(** Model of Mode::setupNeuralNetwork (src/libnnp/Mode.cpp:1158-1443): from the
    settings file to the architecture of the networks of one kind ("short" or
    "elec", given by the suffix of its keywords) for all elements.

    The number of input neurons of each element (line 1280-1295: number of
    symmetry functions, plus one for "short" in 4G and Q potentials) is an
    argument.  Failing allocation of very long lists and the log are left out.
    exit(EXIT_FAILURE) in the constructor of NeuralNetwork is [Thrown], too. *)
From Coq Require Import ZArith Ascii String Bool Arith.
From Coq Require Import List.
From Verif Require Import Base.AssocMap Model.Strings Model.ElementMap Model.NeuralNetwork Model.Settings Model.SymLines.
Import ListNotations.
Local Open Scope Z_scope.

(** Conversions int -> size_t and size_t -> int (the latter modulo 2^32, as all
    compilers do). *)
Definition to_size (z : Z) : Z := z mod 2 ^ 64.
Definition to_int (z : Z) : Z := (z + 2 ^ 31) mod 2 ^ 32 - 2 ^ 31.

(** Mode.h:597-611 struct NNSetup::Topology. *)
Record topology := mkTopology { tp_layers : Z; tp_neurons : list Z; tp_acts : list activation }.
Definition topology_init : topology := mkTopology 0 [] [].

(** v.at(i) = x. *)
Definition set_at {A} (i : nat) (x : A) (l : list A) : outcome (list A) :=
  if Nat.ltb i (List.length l) then Done (firstn i l ++ x :: skipn (S i) l) else Thrown.
(** v.at(e) changed by [f]. *)
Definition update_at {A} (e : nat) (f : A -> outcome A) (l : list A) : outcome (list A) :=
  x <- throwing (nth_error l e); y <- f x; set_at e y l.
Definition set_neurons (j : nat) (n : Z) (t : topology) : outcome topology :=
  l <- set_at j n (tp_neurons t); Done (mkTopology (tp_layers t) l (tp_acts t)).
Definition set_act (j : nat) (a : activation) (t : topology) : outcome topology :=
  l <- set_at j a (tp_acts t); Done (mkTopology (tp_layers t) (tp_neurons t) l).
(** for (int j = a; j < b; ++j). *)
Definition range (a b : Z) : list nat := seq (Z.to_nat a) (Z.to_nat (b - a)).
Definition activation_of (w : str) : outcome activation := throwing (activationFromString w).

(** The words of a value; the value of a keyword, if present; all its lines. *)
Definition words_of (v : str) : list str := split (reduce v) ch_space.
Definition value_of (s : settings) (keyword : str) : outcome (option str) :=
  b <- throwing (keywordExists s keyword false);
  if b then v <- throwing (getValue s keyword); Done (Some v) else Done None.
Definition lines_of (s : settings) (keyword : str) : outcome (list (str * nat)) :=
  b <- throwing (keywordExists s keyword false);
  if b then throwing (getValues s keyword) else Done [].

(** Lines 1207-1217: global number of hidden layers (a size_t). *)
Definition globalLayers (v : option str) : outcome (option Z) :=
  match v with None => Done None | Some v => z <- atoi v; Done (Some (to_size z)) end.
Definition initLayers (g : option Z) : topology :=
  match g with None => topology_init | Some g => mkTopology (to_int (to_size (g + 2))) [] [] end.
(** Lines 1222-1231: one line of element_hidden_layers. *)
Definition elementLayers (em : element_map) (v : str * nat) (tops : list topology) : outcome (list topology) :=
  let args := words_of (fst v) in
  e <- element_at em args 0; w <- at_ args 1; n <- atoi w;
  update_at e (fun t => Done (mkTopology (to_int (to_size (to_size n + 2))) (tp_neurons t) (tp_acts t))) tops.
(** Lines 1234-1248: check and resize. *)
Definition allocateTopology (t : topology) : outcome topology :=
  if Z.ltb (tp_layers t) 0 then Thrown (* resize: length_error *)
  else Done (mkTopology (tp_layers t) (repeat 0 (Z.to_nat (tp_layers t))) (repeat AF_UNSET (Z.to_nat (tp_layers t)))).
(** Lines 1251-1273: the words of global_nodes and global_activation. *)
Definition globalNodes (g : Z) (v : option str) : outcome (list str) :=
  match v with
  | None => Done []
  | Some v => let ws := words_of v in if Z.eqb g (to_size (Z.of_nat (List.length ws))) then Done ws else Thrown
  end.
Definition globalActivations (g : Z) (v : option str) : outcome (list str) :=
  match v with
  | None => Done []
  | Some v => let ws := words_of v in if Z.eqb g (to_size (Z.of_nat (List.length ws) - 1)) then Done ws else Thrown
  end.
(** Lines 1307-1329: the loop over j. *)
Definition nonempty (l : list str) : bool := negb (Nat.eqb (List.length l) 0).
Definition globalLayer (nodes acts : list str) (j : nat) (t : topology) : outcome topology :=
  if (Z.eqb (Z.of_nat j) (tp_layers t - 1) && nonempty acts)%bool then
    w <- at_ acts (Z.to_nat (tp_layers t - 2)); a <- activation_of w; set_act j a t
  else
    t <- (if nonempty nodes then w <- at_ nodes (j - 1); n <- atoi w; set_neurons j n t else Done t);
    if nonempty acts then w <- at_ acts (j - 1); a <- activation_of w; set_act j a t else Done t.
(** Lines 1277-1330: one element with [inp] input neurons. *)
Definition globalTopology (g : Z) (nodes acts : list str) (inp : nat) (t : topology) : outcome topology :=
  t <- set_neurons 0 (to_int (Z.of_nat inp)) t;
  t <- set_act 0 AF_IDENTITY t;
  t <- set_neurons (Z.to_nat (tp_layers t - 1)) 1 t;
  if Z.eqb (to_size (tp_layers t)) (to_size (g + 2)) then
    foldo (globalLayer nodes acts) (range 1 (tp_layers t)) t
  else Done t.
(** Lines 1333-1355: one line of element_nodes. *)
Definition elementNodes (em : element_map) (v : str * nat) (tops : list topology) : outcome (list topology) :=
  let args := words_of (fst v) in
  e <- element_at em args 0;
  update_at e (fun t =>
    if Z.eqb (to_size (tp_layers t)) (to_size (Z.of_nat (List.length args) - 1 + 2)) then
      foldo (fun j t => w <- at_ args j; n <- atoi w; set_neurons j n t) (range 1 (tp_layers t - 2)) t
    else Thrown) tops.
(** Lines 1358-1381: one line of element_activation. *)
Definition elementActivations (em : element_map) (v : str * nat) (tops : list topology) : outcome (list topology) :=
  let args := words_of (fst v) in
  e <- element_at em args 0;
  update_at e (fun t =>
    if Z.eqb (to_size (tp_layers t)) (to_size (Z.of_nat (List.length args) - 1 + 1)) then
      foldo (fun j t => w <- at_ args j; a <- activation_of w; set_act j a t) (range 1 (tp_layers t - 1)) t
    else Thrown) tops.
(** Lines 1384-1412: nothing unset. *)
Definition unset (a : activation) : bool := match a with AF_UNSET => true | _ => false end.
Definition complete (t : topology) : bool :=
  negb (existsb (Z.eqb 0) (tp_neurons t)) && negb (existsb unset (tp_acts t)).
(** Lines 1424-1436 and NeuralNetwork.cpp:30-64: the network; new Neuron[n] throws
    for negative n. *)
Definition construct (normalizeNeurons : bool) (t : topology) : outcome network :=
  if existsb (fun n => Z.ltb n 0) (tp_neurons t) then Thrown else
  net <- throwing (new_network (Z.to_nat (tp_layers t)) (fun i => Z.to_nat (nth i (tp_neurons t) 0)) (fun i => nth i (tp_acts t) AF_UNSET));
  Done (mkNetwork (numLayers net) (numNeurons net) (actFun net) normalizeNeurons (neurons net)).

(** Lines 1198-1412 for one kind of network. *)
Definition setupTopologies (s : settings) (em : element_map) (suffix : str) (inputs : list nat) : outcome (list topology) :=
  v <- value_of s (lit "global_hidden_layers" ++ suffix);
  g <- globalLayers v;
  ls <- lines_of s (lit "element_hidden_layers" ++ suffix);
  tops <- foldo (elementLayers em) ls (map (fun _ => initLayers g) inputs);
  if existsb (fun t => Z.eqb (tp_layers t) 0) tops then Thrown else
  tops <- mapo allocateTopology tops;
  let g := match g with None => 0 | Some g => g end in
  v <- value_of s (lit "global_nodes" ++ suffix);
  nodes <- globalNodes g v;
  v <- value_of s (lit "global_activation" ++ suffix);
  acts <- globalActivations g v;
  tops <- mapo (fun it => globalTopology g nodes acts (fst it) (snd it)) (List.combine inputs tops);
  ls <- lines_of s (lit "element_nodes" ++ suffix);
  tops <- foldo (elementNodes em) ls tops;
  ls <- lines_of s (lit "element_activation" ++ suffix);
  tops <- foldo (elementActivations em) ls tops;
  if forallb complete tops then Done tops else Thrown.
(** Lines 1415-1436. *)
Definition setupNeuralNetworks (s : settings) (em : element_map) (suffix : str) (inputs : list nat) : outcome (list network) :=
  tops <- setupTopologies s em suffix inputs;
  normalizeNeurons <- throwing (keywordExists s (lit "normalize_nodes") false);
  mapo (construct normalizeNeurons) tops.
