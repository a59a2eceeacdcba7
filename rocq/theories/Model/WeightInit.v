(** Model of the random number generators of a training run and of the initial
    weights: src/libnnptrain/Dataset.cpp (setupRandomNumberGenerator) and
    src/libnnptrain/Training.cpp (initializeWeights, randomizeNeuralNetworkWeights).
    Output to the log is left out. *)
From Coq Require Import Reals ZArith Ascii String Bool Arith.
From Coq Require Import List.
From Verif Require Import Model.Strings Model.Settings Model.SymLines Model.NetworkSetup Model.NeuralNetwork Model.DataFiles Model.Selection Model.TrainingSetup.
Import ListNotations.
Local Open Scope R_scope.

(** A generator of the GNU Scientific Library: gsl_rng_set, gsl_rng_get and
    gsl_rng_uniform.  The algorithms (mt19937, taus) are not modelled. *)
Record generator := mkGen {
  gs : Type; g_set : Z -> gs; g_get : gs -> Z * gs; g_uniform : gs -> R * gs }.

(** Dataset.cpp:119-146: process 0 draws the seeds of processes 1, ..., n-1 and
    sends them, then it draws the seed of the global generator.  The result is the
    list of the seeds drawn and the last one. *)
Fixpoint drawSeeds (g : generator) (n : nat) (st : gs g) : list Z * gs g :=
  match n with
  | O => ([], st)
  | S n => let (z, st) := g_get g st in let (l, st) := drawSeeds g n st in (z :: l, st)
  end.
(** Dataset.cpp:118: atoi to unsigned long. *)
Definition to_ulong (z : Z) : Z := (z mod 2 ^ 64)%Z.
(** Dataset.cpp:110-163 setupRandomNumberGenerator on all processes: the seed of
    each personal generator and the state of the global generator of each process
    (MPI_Bcast gives every process the seed of process 0).  [mt] is the generator
    of process 0, [taus] the kind of all others. *)
Definition setupRandomNumberGenerator (mt taus : generator) (s : settings) (numProcs : nat) : outcome (list Z * list (gs taus)) :=
  seed <- get_int s (lit "random_seed");
  let seed := to_ulong seed in
  let (seeds, st) := drawSeeds mt (numProcs - 1) (g_set mt seed) in
  let (seedGlobal, _) := g_get mt st in
  Done (seed :: seeds, repeat (g_set taus seedGlobal) numProcs).

(** Training.cpp:3628-3632: the loop over the weights of one network. *)
Fixpoint drawWeights (g : generator) (lo hi : R) (n : nat) (st : gs g) : list R * gs g :=
  match n with
  | O => ([], st)
  | S n => let (u, st) := g_uniform g st in
           let (l, st) := drawWeights g lo hi n st in (lo + u * (hi - lo) :: l, st)
  end.
(** Training.cpp:3624-3635: the loop over the elements.  The vector w is reused,
    but all of its entries are assigned; w.front() needs one. *)
Fixpoint drawNetworks (g : generator) (lo hi : R) (nets : list network) (st : gs g) : outcome (list network * gs g) :=
  match nets with
  | [] => Done ([], st)
  | net :: nets =>
      if Nat.eqb (numConnections net) 0 then Undefined
      else let (w, st) := drawWeights g lo hi (numConnections net) st in
           r <- drawNetworks g lo hi nets st;
           Done (setConnections (fun p => nth p w 0) net :: fst r, snd r)
  end.
(** modifyConnections never fails for the schemes used here. *)
Definition modified (m : modification) (net : network) : outcome network :=
  match modifyConnections m net with Some net => Done net | None => Thrown end.
(** Mode.cpp:1176-1196 keywordSuffix2. *)
Definition suffix (id : str) : str := if str_eqb id (lit "elec") then lit "_charge" else lit "_short".
(** Training.cpp:3616-3667 randomizeNeuralNetworkWeights: the networks of the
    elements and the state of the global generator. *)
Definition randomizeNeuralNetworkWeights (g : generator) (s : settings) (id : str) (nets : list network) (st : gs g) : outcome (list network * gs g) :=
  lo <- get_real s (lit "weights_min");
  hi <- get_real s (lit "weights_max");
  r <- drawNetworks g lo hi nets st;
  nw <- has s (lit "nguyen_widrow_weights" ++ suffix id);
  if nw : bool then nets <- mapo (modified MS_NGUYENWIDROW) (fst r); Done (nets, snd r)
  else pre <- has s (lit "precondition_weights");
       if pre : bool then Thrown
       else nets <- mapo (fun net => net <- modified MS_GLOROTBENGIO net; modified MS_ZEROBIAS net) (fst r);
            Done (nets, snd r).

(** Mode.cpp:2270-2289 readNeuralNetworkWeights for the texts of the files of all
    elements (files that cannot be opened are left out); [None] for a network with
    a weight that is not a number. *)
Definition readNeuralNetworkWeights (nets : list network) (texts : list str) : outcome (list (option network)) :=
  mapo (fun nt => readWeights (fst nt) (snd nt)) (List.combine nets texts).

(** Training.cpp:292-328 initializeWeights.  [elec], [elec_files]: networks and
    weight files for charges, [nets], [files]: networks trained in this stage and
    their files, [id]: their name.  The results are the networks for charges as read
    (stage 2 of two stages only), the trained ones, and the generator. *)
Definition initializeWeights (g : generator) (s : settings) (nnp : nnpType) (stage : nat) (id : str)
  (elec : list network) (elec_files : list str) (nets : list network) (files : list str) (st : gs g)
  : outcome (option (list (option network)) * list (option network) * gs g) :=
  nw <- has s (lit "nguyen_widrow_weights_short");
  pre <- (if nw : bool then has s (lit "precondition_weights") else Done false);
  if (nw && pre)%bool then Thrown
  else
    el <- (match nnp with
           | HDNNP_4G | HDNNP_Q => if Nat.eqb stage 2 then r <- readNeuralNetworkWeights elec elec_files; Done (Some r) else Done None
           | HDNNP_2G => Done None
           end);
    old <- has s (lit "use_old_weights" ++ suffix id);
    if old : bool then r <- readNeuralNetworkWeights nets files; Done (el, r, st)
    else r <- randomizeNeuralNetworkWeights g s id nets st; Done (el, map Some (fst r), snd r).

(** Every process initializes its own copy of the networks with its own copy of
    the global generator (nnp-train.cpp: setupRandomNumberGenerator, later
    initializeWeights on all processes). *)
Definition initialNetworks (mt taus : generator) (s : settings) (nnp : nnpType) (stage : nat) (id : str)
  (elec : list network) (elec_files : list str) (nets : list network) (files : list str) (numProcs : nat)
  : outcome (list (list (option network))) :=
  r <- setupRandomNumberGenerator mt taus s numProcs;
  mapo (fun st => x <- initializeWeights taus s nnp stage id elec elec_files nets files st; Done (snd (fst x))) (snd r).
