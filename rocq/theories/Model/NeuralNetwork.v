(** Model of libnnp/NeuralNetwork.{h,cpp}.

    The arrays of the code are functions on indices; every loop is the same
    counting loop over the same index range.  Whether an index expression stays
    inside the allocated array is not part of the model's state but is proved
    separately (theorems about the offsets).  [int] is [nat]. *)
From Coq Require Import Reals String List Arith Bool.
From Verif Require Import Base.Loop Model.Strings.
Import ListNotations.
Local Open Scope R_scope.

(** NeuralNetwork.h:33-56 enum ActivationFunction. *)
Inductive activation :=
  AF_UNSET | AF_IDENTITY | AF_TANH | AF_LOGISTIC | AF_SOFTPLUS | AF_RELU | AF_GAUSSIAN
| AF_COS | AF_REVLOGISTIC | AF_EXP | AF_HARMONIC.

(** NeuralNetwork.h:59-113 enum ModificationScheme. *)
Inductive modification :=
  MS_ZEROBIAS | MS_ZEROOUTPUTWEIGHTS | MS_FANIN | MS_GLOROTBENGIO | MS_NGUYENWIDROW | MS_PRECONDITIONOUTPUT.

(** NeuralNetwork.h struct Neuron. *)
Record neuron := mkNeuron {
  n_count : nat;
  n_x : R; n_value : R; n_dfdx : R; n_d2fdx2 : R; n_bias : R; n_dxdG : R;
  n_min : R; n_max : R; n_sum : R; n_sum2 : R;
  n_weights : nat -> R
}.

(** NeuralNetwork.h struct Layer and the members of NeuralNetwork.
    [numNeurons i] is layers[i].numNeurons; layers[i].numNeuronsPrevLayer is
    [numNeurons (i-1)] for i >= 1 (constructor, lines 53-64). *)
Record network := mkNetwork {
  numLayers : nat;
  numNeurons : nat -> nat;
  actFun : nat -> activation;
  normalizeNeurons : bool;
  neurons : nat -> nat -> neuron
}.

(** numeric_limits<double>::max(), kept as a real number. *)
Definition nn_dbl_max : R := (2 - / 2 ^ 52) * 2 ^ 1023.

(** NeuralNetwork.cpp:721-759 allocateLayer: fresh neuron. *)
Definition neuron_init : neuron :=
  mkNeuron 0 0 0 0 0 0 0 nn_dbl_max (- nn_dbl_max) 0 0 (fun _ => 0).

(** NeuralNetwork.cpp:30-64 constructor; [None] = exit(EXIT_FAILURE). *)
Definition new_network (L : nat) (sizes : nat -> nat) (acts : nat -> activation) : option network :=
  if Nat.ltb L 3 then None
  else Some (mkNetwork L sizes acts false (fun _ _ => neuron_init)).

Definition prevNeurons (net : network) (i : nat) : nat := numNeurons net (i - 1).
Definition numHiddenLayers (net : network) : nat := (numLayers net - 2)%nat.
(** outputLayer = &layers[numLayers-1] (line 49). *)
Definition outputLayer (net : network) : nat := (numLayers net - 1)%nat.

(** NeuralNetwork.cpp:66-75. *)
Definition numBiases (net : network) : nat :=
  for_range 1 (numLayers net) (fun i s => s + numNeurons net i)%nat 0%nat.
Definition numWeights (net : network) : nat :=
  for_range 1 (numLayers net) (fun i s => s + numNeurons net i * prevNeurons net i)%nat 0%nat.
Definition numConnections (net : network) : nat := (numWeights net + numBiases net)%nat.

(** NeuralNetwork.cpp:78-84: weightOffset[i]. *)
Fixpoint weightOffset (net : network) (i : nat) : nat :=
  match i with
  | O => 0
  | S m => weightOffset net m + (numNeurons net m + 1) * numNeurons net (S m)
  end.
(** NeuralNetwork.cpp:85-90: biasOffset[i]. *)
Definition biasOffset (net : network) (i : nat) : nat :=
  (weightOffset net i + numNeurons net (i + 1) * numNeurons net i)%nat.
(** NeuralNetwork.cpp:91-96: biasOnlyOffset[i]. *)
Fixpoint biasOnlyOffset (net : network) (i : nat) : nat :=
  match i with
  | O => 0
  | S m => biasOnlyOffset net m + numNeurons net (S m)
  end.

(** NeuralNetwork.cpp:114-119. *)
Definition setNormalizeNeurons (b : bool) (net : network) : network :=
  mkNetwork (numLayers net) (numNeurons net) (actFun net) b (neurons net).

(** NeuralNetwork.cpp:121-131 getNumNeurons. *)
Definition getNumNeurons (net : network) : nat :=
  for_up (numLayers net) (fun i c => c + numNeurons net i)%nat 0%nat.

(** Member updates. *)
Definition set_neuron (net : network) (i k : nat) (f : neuron -> neuron) : network :=
  mkNetwork (numLayers net) (numNeurons net) (actFun net) (normalizeNeurons net)
            (upd (neurons net) i (upd (neurons net i) k (f (neurons net i k)))).
Definition with_weight (j : nat) (v : R) (n : neuron) : neuron :=
  mkNeuron (n_count n) (n_x n) (n_value n) (n_dfdx n) (n_d2fdx2 n) (n_bias n) (n_dxdG n)
           (n_min n) (n_max n) (n_sum n) (n_sum2 n) (upd (n_weights n) j v).
Definition with_bias (v : R) (n : neuron) : neuron :=
  mkNeuron (n_count n) (n_x n) (n_value n) (n_dfdx n) (n_d2fdx2 n) v (n_dxdG n)
           (n_min n) (n_max n) (n_sum n) (n_sum2 n) (n_weights n).
Definition with_dxdG (v : R) (n : neuron) : neuron :=
  mkNeuron (n_count n) (n_x n) (n_value n) (n_dfdx n) (n_d2fdx2 n) (n_bias n) v
           (n_min n) (n_max n) (n_sum n) (n_sum2 n) (n_weights n).

(** NeuralNetwork.cpp:147-169 setConnections; the state is (count, network). *)
Definition setConnections (connections : nat -> R) (net : network) : network :=
  snd (for_range 1 (numLayers net) (fun i st =>
    let st := for_up (prevNeurons net i) (fun j st =>
                for_up (numNeurons net i) (fun k st =>
                  (S (fst st), set_neuron (snd st) i k (with_weight j (connections (fst st)))))
                st) st in
    for_up (numNeurons net i) (fun j st =>
      (S (fst st), set_neuron (snd st) i j (with_bias (connections (fst st))))) st)
  (0%nat, net)).

(** NeuralNetwork.cpp:171-193 getConnections; the state is (count, array) and
    [a0] is the array passed in. *)
Definition getConnections (net : network) (a0 : nat -> R) : nat -> R :=
  snd (for_range 1 (numLayers net) (fun i st =>
    let st := for_up (prevNeurons net i) (fun j st =>
                for_up (numNeurons net i) (fun k st =>
                  (S (fst st), upd (snd st) (fst st) (n_weights (neurons net i k) j)))
                st) st in
    for_up (numNeurons net i) (fun j st =>
      (S (fst st), upd (snd st) (fst st) (n_bias (neurons net i j)))) st)
  (0%nat, a0)).

(** The statistics update at the end of setInput and propagateLayer
    (lines 348-352, 888-892). *)
Definition with_stats (v : R) (n : neuron) : neuron :=
  mkNeuron (S (n_count n)) (n_x n) (n_value n) (n_dfdx n) (n_d2fdx2 n) (n_bias n) (n_dxdG n)
           (Rmin v (n_min n)) (Rmax v (n_max n)) (n_sum n + v) (n_sum2 n + v * v) (n_weights n).
Definition with_value (v : R) (n : neuron) : neuron :=
  mkNeuron (n_count n) (n_x n) v (n_dfdx n) (n_d2fdx2 n) (n_bias n) (n_dxdG n)
           (n_min n) (n_max n) (n_sum n) (n_sum2 n) (n_weights n).
Definition with_x (v : R) (n : neuron) : neuron :=
  mkNeuron (n_count n) v (n_value n) (n_dfdx n) (n_d2fdx2 n) (n_bias n) (n_dxdG n)
           (n_min n) (n_max n) (n_sum n) (n_sum2 n) (n_weights n).
Definition with_act (v d d2 : R) (n : neuron) : neuron :=
  mkNeuron (n_count n) (n_x n) v d d2 (n_bias n) (n_dxdG n)
           (n_min n) (n_max n) (n_sum n) (n_sum2 n) (n_weights n).

(** NeuralNetwork.cpp:344-355 setInput(index, value). *)
Definition setInput1 (index : nat) (value : R) (net : network) : network :=
  set_neuron net 0 index (fun n => with_stats value (with_value value n)).
(** NeuralNetwork.cpp:357-374 setInput(input). *)
Definition setInput (input : nat -> R) (net : network) : network :=
  for_up (numNeurons net 0) (fun i s => setInput1 i (input i) s) net.
(** NeuralNetwork.cpp:376-384 getOutput. *)
Definition getOutput (net : network) (i : nat) : R := n_value (neurons net (outputLayer net) i).

Definition EXP_LIMIT : R := 35.

(** NeuralNetwork.cpp:780-886: (value, dfdx, d2fdx2) of the activation
    functions; [None] = no branch taken, members keep their old values. *)
Definition activate (a : activation) (dtmp : R) : option (R * R * R) :=
  match a with
  | AF_UNSET => None
  | AF_IDENTITY => Some (dtmp, 1, 0)
  | AF_TANH => let d := tanh dtmp in Some (d, 1 - d * d, -2 * d * (1 - d * d))
  | AF_LOGISTIC =>
      if Rlt_dec EXP_LIMIT dtmp then Some (1, 0, 0)
      else if Rlt_dec dtmp (- EXP_LIMIT) then Some (0, 0, 0)
      else let d := 1 / (1 + exp (- dtmp)) in
           Some (d, d * (1 - d), d * (1 - d) * (1 - 2 * d))
  | AF_SOFTPLUS =>
      if Rlt_dec EXP_LIMIT dtmp then Some (dtmp, 1, 0)
      else if Rlt_dec dtmp (- EXP_LIMIT) then Some (0, 0, 0)
      else let e := exp dtmp in
           let d := 1 / (1 + 1 / e) in
           Some (ln (1 + e), d, d * (1 - d))
  | AF_RELU => if Rlt_dec 0 dtmp then Some (dtmp, 1, 0) else Some (0, 0, 0)
  | AF_GAUSSIAN => let e := exp (- / 2 * dtmp * dtmp) in
                   Some (e, - dtmp * e, (dtmp * dtmp - 1) * e)
  | AF_COS => let c := cos dtmp in Some (c, - sin dtmp, - c)
  | AF_REVLOGISTIC => let d := 1 / (1 + exp (- dtmp)) in
                      Some (1 - d, d * (d - 1), d * (d - 1) * (1 - 2 * d))
  | AF_EXP => let d := exp (- dtmp) in Some (d, - d, d)
  | AF_HARMONIC => Some (dtmp * dtmp, 2 * dtmp, 2)
  end.

(** NeuralNetwork.cpp:761-896 propagateLayer(layers[i], layers[i-1]). *)
Definition propagateLayer (i : nat) (net : network) : network :=
  for_up (numNeurons net i) (fun k s =>
    let n := neurons s i k in
    let dtmp := for_up (prevNeurons s i) (fun j d => d + n_weights n j * n_value (neurons s (i - 1) j)) 0 in
    let dtmp := dtmp + n_bias n in
    let dtmp := if normalizeNeurons s then dtmp / INR (prevNeurons s i) else dtmp in
    set_neuron s i k (fun n =>
      let n := with_x dtmp n in
      let n := match activate (actFun s i) dtmp with
               | Some (v, d, d2) => with_act v d d2 n
               | None => n
               end in
      with_stats (n_x n) n)) net.

(** NeuralNetwork.cpp:386-394 propagate. *)
Definition propagate (net : network) : network :=
  for_range 1 (numLayers net) propagateLayer net.

(** NeuralNetwork.cpp:396-442 calculateDEdG.  [dEdG_inner k l i] is the content
    of inner[l][i] in iteration [k] of the outer loop (inner[l] = outer[l-1]
    for l >= 1, line 430); the result for [k] is outer[numHiddenLayers-1][0]. *)
Fixpoint dEdG_inner (net : network) (k l i2 : nat) : R :=
  match l with
  | O =>
      let v := n_weights (neurons net 1 i2) k * n_dfdx (neurons net 1 i2) in
      if normalizeNeurons net then v / INR (numNeurons net 0) else v
  | S m =>
      (* outer[l-1][i2] with l = S m *)
      let v := for_up (numNeurons net l)
                 (fun i1 o => o + n_weights (neurons net (l + 1) i2) i1 * dEdG_inner net k m i1) 0 in
      let v := v * n_dfdx (neurons net (l + 1) i2) in
      if normalizeNeurons net then v / INR (numNeurons net l) else v
  end.
Definition calculateDEdG (net : network) (k : nat) : R :=
  dEdG_inner net k (numHiddenLayers net) 0.

(** NeuralNetwork.cpp:444-488 calculateDEdc; the state of the inner loops is
    (count, dEdc). *)
Definition calculateDEdc (net : network) (a0 : nat -> R) : nat -> R :=
  let a := for_up (numConnections net) (fun i a => upd a i 0) a0 in
  let o := outputLayer net in
  let bo := biasOffset net (numLayers net - 2) in
  let a := for_up (numNeurons net o) (fun i a =>
             let a := upd a (bo + i) (n_dfdx (neurons net o i)) in
             if normalizeNeurons net
             then upd a (bo + i) (a (bo + i)%nat / INR (prevNeurons net o)) else a) a in
  for_down (numLayers net - 1) (fun i a =>
    snd (for_up (numNeurons net i) (fun j st =>
      let st := for_up (numNeurons net (i + 1)) (fun k st =>
        let (count, a) := (st : nat * (nat -> R)) in
        let a := upd a (weightOffset net i + count)
                   (a (biasOffset net i + k)%nat * n_value (neurons net i j)) in
        let count := S count in
        let a := if Nat.leb 1 i
                 then upd a (biasOffset net (i - 1) + j)
                        (a (biasOffset net (i - 1) + j)%nat
                         + a (biasOffset net i + k)%nat * n_weights (neurons net (i + 1) k) j
                           * n_dfdx (neurons net i j))
                 else a in
        (count, a)) st in
      let (count, a) := st in
      (count, if (normalizeNeurons net && Nat.leb 1 i)%bool
              then upd a (biasOffset net (i - 1) + j)
                     (a (biasOffset net (i - 1) + j)%nat / INR (prevNeurons net i))
              else a)) (0%nat, a))) a.

(** NeuralNetwork.cpp:593-626 calculateDEdb. *)
Definition calculateDEdb (net : network) (a : nat -> R) : nat -> R :=
  let o := outputLayer net in
  let bo := biasOnlyOffset net (numLayers net - 2) in
  let a := for_up (numNeurons net o) (fun i a =>
             let a := upd a (bo + i) (n_dfdx (neurons net o i)) in
             if normalizeNeurons net
             then upd a (bo + i) (a (bo + i)%nat / INR (prevNeurons net o)) else a) a in
  for_down (numLayers net - 1) (fun i a =>
    for_up (numNeurons net i) (fun j a =>
      let a := for_up (numNeurons net (i + 1)) (fun k a =>
        if Nat.leb 1 i
        then upd a (biasOnlyOffset net (i - 1) + j)
               (a (biasOnlyOffset net (i - 1) + j)%nat
                + a (biasOnlyOffset net i + k)%nat * n_weights (neurons net (i + 1) k) j
                  * n_dfdx (neurons net i j))
        else a) a in
      if (normalizeNeurons net && Nat.leb 1 i)%bool
      then upd a (biasOnlyOffset net (i - 1) + j)
             (a (biasOnlyOffset net (i - 1) + j)%nat / INR (prevNeurons net i))
      else a) a) a.

(** NeuralNetwork.cpp:628-657 calculateDxdG(index): writes member dxdG. *)
Definition calculateDxdG (index : nat) (net : network) : network :=
  let net := for_up (numNeurons net 1) (fun i s =>
      let s := set_neuron s 1 i (fun n => with_dxdG (n_weights n index) n) in
      if normalizeNeurons s
      then set_neuron s 1 i (fun n => with_dxdG (n_dxdG n / INR (prevNeurons s 1)) n) else s) net in
  for_range 2 (numLayers net) (fun i s =>
    for_up (numNeurons s i) (fun j s =>
      let s := set_neuron s i j (with_dxdG 0) in
      let s := for_up (numNeurons s (i - 1)) (fun k s =>
        set_neuron s i j (fun n =>
          with_dxdG (n_dxdG n + n_weights n k * n_dfdx (neurons s (i - 1) k) * n_dxdG (neurons s (i - 1) k)) n)) s in
      if normalizeNeurons s
      then set_neuron s i j (fun n => with_dxdG (n_dxdG n / INR (prevNeurons s i)) n) else s) s) net.

(** NeuralNetwork.cpp:659-719 calculateD2EdGdc. *)
Definition calculateD2EdGdc (net : network) (index : nat) (dEdb : nat -> R) (a : nat -> R) : nat -> R :=
  let o := outputLayer net in
  let bo := biasOffset net (numLayers net - 2) in
  let a := for_up (numNeurons net o) (fun i a =>
             let a := upd a (bo + i) (n_d2fdx2 (neurons net o i) * n_dxdG (neurons net o i)) in
             if normalizeNeurons net
             then upd a (bo + i) (a (bo + i)%nat / INR (prevNeurons net o)) else a) a in
  for_down (numLayers net - 1) (fun i a =>
    snd (for_up (numNeurons net i) (fun j st =>
      let st := for_up (numNeurons net (i + 1)) (fun k st =>
        let (count, a) := (st : nat * (nat -> R)) in
        let a := if Nat.eqb i 0
                 then
                   let a := upd a (weightOffset net i + count)
                              (a (biasOffset net i + k)%nat * n_value (neurons net i j)) in
                   if Nat.eqb j index
                   then upd a (weightOffset net i + count)
                          (a (weightOffset net i + count)%nat + dEdb (biasOnlyOffset net i + k)%nat)
                   else a
                 else upd a (weightOffset net i + count)
                        (a (biasOffset net i + k)%nat * n_value (neurons net i j)
                         + dEdb (biasOnlyOffset net i + k)%nat * n_dfdx (neurons net i j)
                           * n_dxdG (neurons net i j)) in
        let count := S count in
        let a := if Nat.leb 1 i
                 then upd a (biasOffset net (i - 1) + j)
                        (a (biasOffset net (i - 1) + j)%nat
                         + n_weights (neurons net (i + 1) k) j
                           * (a (biasOffset net i + k)%nat * n_dfdx (neurons net i j)
                              + dEdb (biasOnlyOffset net i + k)%nat * n_d2fdx2 (neurons net i j)
                                * n_dxdG (neurons net i j)))
                 else a in
        (count, a)) st in
      let (count, a) := st in
      (count, if (normalizeNeurons net && Nat.leb 1 i)%bool
              then upd a (biasOffset net (i - 1) + j)
                     (a (biasOffset net (i - 1) + j)%nat / INR (prevNeurons net i))
              else a)) (0%nat, a))) a.

(** NeuralNetwork.cpp:490-527 calculateDFdc.  The state is (network, d2EdGdc,
    dFdc); the member function is const but writes the dxdG members of the
    neurons through the layers pointer. *)
Definition calculateDFdc (net : network) (dGdxyz : nat -> R) (dFdc0 : nat -> R) : nat -> R :=
  let dEdb := for_up (numBiases net) (fun i a => upd a i 0) (fun _ => 0) in
  let st := for_up (numConnections net) (fun i st =>
              (upd (fst st) i 0, upd (snd st) i 0)) (dFdc0, fun _ : nat => 0) in
  let dEdb := calculateDEdb net dEdb in
  fst (snd (for_up (numNeurons net 0) (fun i st =>
    let '(net, (dFdc, d2)) := (st : network * ((nat -> R) * (nat -> R))) in
    let d2 := for_up (numConnections net) (fun j a => upd a j 0) d2 in
    let net := calculateDxdG i net in
    let d2 := calculateD2EdGdc net i dEdb d2 in
    let dFdc := for_up (numConnections net) (fun j a => upd a j (a j - d2 j * dGdxyz i)) dFdc in
    (net, (dFdc, d2))) (net, st))).

(** NeuralNetwork.cpp:212-342 modifyConnections.  [None] = exit(EXIT_FAILURE)
    (wrong number of parameters).  [pow x y] of positive numbers is Rpower. *)
Definition modifyConnections (m : modification) (net : network) : option network :=
  let o := outputLayer net in
  match m with
  | MS_ZEROBIAS => Some
      (for_up (numLayers net) (fun i s =>
         for_up (numNeurons net i) (fun j s => set_neuron s i j (with_bias 0)) s) net)
  | MS_ZEROOUTPUTWEIGHTS => Some
      (for_up (numNeurons net o) (fun i s =>
         for_up (prevNeurons net o) (fun j s => set_neuron s o i (with_weight j 0)) s) net)
  | MS_FANIN => Some
      (for_range 1 (numLayers net) (fun i s =>
         match actFun net i with
         | AF_TANH =>
           for_up (numNeurons net i) (fun j s =>
             for_up (prevNeurons net i) (fun k s =>
               set_neuron s i j (fun n => with_weight k (n_weights n k / sqrt (INR (prevNeurons net i))) n)) s) s
         | _ => s
         end) net)
  | MS_GLOROTBENGIO => Some
      (for_range 1 (numLayers net) (fun i s =>
         match actFun net i with
         | AF_TANH =>
           for_up (numNeurons net i) (fun j s =>
             for_up (prevNeurons net i) (fun k s =>
               set_neuron s i j (fun n => with_weight k (n_weights n k *
                  sqrt (6 / INR (prevNeurons net i + numNeurons net i))) n)) s) s
         | _ => s
         end) net)
  | MS_NGUYENWIDROW => Some
      (let net := for_range 1 (numLayers net - 1) (fun i s =>
         let beta := 7 / 10 * Rpower (INR (numNeurons net i)) (1 / INR (prevNeurons net i)) in
         for_up (numNeurons net i) (fun j s =>
           let sum := for_up (prevNeurons net i) (fun k sum =>
                        sum + n_weights (neurons s i j) k * n_weights (neurons s i j) k) 0 in
           let sum := sqrt sum in
           let s := for_up (prevNeurons net i) (fun k s =>
             let s := set_neuron s i j (fun n => with_weight k (n_weights n k * (beta / sum)) n) in
             match actFun net i with
             | AF_TANH => set_neuron s i j (fun n => with_weight k (n_weights n k * 2) n)
             | _ => s
             end) s in
           let s := set_neuron s i j (fun n => with_bias (n_bias n * beta) n) in
           match actFun net i with
           | AF_TANH => set_neuron s i j (fun n => with_bias (n_bias n * 2) n)
           | _ => s
           end) s) net in
       for_up (numNeurons net o) (fun i s =>
         set_neuron s o 0 (fun n => with_weight i (n_weights n i * / 2) n)) net)
  | MS_PRECONDITIONOUTPUT => None
  end.
(** NeuralNetwork.cpp:315-342: overload with two parameters. *)
Definition modifyConnections2 (m : modification) (mean sigma : R) (net : network) : option network :=
  let o := outputLayer net in
  match m with
  | MS_PRECONDITIONOUTPUT => Some
      (for_up (numNeurons net o) (fun i s =>
         let s := for_up (prevNeurons net o) (fun j s =>
           set_neuron s o i (fun n => with_weight j (n_weights n j * sigma) n)) s in
         set_neuron s o i (fun n => with_bias (n_bias n + mean) n)) net)
  | _ => None
  end.

(** NeuralNetwork.cpp:898-937 resetNeuronStatistics, getNeuronStatistics (the
    five output arrays as one list of tuples, in the order of iNeuron). *)
Definition resetNeuronStatistics (net : network) : network :=
  for_up (numLayers net) (fun i s =>
    for_up (numNeurons s i) (fun j s => set_neuron s i j (fun n =>
      mkNeuron 0 (n_x n) (n_value n) (n_dfdx n) (n_d2fdx2 n) (n_bias n) (n_dxdG n)
               nn_dbl_max (- nn_dbl_max) 0 0 (n_weights n))) s) net.
Definition getNeuronStatistics (net : network) : list (nat * R * R * R * R) :=
  for_up (numLayers net) (fun i l =>
    for_up (numNeurons net i) (fun j l =>
      let n := neurons net i j in
      l ++ [(n_count n, n_min n, n_max n, n_sum n, n_sum2 n)]) l) [].

(** NeuralNetwork.cpp:529-591 writeConnections: the data rows
    (value, is_weight, index, l_s, n_s, Some (l_e, n_e) for weights). *)
Record conn_row := mkRow {
  row_value : R; row_isweight : bool; row_index : nat; row_ls : nat; row_ns : nat;
  row_end : option (nat * nat)
}.
Definition writeConnections (net : network) : list conn_row :=
  snd (for_range 1 (numLayers net) (fun i st =>
    let st := for_up (prevNeurons net i) (fun j st =>
                for_up (numNeurons net i) (fun k st =>
                  let count := S (fst st) in
                  (count, snd st ++ [mkRow (n_weights (neurons net i k) j) true count (i - 1) (j + 1)
                                           (Some (i, (k + 1)%nat))])) st) st in
    for_up (numNeurons net i) (fun j st =>
      let count := S (fst st) in
      (count, snd st ++ [mkRow (n_bias (neurons net i j)) false count i (j + 1) None])) st)
  (0%nat, [])).

(** NeuralNetwork.cpp:1078-1098 activationFromString. *)
Definition activationFromString (c : str) : option activation :=
  if str_eqb c (lit "l") then Some AF_IDENTITY
  else if str_eqb c (lit "t") then Some AF_TANH
  else if str_eqb c (lit "s") then Some AF_LOGISTIC
  else if str_eqb c (lit "p") then Some AF_SOFTPLUS
  else if str_eqb c (lit "r") then Some AF_RELU
  else if str_eqb c (lit "g") then Some AF_GAUSSIAN
  else if str_eqb c (lit "c") then Some AF_COS
  else if str_eqb c (lit "S") then Some AF_REVLOGISTIC
  else if str_eqb c (lit "e") then Some AF_EXP
  else if str_eqb c (lit "h") then Some AF_HARMONIC
  else None.
