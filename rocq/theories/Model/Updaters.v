(** Model of the weight update algorithms: KalmanFilter (src/libnnptrain/KalmanFilter.cpp) and
    GradientDescent (src/libnnptrain/GradientDescent.cpp).

    Numbers are reals instead of [double].  An Eigen matrix is a function of two indices together with its
    sizes; entries outside the sizes are never read.  Timing (Stopwatch) calls and the log output are left out.
    Eigen's [A.inverse()] is the parameter [inv]; the theorems assume that it returns the inverse of every
    non-singular matrix. *)
From Coq Require Import Reals List Arith.
From Verif Require Import Base.SumR Base.Loop.
Import ListNotations.
Open Scope R_scope.

Definition matrix := nat -> nat -> R.
Definition vector := nat -> R.

(** src/libnnptrain/KalmanFilter.h:35-43, enum KalmanType. *)
Inductive ktype := KT_STANDARD | KT_FADINGMEMORY.

(** src/libnnptrain/KalmanFilter.h:194-237, data members; [k_w] is the array behind the map [w]. *)
Record kalman := mkKalman {
  k_type : ktype; k_n : nat; k_num : nat;
  k_eps : R; k_q : R; k_q0 : R; k_qtau : R; k_qmin : R;
  k_eta : R; k_eta0 : R; k_etatau : R; k_etamax : R;
  k_lambda : R; k_nu : R; k_gamma : R;
  k_P : matrix; k_K : matrix; k_w : vector }.

Definition identity : matrix := fun i j => if Nat.eqb i j then 1 else 0.

(** src/libnnptrain/KalmanFilter.cpp:27-70, constructor, and setState 82-87 with the array [w].
    An exception is [None]. *)
Definition new_kalman (n : nat) (type : ktype) (w : vector) : option kalman :=
  if Nat.ltb n 1 then None
  else Some (mkKalman type n 0 0 0 0 0 0 0 0 0 0 0 0 0 identity (fun _ _ => 0) w).

(** src/libnnptrain/KalmanFilter.cpp:199-220. *)
Definition setParametersStandard (epsilon q0 qtau qmin eta0 etatau etamax : R) (k : kalman) : kalman :=
  mkKalman (k_type k) (k_n k) (k_num k)
    epsilon q0 q0 qtau qmin
    eta0 eta0 etatau etamax
    (k_lambda k) (k_nu k) (k_gamma k)
    (fun i j => k_P k i j / epsilon) (k_K k) (k_w k).

(** src/libnnptrain/KalmanFilter.cpp:222-241. *)
Definition setParametersFadingMemory (epsilon q0 qtau qmin lambda nu : R) (k : kalman) : kalman :=
  mkKalman (k_type k) (k_n k) (k_num k)
    epsilon q0 q0 qtau qmin
    (k_eta k) (k_eta0 k) (k_etatau k) (k_etamax k)
    lambda nu 1
    (fun i j => k_P k i j / epsilon) (k_K k) (k_w k).

(** What the caller supplies before an update: number of observations, Jacobian (setJacobian 110-116,
    [sizeState] rows and [o_m] columns) and error vector (setError 96-101). *)
Record observation := mkObs { o_m : nat; o_H : matrix; o_xi : vector }.

Section Update.
Variable inv : nat -> matrix -> matrix.

(** Product with P.selfadjointView<Lower>(): only the lower triangle of P is read (line 136). *)
Definition mulLower (n : nat) (P H : matrix) : matrix :=
  fun i k => sumn n (fun j => (if Nat.ltb i j then P j i else P i j) * H j k).

(** src/libnnptrain/KalmanFilter.cpp:126-197. *)
Definition kalman_update (o : observation) (k : kalman) : kalman :=
  let n := k_n k in let m := o_m o in let H := o_H o in
  let X := mulLower n (k_P k) H in
  let A0 : matrix := fun i j => sumn n (fun l => H l i * X l j) in
  let eta := match k_type k with
             | KT_STANDARD => if Rlt_dec (k_eta k) (k_etamax k) then k_eta k * exp (k_etatau k) else k_eta k
             | KT_FADINGMEMORY => k_eta k
             end in
  let noise := match k_type k with KT_STANDARD => 1 / eta | KT_FADINGMEMORY => k_lambda k end in
  let A : matrix := fun i j => if Nat.eqb i j then A0 i j + noise else A0 i j in
  let Ainv := inv m A in
  let K : matrix := fun i j => sumn m (fun l => X i l * Ainv l j) in
  let P1 : matrix := fun i j => k_P k i j - sumn m (fun l => K i l * X j l) in
  let P2 : matrix := match k_type k with
                     | KT_STANDARD => P1
                     | KT_FADINGMEMORY => fun i j => P1 i j * (1 / k_lambda k)
                     end in
  let P3 : matrix := fun i j => if Nat.eqb i j then P2 i j + k_q k else P2 i j in
  let w : vector := fun i => k_w k i + sumn m (fun l => K i l * o_xi o l) in
  let q := if Rlt_dec (k_qmin k) (k_q k) then k_q k * exp (- k_qtau k) else k_q k in
  let lambda := match k_type k with
                | KT_STANDARD => k_lambda k
                | KT_FADINGMEMORY => k_nu k * k_lambda k + 1 - k_nu k
                end in
  let gamma := match k_type k with
               | KT_STANDARD => k_gamma k
               | KT_FADINGMEMORY => 1 / (1 + lambda / k_gamma k)
               end in
  mkKalman (k_type k) n (S (k_num k))
    (k_eps k) q (k_q0 k) (k_qtau k) (k_qmin k)
    eta (k_eta0 k) (k_etatau k) (k_etamax k)
    lambda (k_nu k) gamma P3 K w.

(** A history of updates, oldest first. *)
Definition kalman_run (os : list observation) (k : kalman) : kalman :=
  fold_left (fun k o => kalman_update o k) os k.
End Update.

(** src/libnnptrain/GradientDescent.h:33-40, enum DescentType. *)
Inductive dtype := DT_FIXED | DT_ADAM.

(** src/libnnptrain/GradientDescent.h:116-143, data members; [g_w] is the array behind [state].
    [eta0] has no value before setParametersAdam; the model starts it at 0. *)
Record descent := mkDescent {
  g_type : dtype; g_n : nat;
  g_eta : R; g_eta0 : R; g_beta1 : R; g_beta2 : R; g_eps : R; g_beta1t : R; g_beta2t : R;
  g_m : vector; g_v : vector; g_w : vector }.

(** src/libnnptrain/GradientDescent.cpp:25-56, constructor, and setState 58-63. *)
Definition new_descent (n : nat) (type : dtype) (w : vector) : option descent :=
  if Nat.ltb n 1 then None
  else Some (mkDescent type n 0 0 0 0 0 0 0 (fun _ => 0) (fun _ => 0) w).

(** src/libnnptrain/GradientDescent.cpp:120-125. *)
Definition setParametersFixed (eta : R) (g : descent) : descent :=
  mkDescent (g_type g) (g_n g) eta (g_eta0 g) (g_beta1 g) (g_beta2 g) (g_eps g) (g_beta1t g) (g_beta2t g)
    (g_m g) (g_v g) (g_w g).

(** src/libnnptrain/GradientDescent.cpp:127-142. *)
Definition setParametersAdam (eta beta1 beta2 epsilon : R) (g : descent) : descent :=
  mkDescent (g_type g) (g_n g) eta eta beta1 beta2 epsilon beta1 beta2 (g_m g) (g_v g) (g_w g).

(** Body of the loop of the fixed step size (lines 85-88). *)
Definition fixed_step (error : R) (gradient : vector) (i : nat) (g : descent) : descent :=
  mkDescent (g_type g) (g_n g) (g_eta g) (g_eta0 g) (g_beta1 g) (g_beta2 g) (g_eps g) (g_beta1t g) (g_beta2t g)
    (g_m g) (g_v g)
    (upd (g_w g) i (g_w g i - g_eta g * error * - gradient i)).

(** Body of the loop of Adam (lines 92-110). *)
Definition adam_step (error : R) (gradient : vector) (i : nat) (g : descent) : descent :=
  let gi := error * - gradient i in
  let m := upd (g_m g) i (g_beta1 g * g_m g i + (1 - g_beta1 g) * gi) in
  let v := upd (g_v g) i (g_beta2 g * g_v g i + (1 - g_beta2 g) * gi * gi) in
  let eta := g_eta0 g * sqrt (1 - g_beta2t g) / (1 - g_beta1t g) in
  mkDescent (g_type g) (g_n g) eta (g_eta0 g) (g_beta1 g) (g_beta2 g) (g_eps g) (g_beta1t g) (g_beta2t g)
    m v (upd (g_w g) i (g_w g i - eta * m i / (sqrt (v i) + g_eps g))).

(** src/libnnptrain/GradientDescent.cpp:81-118, with the error and the gradient given by setError 65-71 and
    setJacobian 73-79. *)
Definition descent_update (o : R * vector) (g : descent) : descent :=
  match g_type g with
  | DT_FIXED => for_up (g_n g) (fixed_step (fst o) (snd o)) g
  | DT_ADAM =>
      let g' := for_up (g_n g) (adam_step (fst o) (snd o)) g in
      mkDescent (g_type g') (g_n g') (g_eta g') (g_eta0 g') (g_beta1 g') (g_beta2 g') (g_eps g')
        (g_beta1t g' * g_beta1 g') (g_beta2t g' * g_beta2 g') (g_m g') (g_v g') (g_w g')
  end.

Definition descent_run (os : list (R * vector)) (g : descent) : descent :=
  fold_left (fun g o => descent_update o g) os g.
