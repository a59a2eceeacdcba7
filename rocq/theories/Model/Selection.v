(** Model of the choice of training data in src/libnnptrain/Training.cpp: selectSets, sortUpdateCandidates,
    shuffleUpdateCandidates, setEpochSchedule and the selection part of update.

    Random numbers of [0,1) are a sequence given from outside; std::shuffle is any function that permutes its argument;
    std::sort is any function that returns a sorted permutation.  The predictions of the networks enter only as the
    relative error of a candidate. *)
From Coq Require Import List Arith Reals Bool.
From Verif Require Import Model.SymFunctions.
Import ListNotations.

(** src/libnnp/Structure.h:42-56. *)
Inductive sampleType := ST_UNKNOWN | ST_TRAINING | ST_VALIDATION | ST_TEST.
Inductive nnpType := HDNNP_2G | HDNNP_4G | HDNNP_Q.
(** A structure as far as selectSets looks at it: [s_atoms] are the [index] members of the atoms. *)
Record tstructure := mkT { s_sample : sampleType; s_numAtoms : nat; s_atoms : list nat; s_perElement : list nat }.

(** src/libnnptrain/Training.h:369-402. *)
Record subCandidate := mkSub { sub_a : nat; sub_c : nat; sub_error : R }.
Record candidate := mkCand { c_s : nat; c_error : R; c_posSub : nat; c_subs : list subCandidate }.
(** Counters and candidates of one property. *)
Record patterns := mkPat { pt_train : nat; pt_test : nat; pt_cands : list candidate }.
Definition addTest (n : nat) (p : patterns) : patterns := mkPat (pt_train p) (pt_test p + n) (pt_cands p).
Definition addTrain (n : nat) (p : patterns) : patterns := mkPat (pt_train p + n) (pt_test p) (pt_cands p).
(** updateCandidates.push_back(UpdateCandidate()); updateCandidates.back().s = i (other members: arbitrary, here 0). *)
Definition pushCand (i : nat) (p : patterns) : patterns := mkPat (pt_train p) (pt_test p) (pt_cands p ++ [mkCand i 0 0 []]).
(** updateCandidates.back().subCandidates.push_back(...); [None]: back() of an empty vector. *)
Definition pushSub (a c : nat) (p : patterns) : option patterns :=
  match rev (pt_cands p) with
  | [] => None
  | last :: before =>
      Some (mkPat (pt_train p) (pt_test p)
             (rev before ++ [mkCand (c_s last) (c_error last) (c_posSub last) (c_subs last ++ [mkSub a c 0])]))
  end.
Definition when (b : bool) (f : patterns -> option patterns) (p : option patterns) : option patterns :=
  match p with None => None | Some p => if b then f p else Some p end.

Section SelectSets.
Variables (nnp : nnpType) (hasEnergy hasForce hasCharge : bool) (numElements : nat) (testFraction : R).
Definition is4G : bool := match nnp with HDNNP_4G => true | _ => false end.

(** Lines 109-115. *)
Definition assign (draw : nat -> R) (k : nat) (t : sampleType) : sampleType * nat :=
  match t with
  | ST_UNKNOWN => ((if ltR (draw k) testFraction then ST_TEST else ST_TRAINING), S k)
  | _ => (t, k)
  end.
(** Lines 144-172: force candidates of structure i. *)
Definition forceCandidates (i : nat) (s : tstructure) (p : patterns) : option patterns :=
  let p := addTrain (3 * s_numAtoms s) p in
  let p := if is4G then pushCand i p else p in
  ofold (fun a p => ofold (fun j p => let p := if is4G then p else pushCand i p in pushSub a j p) (seq 0 3) p) (s_atoms s) p.
(** Lines 174-200: charge candidates of structure i. *)
Definition chargeCandidates (i : nat) (s : tstructure) (p : patterns) : option patterns :=
  if is4G then Some (pushCand i (addTrain 1 p))
  else ofold (fun a p => pushSub a 0 (pushCand i p)) (s_atoms s) (addTrain (s_numAtoms s) p).
(** State of the loop: random numbers used, sample types decided, the three properties. *)
Record sstate := mkSS { ss_draws : nat; ss_types : list sampleType; ss_energy : patterns; ss_force : patterns; ss_charge : patterns }.
(** Lines 105-208: structure i ([None]: exception). *)
Definition selectOne (draw : nat -> R) (is : nat * tstructure) (st : sstate) : option sstate :=
  let '(i, s) := is in
  let '(t, k) := assign draw (ss_draws st) (s_sample s) in
  let types := ss_types st ++ [t] in
  match t with
  | ST_TEST =>
      let na := s_numAtoms s in
      Some (mkSS k types (if hasEnergy then addTest 1 (ss_energy st) else ss_energy st)
                         (if hasForce then addTest (3 * na) (ss_force st) else ss_force st)
                         (if hasCharge then addTest (if is4G then 1 else na) (ss_charge st) else ss_charge st))
  | ST_TRAINING =>
      if Nat.ltb (length (s_perElement s)) numElements then None
      else
        match when hasEnergy (fun p => Some (pushCand i (addTrain 1 p))) (Some (ss_energy st)),
              when hasForce (forceCandidates i s) (Some (ss_force st)),
              when hasCharge (chargeCandidates i s) (Some (ss_charge st)) with
        | Some e, Some f, Some q => Some (mkSS k types e f q)
        | _, _, _ => None
        end
  | _ => Some (mkSS k types (ss_energy st) (ss_force st) (ss_charge st))
  end.
(** src/libnnptrain/Training.cpp:82-228, on one process (the sums over processes of the pattern counts, lines 213-217, and
    messages are left out). *)
Definition selectSets (draw : nat -> R) (structures : list tstructure) : option sstate :=
  ofold (selectOne draw) (combine (seq 0 (length structures)) structures)
        (mkSS 0 [] (mkPat 0 0 []) (mkPat 0 0 []) (mkPat 0 0 [])).
End SelectSets.

(** src/libnnptrain/Training.cpp:2086-2112.  [numUpdates] are the planned updates of the properties pk, in their order. *)
Definition setEpochSchedule (shuffle : list nat -> list nat) (numUpdates : list nat) : list nat :=
  let schedule := concat (map (fun i => repeat i (nth i numUpdates 0)) (rev (seq 0 (length numUpdates)))) in
  if Nat.eqb (length numUpdates) 1 then schedule else shuffle schedule.

(** * Choice of a candidate *)
Inductive selectionMode := SM_RANDOM | SM_SORT | SM_THRESHOLD.
(** The part of Property used by the selection. *)
Record prop := mkProp {
  u_mode : selectionMode; u_threshold : R; u_trials : nat;
  u_pos : nat; u_cands : list candidate; u_numGrouped : nat; u_countGrouped : nat }.
Definition setPos (n : nat) (u : prop) : prop := mkProp (u_mode u) (u_threshold u) (u_trials u) n (u_cands u) (u_numGrouped u) (u_countGrouped u).
Definition setCands (l : list candidate) (u : prop) : prop := mkProp (u_mode u) (u_threshold u) (u_trials u) (u_pos u) l (u_numGrouped u) (u_countGrouped u).
Definition setCandPos (k n : nat) (l : list candidate) : list candidate :=
  firstn k l ++ match skipn k l with [] => [] | c :: r => mkCand (c_s c) (c_error c) n (c_subs c) :: r end.

(** src/libnnptrain/Training.cpp:2008-2060; [err] and [serr] are the errors computed in lines 2011-2041. *)
Definition sortUpdateCandidates (sortC : list candidate -> list candidate) (sortS : list subCandidate -> list subCandidate)
    (err : candidate -> R) (serr : candidate -> subCandidate -> R) (u : prop) : prop :=
  let withErr := map (fun c => mkCand (c_s c) (err c) (c_posSub c) (map (fun x => mkSub (sub_a x) (sub_c x) (serr c x)) (c_subs c))) (u_cands u) in
  let sorted := sortC withErr in
  setPos 0 (setCands (map (fun c => mkCand (c_s c) (c_error c) 0 (if Nat.ltb 0 (length (c_subs c)) then sortS (c_subs c) else c_subs c)) sorted) u).
(** src/libnnptrain/Training.cpp:2062-2084; the k-th shuffle of sub-candidates may use other random numbers. *)
Definition shuffleUpdateCandidates (shuffleC : list candidate -> list candidate) (shuffleS : candidate -> list subCandidate -> list subCandidate) (u : prop) : prop :=
  setPos 0 (setCands (map (fun c => mkCand (c_s c) (c_error c) 0 (if Nat.ltb 0 (length (c_subs c)) then shuffleS c (c_subs c) else c_subs c)) (shuffleC (u_cands u))) u).

(** Result of the selection for one batch element: the property afterwards, positions of the candidate [c] and of the
    sub-candidate [sC] used for the update, the position kept for the log (currentUpdateCandidates) and the number of trials
    made before the loop ended (il). *)
Record selected := mkSel { x_prop : prop; x_cand : nat; x_sub : option nat; x_log : nat; x_il : nat }.

Section Select.
Variable useSub : bool.
(** Relative error of a candidate (lines 2349-2440). *)
Variable frac : candidate -> option subCandidate -> R.

(** Lines 2313-2342: set c, sC and the position kept for the log; [None]: at() throws. *)
Definition pick (u : prop) : option (prop * nat * option nat * nat) :=
  let u := if Nat.leb (length (u_cands u)) (u_pos u) then setPos 0 u else u in
  match nth_error (u_cands u) (u_pos u) with
  | None => None
  | Some c =>
      let ps := if Nat.leb (length (c_subs c)) (c_posSub c) then 0 else c_posSub c in
      let u := setCands (setCandPos (u_pos u) ps (u_cands u)) u in
      if useSub
      then if Nat.ltb ps (length (c_subs c)) then Some (u, u_pos u, Some ps, ps) else None
      else Some (u, u_pos u, (if Nat.ltb 0 (length (c_subs c)) then Some 0 else None), u_pos u)
  end.
(** Increment of the position posCandidates points to. *)
Definition advancePos (u : prop) (k : nat) : prop :=
  if useSub then
    match nth_error (u_cands u) k with
    | None => u
    | Some c => setCands (setCandPos k (S (c_posSub c)) (u_cands u)) u
    end
  else setPos (S (u_pos u)) u.
Definition fracAt (u : prop) (k : nat) (s : option nat) : R :=
  match nth_error (u_cands u) k with
  | None => 0
  | Some c => frac c (match s with None => None | Some j => nth_error (c_subs c) j end)
  end.

(** Lines 2302-2475: [n] trials left, [il] made; [last]: c and sC of the previous trial. *)
Fixpoint trialLoop (n il : nat) (u : prop) (best : nat) (bestFrac : R) (last : option (nat * option nat)) : option selected :=
  match n with
  | O =>
      (* lines 2480-2493: all trials made; the best position is only used for the log. *)
      match last with
      | None => None
      | Some (k, s) => Some (mkSel u k s best il)
      end
  | S n =>
      match pick u with
      | None => None
      | Some (u, k, s, p) =>
          match u_mode u with
          | SM_THRESHOLD =>
              let f := fracAt u k s in
              if ltR (u_threshold u) f
              then Some (mkSel (advancePos u k) k s p il)
              else
                let '(best, bestFrac) := if ltR bestFrac f then (p, f) else (best, bestFrac) in
                trialLoop n (S il) (advancePos u k) best bestFrac (Some (k, s))
          | _ => Some (mkSel (advancePos u k) k s p il)
          end
      end
  end.
(** Lines 2287-2493 for one batch element. *)
Definition select (u : prop) : option selected :=
  trialLoop (match u_mode u with SM_THRESHOLD => u_trials u | _ => 1 end) 0 u 0 0 None.
End Select.

(** One call of update, as far as the selection is concerned: [batch] selections, then lines 3143-3151.  [grouped c] is the number of
    sub-candidates of c used before going on (line 2501, smallest value over all processes).  Result: candidates used, with the sub-candidates. *)
Fixpoint selectBatch (useSub : bool) (frac : candidate -> option subCandidate -> R) (grouped : candidate -> nat) (batch : nat) (u : prop)
  : option (list (nat * option nat) * prop) :=
  match batch with
  | O => Some ([], u)
  | S batch =>
      match select useSub frac u with
      | None => None
      | Some x =>
          let u := x_prop x in
          let u := if useSub then
                     mkProp (u_mode u) (u_threshold u) (u_trials u) (u_pos u) (u_cands u)
                       (if Nat.eqb (u_countGrouped u) 0 then match nth_error (u_cands u) (x_cand x) with None => 0 | Some c => grouped c end else u_numGrouped u)
                       (u_countGrouped u + 1)
                   else u in
          match selectBatch useSub frac grouped batch u with
          | None => None
          | Some (l, u) => Some ((x_cand x, x_sub x) :: l, u)
          end
      end
  end.
Definition updateSelection (useSub : bool) (frac : candidate -> option subCandidate -> R) (grouped : candidate -> nat) (batch : nat) (u : prop)
  : option (list (nat * option nat) * prop) :=
  match selectBatch useSub frac grouped batch u with
  | None => None
  | Some (l, u) =>
      if Nat.leb (u_numGrouped u) (u_countGrouped u) && useSub
      then if Nat.ltb (u_pos u) (length (u_cands u))
           then Some (l, mkProp (u_mode u) (u_threshold u) (u_trials u) (S (u_pos u)) (u_cands u) 0 0)
           else None
      else Some (l, u)
  end.
(** The updates of this property in one epoch (lines 2210-2215). *)
Fixpoint epochSelection (useSub : bool) (frac : nat -> candidate -> option subCandidate -> R) (grouped : candidate -> nat) (batch : nat) (n : nat) (u : prop)
  : option (list (nat * option nat) * prop) :=
  match n with
  | O => Some ([], u)
  | S n =>
      match updateSelection useSub (frac n) grouped batch u with
      | None => None
      | Some (l, u) => match epochSelection useSub frac grouped batch n u with None => None | Some (l', u) => Some (l ++ l', u) end
      end
  end.
