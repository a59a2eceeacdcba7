(** Extrapolation warnings in the LAMMPS interface (C59). *)
From Coq Require Import Reals List Arith String Ascii.
From Verif Require Import Base.AssocMap Model.Strings Model.Scaling Model.Transfer Model.LammpsWarnings Spec.LammpsWarningsSpec
  Proofs.LammpsWarningsProofs.
From Coq Require Import List.
Import ListNotations.

(** C59: packing fills the computed buffer size exactly, extraction uses the buffer up, and for every symmetry function the sender's warnings are
    appended to the receiver's; the other statistics of the receiver do not change. *)
Theorem C59_transfer : forall size sent mine, length mine = length sent ->
  (forall d, In d sent -> well_formed d) -> (forall d, In d mine -> well_formed d) ->
  (forall e, compatible (nth e sent []) (nth e mine [])) ->
  exists buf mine', fillEWBuffer size (getEWBufferSize size sent) sent = Some (getEWBufferSize size sent, buf) /\
    extractEWBuffer mine buf = Some (mine', []) /\ length mine' = length mine /\ (forall d, In d mine' -> well_formed d) /\
    forall e, e < length mine -> exists ls lm ls',
      getExtrapolationWarningLines (nth e sent []) = Some ls /\ getExtrapolationWarningLines (nth e mine []) = Some lm /\
      getExtrapolationWarningLines (nth e mine' []) = Some ls' /\
      ordered ls' /\ (forall k, lines_for k ls' = lines_for k lm ++ lines_for k ls) /\
      forall k, same_statistics (sd_get (nth e mine' []) k) (sd_get (nth e mine []) k).
Proof. exact transfer_warnings. Qed.
Print Assumptions C59_transfer.
Example C59_transfer_ex : well_formed (warnedData 2) /\ compatible (warnedData 3) (warnedData 2).
Proof. exact ex_compatible. Qed.

(** C59: in a time step, rank 0 writes exactly the warnings recorded by all ranks, for every element and symmetry function, in the order of ranks. *)
Theorem C59_all_warnings_written : forall size hdr, (forall e k, ~ In zero (h_symbol (hdr e k))) -> forall E ranks, ranks <> [] ->
  (forall w, In w (concat ranks) -> v_element w < E) ->
  exists out, handleExtrapolationWarnings size (map (recordWarnings hdr E) ranks) = Some out /\ length out = E /\
    forall e, e < E -> ordered (nth e out []) /\
      forall k, lines_for k (nth e out []) = map (line_for hdr) (filter (about e k) (concat ranks)).
Proof. exact all_warnings_written. Qed.
Print Assumptions C59_all_warnings_written.
Example C59_all_warnings_written_ex : (forall e k, ~ In zero (h_symbol (exHdr e k))) /\
  (forall w, In w (concat [exW1; exW2]) -> v_element w < 2) /\
  exists out, handleExtrapolationWarnings (fun _ => 8) (map (recordWarnings exHdr 2) [exW1; exW2]) = Some out /\
    map (map (fun l => (l_structure l, l_symfunc l))) out = [[(7, 3); (8, 3); (7, 6); (8, 6)]; [(7, 4)]].
Proof. exact ex_ranks. Qed.

(** C59: the condition of compatibility is needed.  A sender without any warnings, after resetExtrapolationWarnings, damages the receiver's lines. *)
Theorem C59_reset_sender_refuted : exists sent mine buf mine' lm ls', well_formed sent /\ well_formed mine /\
  countExtrapolationWarnings sent = 0 /\
  fillEWBuffer (fun _ => 8) (getEWBufferSize (fun _ => 8) [sent]) [sent] = Some (getEWBufferSize (fun _ => 8) [sent], buf) /\
  extractEWBuffer [mine] buf = Some ([mine'], []) /\
  getExtrapolationWarningLines mine = Some lm /\ getExtrapolationWarningLines mine' = Some ls' /\
  map l_element lm = [lit "H"] /\ map l_element ls' = [lit ""] /\ map l_type lm = [2] /\ map l_type ls' = [0].
Proof. exact reset_sender. Qed.
Print Assumptions C59_reset_sender_refuted.
