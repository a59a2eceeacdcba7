(** Model of src/application/nnp-select.cpp. *)
From Coq Require Import List Arith Bool String.
From Coq Require Import List.
From Verif Require Import Model.Strings Model.SymFunctions.
Import ListNotations.

(** Lines 47-96: selection mode; [SelRandom draw]: outcome of rand() / RAND_MAX <= ratio for the k-th call. *)
Inductive selmode := SelRandom (draw : nat -> bool) | SelInterval (interval : nat).

(** Lines 48-50: writeStructure, countStructures, countSelected, and the files and structures logged as selected. *)
Record selstate := mkSel { sel_write : bool; sel_count : nat; sel_selected : nat; sel_log : list nat; sel_out : list str; sel_reject : list str }.
Definition sel0 : selstate := mkSel false 0 0 [] [] [].

(** Lines 107-125: countStructures % interval with interval 0 is undefined ([None]). *)
Definition decide (mode : selmode) (count : nat) : option bool :=
  match mode with
  | SelInterval interval => match interval with O => None | _ => Some (Nat.eqb (Nat.modulo count interval) 0) end
  | SelRandom draw => Some (draw count)
  end.
(** Lines 103-136: one line; at(0) of the words of an empty line throws ([None]). *)
Definition selectLine (mode : selmode) (line : str) (st : selstate) : option selstate :=
  match split (reduce line) ch_space with
  | [] => None
  | w :: _ =>
      match (if str_eqb w (lit "begin") then
               match decide mode (sel_count st) with
               | None => None
               | Some b =>
                   let count := S (sel_count st) in
                   Some (if b then mkSel b count (S (sel_selected st)) (sel_log st ++ [count]) (sel_out st) (sel_reject st)
                         else mkSel b count (sel_selected st) (sel_log st) (sel_out st) (sel_reject st))
               end
             else Some st) with
      | None => None
      | Some st =>
          Some (if sel_write st
                then mkSel (sel_write st) (sel_count st) (sel_selected st) (sel_log st) (sel_out st ++ [line]) (sel_reject st)
                else mkSel (sel_write st) (sel_count st) (sel_selected st) (sel_log st) (sel_out st) (sel_reject st ++ [line]))
      end
  end.
Definition nnpSelect (mode : selmode) (lines : list str) : option selstate := ofold (selectLine mode) lines sel0.
