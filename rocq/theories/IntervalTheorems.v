(** Properties C17 and C18: selections of rows and columns (interval sets). *)
From Coq Require Import ZArith List Bool Lia.
From Verif Require Import IntervalModel IntervalSpec IntervalProofs.
Import ListNotations.
Local Open Scope Z_scope.

(** C17: after any history of range insertions and clears, lookup succeeds exactly on the union of
    the inserted ranges, the range it returns contains the key and is one of the stored ranges, the
    stored ranges are canonical, and the lookup never runs into undefined behaviour. *)
Theorem selection_is_union_of_insertions :
  forall ops, existsb is_erase ops = false ->
    canonical (pairs (run ops)) /\
    forall k,
      match find k (run ops) with
      | Found i => fold_left spec_step ops s_empty k /\ In i (run ops) /\ lower i <= k <= upper i
      | NotFound => ~ fold_left spec_step ops s_empty k
      | FindUB => False
      end.
Proof. exact selection_union_lemma. Qed.
Print Assumptions selection_is_union_of_insertions.

Example selection_union_case :
  run [OInsert (mkI 0 3); OInsert (mkI 10 12); OInsert (mkI 20 25); OInsert (mkI 4 10)]
  = [mkI 0 12; mkI 20 25].
Proof. reflexivity. Qed.

(** Insertion adds exactly the range, whatever canonical selection it is applied to. *)
Theorem insertion_refuses_only_reversed_ranges :
  forall b s, fst (insert b s) = if upper b <? lower b then invalid_input else success.
Proof. exact insert_status_lemma. Qed.
Print Assumptions insertion_refuses_only_reversed_ranges.

(** C18, behaviour of all histories including removals: the removal of a range is exact unless the
    range extends strictly beyond the whole non-empty selection on both sides; in that case nothing
    is removed. *)
Theorem selection_history_exact_behaviour :
  forall ops,
    canonical (pairs (run ops)) /\
    forall k, (exists i, find k (run ops) = Found i) <-> fold_left abs_step ops s_empty k.
Proof. exact selection_history_lemma. Qed.
Print Assumptions selection_history_exact_behaviour.

(** C18, positive part.  Missing with respect to the property: the case where the range strictly
    encloses the selection. *)
Theorem removal_exact_partial :
  forall ops lb ub, lb <= ub ->
    ~ strictly_encloses lb ub (fun k => exists i, find k (run ops) = Found i) ->
    forall k,
      (exists i, find k (run (ops ++ [OErase (mkI lb ub)])) = Found i) <->
      ((exists i, find k (run ops) = Found i) /\ ~ (lb <= k <= ub)).
Proof. exact removal_exact_lemma. Qed.
Print Assumptions removal_exact_partial.

Example removal_case :
  run [OInsert (mkI 0 9); OInsert (mkI 12 15); OErase (mkI 3 13)] = [mkI 0 2; mkI 14 15].
Proof. reflexivity. Qed.

(** C18 is false of the code: removing [0,10] from the selection {[5,6]} leaves it unchanged. *)
Theorem removal_refuted :
  exists ops lb ub k i,
    lb <= k <= ub /\ fst (erase (mkI lb ub) (run ops)) = success /\
    find k (run (ops ++ [OErase (mkI lb ub)])) = Found i.
Proof. exact removal_refuted_lemma. Qed.
Print Assumptions removal_refuted.

(** More precisely every range strictly enclosing the selection is ignored, with status success. *)
Theorem removal_of_enclosing_range_ignored :
  forall ops lb ub, lb <= ub ->
    strictly_encloses lb ub (fun k => exists i, find k (run ops) = Found i) ->
    erase (mkI lb ub) (run ops) = (success, run ops).
Proof. exact removal_ignored_lemma. Qed.
Print Assumptions removal_of_enclosing_range_ignored.

Example removal_ignored_case :
  run [OInsert (mkI 5 6); OInsert (mkI 8 8); OErase (mkI 0 10)] = [mkI 5 6; mkI 8 8].
Proof. reflexivity. Qed.
