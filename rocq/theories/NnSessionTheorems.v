(** A handle of nearest neighbours between calls: the theorems. *)
From Coq Require Import ZArith List Bool.
From Verif Require Import Base NnSessionModel NnSessionSpec NnSessionProofs.
Import ListNotations.
Local Open Scope Z_scope.

(** C76, what holds: after any history of calls, once options were set and data accepted, the neighbours are those of
    these data with the distances and the number of neighbours asked for - provided the metric needs a square root or no
    data were set with such a metric before.  Missing: handles used before with such a metric, and options changed or data
    refused afterwards, for which the claim is false. *)
Theorem session_answers_partial : forall cs o d n nf row_major s',
  ~ In d (data_of cs) ->
  rooted (o_metric o) (o_p o) = true \/ set_with_roots default_options cs = false ->
  set_data (set_options (after cs) o) d n nf row_major true = (true, s') ->
  exists c, kneighbors s' = Answer d c (o_k o) /\ promised (o_metric o) (o_p o) c.
Proof. exact answers_ok. Qed.
Print Assumptions session_answers_partial.

Example session_case :
  let cs := [SetOptions (Options AKd NManhattan 4 30 5); SetData 1 200 3 true true; SetData 2 200 3 true false; Query] in
  let o := Options ABrute NCosine 4 30 2 in
  let (ok, s') := set_data (set_options (after cs) o) 3 200 3 false true in
  ok = true /\ kneighbors s' = Answer 3 (Values NCosine 4) 2 /\ set_with_roots default_options cs = false.
Proof. vm_compute. repeat split; reflexivity. Qed.

(** C76, what holds: with the automatic algorithm an answer is given only for the options the data were set with. *)
Theorem session_automatic_locked : forall s, o_algo (opts s) = AAuto -> kneighbors s <> Refusal -> same_options s.
Proof. exact locked_ok. Qed.
Print Assumptions session_automatic_locked.

Example session_locked_case :
  let s := after [SetData 1 200 3 false true] in
  kneighbors s = Answer 1 (Roots NSqeuclidean 4) 5 /\
  kneighbors (set_options s (Options AAuto NManhattan 4 30 5)) = Refusal.
Proof. vm_compute. split; reflexivity. Qed.

(** C76: left to itself the library never takes a tree for a metric that the trees do not offer. *)
Theorem automatic_tree_offered : forall m p nf n, automatic m p nf n <> ABrute -> refused AKd m p = false /\ refused ABall m p = false.
Proof. exact automatic_offered. Qed.
Print Assumptions automatic_tree_offered.
Example automatic_case : automatic NEuclidean 4 3 200000 = AKd /\ automatic NCosine 4 3 200000 = ABrute.
Proof. vm_compute. split; reflexivity. Qed.
(** C76 is false on a handle that was used with the Euclidean metric before: the Manhattan distances are returned with
    their square roots taken. *)
Theorem session_roots_refuted :
  kneighbors (after [SetOptions (Options ABrute NEuclidean 4 30 5); SetData 1 200 3 false true;
                     SetOptions (Options ABrute NManhattan 4 30 5); SetData 2 200 3 false true])
    = Answer 2 (Roots NManhattan 4) 5 /\
  ~ promised NManhattan 4 (Roots NManhattan 4).
Proof. split; [vm_compute; reflexivity|discriminate]. Qed.
Print Assumptions session_roots_refuted.

(** C76 is false after data were refused: row-major data set before were freed and are read. *)
Theorem session_refused_data_refuted :
  fst (set_data (after [SetData 1 200 3 true true]) 2 200 3 true false) = false /\
  kneighbors (after [SetData 1 200 3 true true; SetData 2 200 3 true false]) = Freed.
Proof. vm_compute. split; reflexivity. Qed.
Print Assumptions session_refused_data_refuted.

(** C76 is false after options were changed: with brute force the metric and the number of neighbours set last are
    ignored without an error. *)
Theorem session_options_ignored_refuted :
  kneighbors (after [SetOptions (Options ABrute NEuclidean 4 30 5); SetData 1 200 3 false true;
                     SetOptions (Options ABrute NManhattan 4 30 7)]) = Answer 1 (Roots NSqeuclidean 4) 5 /\
  kneighbors (after [SetOptions (Options AKd NEuclidean 4 30 5); SetData 1 200 3 false true;
                     SetOptions (Options AKd NCosine 4 30 7)]) = Answer 1 (Roots NSqeuclidean 4) 5.
Proof. vm_compute. split; reflexivity. Qed.
Print Assumptions session_options_ignored_refuted.
