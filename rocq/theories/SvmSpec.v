(** What training a support vector machine should achieve, stated on the dual
    problem itself: minimise [objective] over the points that are [feasible]. *)
From Coq Require Import QArith List Bool Arith Sorting Permutation.
From Verif Require Import SvmModel.
Import ListNotations.
Local Open Scope Q_scope.

(** The options the library accepts (svm_options.hpp) and responses of plus or
    minus one. *)
Record well_posed (p : problem) : Prop := {
  wp_C : 0 < C p;
  wp_tol : 0 < tol p;
  wp_tau : 0 < tau p;
  wp_y : forall k, (k < size p)%nat -> y p k = 1 \/ y p k = -(1) }.

Definition sorts (p : problem) (srt : sorter) : Prop :=
  forall g, Permutation (srt g) (seq 0 (size p)) /\
            StronglySorted (fun a b => g a <= g b) (srt g).

Definition in_box (p : problem) (al : vec) : Prop :=
  forall k, (k < size p)%nat -> 0 <= al k <= C p.
Definition balanced (p : problem) (al : vec) : Prop :=
  sum (fun k => y p k * al k) (seq 0 (size p)) == 0.
Definition feasible (p : problem) (al : vec) : Prop := in_box p al /\ balanced p al.

(** Gradient of the dual objective, up to the sign of the response. *)
Definition true_gradient (p : problem) (al : vec) (k : nat) : Q :=
  lin p k + sum (fun m => (y p m * al m) * kk p k m) (seq 0 (size p)).

Definition objective (p : problem) (al : vec) : Q :=
  sum (fun k => (y p k * al k) * (lin p k +
         (1 # 2) * sum (fun m => (y p m * al m) * kk p k m) (seq 0 (size p))))
    (seq 0 (size p)).

Definition symmetric (p : problem) : Prop :=
  forall a b, (a < size p)%nat -> (b < size p)%nat -> kk p a b == kk p b a.
Definition psd (p : problem) : Prop :=
  forall d : vec, 0 <= sum (fun k => d k * sum (fun m => d m * kk p k m) (seq 0 (size p)))
                    (seq 0 (size p)).

(** The largest violation of the optimality conditions is below [t]: a variable
    that may grow along its response against one that may shrink. *)
Definition can_rise (p : problem) (al : vec) (k : nat) : Prop :=
  (y p k = 1 /\ al k < C p) \/ (y p k = -(1) /\ 0 < al k).
Definition can_fall (p : problem) (al : vec) (k : nat) : Prop :=
  (y p k = 1 /\ 0 < al k) \/ (y p k = -(1) /\ al k < C p).
Definition gap_below (p : problem) (al : vec) (t : Q) : Prop :=
  forall u v, (u < size p)%nat -> (v < size p)%nat ->
    can_rise p al u -> can_fall p al v ->
    true_gradient p al v - true_gradient p al u < t.

(** A working set: distinct variables of the problem. *)
Definition working_set (p : problem) (l : list nat) : Prop :=
  NoDup l /\ forall k, In k l -> (k < size p)%nat.

(** It holds the most violating pair. *)
Definition holds_extremes (p : problem) (al g : vec) (l : list nat) : Prop :=
  (forall u, (u < size p)%nat -> can_rise p al u ->
     exists i, In i l /\ can_rise p al i /\ g i <= g u) /\
  (forall v, (v < size p)%nat -> can_fall p al v ->
     exists j, In j l /\ can_fall p al j /\ g v <= g j).

(** The state after [n] rounds when nothing stops the loop: every state the
    training loop goes through is one of these. *)
Fixpoint rounds (p : problem) (srt : sorter) (n : nat) : state :=
  match n with
  | O => start p
  | S m => fst (round p srt m (rounds p srt m))
  end.

(** The decision value before small coefficients are dropped. *)
Definition exact_decision (p : problem) (al : vec) (b : Q) (kx : nat -> Q) : Q :=
  b + sum (fun k => (y p k * al k) * kx k) (seq 0 (size p)).

(** A sorter for the examples: insertion sort of the indices. *)
Fixpoint insert_by (g : vec) (k : nat) (l : list nat) : list nat :=
  match l with
  | [] => [k]
  | m :: l' => if Qle_bool (g k) (g m) then k :: l else m :: insert_by g k l'
  end.
Definition insertion (n : nat) : sorter := fun g => fold_right (insert_by g) [] (seq 0 n).
