(** What a user of a k-means handle relies on. *)
From Coq Require Import List Bool.
From Verif Require Import Base KmSessionModel.
Import ListNotations.

Section Spec.
Context {T : Type} (zero inf : T) (lt : T -> T -> bool).
(** [r] is one of the runs, and none has a smaller inertia *)
Definition best_of (runs : list (option outcome)) (r : outcome) : Prop :=
  In (Some r) runs /\ forall r', In (Some r') runs -> lt (o_inertia r') (o_inertia r) = false.
(** the results of the handle are those of the run [r] *)
Definition results_of (h : handle) (r : @outcome T) : Prop :=
  h_best h = Best (o_centres r) (o_labels r) (o_inertia r) (o_iter r) (Nat.eqb (o_converged r) 0).
(** the runs made *)
Definition runs_made (h : @handle T) (runs : list (option (@outcome T))) : list (option outcome) :=
  firstn (if h_opt_supplied h then 1 else h_opt_init h) runs.
(** the runs give one centre per cluster and one label per sample *)
Definition proper (k nf n : nat) (r : @outcome T) : Prop := length (o_centres r) = k * nf /\ length (o_labels r) = n.
(** one of the runs has an inertia below infinity *)
Definition some_finite (runs : list (option outcome)) : Prop := exists r, In (Some r) runs /\ lt (o_inertia r) inf = true.

(** Calls by which no results get lost: a trained handle gets a new number of clusters only from a computation that succeeds,
    and initial centres are used with the numbers of clusters and features they were given for. *)
Definition calm (h : handle) (c : call) : Prop :=
  match c with
  | SetCentres _ | Refused => h_trained h = false \/ h_opt_k h = h_k h
  | Compute runs =>
      h_data h = true -> h_opt_k h <= h_n h /\ (forall r, In (Some r) runs -> proper (h_opt_k h) (h_nf h) (h_n h) r) /\
        some_finite (runs_made h runs) /\
        (h_opt_supplied h = true -> exists ldc, h_C h = Some (h_opt_k h, h_nf h, ldc))
  | _ => True
  end.
Fixpoint calm_session (h : handle) (cs : list call) : Prop :=
  match cs with
  | [] => True
  | c :: cs => calm h c /\ match step zero inf lt h c with Some (h', _) => calm_session h' cs | None => True end
  end.
End Spec.
