(** What a handle of nearest neighbours owes its user. *)
From Coq Require Import ZArith List Bool.
From Verif Require Import Base NnSessionModel.
Import ListNotations.
Local Open Scope Z_scope.

(** The distances a metric stands for: the root of the sum of squares for the Euclidean ones. *)
Definition promised (m : nn_metric) (p : Z) (c : kind) : Prop :=
  match m with
  | NEuclidean => c = Roots NSqeuclidean p
  | NEuclideanGemm => c = Roots NSqeuclideanGemm p
  | NMinkowski => if p =? 4 then c = Roots NSqeuclidean p else c = Values NMinkowski p
  | m => c = Values m p
  end.
(** The data calls of a program carry different numbers (they stand for different allocations). *)
Definition data_of (cs : list call) : list Z :=
  flat_map (fun c => match c with SetData d _ _ _ _ => [d] | _ => [] end) cs.
(** Data were set while the options in force ([o] at first) asked for a metric that needs roots. *)
Fixpoint set_with_roots (o : options) (cs : list call) : bool :=
  match cs with
  | [] => false
  | SetOptions o' :: cs' => set_with_roots o' cs'
  | SetData _ _ _ _ _ :: cs' => rooted (o_metric o) (o_p o) || set_with_roots o cs'
  | Query :: cs' => set_with_roots o cs'
  end.
(** The options the automatic choice depends on are those the data were set with. *)
Definition same_options (s : session) : Prop :=
  algo s = o_algo (opts s) /\ metric s = o_metric (opts s) /\ p s = o_p (opts s) /\ leaf s = o_leaf (opts s).
