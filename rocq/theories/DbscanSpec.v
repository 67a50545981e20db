(** Density-based clusters, independently of how they are computed. *)
From Coq Require Import ZArith List Relations.
From Verif Require Import Base Par.
Local Open Scope Z_scope.

Section Spec.
Variable n : Z.
(** [near i j]: the samples [i] and [j] are within the radius; [dense i]: enough samples are. *)
Variable near : Z -> Z -> Prop.
Variable dense : Z -> Prop.
Definition sample (i : Z) : Prop := 0 <= i < n.
(** A core sample. *)
Definition core_sample (i : Z) : Prop := sample i /\ dense i.
(** Two core samples within the radius. *)
Definition adjacent (i j : Z) : Prop := core_sample i /\ core_sample j /\ near i j.
(** Core samples connected through core samples. *)
Definition connected : Z -> Z -> Prop := clos_refl_trans Z adjacent.
(** A sample within the radius of some core sample. *)
Definition reached (i : Z) : Prop := exists j, core_sample j /\ near j i.
Definition noise (i : Z) : Prop := ~ dense i /\ ~ reached i.

(** The clusters: core samples have the same label exactly if they are connected; clusters are numbered
    from 0 by their first core sample; the other samples within the radius of a core sample have the
    smallest of the labels of these; all others are labelled -1. *)
Definition clustering (lab : Z -> Z) (k : Z) : Prop :=
  (forall i j, core_sample i -> core_sample j -> lab i = lab j <-> connected i j) /\
  (forall i, core_sample i -> 0 <= lab i < k) /\
  (forall c, 0 <= c < k -> exists i, core_sample i /\ lab i = c) /\
  (forall i j, core_sample i -> core_sample j ->
     lab i < lab j <-> exists i', connected i i' /\ forall j', connected j j' -> i' < j') /\
  (forall i, sample i -> ~ dense i -> reached i ->
     (exists j, core_sample j /\ near j i /\ lab j = lab i) /\
     (forall j, core_sample j -> near j i -> lab i <= lab j)) /\
  (forall i, sample i -> noise i -> lab i = -1).

(** Linked through steps within the radius of a core sample. *)
Definition linked : Z -> Z -> Prop := clos_refl_sym_trans Z (fun i j => core_sample i /\ near i j).

(** The samples with a label are those in some cluster, and labels have no gaps. *)
Definition labelled_samples (lab : Z -> Z) (k : Z) : Prop :=
  (forall i, sample i -> lab i = -1 <-> noise i) /\
  (forall i, sample i -> lab i = -1 \/ 0 <= lab i < k) /\
  (forall c, 0 <= c < k -> exists i, sample i /\ lab i = c).
End Spec.

(** Neighbour lists as the radius search returns them: samples other than [i], symmetric. *)
Definition neighbour_lists (n : Z) (nb : Z -> list Z) : Prop :=
  (forall i j, 0 <= i < n -> In j (nb i) -> 0 <= j < n /\ j <> i) /\
  (forall i j, 0 <= i < n -> 0 <= j < n -> In j (nb i) -> In i (nb j)).

Definition neighbour_lists_b (n : Z) (nb : Z -> list Z) : bool :=
  forallb (fun i => forallb (fun j => (0 <=? j) && (j <? n) && negb (j =? i) && existsb (Z.eqb i) (nb j))%bool (nb i)) (zrange n).
