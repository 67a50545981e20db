(** Parallel loops.  An iteration is the list of its steps; a parallel region is the list of its
    iterations; an execution of the region is any interleaving of them.  Which thread runs which
    iteration, and in what order, only restricts the interleavings, so a statement about all
    interleavings holds for every number of threads and every OpenMP schedule. *)
From Coq Require Import List Permutation ZArith Lia.
Import ListNotations.

Inductive interleaving {A} : list (list A) -> list A -> Prop :=
| inter_done : forall ts, Forall (fun t => t = []) ts -> interleaving ts []
| inter_step : forall pre a t post tr,
    interleaving (pre ++ t :: post) tr -> interleaving (pre ++ (a :: t) :: post) (a :: tr).

(** Regions executed one after the other. *)
Inductive regions {A} : list (list (list A)) -> list A -> Prop :=
| regions_nil : regions [] []
| regions_cons : forall r rs t ts, interleaving r t -> regions rs ts ->
    regions (r :: rs) (t ++ ts).

Lemma interleaving_perm {A} (ts : list (list A)) tr :
  interleaving ts tr -> Permutation (concat ts) tr.
Proof.
  induction 1 as [ts H|pre a t post tr H IH].
  - induction H as [|x l -> H IH]; simpl; auto.
  - rewrite concat_app in *. cbn [concat app] in *.
    rewrite <- IH. symmetry. apply Permutation_middle.
Qed.

Lemma regions_perm {A} (rs : list (list (list A))) tr :
  regions rs tr -> Permutation (concat (map (@concat A) rs)) tr.
Proof.
  induction 1 as [|r rs t ts H1 H2 IH]; simpl; auto.
  apply Permutation_app; auto. apply interleaving_perm; auto.
Qed.

Lemma interleaving_single {A} (l : list A) : interleaving [l] l.
Proof.
  induction l as [|a l IH].
  - apply inter_done. auto.
  - apply (inter_step [] a l []). exact IH.
Qed.

(** There is always an execution: run the iterations in order. *)
Lemma interleaving_seq {A} (ts : list (list A)) : interleaving ts (concat ts).
Proof.
  assert (H : forall pre, Forall (fun t => t = []) pre -> interleaving (pre ++ ts) (concat ts)).
  { induction ts as [|t ts IH]; intros pre Hp; simpl.
    - rewrite app_nil_r. apply inter_done; auto.
    - induction t as [|a t IHt]; simpl.
      + specialize (IH (pre ++ [[]])). rewrite <- app_assoc in IH. apply IH.
        apply Forall_app; auto.
      + apply inter_step. exact IHt. }
  apply (H []); auto.
Qed.

Lemma regions_seq {A} (rs : list (list (list A))) :
  regions rs (concat (map (@concat A) rs)).
Proof. induction rs; simpl; constructor; auto. apply interleaving_seq. Qed.

(** Counting from 0 to n-1 ([for (da_int i = 0; i < n; ++i)]). *)
Definition zrange (n : Z) : list Z := map Z.of_nat (seq 0 (Z.to_nat n)).

Lemma in_zrange n i : In i (zrange n) <-> (0 <= i < n)%Z.
Proof.
  unfold zrange. rewrite in_map_iff. split.
  - intros (k & <- & H). apply in_seq in H. lia.
  - intros H. exists (Z.to_nat i). split; [lia|]. apply in_seq. lia.
Qed.

Lemma zrange_len n : length (zrange n) = Z.to_nat n.
Proof. unfold zrange. rewrite map_length, seq_length. auto. Qed.

Lemma zrange_nodup n : NoDup (zrange n).
Proof.
  unfold zrange. apply FinFun.Injective_map_NoDup; [intros a b; lia|apply seq_NoDup].
Qed.
