(** General facts about lists used by several developments. *)
From Coq Require Import List Lia Permutation.
Import ListNotations.

Lemma nodup_app_l {A} (l m : list A) : NoDup (l ++ m) -> NoDup l.
Proof.
  induction l as [|x l IH]; simpl; [constructor|]. intros H; inversion H; subst.
  constructor; auto. intros Hi; apply H2. rewrite in_app_iff; auto.
Qed.
Lemma nodup_app_r {A} (l m : list A) : NoDup (l ++ m) -> NoDup m.
Proof. induction l as [|x l IH]; simpl; auto. intros H; inversion H; auto. Qed.
Lemma nodup_app_disj {A} (l m : list A) x : NoDup (l ++ m) -> In x l -> In x m -> False.
Proof.
  induction l as [|y l IH]; simpl; auto. intros H; inversion H; subst. intros [->|Hl] Hm.
  - apply H2. rewrite in_app_iff; auto.
  - auto.
Qed.
Lemma nodup_app {A} (l m : list A) :
  NoDup l -> NoDup m -> (forall x, In x l -> In x m -> False) -> NoDup (l ++ m).
Proof.
  induction l as [|y l IH]; simpl; auto. intros H1 H2 H3; inversion H1; subst. constructor.
  - rewrite in_app_iff. intros [H|H]; auto. apply (H3 y); auto.
  - apply IH; auto. intros x Hx; apply H3; auto.
Qed.
Lemma in_firstn {A} (x : A) n l : In x (firstn n l) -> In x l.
Proof.
  revert l; induction n as [|n IH]; intros [|y l]; simpl; try tauto. intros [->|H]; auto.
Qed.
Lemma combine_nth_error {A B} (l : list A) (m : list B) i a b :
  nth_error l i = Some a -> nth_error m i = Some b -> In (a, b) (combine l m).
Proof.
  revert m i; induction l as [|x l IH]; intros [|y m] [|i]; simpl; try discriminate.
  - intros H1 H2; inversion H1; inversion H2; auto.
  - intros H1 H2. right. eapply IH; eauto.
Qed.

Lemma Forall2_len {A B} (P : A -> B -> Prop) l m : Forall2 P l m -> length l = length m.
Proof. induction 1; simpl; auto. Qed.

Lemma Forall2_firstn {A B} (P : A -> B -> Prop) n : forall l m,
  Forall2 P l m -> Forall2 P (firstn n l) (firstn n m).
Proof. induction n; intros l m H; simpl; auto. destruct H; auto. Qed.

Lemma Forall2_skipn {A B} (P : A -> B -> Prop) n : forall l m,
  Forall2 P l m -> Forall2 P (skipn n l) (skipn n m).
Proof. induction n; intros l m H; simpl; auto. destruct H; auto. Qed.
