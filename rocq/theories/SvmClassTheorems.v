(** Several classes and class probabilities of support vector classifiers. *)
From Coq Require Import QArith Qabs List Bool Arith Lia Lqa.
From Verif Require Import SvmModel SvmProofs SvmClassModel SvmClassSpec SvmClassProofs.
Import ListNotations.
Local Open Scope Q_scope.

(** ** C142: the class predicted wins the most one-against-one comparisons *)
Theorem predicts_favourite : forall nc d, (0 < nc)%nat ->
  favourite nc d (predict nc d) /\ forall o, (o < predict nc d)%nat -> ~ favourite nc d o.
Proof. exact predict_spec. Qed.
Print Assumptions predicts_favourite.

Theorem votes_are_wins : forall nc d c, (c < nc)%nat -> won nc d c (votes nc d c).
Proof. exact votes_won. Qed.
Print Assumptions votes_are_wins.

(** ** C143: one-versus-rest values and predictions *)
Theorem ovr_best_is_favourite : forall nc d c, (c < nc)%nat ->
  (forall o, (o < nc)%nat -> ovr nc d o <= ovr nc d c) -> favourite nc d c.
Proof. exact ovr_favourite. Qed.
Print Assumptions ovr_best_is_favourite.

Theorem ovr_agrees_partial : forall nc d c, (c < nc)%nat ->
  (forall a b, favourite nc d a -> favourite nc d b -> a = b) ->
  (forall o, (o < nc)%nat -> ovr nc d o <= ovr nc d c) -> predict nc d = c.
Proof.
  intros nc d c Hc U H. apply U; [apply predict_spec; lia|apply ovr_favourite; auto].
Qed.
Print Assumptions ovr_agrees_partial.

(** Three classes, each beating one other. *)
Definition cycle : values := fun i j =>
  match i, j with 0%nat, 1%nat => 1 | 0%nat, 2%nat => -(2) | 1%nat, 2%nat => 1 | _, _ => 0 end.

Theorem ovr_agrees_refuted : exists nc d c, (c < nc)%nat /\
  (forall o, (o < nc)%nat -> o <> c -> ovr nc d o < ovr nc d c) /\ predict nc d <> c.
Proof.
  exists 3%nat, cycle, 2%nat. split; [lia|]. split.
  - intros o O N. destruct o as [|[|[|o]]]; try lia; vm_compute; reflexivity.
  - vm_compute. discriminate.
Qed.
Print Assumptions ovr_agrees_refuted.

(** A clear winner. *)
Definition clear : values := fun i j =>
  match i, j with 0%nat, 1%nat => -(1) | 0%nat, 2%nat => 1 | 1%nat, 2%nat => 3 | _, _ => 0 end.
Example clear_winner :
  predict 3 clear = 1%nat /\ map (votes 3 clear) [0; 1; 2]%nat = [1; 2; 0]%nat /\
  (forall o, (o < 3)%nat -> ovr 3 clear o <= ovr 3 clear 1) /\
  (forall a b, favourite 3 clear a -> favourite 3 clear b -> a = b).
Proof.
  split; [reflexivity|]. split; [reflexivity|]. split.
  - intros o O. destruct o as [|[|[|o]]]; try lia; vm_compute; discriminate.
  - assert (F : forall a, favourite 3 clear a -> a = 1%nat).
    { intros a Fa. apply favourite_iff in Fa. destruct Fa as [A B]. specialize (B 1%nat ltac:(lia)).
      destruct a as [|[|[|a]]]; try lia; vm_compute in B; lia. }
    intros a b Fa Fb. rewrite (F a Fa), (F b Fb). reflexivity.
Qed.

(** ** C144: predicted probabilities *)
Theorem probabilities_distribution : forall nc s, (2 <= nc)%nat ->
  distribution nc (fst (predict_proba nc s)).
Proof.
  intros nc s H. destruct (predict_proba nc s) as [q b] eqn:E.
  destruct (couple_spec nc (pairwise s) H (fun a c => pairwise_pos s nc a c) _ _ _ _ _
    (even_distribution nc H) E) as [D _]. exact D.
Qed.
Print Assumptions probabilities_distribution.

(** When the loop ends by its test, no other distribution matches the pairwise
    probabilities better by more than 0.02 / nc. *)
Theorem probabilities_near_best : forall nc s r p, (2 <= nc)%nat ->
  pair_probabilities s r nc -> predict_proba nc s = (p, true) ->
  forall q, (forall t, (t < nc)%nat -> 0 <= q t) -> sum q (seq 0 nc) == 1 ->
  mismatch r nc p <= mismatch r nc q + (2 # 100) / inject_Z (Z.of_nat nc).
Proof.
  intros nc s r p H R E q Q0 Q1. rewrite !(mismatch_pair s r nc _ R).
  destruct (couple_spec nc (pairwise s) H (fun a c => pairwise_pos s nc a c) _ _ _ _ _
    (even_distribution nc H) E) as [D St].
  pose proof (near_optimal nc (pairwise s) H p q (tolerance nc) D Q0 Q1 (St eq_refl)) as X.
  assert (Z : ~ inject_Z (Z.of_nat nc) == 0).
  { intro Y. unfold Qeq in Y. simpl in Y. lia. }
  assert (Y : 4 * tolerance nc == (2 # 100) / inject_Z (Z.of_nat nc)).
  { unfold tolerance. field. exact Z. }
  rewrite Y in X. exact X.
Qed.
Print Assumptions probabilities_near_best.

(** Two classes with a pairwise probability of 0.501 for the first: the even
    distribution is within the tolerance. *)
Example two_class_probabilities :
  let s := fun _ _ => 501 # 1000 in
  snd (predict_proba 2 s) = true /\ fst (predict_proba 2 s) 0%nat == 1 # 2.
Proof. vm_compute. repeat split; reflexivity. Qed.
Example two_class_pairs :
  pair_probabilities (fun _ _ => 501 # 1000) (fun j l => if (j <? l)%nat then 501 # 1000 else 499 # 1000) 2.
Proof.
  intros [|j] [|l] H1 H2; try lia. simpl. repeat split; intros; try reflexivity; exfalso; lra.
Qed.
