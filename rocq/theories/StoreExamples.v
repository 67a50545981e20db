(** Concrete stores used by the examples and refutations. *)
From Coq Require Import ZArith List Bool Lia.
From Verif Require Import Base IntervalModel StoreModel StoreSpec StoreSelSpec.
Import ListNotations.
Local Open Scope Z_scope.

(** Small examples: integers, -1 stands for a missing value. *)
Definition gap (x : Z) : bool := x =? -1.
Definition from (x : Z) : Z -> Z := fun i => x + i.
Definition tbl (l : list Z) : Z -> Z := fun i => nth (Z.to_nat i) l (-7).
Definition zero2 : Z -> Z -> Z := fun _ _ => 0.
Definition A1 := LoadCol 1 1 b_int false (from 10).
Definition B1 := LoadCol 1 1 b_int false (from 20).
Definition N2 := LoadRow 1 2 b_int true (from 30).
Definition P1 := LoadRow 1 1 b_int true (from 40).
Definition Q1 := LoadRow 1 1 b_int true (from 50).
Definition P2 := LoadRow 2 1 b_int true (from 60).
Definition status_of {V} (o : option (list da_status * store V)) : list da_status :=
  match o with Some (l, _) => l | None => [] end.
Definition after {V} (o : option (list da_status * store V)) : store V :=
  match o with Some (_, s) => s | None => empty_store end.
Definition ex_key : key := KUser [107].

Definition looped : list (node Z) := heap (after (run_store [A1; B1; N2; N2] empty_store)).
Lemma looped_last : exists x, at_node looped 3 = Some x /\ nnext x = Some 3%nat.
Proof. eexists. vm_compute. split; reflexivity. Qed.
Lemma walk_forever : forall fuel i off, column_walk fuel looped (Some 3%nat) i off = None.
Proof.
  destruct looped_last as (x & X1 & X2).
  induction fuel as [|f IH]; intros i off; [reflexivity|]. cbn [column_walk]. rewrite X1, X2.
  destruct (get_col (nb x) (i - noff x)) as [[p st]|]; auto. rewrite IH.
  destruct (fetch _ _); auto.
Qed.
Lemma last_forever : forall fuel, last_of fuel looped 3 = None.
Proof.
  destruct looped_last as (x & X1 & X2).
  induction fuel as [|f IH]; [reflexivity|]. cbn [last_of]. rewrite X1, X2. auto.
Qed.
Lemma loops :
  let r := run_store [A1; B1; N2; N2] empty_store in
  status_of r = repeat st_success 4 /\
  (forall fuel, column_walk fuel (heap (after r)) (Some O) 0 0 = None) /\
  (forall fuel, last_of fuel (heap (after r)) O = None).
Proof.
  cbv zeta. split; [reflexivity|]. fold looped.
  assert (N0 : exists x, at_node looped 0 = Some x /\ nnext x = Some 2%nat) by (eexists; vm_compute; split; reflexivity).
  assert (N2' : exists x, at_node looped 2 = Some x /\ nnext x = Some 3%nat) by (eexists; vm_compute; split; reflexivity).
  destruct N0 as (x & X1 & X2), N2' as (y & Y1 & Y2). split.
  - intros [|[|f]]; [reflexivity| |].
    + cbn [column_walk]. rewrite X1, X2. destruct (get_col (nb x) (0 - noff x)) as [[p st]|]; auto.
      destruct (fetch _ _); auto.
    + cbn [column_walk]. rewrite X1, X2, Y1, Y2.
      destruct (get_col (nb x) (0 - noff x)) as [[p st]|]; auto.
      destruct (get_col (nb y) (0 - noff y)) as [[p' st']|].
      * rewrite walk_forever. repeat match goal with |- context[fetch ?a ?b] => destruct (fetch a b) end; auto.
      * repeat match goal with |- context[fetch ?a ?b] => destruct (fetch a b) end; auto.
  - intros [|[|f]]; [reflexivity| |].
    + cbn [last_of]. rewrite X1, X2. auto.
    + cbn [last_of]. rewrite X1, X2, Y1, Y2. apply last_forever.
Qed.
