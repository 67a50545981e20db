(** What shuffling must give, in terms of the returned indices only. *)
From Coq Require Import ZArith List Permutation.
From Verif Require Import Base.
Import ListNotations.
Local Open Scope Z_scope.

(** A uniform distribution on 0..b returns a value in 0..b. *)
Definition uniform (draw : nat -> nat -> nat) : Prop := forall k b, (draw k b <= b)%nat.

(** Number of samples of class c among the indices l. *)
Definition members (classes : list Z) (c : Z) (l : list Z) : Z :=
  Z.of_nat (length (filter (fun i => nth (Z.to_nat i) classes 0 =? c) l)).
Definition total (classes : list Z) (c : Z) : Z :=
  Z.of_nat (count_occ Z.eq_dec classes c).

(** A stratified selection: the first [train] and the next [test] indices are distinct, in range,
    and every class has its share, to within one sample, of both. *)
Definition stratified (m train test : Z) (classes : list Z) (tr te : list Z) : Prop :=
  Z.of_nat (length tr) = train /\ Z.of_nat (length te) = test /\ NoDup (tr ++ te) /\
  (forall i, In i (tr ++ te) -> 0 <= i < m) /\
  (forall c, Z.abs (members classes c tr * m - total classes c * train) <= m) /\
  (forall c, Z.abs (members classes c te * (m - train)
                    - (total classes c - members classes c tr) * test) <= m - train).

(** s is l with some elements left out. *)
Inductive subseq {A} : list A -> list A -> Prop :=
| sub_nil : forall l, subseq [] l
| sub_take : forall x s l, subseq s l -> subseq (x :: s) (x :: l)
| sub_skip : forall x s l, subseq s l -> subseq s (x :: l).

(** A recorded sequence of draws: the k-th call returns the k-th number. *)
Definition recorded (ds : list nat) : nat -> nat -> nat := fun k _ => nth k ds 0%nat.
(** The recorded draws a shuffle of n elements can see: n-1 of them, the k-th in 0..n-1-k. *)
Definition possible_draws (n : nat) (ds : list nat) : Prop :=
  length ds = (n - 1)%nat /\ forall k, (k < n - 1)%nat -> (nth k ds 0 <= n - 1 - k)%nat.
