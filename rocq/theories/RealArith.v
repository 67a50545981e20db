(** Exact arithmetic as an instance of [arith]. *)
From Coq Require Import ZArith Reals Rpower.
From Verif Require Import NnModel.
Local Open Scope R_scope.

Definition Rltb (x y : R) : bool := if Rlt_dec x y then true else false.
Definition Rleb (x y : R) : bool := if Rle_dec x y then true else false.
Definition arithR : arith R :=
  Arith R IZR Rplus Rminus Rmult Rdiv Ropp Rabs R_sqrt.sqrt Rpower Rltb Rleb
    (IZR ((2 ^ 53 - 1) * 2 ^ 971)) (- IZR ((2 ^ 53 - 1) * 2 ^ 971)).

Lemma Rltb_true x y : Rltb x y = true <-> x < y.
Proof. unfold Rltb. destruct (Rlt_dec x y); split; auto; discriminate. Qed.
Lemma Rltb_false x y : Rltb x y = false <-> y <= x.
Proof. unfold Rltb. destruct (Rlt_dec x y); split; intros; auto; try discriminate; [exfalso; apply (Rlt_not_le y x); auto|apply Rnot_lt_le; auto]. Qed.
