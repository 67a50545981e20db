(** Training runs of the model: examples for the theorems of SvmTheorems.v and
    the counterexample to optimality (C140). *)
From Coq Require Import QArith Qabs List Bool Arith Lia Lqa.
From Verif Require Import SvmModel SvmSpec SvmProofs SvmSmoProofs SvmTrainProofs SvmTheorems.
Import ListNotations.
Local Open Scope Q_scope.

(** ** Examples and counterexamples: one feature, linear kernel *)
Definition line (x : list Q) : nat -> nat -> Q := fun a b => nth a x 0 * nth b x 0.

(** Four samples on a line, default options apart from the iteration limit. *)
Definition four : problem :=
  svc_problem 4 (line [-(2); -(1); 1; 3]) (fun i => nth i [0; 0; 1; 1] 0) 1 (1 # 1000) (1 # 1000000) 50 1024.

Lemma signs_known (p : problem) :
  forallb (fun k => Qeq_bool (y p k) 1 && (Qnum (y p k) =? 1)%Z && (Qden (y p k) =? 1)%positive ||
                    (Qnum (y p k) =? -1)%Z && (Qden (y p k) =? 1)%positive) (seq 0 (size p)) = true ->
  forall k, (k < size p)%nat -> y p k = 1 \/ y p k = -(1).
Proof.
  intros H k Hk. rewrite forallb_forall in H. specialize (H k). rewrite in_seq in H.
  specialize (H ltac:(lia)). destruct (y p k) as [a b]. cbn [Qnum Qden] in H.
  apply orb_true_iff in H. destruct H as [H|H]; repeat rewrite andb_true_iff in H.
  - left. destruct H as [[_ A] B]. apply Z.eqb_eq in A. apply Pos.eqb_eq in B. subst. reflexivity.
  - right. destruct H as [A B]. apply Z.eqb_eq in A. apply Pos.eqb_eq in B. subst. reflexivity.
Qed.

Example four_posed : well_posed four /\ sorts four (insertion 4) /\ psd four /\ symmetric four /\
  (3 <= ws_size four)%nat.
Proof.
  split; [|split; [|split; [|split]]].
  - constructor; try (cbv; reflexivity). apply signs_known. vm_compute. reflexivity.
  - exact (insertion_sorts four).
  - apply (product_psd four (fun a => nth a [-(2); -(1); 1; 3] 0)). reflexivity.
  - apply (product_psd four (fun a => nth a [-(2); -(1); 1; 3] 0)). reflexivity.
  - vm_compute. lia.
Qed.

Example four_trained :
  snd (compute four (insertion 4)) = converged /\
  map (fun k => Qred (alpha (fst (compute four (insertion 4))) k)) (seq 0 4) = [0; 1 # 2; 1 # 2; 0] /\
  option_map Qred (set_bias four (alpha (fst (compute four (insertion 4))))
                     (grad (fst (compute four (insertion 4))))) = Some 0.
Proof. vm_compute. repeat split; reflexivity. Qed.

(** Three samples, default options: the working set has two places, one of them
    kept from the round before and the other filled from the side that may rise.
    The loop ends by its tolerance with a violation of 3/2, and the sample at -2
    is on the wrong side although the classes are separable. *)
Definition three : problem :=
  svc_problem 3 (line [-(3); -(2); 1]) (fun i => nth i [1; 0; 0] 0) 1 (1 # 1000) (1 # 1000000) 50 1024.

Theorem trained_optimal_refuted : exists p srt s b,
  well_posed p /\ sorts p srt /\ psd p /\ symmetric p /\ (0 < size p)%nat /\ (3 <= max_ws p)%nat /\
  compute p srt = (s, converged) /\ set_bias p (alpha s) (grad s) = Some b /\
  ~ gap_below p (alpha s) (tol p) /\
  (exists be, feasible p be /\
     objective p be + inject_Z (Z.of_nat (size p)) * (tol p * C p) < objective p (alpha s)) /\
  exists k, (k < size p)%nat /\ alpha s k < C p /\
    y p k * exact_decision p (alpha s) b (kk p k) < 0.
Proof.
  exists three, (insertion 3).
  destruct (compute three (insertion 3)) as [s r] eqn:E.
  assert (A : map (fun k => Qred (alpha s k)) (seq 0 3) = [1 # 8; 0; 1 # 8] /\ r = converged /\
              option_map Qred (set_bias three (alpha s) (grad s)) = Some (-(1 # 2))).
  { replace s with (fst (compute three (insertion 3))) by (rewrite E; reflexivity).
    replace r with (snd (compute three (insertion 3))) by (rewrite E; reflexivity).
    vm_compute. repeat split; reflexivity. }
  destruct A as (A & Rr & Bb). subst r.
  destruct (set_bias three (alpha s) (grad s)) as [b|] eqn:Eb; [|discriminate].
  injection Bb as Bb. cbn [map seq] in A. injection A as A0 A1 A2.
  assert (Q0 : alpha s 0%nat == 1 # 8) by (rewrite <- (Qred_correct (alpha s 0%nat)), A0; reflexivity).
  assert (Q1 : alpha s 1%nat == 0) by (rewrite <- (Qred_correct (alpha s 1%nat)), A1; reflexivity).
  assert (Q2 : alpha s 2%nat == 1 # 8) by (rewrite <- (Qred_correct (alpha s 2%nat)), A2; reflexivity).
  assert (Q3 : b == -(1 # 2)) by (rewrite <- (Qred_correct b), Bb; reflexivity).
  exists s, b.
  assert (W : well_posed three).
  { constructor; try (cbv; reflexivity). apply signs_known. vm_compute. reflexivity. }
  split; [exact W|]. split; [exact (insertion_sorts three)|].
  split; [apply (product_psd three (fun a => nth a [-(3); -(2); 1] 0)); reflexivity|].
  split; [apply (product_psd three (fun a => nth a [-(3); -(2); 1] 0)); reflexivity|].
  split; [cbn; lia|]. split; [vm_compute; lia|]. split; [reflexivity|]. split; [exact Eb|].
  split; [|split].
  - intro G. specialize (G 0%nat 1%nat ltac:(cbn; lia) ltac:(cbn; lia)).
    assert (X : true_gradient three (alpha s) 1 - true_gradient three (alpha s) 0 < tol three).
    { apply G; [left|right]; (split; [reflexivity|]).
      - rewrite Q0. reflexivity.
      - rewrite Q1. reflexivity. }
    unfold true_gradient in X. cbn [size three svc_problem seq sum] in X.
    rewrite Q0, Q1, Q2 in X. revert X. vm_compute. discriminate.
  - exists (fun k => nth k [1; 1; 0] 0). split; [split|].
    + intros k Hk. cbn in Hk. destruct k as [|[|[|k]]]; [vm_compute; split; discriminate ..|lia].
    + vm_compute. reflexivity.
    + unfold objective. cbn [size three svc_problem seq sum].
      rewrite Q0, Q1, Q2. vm_compute. reflexivity.
  - exists 1%nat. split; [cbn; lia|]. split; [rewrite Q1; reflexivity|].
    unfold exact_decision. cbn [size three svc_problem seq sum]. rewrite Q0, Q1, Q2, Q3.
    vm_compute. reflexivity.
Qed.
Print Assumptions trained_optimal_refuted.

(** A working set option of zero or one, which the options accept, never moves a
    coefficient; the loop still ends by its tolerance. *)
Definition tiny (w : nat) : problem :=
  svc_problem 4 (line [-(2); -(1); 1; 3]) (fun i => nth i [0; 0; 1; 1] 0) 1 (1 # 1000) (1 # 1000000) 50 w.
Example small_working_set_untrained :
  snd (compute (tiny 0) (insertion 4)) = converged /\ snd (compute (tiny 1) (insertion 4)) = converged /\
  map (fun k => Qred (alpha (fst (compute (tiny 0) (insertion 4))) k)) (seq 0 4) = [0; 0; 0; 0] /\
  map (fun k => Qred (alpha (fst (compute (tiny 1) (insertion 4))) k)) (seq 0 4) = [0; 0; 0; 0].
Proof. vm_compute. repeat split; reflexivity. Qed.

(** A regression problem of three samples: its six dual variables give a working
    set of four. *)
Definition three_points : problem :=
  svr_problem 3 (line [0; 1; 2]) (fun i => nth i [0; 1; 2] 0) 1 (1 # 10) (1 # 1000) (1 # 1000000) 50 1024.
Example regression_trained :
  well_posed three_points /\ sorts three_points (insertion 6) /\ (3 <= ws_size three_points)%nat /\
  snd (compute three_points (insertion 6)) = converged /\
  exists b, set_bias three_points (alpha (fst (compute three_points (insertion 6))))
              (grad (fst (compute three_points (insertion 6)))) = Some b.
Proof.
  split; [|split; [exact (insertion_sorts three_points)|split; [vm_compute; lia|split; [vm_compute; reflexivity|]]]].
  - constructor; try (cbv; reflexivity). apply signs_known. vm_compute. reflexivity.
  - vm_compute. eexists. reflexivity.
Qed.
