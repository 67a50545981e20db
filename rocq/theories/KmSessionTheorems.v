(** k-means handles: the best of several runs; calls in any order. *)
From Coq Require Import ZArith List Bool Arith Lia.
From Flocq Require Import BinarySingleNaN.
From Verif Require Import Base Par F64 FloatOrder TreeScanProofs NnModel KmModel KmTheorems KmElkanTheorems KmSessionModel KmSessionSpec KmSessionProofs.
Import ListNotations.
Local Open Scope nat_scope.

Notation inf64 := (B754_infinity false : f64).
Notation zero64 := (B754_zero false : f64).
Notation session64 := (session zero64 inf64 f64_lt).

(** If the inertia of some run is below infinity, compute succeeds and the results are those of a run with the smallest
    inertia; the status tells whether this run has reached the maximum number of iterations.  NaN does not count. *)
Theorem km_best_run_partial : forall h runs, h_data h = true -> 1 <= h_opt_k h -> 1 <= h_nf h -> h_opt_k h <= h_n h ->
  (forall r, In (Some r) runs -> proper (h_opt_k h) (h_nf h) (h_n h) r) -> some_finite inf64 f64_lt (runs_made h runs) ->
  (h_opt_supplied h = true -> exists ldc, h_C h = Some (h_opt_k h, h_nf h, ldc)) ->
  exists r h', best_of f64_lt (runs_made h runs) r /\ results_of h' r /\ h_trained h' = true /\ h_k h' = h_opt_k h /\
    step zero64 inf64 f64_lt h (Compute runs) = Some (h', status (if Nat.eqb (o_converged r) 0 then st_maxit else st_success)).
Proof.
  intros h runs HD K F KN HP HF HS.
  destruct (compute_best zero64 inf64 f64_lt f64_lt_trans f64_lt_irrefl h runs HD K F KN HP HF HS) as [r [h' [Q1 [Q2 [_ [Q3 [Q4 [_ [_ [_ [_ Q5]]]]]]]]]]].
  exists r, h'. auto.
Qed.
Print Assumptions km_best_run_partial.

(** The queries then give this run. *)
Theorem km_results_returned_partial : forall h runs d1 d2, h_data h = true -> 1 <= h_opt_k h -> 1 <= h_nf h -> h_opt_k h <= h_n h ->
  (forall r, In (Some r) runs -> proper (h_opt_k h) (h_nf h) (h_n h) r) -> some_finite inf64 f64_lt (runs_made h runs) ->
  (h_opt_supplied h = true -> exists ldc, h_C h = Some (h_opt_k h, h_nf h, ldc)) -> h_opt_k h * h_nf h <= d1 -> h_n h <= d2 ->
  exists r h', best_of f64_lt (runs_made h runs) r /\
    session64 h [Compute runs; GetCentres d1; GetLabels d2; GetInfo; Predict] =
      Some (h', [status (if Nat.eqb (o_converged r) 0 then st_maxit else st_success); Reply st_success (o_centres r) [] d1;
                 Reply st_success [] (o_labels r) d2; Reply st_success [o_inertia r] [h_n h; h_nf h; h_opt_k h; o_iter r] 6; status st_success]).
Proof.
  intros h runs d1 d2 HD K F KN HP HF HS D1 D2.
  destruct (compute_best zero64 inf64 f64_lt f64_lt_trans f64_lt_irrefl h runs HD K F KN HP HF HS) as
    [r [h' [Q1 [Q2 [[P1 P2] [Q3 [Q4 [Q5 [Q6 [_ [_ Q7]]]]]]]]]]].
  exists r, h'. split; [exact Q1|].
  assert (E1 : get_centres h' d1 = Some (Reply st_success (o_centres r) [] d1)).
  { unfold get_centres. rewrite Q3, Q2, Q4, Q6. cbn [negb b_centres]. rewrite (proj2 (Nat.ltb_ge d1 _) D1). unfold read.
    rewrite P1, Nat.leb_refl, <- P1, firstn_all. reflexivity. }
  assert (E2 : get_labels h' d2 = Some (Reply st_success [] (o_labels r) d2)).
  { unfold get_labels. rewrite Q3, Q2, Q5. cbn [negb b_labels]. rewrite (proj2 (Nat.ltb_ge d2 _) D2). unfold read.
    rewrite P2, Nat.leb_refl, <- P2, firstn_all. reflexivity. }
  assert (E3 : get_info h' = Reply st_success [o_inertia r] [h_n h; h_nf h; h_opt_k h; o_iter r] 6).
  { unfold get_info. rewrite Q3, Q2, Q4, Q5, Q6. reflexivity. }
  assert (E4 : predict h' = Some (status st_success)).
  { unfold predict. rewrite Q3, Q2, Q4, Q6. cbn [negb b_centres]. rewrite P1, Nat.ltb_irrefl. reflexivity. }
  cbn [session step]. rewrite Q7, E1, E2, E3, E4. reflexivity.
Qed.
Print Assumptions km_results_returned_partial.

(** The calls in any order, but calm ones: nothing outside the arrays is read and every call is answered. *)
Theorem km_calls_in_any_order_partial : forall cs, calm_session zero64 inf64 f64_lt (fresh zero64) cs ->
  exists h rs, session64 (fresh zero64) cs = Some (h, rs) /\ length rs = length cs.
Proof. exact (session_safe zero64 inf64 f64_lt f64_lt_trans f64_lt_irrefl). Qed.
Print Assumptions km_calls_in_any_order_partial.
Definition run_a : @outcome f64 := Outcome [n64 0; n64 6] [0; 0; 1; 1] (n64 4) 3 2.
Definition run_b : @outcome f64 := Outcome [n64 1; n64 5] [0; 0; 1; 1] (n64 3) 7 0.
Example km_session_case :
  let cs := [SetK 2; SetInit 3; SetData 4 1 true; Compute [Some run_a; None; Some run_b]; GetLabels 4; SetK 3; GetCentres 2; Predict] in
  calm_session zero64 inf64 f64_lt (fresh zero64) cs /\
  match session64 (fresh zero64) cs with
  | Some (h, rs) => h_k h = 2 /\ h_opt_k h = 3 /\ map B2SF (b_centres (h_best h)) = map B2SF (o_centres run_b) /\ map (@r_status f64) rs = [st_success; st_success; st_success; st_maxit; st_success; st_success; st_success; st_success]
  | None => False
  end.
Proof.
  cbv zeta. split; [|vm_compute; auto]. cbn [calm_session calm fresh]. repeat (split; [exact I|cbn -[n64 compute]]).
  split.
  - intros _. split; [lia|]. split; [intros r H; repeat destruct H as [H|H]; try discriminate; try (injection H as <-; split; reflexivity); destruct H|].
    split; [|discriminate]. exists run_a. split; [left; reflexivity|vm_compute; reflexivity].
  - destruct (compute zero64 inf64 f64_lt _ false _) as [[h r]|]; [|exact I]. cbn [calm_session calm]. split; [exact I|].
    destruct (get_labels h 4); [|exact I]. split; [exact I|]. destruct (set_k zero64 h 3) as [h1 r1]. split; [exact I|].
    destruct (get_centres h1 2); [|exact I]. split; [exact I|]. destruct (predict h1); exact I.
Qed.

(** ** Inertia that overflows *)
Definition out64 (X : list (list f64)) (r : run) : option (@outcome f64) :=
  match r with EmptyCluster => None | Finished C ls it conv => Some (Outcome (concat C) ls (inertia (arith64 pw0) X C ls) it conv) end.
Definition big : list (list f64) := map (fun z => [n64 (z * 2 ^ 508)]%Z) [-15; -1; -15; -1; 15; 1; 15; 1]%Z.
Definition run_big (a b : nat) : option (@outcome f64) :=
  out64 big (fit64 (fun _ => OneThread) 2 1 256 big Ignore (n64 0) 10 [nth a big []; nth b big []]).
Definition two_clusters (r : option (@outcome f64)) : Prop :=
  match r with
  | Some r => o_labels r = [0; 0; 0; 0; 1; 1; 1; 1] /\ map B2SF (o_centres r) = map B2SF [n64 (-8 * 2 ^ 508); n64 (8 * 2 ^ 508)]%Z /\
              B2SF (o_inertia r) = B2SF inf64
  | None => False
  end.
(** Finite data, and both runs find the two clusters, with inertia infinity: the computation succeeds and returns the centres
    0 and 0 and the labels 0. *)
Theorem km_best_run_refuted :
  two_clusters (run_big 0 4) /\ two_clusters (run_big 2 6) /\
  match session64 (fresh zero64) [SetK 2; SetInit 2; SetData 8 1 true; Compute [run_big 0 4; run_big 2 6]; GetCentres 2; GetLabels 8] with
  | Some (_, [_; _; _; c; x; l]) => r_status c = st_success /\ r_status x = st_success /\ map B2SF (r_numbers x) = map B2SF [zero64; zero64] /\
      r_status l = st_success /\ r_labels l = [0; 0; 0; 0; 0; 0; 0; 0]
  | _ => False
  end.
Proof. split; [|split]; vm_compute; auto. Qed.
Print Assumptions km_best_run_refuted.
(** One run only, on a handle used before: the results of the data before are returned; if there were fewer clusters then,
    memory outside the array is read. *)
Definition run_inf (k n : nat) : @outcome f64 := Outcome (repeat (n64 1) k) (repeat 1 n) inf64 3 2.
Theorem km_stale_results_refuted :
  match session64 (fresh zero64) [SetK 2; SetInit 1; SetData 4 1 true; Compute [Some run_a]; SetData 4 1 true; Compute [Some (run_inf 2 4)]; GetLabels 4] with
  | Some (_, [_; _; _; _; _; c; l]) => r_status c = st_success /\ r_status l = st_success /\ r_labels l = o_labels run_a
  | _ => False
  end /\
  session64 (fresh zero64) [SetK 2; SetInit 1; SetData 4 1 true; Compute [Some run_a]; SetK 3; Compute [Some (run_inf 3 4)]] = None.
Proof. split; [vm_compute; auto|vm_compute; reflexivity]. Qed.
Print Assumptions km_stale_results_refuted.

(** ** Numbers of clusters that change *)
(** Initial centres for 2 clusters, then 5 clusters: memory outside the user's array is read. *)
Theorem km_initial_centres_refuted :
  session64 (fresh zero64) [SetData 6 1 true; SetK 2; SetMethod true; SetCentres 2; SetK 5; Compute [None]] = None.
Proof. vm_compute. reflexivity. Qed.
Print Assumptions km_initial_centres_refuted.
(** After a computation that fails, or new initial centres, the results of the one before are read with the new number of clusters. *)
Theorem km_results_after_failure_refuted :
  let start := [SetK 2; SetInit 1; SetData 4 1 true; Compute [Some run_a]; SetK 9] in
  session64 (fresh zero64) (start ++ [Compute [None]; GetCentres 9]) = None /\ session64 (fresh zero64) (start ++ [Compute [None]; Predict]) = None /\
  session64 (fresh zero64) (start ++ [SetCentres 9; Predict]) = None.
Proof. vm_compute. auto. Qed.
Print Assumptions km_results_after_failure_refuted.

(** ** Information on the run *)
(** Setting any option, also to a value that is refused, sets the inertia and the number of iterations to 0; the other
    results stay. *)
Theorem km_info_after_option_refuted : forall (h : @handle f64), h_trained h = true ->
  session64 h [SetOther; GetInfo] = Some (refresh zero64 h, [status st_success; Reply st_success [zero64] [h_n h; h_nf h; h_k h; 0] 6]) /\
  h_best (refresh zero64 h) = Best (b_centres (h_best h)) (b_labels (h_best h)) zero64 0 false.
Proof.
  intros h HT. split; [|reflexivity]. cbn [session step]. unfold get_info. cbn [refresh h_trained]. rewrite HT. reflexivity.
Qed.
Print Assumptions km_info_after_option_refuted.
