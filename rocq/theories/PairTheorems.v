(** Distances between all pairs of rows. *)
From Coq Require Import ZArith List Bool Lia Reals Lra.
From Flocq Require Import BinarySingleNaN.
From Verif Require Import Par F64 NnModel PairModel PairSpec PairProofs PairMetricProofs PairFloatProofs PairMainProofs.
Import ListNotations.
Local Open Scope Z_scope.

(** ** Memory *)
(** Accepted arguments never lead to an access outside the arrays or the buffers, and nothing but the entries of D is
    written: for all metrics, sizes, leading dimensions, orders, contents of the buffers and orders of the threads. *)
Theorem pairwise_in_bounds : forall {T} (O : ops T) b nrm2 eps g sched p_ok mt o m n k X ldx Y ldy D ldd x y n',
  good_sizes b -> proper_call b sched p_ok mt o m n k X ldx Y ldy D ldd x y n' ->
  exists d, gives O b nrm2 eps g sched mt o m n k X ldx Y ldy D ldd n' d.
Proof. exact @pairwise_some. Qed.
Print Assumptions pairwise_in_bounds.
Theorem sizes_are_good : good_sizes avx512_double /\ good_sizes avx2_double /\ good_sizes avx512_single /\ good_sizes avx2_single.
Proof. exact (conj good_512 (conj good_2 (conj good_512s good_2s))). Qed.

(** An entry is a function of the two rows alone: not of the other rows, the size of the call, the order, the leading
    dimensions, the threads or what the buffers held. *)
Theorem pairwise_entries_from_rows : forall {T} (O : ops T) b nrm2 eps mt, good_sizes b -> exists f : Z -> (Z -> T) -> (Z -> T) -> T,
  (forall k x y x' y', (forall p, 0 <= p < k -> x p = x' p /\ y p = y' p) -> f k x y = f k x' y') /\
  forall g sched p_ok o m n k X ldx Y ldy D ldd x y n',
    proper_call b sched p_ok mt o m n k X ldx Y ldy D ldd x y n' ->
    is_cosine (meant O mt) = false \/ (given Y = true /\ n' <= NC b) ->
    gives O b nrm2 eps g sched mt o m n k X ldx Y ldy D ldd n' (fun i j => f k (x i) (y j)).
Proof. exact @pairwise_rows. Qed.
Print Assumptions pairwise_entries_from_rows.

(** ** Real numbers *)
Theorem pairwise_exact : forall pw b nrm2 eps g sched p_ok mt o m n k X ldx Y ldy D ldd x y n',
  good_sizes b -> proper_call b sched p_ok mt o m n k X ldx Y ldy D ldd x y n' -> is_cosine mt = false ->
  gives (real_ops pw) b nrm2 eps g sched mt o m n k X ldx Y ldy D ldd n'
    (fun i j => true_distance pw (meant (real_ops pw) mt) k (x i) (y j)).
Proof.
  intros pw b nrm2 eps g sched p_ok mt o m n k X ldx Y ldy D ldd x y n' Hb Hc Hm.
  destruct (proper_k _ _ _ _ _ _ _ _ _ _ _ _ _ _ _ _ _ Hc) as [_ Hk].
  eapply gives_ext; [|exact (pairwise_ok (real_ops pw) b nrm2 eps g sched p_ok mt o m n k X ldx Y ldy D ldd x y n' Hb Hc)].
  intros i j _ _. apply entry_real; [apply Hb|lia|exact Hm].
Qed.
Print Assumptions pairwise_exact.
(** The cosine distance, while there are no more than NC = 1024 columns of distances and no row is as good as zero. *)
Theorem pairwise_cosine_exact_partial : forall pw b nrm2 eps g sched p_ok o m n k X ldx Y ldy D ldd x y n',
  good_sizes b -> proper_call b sched p_ok PCosine o m n k X ldx Y ldy D ldd x y n' -> n' <= NC b -> norm_contract nrm2 ->
  (forall i, 0 <= i < m -> (eps < R_sqrt.sqrt (rsum k (fun p => Rsqr (x i p))))%R) ->
  (forall j, 0 <= j < n' -> (eps < R_sqrt.sqrt (rsum k (fun p => Rsqr (y j p))))%R) ->
  gives (real_ops pw) b nrm2 eps g sched PCosine o m n k X ldx Y ldy D ldd n'
    (fun i j => if negb (given Y) && (i =? j) then 0%R else true_distance pw PCosine k (x i) (y j)).
Proof.
  intros pw b nrm2 eps g sched p_ok o m n k X ldx Y ldy D ldd x y n' Hb Hc Hn HN Hx Hy.
  destruct (proper_k _ _ _ _ _ _ _ _ _ _ _ _ _ _ _ _ _ Hc) as [_ Hk].
  eapply gives_ext; [|exact (pairwise_ok (real_ops pw) b nrm2 eps g sched p_ok PCosine o m n k X ldx Y ldy D ldd x y n' Hb Hc)].
  intros i j Hi Hj. apply entry_cosine_real; auto; [apply Hb|lia|lia].
Qed.
Print Assumptions pairwise_cosine_exact_partial.

(** ** Doubles *)
(** No NaN and nothing negative comes from finite data. *)
Theorem pairwise_nonneg : forall pw b nrm2 eps g sched p_ok mt o m n k X ldx Y ldy D ldd x y n',
  good_sizes b -> proper_call b sched p_ok mt o m n k X ldx Y ldy D ldd x y n' -> all_finite m k x -> all_finite n' k y ->
  sum_of_differences (meant (f64_ops pw) mt) = true ->
  exists d, gives (f64_ops pw) b nrm2 eps g sched mt o m n k X ldx Y ldy D ldd n' d /\
    forall i j, 0 <= i < m -> 0 <= j < n' -> nonneg (d i j).
Proof.
  intros pw b nrm2 eps g sched p_ok mt o m n k X ldx Y ldy D ldd x y n' Hb Hc Fx Fy Hm.
  eexists. split; [exact (pairwise_ok (f64_ops pw) b nrm2 eps g sched p_ok mt o m n k X ldx Y ldy D ldd x y n' Hb Hc)|].
  intros i j Hi Hj. apply (entry_nonneg pw b nrm2 eps mt _ k x y i j m n'); auto. apply Hb.
Qed.
Print Assumptions pairwise_nonneg.
(** The distances of a matrix to itself are symmetric to the last bit, with zeros on the diagonal. *)
Theorem pairwise_symmetric : forall pw b nrm2 eps g sched p_ok mt o m n k X ldx ldy D ldd x,
  good_sizes b -> proper_call b sched p_ok mt o m n k X ldx None ldy D ldd x x m -> all_finite m k x ->
  is_cosine (meant (f64_ops pw) mt) = false \/ m <= NC b ->
  exists d, gives (f64_ops pw) b nrm2 eps g sched mt o m n k X ldx None ldy D ldd m d /\
    (forall i j, 0 <= i < m -> 0 <= j < m -> d i j = d j i) /\
    (sum_of_differences (meant (f64_ops pw) mt) || is_cosine (meant (f64_ops pw) mt) = true -> forall i, 0 <= i < m -> d i i = zero64).
Proof.
  intros pw b nrm2 eps g sched p_ok mt o m n k X ldx ldy D ldd x Hb Hc Fx Hm.
  rewrite <- !resolve_meant. rewrite <- resolve_meant in Hm. eexists. split; [exact (pairwise_ok (f64_ops pw) b nrm2 eps g sched p_ok mt o m n k X ldx None ldy D ldd x x m Hb Hc)|]. cbn [given negb]. split.
  - intros i j Hi Hj. apply (entry_sym pw b nrm2 eps mt k x i j m); auto. apply Hb.
  - intros Hs i Hi. apply (entry_self pw b nrm2 eps mt k x i m); auto; try apply Hb.
    destruct (resolve (f64_ops pw) mt); cbn in *; auto; try discriminate. right. destruct Hm as [Hm|Hm]; [discriminate|auto].
Qed.
Print Assumptions pairwise_symmetric.

(** ** Instruction sets *)
(** Metrics with one accumulator give the same bits whatever the sizes of the blocks. *)
Theorem pairwise_same_on_all_cpus : forall {T} (O : ops T) b b' nrm2 eps mt o m n k X ldx Y ldy D ldd x y n' p_ok sched sched' g g',
  good_sizes b -> good_sizes b' -> NC b = NC b' -> one_sum (meant O mt) = true ->
  proper_call b sched p_ok mt o m n k X ldx Y ldy D ldd x y n' -> proper_call b' sched' p_ok mt o m n k X ldx Y ldy D ldd x y n' ->
  exists d, gives O b nrm2 eps g sched mt o m n k X ldx Y ldy D ldd n' d /\ gives O b' nrm2 eps g' sched' mt o m n k X ldx Y ldy D ldd n' d.
Proof.
  intros T O b b' nrm2 eps mt o m n k X ldx Y ldy D ldd x y n' p_ok sched sched' g g' Hb Hb' HN Hm Hc Hc'.
  destruct (proper_k _ _ _ _ _ _ _ _ _ _ _ _ _ _ _ _ _ Hc) as [_ Hk].
  eexists. split; [exact (pairwise_ok O b nrm2 eps g sched p_ok mt o m n k X ldx Y ldy D ldd x y n' Hb Hc)|].
  eapply gives_ext; [|exact (pairwise_ok O b' nrm2 eps g' sched' p_ok mt o m n k X ldx Y ldy D ldd x y n' Hb' Hc')].
  intros i j _ _. symmetry. apply entry_cpu; auto; try apply Hb; try apply Hb'; lia.
Qed.
Print Assumptions pairwise_same_on_all_cpus.

(** ** Witnesses *)
Definition pow0 (a b : f64) : f64 := a.
Definition eps64 : f64 := f64_div (f64_of_Z 1) (f64_of_Z (2 ^ 52)).
Definition no_garbage (a : Z) : f64 := B754_nan.
(** 36 columns: 1, 0, t, 0, 0, 0, t, .. , t, 0 with t = 2^-27 *)
Definition cpu_row (p : Z) : f64 :=
  if p =? 0 then f64_of_Z 1
  else if (p =? 2) || (p =? 6) || (p =? 34) then f64_div (f64_of_Z 1) (f64_of_Z (2 ^ 27)) else f64_of_Z 0.
Lemma cpu_call b : good_sizes b ->
  proper_call b (in_turn (MC b) 1) true PSqeuclidean RowMajor 1 1 36 (alloc 36 cpu_row) 36 (Some (alloc 36 (fun _ => zero64))) 36
    (alloc 1 no_garbage) 1 (fun _ p => cpu_row p) (fun _ _ => zero64) 1.
Proof.
  intros Hb. split; [reflexivity|]. split; [apply in_turn_schedule, Hb|]. split; [|split; [split; [reflexivity|]|]].
  - apply alloc_holds. intros i j Hi Hj. assert (i = 0) by lia. subst. cbn [cell]. split; [lia|]. reflexivity.
  - apply alloc_holds. intros i j Hi Hj. assert (i = 0) by lia. subst. cbn [cell]. split; [lia|]. reflexivity.
  - apply alloc_room. intros i j Hi Hj. cbn [cell]. lia.
Qed.
(** The squared Euclidean distance of two rows with 36 columns differs between processors with AVX2 and AVX-512. *)
Theorem pairwise_euclidean_same_on_all_cpus_refuted :
  exists o m n k X ldx Y ldy D ldd x y n' d d',
    (forall b, good_sizes b -> proper_call b (in_turn (MC b) m) true PSqeuclidean o m n k X ldx Y ldy D ldd x y n') /\
    gives (f64_ops pow0) avx512_double simple_nrm2 eps64 no_garbage (in_turn 128 m) PSqeuclidean o m n k X ldx Y ldy D ldd n' d /\
    gives (f64_ops pow0) avx2_double simple_nrm2 eps64 no_garbage (in_turn 256 m) PSqeuclidean o m n k X ldx Y ldy D ldd n' d' /\
    f64_lt (d' 0 0) (d 0 0) = true.
Proof.
  exists RowMajor, 1, 1, 36, (alloc 36 cpu_row), 36, (Some (alloc 36 (fun _ => zero64))), 36, (alloc 1 no_garbage), 1,
    (fun _ p => cpu_row p), (fun _ _ => zero64), 1. eexists. eexists.
  split; [exact cpu_call|]. split; [|split].
  - exact (pairwise_ok _ avx512_double _ _ _ _ true _ _ _ _ _ _ _ _ _ _ _ _ _ _ good_512 (cpu_call avx512_double good_512)).
  - exact (pairwise_ok _ avx2_double _ _ _ _ true _ _ _ _ _ _ _ _ _ _ _ _ _ _ good_2 (cpu_call avx2_double good_2)).
  - vm_compute. reflexivity.
Qed.
Print Assumptions pairwise_euclidean_same_on_all_cpus_refuted.

(** 1025 rows with one column: all 1, but the last is 2 *)
Definition last_row (v : Z) (a : Z) : f64 := if a =? 1024 then f64_of_Z v else f64_of_Z 1.
Lemma cosine_call b : good_sizes b ->
  proper_call b (in_turn (MC b) 1) true PCosine ColumnMajor 1 1025 1 (alloc 1 (fun _ => f64_of_Z 1)) 1 (Some (alloc 1025 (last_row 2))) 1025
    (alloc 1025 no_garbage) 1 (fun _ _ => f64_of_Z 1) (fun j _ => last_row 2 j) 1025.
Proof.
  intros Hb. split; [reflexivity|]. split; [apply in_turn_schedule, Hb|]. split; [|split; [split; [reflexivity|]|]].
  - apply alloc_holds. intros i j Hi Hj. cbn [cell]. split; [lia|]. reflexivity.
  - apply alloc_holds. intros i j Hi Hj. cbn [cell]. split; [lia|]. f_equal. lia.
  - apply alloc_room. intros i j Hi Hj. cbn [cell]. lia.
Qed.
Lemma cosine_call_alone b : good_sizes b ->
  proper_call b (in_turn (MC b) 1) true PCosine ColumnMajor 1 1 1 (alloc 1 (fun _ => f64_of_Z 1)) 1 (Some (alloc 1 (fun _ => f64_of_Z 2))) 1
    (alloc 1 no_garbage) 1 (fun _ _ => f64_of_Z 1) (fun _ _ => f64_of_Z 2) 1.
Proof.
  intros Hb. split; [reflexivity|]. split; [apply in_turn_schedule, Hb|]. split; [|split; [split; [reflexivity|]|]].
  - apply alloc_holds. intros i j Hi Hj. cbn [cell]. split; [lia|]. reflexivity.
  - apply alloc_holds. intros i j Hi Hj. cbn [cell]. split; [lia|]. reflexivity.
  - apply alloc_room. intros i j Hi Hj. cbn [cell]. lia.
Qed.
(** The cosine distance of the rows (1) and (2) is 0, and so it is when they are alone.  As the last of 1025 rows of Y the row (2)
    is at distance -1. *)
Theorem cosine_of_many_rows_refuted :
  exists d d',
    gives (f64_ops pow0) avx512_double simple_nrm2 eps64 no_garbage (in_turn 128 1) PCosine ColumnMajor 1 1025 1
      (alloc 1 (fun _ => f64_of_Z 1)) 1 (Some (alloc 1025 (last_row 2))) 1025 (alloc 1025 no_garbage) 1 1025 d /\
    gives (f64_ops pow0) avx512_double simple_nrm2 eps64 no_garbage (in_turn 128 1) PCosine ColumnMajor 1 1 1
      (alloc 1 (fun _ => f64_of_Z 1)) 1 (Some (alloc 1 (fun _ => f64_of_Z 2))) 1 (alloc 1 no_garbage) 1 1 d' /\
    d 0 1024 = f64_of_Z (-1) /\ d' 0 0 = zero64.
Proof.
  eexists. eexists. split; [|split; [|split]].
  - exact (pairwise_ok _ avx512_double _ _ _ _ true _ _ _ _ _ _ _ _ _ _ _ _ _ _ good_512 (cosine_call avx512_double good_512)).
  - exact (pairwise_ok _ avx512_double _ _ _ _ true _ _ _ _ _ _ _ _ _ _ _ _ _ _ good_512 (cosine_call_alone avx512_double good_512)).
  - apply B2SF_inj. vm_compute. reflexivity.
  - apply B2SF_inj. vm_compute. reflexivity.
Qed.
Print Assumptions cosine_of_many_rows_refuted.
Lemma cosine_self_call b : good_sizes b ->
  proper_call b (in_turn (MC b) 1025) true PCosine ColumnMajor 1025 0 1 (alloc 1025 (last_row (-2))) 1025 None 0
    (alloc (1025 * 1025) no_garbage) 1025 (fun j _ => last_row (-2) j) (fun j _ => last_row (-2) j) 1025.
Proof.
  intros Hb. split; [reflexivity|]. split; [apply in_turn_schedule, Hb|]. split; [|split; [split; reflexivity|]].
  - apply alloc_holds. intros i j Hi Hj. cbn [cell]. split; [lia|]. f_equal. lia.
  - apply alloc_room. intros i j Hi Hj. cbn [cell]. lia.
Qed.
(** For a matrix and itself: the last row (-2) is at distance 0 from the first row (1), which points the other way, and not at
    distance 0 from itself; the matrix is not symmetric. *)
Theorem cosine_of_many_rows_to_themselves_refuted :
  exists d,
    gives (f64_ops pow0) avx512_double simple_nrm2 eps64 no_garbage (in_turn 128 1025) PCosine ColumnMajor 1025 0 1
      (alloc 1025 (last_row (-2))) 1025 None 0 (alloc (1025 * 1025) no_garbage) 1025 1025 d /\
    d 0 1024 = zero64 /\ d 1024 0 = f64_of_Z 2 /\ d 1024 1024 = f64_of_Z (-1).
Proof.
  eexists. split; [|split; [|split]].
  - exact (pairwise_ok _ avx512_double _ _ _ _ true _ _ _ _ _ _ _ _ _ _ _ _ _ _ good_512 (cosine_self_call avx512_double good_512)).
  - apply B2SF_inj. vm_compute. reflexivity.
  - apply B2SF_inj. vm_compute. reflexivity.
  - apply B2SF_inj. vm_compute. reflexivity.
Qed.
Print Assumptions cosine_of_many_rows_to_themselves_refuted.

(** ** By products of matrices *)
Theorem euclidean_gemm_exact : forall pw gemm square same k x y i j, gemm_contract gemm -> (same = true -> y = x) ->
  euclidean_gemm (real_ops pw) gemm square same k x y i j = true_distance pw (if square then PSqeuclidean else PEuclidean) k (x i) (y j).
Proof. exact euclidean_gemm_real. Qed.
Print Assumptions euclidean_gemm_exact.
Theorem euclidean_gemm_symmetric : forall {T} (O : ops T) gemm square k x i j,
  euclidean_gemm O gemm square true k x x i j = euclidean_gemm O gemm square true k x x j i /\ euclidean_gemm O gemm square true k x x i i = o_zero O.
Proof.
  intros T O gemm square k x i j. unfold euclidean_gemm. rewrite Z.eqb_refl. split; [|reflexivity].
  rewrite (Z.eqb_sym j i), (Z.min_comm j i), (Z.max_comm j i). reflexivity.
Qed.
Print Assumptions euclidean_gemm_symmetric.
(** The rows (0.3) and (0.300000001): the distance by products of matrices is NaN and the squared distance is negative,
    whatever library multiplies the matrices. *)
Theorem euclidean_gemm_nan_refuted : forall pw gemm, gemm_one_column gemm -> exists x y : Z -> Z -> f64,
  all_finite 1 1 x /\ all_finite 1 1 y /\
  euclidean_gemm (f64_ops pw) gemm false false 1 x y 0 0 = B754_nan /\
  f64_lt (euclidean_gemm (f64_ops pw) gemm true false 1 x y 0 0) zero64 = true.
Proof.
  intros pw gemm HG.
  exists (fun _ _ => f64_div (f64_of_Z 3) (f64_of_Z 10)), (fun _ _ => f64_div (f64_of_Z 300000001) (f64_of_Z 1000000000)).
  split; [intros i p _ _; reflexivity|]. split; [intros i p _ _; reflexivity|].
  unfold euclidean_gemm. rewrite HG. split; [|vm_compute; reflexivity]. apply B2SF_inj. vm_compute. reflexivity.
Qed.
Print Assumptions euclidean_gemm_nan_refuted.

(** ** Examples *)
Example gemm_contract_reachable : gemm_contract (fun k x y => - 2 * rsum k (fun p => x p * y p))%R.
Proof. intros k x y. reflexivity. Qed.
Example gemm_one_column_reachable : gemm_one_column (fun k x y => f64_mul (f64_of_Z (-2)) (fold_left (fun s p => f64_add s (f64_mul (x p) (y p))) (map (fun p => p + 1) (zrange (k - 1))) (f64_mul (x 0) (y 0)))).
Proof. intros x y. reflexivity. Qed.
(** The hypotheses of [pairwise_cosine_exact_partial] *)
Example cosine_exact_example :
  proper_call avx512_double (in_turn 128 1) true PCosine ColumnMajor 1 1 1 (alloc 1 (fun _ => 1%R)) 1 (Some (alloc 1 (fun _ => 2%R))) 1
    (alloc 1 (fun _ => 0%R)) 1 (fun _ _ => 1%R) (fun _ _ => 2%R) 1 /\
  norm_contract (fun l => R_sqrt.sqrt (fold_right Rplus 0%R (map Rsqr l))) /\
  (0 < R_sqrt.sqrt (rsum 1 (fun _ => Rsqr 1)))%R /\ (0 < R_sqrt.sqrt (rsum 1 (fun _ => Rsqr 2)))%R.
Proof.
  split; [|split; [intro l; reflexivity|]].
  - split; [reflexivity|]. split; [apply in_turn_schedule; lia|]. split; [|split; [split; [reflexivity|]|]].
    + apply alloc_holds. intros i j Hi Hj. cbn [cell]. split; [lia|reflexivity].
    + apply alloc_holds. intros i j Hi Hj. cbn [cell]. split; [lia|reflexivity].
    + apply alloc_room. intros i j Hi Hj. cbn [cell]. lia.
  - unfold rsum, Rsqr. change (zrange 1) with [0]. cbn [map fold_right]. split; apply R_sqrt.sqrt_lt_R0; lra.
Qed.
(** The hypotheses of [pairwise_nonneg]: the calls above, and a run of the model. *)
Example nonneg_example : all_finite 1 36 (fun _ p => cpu_row p) /\ sum_of_differences (meant (f64_ops pow0) PSqeuclidean) = true.
Proof.
  split; [|reflexivity]. intros i p _ _. unfold cpu_row. destruct (p =? 0); [reflexivity|]. destruct ((p =? 2) || (p =? 6) || (p =? 34)); reflexivity.
Qed.
(** 3 rows and 2 rows with 3 columns in blocks that are too small for them: MR = NR = 2, MC = NC = KC = 2, blocks in reverse order *)
Definition tiny : sizes := Sizes 2 2 2 2 2.
Definition int_ops : ops Z := Ops Z 0 1 Z.add Z.sub Z.div Z.mul (fun a b c => a * b + c) Z.abs Z.sqrt Z.pow Z.leb 2 Z.eqb.
Definition ex_x : list Z := [1; 2; 3;  4; 5; 6;  7; 8; 9].
Definition ex_y : list Z := [0; 0; 0;  1; 5; 9].
Definition from_list (l : list Z) : mem Z := fun a => if (0 <=? a) && (a <? Z.of_nat (length l)) then Some (nth (Z.to_nat a) l 0) else None.
Example tiny_good : good_sizes tiny. Proof. repeat split; try (cbn; lia); exists 1; reflexivity. Qed.
Example pairwise_run :
  match pairwise int_ops tiny (fun _ => 1) 0 (fun _ => 77) (fun _ _ => [2; 0]) PSqeuclidean RowMajor 3 2 3 (from_list ex_x) 3
          (Some (from_list ex_y)) 3 (from_list [-1; -1; -1; -1; -1; -1; -1; -1]) 3 with
  | Some D => map D [0; 1; 2; 3; 4; 5; 6; 7; 8] | None => [] end =
  [Some 14; Some 45; Some (-1); Some 77; Some 18; Some (-1); Some 194; Some 45; None].
Proof. vm_compute. reflexivity. Qed.
Example pairwise_run_columns :
  match pairwise int_ops tiny (fun _ => 1) 0 (fun _ => 77) (fun _ _ => [0; 2]) PManhattan ColumnMajor 3 0 3 (from_list [1; 4; 7; 2; 5; 8; 3; 6; 9]) 3
          None 0 (from_list [0; 0; 0; 0; 0; 0; 0; 0; 0]) 3 with
  | Some D => map D (zrange 9) | None => [] end =
  [Some 0; Some 9; Some 18; Some 9; Some 0; Some 9; Some 18; Some 9; Some 0].
Proof. vm_compute. reflexivity. Qed.
