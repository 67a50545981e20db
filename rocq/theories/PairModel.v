(** Distances between all pairs of rows: source/core/metrics (partitioning_infrastructure.hpp, metrics_kernels.hpp,
    pairwise_distances.cpp and the files of the metrics).

    Arrays are partial functions from addresses; an access where nothing is allocated makes the whole computation [None].
    Integers do not overflow and memory is never exhausted. *)
From Coq Require Import ZArith List Bool.
From Flocq Require Import BinarySingleNaN.
From Verif Require Import Par F64 TreeSearchModel NnModel.
Import ListNotations.
Local Open Scope Z_scope.

Section Elements.
Context {T : Type} (zero : T).
Definition mem : Type := Z -> option T.
Definition store (m : mem) (a : Z) (v : T) : option mem :=
  match m a with Some _ => Some (fun b => if b =? a then Some v else m b) | None => None end.
(** a new array; what it holds at first is not known *)
Definition alloc (size : Z) (garbage : Z -> T) : mem := fun a => if (0 <=? a) && (a <? size) then Some (garbage a) else None.
(** for (...) over the given values of the counter *)
Fixpoint each {S} (l : list Z) (body : Z -> S -> option S) (s : S) : option S :=
  match l with [] => Some s | i :: l' => bind (body i s) (each l' body) end.
(** the values of the counter in for (i = 0; i < n; i += step) *)
Definition starts (n step : Z) : list Z := map (fun q => q * step) (zrange ((n + step - 1) / step)).
(** values [f 0 .. f (n-1)] stored from [at_] on: memcpy, memset and stores of vectors, with or without a mask *)
Definition fill (m : mem) (at_ n : Z) (f : Z -> option T) : option mem :=
  each (zrange n) (fun r m => bind (f r) (store m (at_ + r))) m.

(** ** Packing, partitioning_infrastructure.hpp *)
(** PackMicroPanel_BLOCKxKC, lines 79-97: rows [x0 .. x0 + m) of X; [at_]: the place of Xtilde in the buffer *)
Definition pack_panel (block m k : Z) (X : mem) (x0 ldx : Z) (buf : mem) (at_ : Z) : option mem :=
  each (zrange k) (fun p buf =>
    fill buf (at_ + p * block) block (fun r => if r <? m then X (x0 + p * ldx + r) else Some zero)) buf.
(** PackBlock_BLOCKxKC, lines 102-109 *)
Definition pack (block m k : Z) (X : mem) (x0 ldx : Z) (buf : mem) : option mem :=
  each (starts m block) (fun i buf =>
    pack_panel block (Z.min block (m - i)) k X (x0 + i) ldx buf (i / block * (block * k))) buf.

(** ** The kernels, metrics_kernels.hpp.  Each entry of a tile has its lane and its register: [kern start pairs] is the value
    left there when the lane of A and the entry of B run through [pairs]. *)
Fixpoint gather (l : list Z) (A B : Z -> option T) : option (list (T * T)) :=
  match l with
  | [] => Some []
  | p :: l' => bind (A p) (fun a => bind (B p) (fun b => bind (gather l' A B) (fun ps => Some ((a, b) :: ps))))
  end.
Definition kernel : Type := T -> list (T * T) -> T.
(** manhattan (lines 587-658), cosine (660-729), minkowski (731-827) and their masked variants: one accumulator *)
Definition single (step : T -> T * T -> T) : kernel := fun start ps => fold_left step ps start.
(** sqeuclidean_kernel_packed_impl, lines 418-495, masked: 500-585: two accumulators, added before the last rows *)
Fixpoint dual_from (step : T -> T * T -> T) (add : T -> T -> T) (g g2 : T) (ps : list (T * T)) : T :=
  match ps with
  | a :: b :: c :: d :: ps' => dual_from step add (step (step g a) b) (step (step g2 c) d) ps'
  | _ => fold_left step ps (add g g2)
  end.
Definition dual (step : T -> T * T -> T) (add : T -> T -> T) : kernel := fun start ps => dual_from step add start zero ps.
(** the lanes and registers that are not stored in the end are loaded all the same *)
Definition readable (m : mem) (at_ size : Z) : bool :=
  forallb (fun r => match m (at_ + r) with Some _ => true | None => false end) (zrange size).
(** the call of a kernel with [m] rows and [n] columns: all columns are loaded before any is stored; [first]: is_first_slice *)
Definition run_kernel (kern : kernel) (mr nr : Z) (first : bool) (m n k : Z) (A : mem) (a0 : Z) (B : mem) (b0 : Z) (C : mem) (c0 ldc : Z)
  : option mem :=
  if negb (readable A a0 (mr * k) && readable B b0 (nr * k)) then None else
  each (zrange n) (fun j C' =>
    fill C' (c0 + j * ldc) m (fun lane =>
      bind (if first then Some zero else C (c0 + j * ldc + lane)) (fun start =>
      bind (gather (zrange k) (fun p => A (a0 + p * mr + lane)) (fun p => B (b0 + p * nr + j))) (fun ps =>
      Some (kern start ps))))) C.

(** ** The loops, partitioning_infrastructure.hpp *)
(** LoopOne_packed, lines 111-128 *)
Definition loop_one (kern : kernel) (mr nr : Z) (first : bool) (m n k : Z) (A B : mem) (b0 : Z) (c0 ldc : Z) (C : mem) : option mem :=
  each (starts m mr) (fun i C => run_kernel kern mr nr first (Z.min mr (m - i)) n k A (i * k) B b0 C (c0 + i) ldc) C.
(** LoopTwo_packed, lines 130-148 *)
Definition loop_two (kern : kernel) (mr nr : Z) (first : bool) (m n k : Z) (A B : mem) (c0 ldc : Z) (C : mem) : option mem :=
  each (starts n nr) (fun j C => loop_one kern mr nr first m (Z.min nr (n - j)) k A B (j * k) (c0 + j * ldc) ldc C) C.
(** LoopThree_packed, lines 150-171: the blocks in the order [order] in which the threads come to them.  A thread packs into
    its own part of Atilde, of size MC * KC (line 166); a write beyond the part would be seen by another thread and is [None]
    here.  Blocks are atomic: they write different rows. *)
Definition loop_three (kern : kernel) (mr nr mc kc : Z) (garbage : Z -> T) (order : list Z) (first : bool) (m n k : Z)
    (X : mem) (x0 ldx : Z) (B : mem) (c0 ldc : Z) (C : mem) : option mem :=
  each order (fun i C =>
    let ib := Z.min mc (m - i) in
    bind (pack mr ib k X (x0 + i) ldx (alloc (mc * kc) garbage)) (fun A =>
    loop_two kern mr nr first ib n k A B (c0 + i) ldc C)) C.
(** LoopFour_packed, lines 173-192: one slice of columns, packed into Btilde, of size NC * KC; [order]: the order of the blocks *)
Definition slice_four (kern : kernel) (mr nr mc nc kc : Z) (garbage : Z -> T) (order : list Z) (m n k : Z)
    (X : mem) (ldx : Z) (Y : mem) (y0 ldy : Z) (c0 ldc : Z) (p : Z) (first : bool) (C : mem) : option mem :=
  let pb := Z.min kc (k - p) in
  bind (pack nr n pb Y (y0 + p * ldy) ldy (alloc (nc * kc) garbage)) (fun B =>
  loop_three kern mr nr mc kc garbage order first m n pb X (p * ldx) ldx B c0 ldc C).
Definition loop_four (kern : kernel) (mr nr mc nc kc : Z) (garbage : Z -> T) (order : Z -> list Z) (m n k : Z)
    (X : mem) (ldx : Z) (Y : mem) (y0 ldy : Z) (c0 ldc : Z) (C : mem) : option mem :=
  bind (slice_four kern mr nr mc nc kc garbage (order 0) m n k X ldx Y y0 ldy c0 ldc 0 true C)
    (each (map (fun p => p + kc) (starts (k - kc) kc))
       (fun p C => slice_four kern mr nr mc nc kc garbage (order p) m n k X ldx Y y0 ldy c0 ldc p false C)).
(** The operation behind each block of columns: value for row [i] and column [j] of the block (SqrtPostOp, PowPostOp,
    CosinePostOp) *)
Definition post_op : Type := Z -> Z -> T -> T.
Definition run_post (post : post_op) (m n c0 ldc : Z) (C : mem) : option mem :=
  each (zrange n) (fun j C => fill C (c0 + j * ldc) m (fun i => bind (C (c0 + j * ldc + i)) (fun v => Some (post i j v)))) C.
(** LoopFive_packed, lines 194-288 *)
Definition loop_five (kern : kernel) (mr nr mc nc kc : Z) (post : option post_op) (garbage : Z -> T) (order : Z -> Z -> list Z) (m n k : Z)
    (X : mem) (ldx : Z) (Y : mem) (ldy : Z) (ldc : Z) (C : mem) : option mem :=
  each (starts n nc) (fun j C =>
    let jb := Z.min nc (n - j) in
    bind (loop_four kern mr nr mc nc kc garbage (order j) m jb k X ldx Y j ldy (j * ldc) ldc C) (fun C =>
    match post with Some f => run_post f m jb (j * ldc) ldc C | None => Some C end)) C.

(** ** Orders of the data *)
Inductive order_of : Type := ColumnMajor | RowMajor.
(** copy_transpose_2D_array_row_to_column_major and .._column_to_row_major, da_utils.cpp lines 142-182, of which only the
    effect is kept: [to_ i j], [from i j] are addresses *)
Definition transpose (n_rows n_cols : Z) (from to_ : Z -> Z -> Z) (A B : mem) : option mem :=
  each (zrange n_rows) (fun i B => each (zrange n_cols) (fun j B => bind (A (from i j)) (store B (to_ i j))) B) B.
(** the sizes of the blocks *)
Record sizes : Type := Sizes { MR : Z; NR : Z; MC : Z; NC : Z; KC : Z }.
(** dispatch_packed_distance, lines 290-387; Y == nullptr is resolved by the caller's [Y], [n], [ldy]. *)
Definition dispatch (b : sizes) (kern : kernel) (post : option post_op) (garbage : Z -> T) (sched : Z -> Z -> list Z)
    (o : order_of) (m n k : Z) (X : mem) (ldx : Z) (Y : mem) (ldy : Z) (D : mem) (ldd : Z) : option mem :=
  match o with
  | ColumnMajor => loop_five kern (MR b) (NR b) (MC b) (NC b) (KC b) post garbage sched m n k X ldx Y ldy ldd D
  | RowMajor =>
      bind (transpose m k (fun i j => i * ldx + j) (fun i j => j * m + i) X (alloc (m * k) (fun _ => zero))) (fun X_col =>
      bind (transpose n k (fun i j => i * ldy + j) (fun i j => j * n + i) Y (alloc (n * k) (fun _ => zero))) (fun Y_col =>
      bind (loop_five kern (MR b) (NR b) (MC b) (NC b) (KC b) post garbage sched m n k X_col m Y_col n m
              (alloc (m * n) (fun _ => zero))) (fun D_col =>
      transpose m n (fun i j => j * m + i) (fun i j => i * ldd + j) D_col D)))
  end.
End Elements.
Arguments mem : clear implicits.

(** ** Metrics *)
Record ops (T : Type) : Type := Ops {
  o_zero : T; o_one : T; o_add : T -> T -> T; o_sub : T -> T -> T; o_div : T -> T -> T; o_mul : T -> T -> T;
  o_fma : T -> T -> T -> T; o_abs : T -> T; o_sqrt : T -> T; o_pow : T -> T -> T; o_le : T -> T -> bool;
  o_two : T; o_eq : T -> T -> bool }.
Arguments o_zero {T}. Arguments o_one {T}. Arguments o_add {T}. Arguments o_sub {T}. Arguments o_div {T}. Arguments o_mul {T}.
Arguments o_fma {T}. Arguments o_abs {T}. Arguments o_sqrt {T}. Arguments o_pow {T}. Arguments o_le {T}. Arguments o_two {T}. Arguments o_eq {T}.
Section Metrics.
Context {T : Type} (O : ops T).
(** compute_diffs and sqeuclidean_update_gamma, lines 177-195 *)
Definition square_step (g : T) (e : T * T) : T := let d := o_sub O (fst e) (snd e) in o_fma O d d g.
(** manhattan_update_gamma, lines 197-203 *)
Definition abs_step (g : T) (e : T * T) : T := o_add O g (o_abs O (o_sub O (fst e) (snd e))).
(** cosine_update_gamma, lines 205-213 *)
Definition dot_step (g : T) (e : T * T) : T := o_fma O (fst e) (snd e) g.
(** minkowski_process_k_cols_direct, lines 307-339 *)
Definition pow_step (p : T) (g : T) (e : T * T) : T := o_add O g (o_pow O (o_abs O (o_sub O (fst e) (snd e))) p).
(** the metrics that use the loops *)
Inductive pair_metric : Type := PEuclidean | PSqeuclidean | PManhattan | PCosine | PMinkowski (p : T).
(** pairwise_distances.cpp lines 53-62 *)
Definition resolve (mt : pair_metric) : pair_metric :=
  match mt with
  | PMinkowski p => if o_eq O p (o_two O) then PEuclidean else if o_eq O p (o_one O) then PManhattan else mt
  | _ => mt
  end.
Definition kernel_of (mt : pair_metric) : kernel :=
  match mt with
  | PEuclidean | PSqeuclidean => dual (o_zero O) square_step (o_add O)
  | PManhattan => single abs_step
  | PCosine => single dot_step
  | PMinkowski p => single (pow_step p)
  end.
(** cosine_distance.cpp lines 66-90.  [norm_x], [norm_y]: the norms, by row *)
Definition cosine_post (norm_x norm_y : Z -> T) (X_is_Y : bool) : post_op :=
  fun i j v => if X_is_Y && (i =? j) then o_zero O
               else o_sub O (o_one O) (o_div O v (o_mul O (norm_x i) (norm_y j))).
Definition post_of (mt : pair_metric) (norm_x norm_y : Z -> T) (X_is_Y : bool) : option post_op :=
  match mt with
  | PEuclidean => Some (fun _ _ v => o_sqrt O v)
  | PSqeuclidean | PManhattan => None
  | PCosine => Some (cosine_post norm_x norm_y X_is_Y)
  | PMinkowski p => Some (fun _ _ v => o_pow O v (o_div O (o_one O) p))
  end.
(** cosine_distance.cpp lines 110-152: cblas_nrm2 of a row is an external function; small norms are replaced.  [row]: the
    values of a row. *)
Definition safe_norm (nrm2 : list T -> T) (eps : T) (row : list T) : T :=
  let v := nrm2 row in if o_le O v eps then o_one O else v.
Definition row_of (X : mem T) (o : order_of) (ldx k i : Z) : list T :=
  map (fun p => match X (match o with ColumnMajor => i + p * ldx | RowMajor => i * ldx + p end) with Some v => v | None => o_zero O end) (zrange k).
(** pairwise_distance_kernel, pairwise_distances.cpp lines 36-75, for these metrics *)
Definition pairwise (b : sizes) (nrm2 : list T -> T) (eps : T) (garbage : Z -> T) (sched : Z -> Z -> list Z)
    (mt : pair_metric) (o : order_of) (m n k : Z) (X : mem T) (ldx : Z) (Y : option (mem T)) (ldy : Z) (D : mem T) (ldd : Z)
  : option (mem T) :=
  let mt := resolve mt in
  let '(Yn, n, ldy, same) := match Y with Some Y => (Y, n, ldy, false) | None => (X, m, ldx, true) end in
  dispatch (o_zero O) b (kernel_of mt)
    (post_of mt (fun i => safe_norm nrm2 eps (row_of X o ldx k i)) (fun j => safe_norm nrm2 eps (row_of Yn o ldy k j)) same)
    garbage sched o m n k X ldx Yn ldy D ldd.
(** pairwise_distance_error_check_kernel, lines 79-114: the arguments that are accepted.  [p_ok]: not (p <= 0). *)
Definition accepted (o : order_of) (m n k ldx ldy ldd : Z) (have_Y p_ok : bool) (mt : pair_metric) : bool :=
  (1 <=? m) && (1 <=? k) &&
  (match o with ColumnMajor => m <=? ldx | RowMajor => k <=? ldx end) &&
  (if have_Y then
     (1 <=? n) && (match o with ColumnMajor => (n <=? ldy) && (m <=? ldd) | RowMajor => (k <=? ldy) && (n <=? ldd) end)
   else m <=? ldd) &&
  (match mt with PMinkowski _ => p_ok | _ => true end).

(** ** euclidean_gemm_distance.cpp *)
(** lines 71-88: the squared norm of a row *)
Definition sq_norm (k : Z) (x : Z -> T) : T := fold_left (fun s p => o_add O s (o_mul O (x p) (x p))) (zrange k) (o_zero O).
(** lines 136-148, 150-170, 190-195, 200-226 *)
Definition gemm_entry (square : bool) (product norm_x norm_y : T) : T :=
  let v := o_add O product (o_add O norm_x norm_y) in if square then v else o_sqrt O v.
(** euclidean_gemm, lines 262-304: the entry at row [i] and column [j].  [gemm k x y]: the entry of -2 X Y^T for two rows, by
    cblas_gemm or da_syrk.  Without Y only the upper triangle is computed, its diagonal is set to zero and the rest is copied.
    Not modelled: where the entries lie in memory. *)
Definition euclidean_gemm (gemm : Z -> (Z -> T) -> (Z -> T) -> T) (square same : bool) (k : Z) (x y : Z -> Z -> T) (i j : Z) : T :=
  if same then
    if i =? j then o_zero O
    else let a := Z.min i j in let b := Z.max i j in gemm_entry square (gemm k (x a) (x b)) (sq_norm k (x a)) (sq_norm k (x b))
  else gemm_entry square (gemm k (x i) (y j)) (sq_norm k (x i)) (sq_norm k (y j)).
End Metrics.
(** BlockSizes<double>, lines 45-59: AVX-512, AVX2 *)
Definition avx512_double : sizes := Sizes 8 8 128 1024 512.
Definition avx2_double : sizes := Sizes 4 4 256 1024 32.
Definition avx512_single : sizes := Sizes 16 8 256 1024 256.
Definition avx2_single : sizes := Sizes 8 8 512 1024 64.
(** the operations of double, with fused multiply-add (kt_fmadd_p); [pw]: std::pow *)
Definition f64_ops (pw : f64 -> f64 -> f64) : ops f64 :=
  Ops f64 (f64_of_Z 0) (f64_of_Z 1) f64_add f64_sub f64_div f64_mul (fun a b c => Bfma mode_NE a b c) f64_abs f64_sqrt pw f64_le
    (f64_of_Z 2) f64_eq.
