(** Means, variances and higher moments of a matrix, source/core/basic_statistics/moment_statistics.cpp, and
    [standardize], source/core/basic_statistics/statistical_utilities.cpp.

    A matrix is a function from addresses (offsets from [x]) to values; output arrays are functions from indices to
    values, of which only the indices below the documented length mean anything.  Sizes are unbounded integers. *)
From Coq Require Import ZArith List Bool.
From Verif Require Import Base NnModel.
Import ListNotations.
Local Open Scope Z_scope.

Inductive order := column_major | row_major.
Inductive axis := axis_col | axis_row | axis_all.

(** What the OpenMP runtime chooses: omp_get_max_threads(), the size of the team of full_sum, the order in which the
    threads of that team reach the atomic addition, and the order in which the blocks of sum_axis_misaligned are done. *)
Record team := Team { max_threads : Z; full_team : nat; atomics : list nat -> list nat; blocks : list (Z * Z) -> list (Z * Z) }.

Section Sums.
Context {T : Type} (add : T -> T -> T) (zero : T).

(** RECURSIVE_SUM_THRESHOLD, moment_statistics.cpp line 46 *)
Definition threshold : Z := 2048.

(** The simd loop of recursive_sum, lines 115-126: [n] consecutive elements from address [pos].  The simd reduction is
    taken left to right; the theorems are about additions that may be reordered. *)
Definition sum_run (val : Z -> T) (pos n : Z) (acc : T) : T :=
  fold_left (fun s i => add s (val (pos + Z.of_nat i))) (seq 0 (Z.to_nat n)) acc.

(** The while loop, lines 114-131. *)
Fixpoint row_loop (fuel : nat) (val : Z -> T) (inner stride chunk left pos : Z) (acc : T) : T :=
  if 0 <? chunk then
    match fuel with
    | O => acc
    | S f => row_loop f val inner stride (chunk - left) (Z.min inner (chunk - left)) (pos + (left + stride))
               (sum_run val pos left acc)
    end
  else acc.

(** recursive_sum, lines 95-140.  [val] is S with its optional parameters applied to data[.]. *)
Definition leaf_sum (val : Z -> T) (inner stride chunk element : Z) : T :=
  let outer_n := element / inner in
  row_loop (Z.to_nat chunk) val inner stride chunk (Z.min chunk (inner * (outer_n + 1) - element))
    (element + outer_n * stride) zero.
Fixpoint rec_sum (fuel : nat) (val : Z -> T) (inner stride chunk element : Z) : T :=
  match fuel with
  | O => zero
  | S f =>
    if chunk <=? threshold then leaf_sum val inner stride chunk element
    else add (rec_sum f val inner stride (chunk / 2) element)
             (rec_sum f val inner stride (chunk - chunk / 2) (element + chunk / 2))
  end.
Definition recursive_sum (val : Z -> T) (inner stride chunk element : Z) : T :=
  rec_sum (S (Z.to_nat chunk)) val inner stride chunk element.

(** recursive_sum_vector, lines 146-202: entry [j] of the sums, which is all [j] depends on.  [val] is applied to the
    address; [s1] is what sum1[j] holds on entry (a freshly allocated array holds zeros). *)
Fixpoint rec_sum_vec (fuel : nat) (val : Z -> T) (ldx chunk base j : Z) (s1 : T) : T :=
  match fuel with
  | O => s1
  | S f =>
    if chunk <=? threshold then
      fold_left (fun s i => add s (val (base + ldx * Z.of_nat i + j))) (seq 0 (Z.to_nat chunk)) s1
    else
      let sum1 := rec_sum_vec f val ldx (chunk / 2) base j s1 in
      let sum2 := rec_sum_vec f val ldx (chunk - chunk / 2) (base + (chunk / 2) * ldx) j zero in
      add sum1 sum2
  end.
Definition recursive_sum_vector (val : Z -> T) (ldx chunk base j : Z) (s1 : T) : T :=
  rec_sum_vec (S (Z.to_nat chunk)) val ldx chunk base j s1.

(** full_sum, lines 208-251.  Below the threshold the region runs with one thread. *)
Definition par_threshold : Z := 32768.
Definition full_sum (t : team) (val : Z -> T) (outer inner ldx : Z) : T :=
  let nt := if par_threshold <? outer * inner then Z.of_nat (full_team t) else 1 in
  fold_left (fun s id =>
      let chunk := outer * inner / nt in
      let start := Z.of_nat id * chunk in
      let chunk := if Z.of_nat id =? nt - 1 then chunk + (outer * inner) mod nt else chunk in
      add s (recursive_sum val inner (ldx - inner) chunk start))
    (atomics t (seq 0 (Z.to_nat nt))) zero.

(** sum_axis_aligned, lines 253-276: [val i] is S with parameter opt_param1[i]. *)
Definition sum_axis_aligned (val : Z -> Z -> T) (inner ldx i : Z) : T :=
  recursive_sum (val i) inner (ldx - inner) inner (i * inner).

(** sum_axis_misaligned, lines 278-408: the shape of the blocks ... *)
Definition ceil_div (a b : Z) : Z := (a + b - 1) / b.
Record shape := Shape { n_outer : Z; outer_size : Z; n_inner : Z; inner_size : Z }.
Definition block_shape (t : team) (outer inner : Z) : shape :=
  let threads := if (1024 <=? inner) || (1024 <=? outer) then max_threads t else 1 in
  let n_in := ceil_div inner threshold in
  let n_out := Z.min threads (ceil_div outer threshold) in
  let size_out := outer / n_out in
  if n_out * n_in <? threads then
    let n_in' := Z.min (ceil_div inner 32) (ceil_div threads n_out) in
    Shape n_out size_out n_in' (inner / n_in')
  else Shape n_out size_out n_in threshold.
(** ... one block, lines 346-372: entries inner_offset .. of local_sums[i] are increased ... *)
Definition block_sum (val : Z -> Z -> T) (s : shape) (outer inner ldx : Z) (sums : Z -> Z -> T) (b : Z * Z) : Z -> Z -> T :=
  let '(i, j) := b in
  let offset := j * inner_size s in
  let size_o := if i =? n_outer s - 1 then outer - i * outer_size s else outer_size s in
  let size_i := if j =? n_inner s - 1 then inner - offset else inner_size s in
  fun i' k =>
    if (i' =? i) && (offset <=? k) && (k <? offset + size_i)
    then recursive_sum_vector (val k) ldx size_o (i * outer_size s * ldx + offset) (k - offset) (sums i' k)
    else sums i' k.
(** ... one round of the tree reduction, lines 379-396: the destinations of a round are no sources of it ... *)
Definition tree_round (n stride : Z) (sums : Z -> T) : Z -> T :=
  fun d => if (d mod (2 * stride) =? 0) && (0 <=? d) && (d + stride <? n) then add (sums d) (sums (d + stride)) else sums d.
Fixpoint tree_loop (fuel : nat) (n stride : Z) (sums : Z -> T) : Z -> T :=
  if stride <? n then
    match fuel with O => sums | S f => tree_loop f n (2 * stride) (tree_round n stride sums) end
  else sums.
(** ... and the whole.  asum is local_sums[0]; everything starts as zeros. *)
Definition all_blocks (s : shape) : list (Z * Z) :=
  flat_map (fun i => map (fun j => (Z.of_nat i, Z.of_nat j)) (seq 0 (Z.to_nat (n_inner s)))) (seq 0 (Z.to_nat (n_outer s))).
Definition sum_axis_misaligned (t : team) (val : Z -> Z -> T) (outer inner ldx k : Z) : T :=
  let s := block_shape t outer inner in
  let sums := fold_left (block_sum val s outer inner ldx) (blocks t (all_blocks s)) (fun _ _ => zero) in
  tree_loop (Z.to_nat (n_outer s)) (n_outer s) 1 (fun i => sums i k) 0.

(** da_sum, lines 410-433. *)
Definition da_sum (t : team) (o : order) (ax : axis) (m n ldx : Z) (val : Z -> Z -> T) (k : Z) : T :=
  let outer := match o with column_major => n | row_major => m end in
  let inner := match o with column_major => m | row_major => n end in
  match ax, o with
  | axis_all, _ => full_sum t (val 0) outer inner ldx
  | axis_col, column_major | axis_row, row_major => sum_axis_aligned val inner ldx k
  | _, _ => sum_axis_misaligned t val outer inner ldx k
  end.
End Sums.

Section Stats.
Context {T : Type} (N : arith T).
(** std::exp and std::log *)
Context (exp_ log_ : T -> T) (minus_infinity : T).

(** x == 0 *)
Definition is0 (x : T) : bool := le N x (zero N) && le N (zero N) x.

(** check_data, lines 435-454; the pointers are assumed to be good. *)
Definition check_data (o : order) (m n ldx : Z) : da_status :=
  if (m <? 1) || (n <? 1) then st_invalid_array_dimension
  else if ldx <? match o with column_major => m | row_major => n end then st_invalid_leading_dimension
  else st_success.

(** power, lines 49-62 *)
Fixpoint power_loop (fuel : nat) (e : Z) (base result : T) : T :=
  if 0 <? e then
    match fuel with
    | O => result
    | S f => power_loop f (e / 2) (mul N base base) (if Z.odd e then mul N result base else result)
    end
  else result.
Definition power (a : T) (e : Z) : T := power_loop (Z.to_nat e) e a (of_Z N 1).

(** arithmetic_sum, log_sum, inverse_sum, sum_of_squares, sum_of_powers, lines 64-84 *)
Definition log_term (x : T) : T := if is0 x then minus_infinity else log_ x.
Definition inverse_term (x : T) : T := if is0 x then zero N else div N (of_Z N 1) x.
Definition square_term (x mean : T) : T := mul N (sub N x mean) (sub N x mean).
Definition power_term (x mean : T) (k : Z) : T := power (sub N x mean) k.

Definition dsum (t : team) (o : order) (ax : axis) (m n ldx : Z) (val : Z -> Z -> T) : Z -> T :=
  da_sum (add N) (zero N) t o ax m n ldx val.

(** The number of observations behind each result and of the results, as computed in each routine. *)
Definition divisor (ax : axis) (m n : Z) : Z := match ax with axis_all => m * n | axis_col => m | axis_row => n end.
Definition axis_size (ax : axis) (m n : Z) : Z := match ax with axis_all => 1 | axis_col => n | axis_row => m end.

(** mean, lines 457-509 (T is not _Float16) *)
Definition mean (t : team) (o : order) (ax : axis) (m n : Z) (X : Z -> T) (ldx : Z) : Z -> T :=
  let s := dsum t o ax m n ldx (fun _ a => X a) in
  fun k => div N (s k) (of_Z N (divisor ax m n)).

(** is_positive, lines 511-523 *)
Definition is_positive (o : order) (m n : Z) (X : Z -> T) (ldx : Z) : bool :=
  let outer := match o with column_major => n | row_major => m end in
  let inner := match o with column_major => m | row_major => n end in
  forallb (fun i => forallb (fun j => negb (lt N (X (Z.of_nat j + ldx * Z.of_nat i)) (zero N))) (seq 0 (Z.to_nat inner)))
          (seq 0 (Z.to_nat outer)).

(** geometric_mean, lines 526-559 *)
Definition geometric_mean (t : team) (o : order) (ax : axis) (m n : Z) (X : Z -> T) (ldx : Z) : da_status * (Z -> T) :=
  match check_data o m n ldx with
  | st_success =>
    if is_positive o m n X ldx then
      let s := dsum t o ax m n ldx (fun _ a => log_term (X a)) in
      (st_success, fun k => exp_ (div N (s k) (of_Z N (divisor ax m n))))
    else (st_negative_data, fun _ => zero N)
  | e => (e, fun _ => zero N)
  end.

(** harmonic_mean, lines 562-595 *)
Definition harmonic_mean (t : team) (o : order) (ax : axis) (m n : Z) (X : Z -> T) (ldx : Z) : Z -> T :=
  let s := dsum t o ax m n ldx (fun _ a => inverse_term (X a)) in
  fun k => if is0 (s k) then zero N else div N (of_Z N (divisor ax m n)) (s k).

(** variance, lines 598-669 *)
Definition square_sums (t : team) (o : order) (ax : axis) (m n : Z) (X : Z -> T) (ldx : Z) (centre : Z -> T) : Z -> T :=
  dsum t o ax m n ldx (fun k a => square_term (X a) (centre k)).
Definition scale_factor (dof nobs : Z) : Z := if dof <? 0 then nobs else if dof =? 0 then nobs - 1 else dof.
Definition variance (t : team) (o : order) (ax : axis) (m n : Z) (X : Z -> T) (ldx dof : Z) : (Z -> T) * (Z -> T) :=
  let amean := mean t o ax m n X ldx in
  let v := square_sums t o ax m n X ldx amean in
  let sf := scale_factor dof (divisor ax m n) in
  (amean, fun k => if 1 <? sf then div N (v k) (of_Z N sf) else v k).

(** skewness, lines 672-713: mean, variance, skewness.  [one_and_half] is (T)1.5. *)
Definition one_and_half : T := div N (of_Z N 3) (of_Z N 2).
Definition power_sums (t : team) (o : order) (ax : axis) (m n : Z) (X : Z -> T) (ldx : Z) (centre : Z -> T) (k : Z) : Z -> T :=
  dsum t o ax m n ldx (fun i a => power_term (X a) (centre i) k).
Definition skewness (t : team) (o : order) (ax : axis) (m n : Z) (X : Z -> T) (ldx : Z) : (Z -> T) * (Z -> T) * (Z -> T) :=
  let amean := mean t o ax m n X ldx in
  let v := square_sums t o ax m n X ldx amean in
  let s := power_sums t o ax m n X ldx amean 3 in
  let d := of_Z N (divisor ax m n) in
  (amean, fun k => div N (v k) d,
   fun k => if is0 (v k) then zero N else div N (mul N (s k) (sqrt N d)) (pow N (v k) one_and_half)).

(** kurtosis, lines 716-758 *)
Definition kurtosis (t : team) (o : order) (ax : axis) (m n : Z) (X : Z -> T) (ldx : Z) : (Z -> T) * (Z -> T) * (Z -> T) :=
  let amean := mean t o ax m n X ldx in
  let v := square_sums t o ax m n X ldx amean in
  let s := power_sums t o ax m n X ldx amean 4 in
  let d := of_Z N (divisor ax m n) in
  (amean, fun k => div N (v k) d,
   fun k => if is0 (v k) then opp N (of_Z N 3)
            else sub N (div N (mul N (s k) d) (mul N (v k) (v k))) (of_Z N 3)).

(** moment, lines 761-821, for k >= 0; [given] is amean when use_precomputed_mean is set. *)
Definition moment (t : team) (o : order) (ax : axis) (m n : Z) (X : Z -> T) (ldx k : Z) (given : option (Z -> T)) : Z -> T :=
  let amean := match given with Some c => c | None => mean t o ax m n X ldx end in
  let s := if k =? 2 then square_sums t o ax m n X ldx amean else power_sums t o ax m n X ldx amean k in
  fun i => div N (s i) (of_Z N (divisor ax m n)).

(** is_zero, statistical_utilities.cpp lines 40-50 *)
Definition is_zero (a : Z -> T) (len : Z) : bool := forallb (fun i => is0 (a (Z.of_nat i))) (seq 0 (Z.to_nat len)).

(** row_to_col_major, row_to_col_major.cpp lines 41-66 *)
Definition flip (o : order) (ax : axis) (m n : Z) : axis * Z * Z :=
  match o with
  | column_major => (ax, m, n)
  | row_major => (match ax with axis_row => axis_col | axis_col => axis_row | axis_all => axis_all end, n, m)
  end.

(** standardize, statistical_utilities.cpp lines 53-276: where the shift and the scale come from (lines 76-209), as they
    are left in the arrays of the caller ... *)
Definition sqrt_all (v : Z -> T) : Z -> T := fun k => sqrt N (v k).
Definition choose_arrays (t : team) (ax : axis) (n p : Z) (X : Z -> T) (ldx dof : Z) (shift scale : option (Z -> T)) :
    (Z -> T) * (Z -> T) * option (Z -> T) * option (Z -> T) :=
  let length := axis_size ax n p in
  let sf := scale_factor dof length in
  let var := variance t column_major ax n p X ldx dof in
  match shift, scale with
  | None, None => (fst var, sqrt_all (snd var), None, None)
  | None, Some sc =>
    let sc := if is_zero sc length then sqrt_all (snd var) else sc in
    (fun _ => zero N, sc, None, Some sc)
  | Some sh, None =>
    let sh := if is_zero sh length then mean t column_major ax n p X ldx else sh in
    (sh, fun _ => of_Z N 1, Some sh, None)
  | Some sh, Some sc =>
    let '(sh, sc) :=
      if is_zero sh length then
        if is_zero sc length then (fst var, sqrt_all (snd var)) else (mean t column_major ax n p X ldx, sc)
      else if is_zero sc length then
        (sh, fun k => sqrt N (div N (mul N (of_Z N length) (moment t column_major ax n p X ldx 2 (Some sh) k)) (of_Z N sf)))
      else (sh, sc) in
    (sh, sc, Some sh, Some sc)
  end.
(** ... and the loops over the data, lines 211-266.  Elements outside the matrix are not touched. *)
Definition inside (n p ldx a : Z) : bool := (0 <=? a) && (a / ldx <? p) && (a mod ldx <? n).
Definition index_of (ax : axis) (ldx a : Z) : Z :=
  match ax with axis_col => a / ldx | axis_row => a mod ldx | axis_all => 0 end.
Definition apply_arrays (ax : axis) (n p ldx mode : Z) (sh sc : Z -> T) (X : Z -> T) : Z -> T :=
  fun a =>
    if inside n p ldx a then
      let k := index_of ax ldx a in
      let tmp := if is0 (sc k) then of_Z N 1 else sc k in
      if mode =? 0 then div N (sub N (X a) (sh k)) tmp else add N (mul N (X a) tmp) (sh k)
    else X a.
Record standardized := Standardized {
  std_status : da_status; std_data : Z -> T; std_shift : option (Z -> T); std_scale : option (Z -> T) }.
Definition standardize (t : team) (o : order) (ax : axis) (m n : Z) (X : Z -> T) (ldx dof mode : Z)
    (shift scale : option (Z -> T)) : standardized :=
  match check_data o m n ldx with
  | st_success =>
    if negb ((mode =? 0) || (mode =? 1)) then Standardized st_invalid_input X shift scale
    else
      let '(ax', n', p') := flip o ax m n in
      let '(sh, sc, shift', scale') := choose_arrays t ax' n' p' X ldx dof shift scale in
      Standardized st_success (apply_arrays ax' n' p' ldx mode sh sc X) shift' scale'
  | e => Standardized e X shift scale
  end.
End Stats.
