(** Interpolation by cubic splines: source/core/interpolation
    (interpolation_generic.hpp, cubic_spline/cubic_spline.cpp).

    Numbers are exact rationals.  The tridiagonal solver gtsv is external: the
    theorems assume that its result solves the system it was given.  Dimensions
    of the values are treated independently by the code, so one is modelled,
    except where the number of dimensions matters. *)
From Coq Require Import QArith Qround List Bool Arith.
Import ListNotations.
Local Open Scope Q_scope.

Definition ltb (a b : Q) : bool := negb (Qle_bool b a).
Definition of_nat (k : nat) : Q := inject_Z (Z.of_nat k).

(** ** Search for cells *)

(** The loops interpolation_generic.hpp:172-178 and 352-359; the length of the
    interval bounds the number of steps. *)
Fixpoint bisect (fuel : nat) (s : nat -> Q) (x : Q) (left right : nat) : nat * nat :=
  match fuel with
  | O => (left, right)
  | S f =>
    if (1 <? right - left)%nat then
      let mid := ((left + right) / 2)%nat in
      if ltb x (s mid) then bisect f s x left mid else bisect f s x mid right
    else (left, right)
  end.
Definition search (s : nat -> Q) (x : Q) (left right : nat) : nat * nat :=
  bisect (right - left) s x left right.

(** The index built by set_sites_1d, lines 162-187. *)
Definition index_step (n : nat) (s : nat -> Q) : Q := (s (n - 1)%nat - s O) / of_nat (n - 1).
Fixpoint target (n : nat) (s : nat -> Q) (i : nat) : Q :=
  match i with O => s O | S i' => target n s i' + index_step n s end.
Fixpoint low (n : nat) (s : nat -> Q) (i : nat) : nat :=
  match i with
  | O => O
  | S i' => fst (search s (target n s i) (low n s i') (n - 1))
  end.
Definition high (n : nat) (s : nat -> Q) (i : nat) : nat :=
  snd (search s (target n s (S i)) (low n s i) (n - 1)).
(* Lines 182-187 set the last entries. *)
Definition index_lo (n : nat) (s : nat -> Q) (i : nat) : nat :=
  if (i <? n - 1)%nat then low n s i else (n - 2)%nat.
Definition index_up (n : nat) (s : nat -> Q) (i : nat) : nat :=
  if (i <? n - 1)%nat then high n s i else (n - 1)%nat.

(** Conversion to an integer, towards zero, and std::clamp. *)
Definition truncate (q : Q) : Z := if ltb q 0 then (- Qfloor (- q))%Z else Qfloor q.
Definition clamp (k lo hi : Z) : Z := if (k <? lo)%Z then lo else if (hi <? k)%Z then hi else k.

(** search_cells, lines 321-364. *)
Definition cell_of (n : nat) (s : nat -> Q) (x : Q) : nat :=
  let scale := of_nat (n - 1) / (s (n - 1)%nat - s O) in
  let idx := Z.to_nat (clamp (truncate ((x - s O) * scale)) 0 (Z.of_nat (n - 1))) in
  fst (search s x (index_lo n s idx) (index_up n s idx)).
Definition cell_of_uniform (n : nat) (x0 dx x : Q) : nat :=
  Z.to_nat (clamp (truncate ((x - x0) / dx)) 0 (Z.of_nat (n - 2))).

(** set_sites_uniform_1d, lines 215-227: the sites, and dx by vector::resize,
    which keeps the entries the vector already has. *)
Definition uniform_step (n : nat) (a b : Q) : Q := (b - a) / of_nat (n - 1).
Definition uniform_site (n : nat) (a b : Q) (i : nat) : Q := a + of_nat i * uniform_step n a b.
Definition resize (old : list Q) (n : nat) (v : Q) : list Q := firstn n old ++ repeat v (n - length old).
Definition uniform_dx (old : list Q) (n : nat) (a b : Q) : list Q := resize old (n - 1) (uniform_step n a b).

(** set_sites_1d, lines 114-160: the vector dx after the call and whether the
    sites were accepted; the differences behind the first offending one stay
    zero. *)
Fixpoint check_sites (s : nat -> Q) (i k : nat) : list Q * bool :=
  match k with
  | O => ([], true)
  | S k' =>
    let d := s (S i) - s i in
    if Qle_bool d 0 then (d :: repeat 0 k', false)
    else let (l, ok) := check_sites s (S i) k' in (d :: l, ok)
  end.
Definition set_sites (n : nat) (s : nat -> Q) : list Q * bool := check_sites s 0 (n - 1).

(** ** The spline *)

Inductive kind :=
| natural | clamped
| custom (left_order : nat) (left_value : Q) (right_order : nat) (right_value : Q).

(** initialize_system, cubic_spline.cpp:104-151, and the boundary rows of
    compute_clamped_spline, lines 208-221, and compute_custom_bc_spline, lines
    242-273.  [h] is dx, [dy] the differences of the values.  Entry [i] of
    [sub] multiplies z(i) in row i+1. *)
Record system := System { sub : nat -> Q; diag : nat -> Q; super : nat -> Q; rhs : nat -> Q }.
Definition sys (uniform : bool) (k : kind) (n : nat) (h dy : nat -> Q) : system :=
  let off := fun i => if uniform then h O else h i in
  let inner := fun i => if uniform then 4 * h O else 2 * (h (i - 1)%nat + h i) in
  let mid := fun i => 6 * dy i / h i - 6 * dy (i - 1)%nat / h (i - 1)%nat in
  let last := (n - 1)%nat in
  let hl := h (n - 2)%nat in
  let left2 := match k with custom lo _ _ _ => negb (lo =? 1)%nat | _ => false end in
  let right2 := match k with custom _ _ ro _ => negb (ro =? 1)%nat | _ => false end in
  System
    (fun i => if right2 && (i =? n - 2)%nat then 0 else off i)
    (fun i => if (i =? 0)%nat then (if left2 then 1 else 2 * h O)
              else if (i =? last)%nat then (if right2 then 1 else 2 * hl) else inner i)
    (fun i => if left2 && (i =? 0)%nat then 0 else off i)
    (fun i => if (i =? 0)%nat then
                match k with
                | custom 1%nat v _ _ => 6 * dy O / h O - 6 * v
                | custom _ v _ _ => v
                | _ => 6 * dy O / h O
                end
              else if (i =? last)%nat then
                match k with
                | custom _ _ 1%nat v => - 6 * dy (n - 2)%nat / hl + 6 * v
                | custom _ _ _ v => v
                | _ => - 6 * dy (n - 2)%nat / hl
                end
              else mid i).

(** Left-hand side of row [i] of rows [a] to [b]. *)
Definition row (S : system) (a b : nat) (z : nat -> Q) (i : nat) : Q :=
  (if (i =? a)%nat then 0 else sub S (i - 1)%nat * z (i - 1)%nat) + diag S i * z i +
  (if (i =? b)%nat then 0 else super S i * z (i + 1)%nat).

(** What gtsv is asked for: rows 1 to n-2 for natural splines, lines 186-197, and
    all rows otherwise. *)
Definition gtsv_solved (uniform : bool) (k : kind) (n : nat) (h dy z : nat -> Q) : Prop :=
  let S := sys uniform k n h dy in
  match k with
  | natural => forall i, (0 < i < n - 1)%nat -> row S 1 (n - 2) z i == rhs S i
  | _ => forall i, (i < n)%nat -> row S 0 (n - 1) z i == rhs S i
  end.
(* Lines 179-183. *)
Definition second (k : kind) (n : nat) (z : nat -> Q) (i : nat) : Q :=
  match k with natural => if (i =? 0)%nat || (i =? n - 1)%nat then 0 else z i | _ => z i end.

(** coeffs_from_second_derivatives, lines 157-175. *)
Record piece := Piece { cA : Q; cB : Q; cC : Q; cD : Q }.
Definition spline_piece (h dy y z : nat -> Q) (i : nat) : piece :=
  Piece ((z (i + 1)%nat - z i) / (6 * h i)) (z i / 2)
        (dy i / h i - h i * z (i + 1)%nat / 6 - h i * z i / 3) (y i).

(** compute_hermite_spline, lines 288-362. *)
Definition hermite_piece (h dy y yp : nat -> Q) (i : nat) : piece :=
  let h2 := h i * h i in
  let h3 := h2 * h i in
  Piece (- (2) * dy i / h3 + (yp i + yp (i + 1)%nat) / h2)
        (3 * dy i / h2 - (2 * yp i + yp (i + 1)%nat) / h i) (yp i) (y i).

(** spline_eval, lines 447-460. *)
Definition eval (order : nat) (p : piece) (t : Q) : Q :=
  match order with
  | 0%nat => cD p + t * (cC p + t * (cB p + t * cA p))
  | 1%nat => cC p + t * (2 * cB p + t * 3 * cA p)
  | 2%nat => 2 * cB p + 6 * cA p * t
  | 3%nat => 6 * cA p
  | _ => 0
  end.

(** ** evaluate *)

(** Lines 532-541 and bitset_to_sequence: the orders are collected in a set of
    four bits and evaluated by increasing order.  Slot [k] of y_eval gets the
    order at position [k] of the list. *)
Definition slots (orders : list nat) : list nat :=
  filter (fun k => existsb (Nat.eqb k) orders) (seq 0 4).

(** ** Calls in any order *)

(** Value [i] of dimension [d], interpolation_generic.hpp:295-313 and
    cubic_spline.cpp:163-165: the leading dimension is not used. *)
Definition value_at (row_major : bool) (n dim : nat) (y : nat -> Q) (i d : nat) : Q :=
  if row_major then y (i * dim + d)%nat else y (d * n + i)%nat.

(** The numbers of dimensions a handle keeps: dim_y, that of the values and the
    derivatives passed, and the length of left_bc and right_bc. *)
Record dims := Dims { dim_y : nat; of_values : option nat; of_derivs : option nat; of_bc : option nat }.
Definition no_dims : dims := Dims 0 None None None.
Inductive call := set_values (dim : nat) | set_derivatives (dim : nat) | set_bc (dim : nat).
(** set_values_1d, interpolation_generic.hpp:244-322, and
    set_boundary_conditions, cubic_spline.cpp:54-95; a refused call changes
    nothing. *)
Definition do_call (s : dims) (c : call) : dims :=
  match c with
  | set_values d => if (1 <=? d)%nat then Dims d (Some d) (of_derivs s) (of_bc s) else s
  | set_derivatives d => if (1 <=? d)%nat then Dims d (of_values s) (Some d) (of_bc s) else s
  | set_bc d =>
    if (match of_values s with Some _ => negb (d =? dim_y s)%nat | None => false end) || (d <? 1)%nat then s
    else Dims (dim_y s) (of_values s) (of_derivs s) (Some d)
  end.
(** interpolate with the custom or Hermite type: dimension [d] of an array with
    [m] dimensions is read for all d below dim_y. *)
Inductive outcome := refused | done | outside.
Definition reads (s : dims) (m : option nat) : outcome :=
  match m with None => refused | Some m => if (dim_y s <=? m)%nat then done else outside end.
Definition both (a b : outcome) : outcome :=
  match a, b with refused, _ => refused | _, refused => refused | done, done => done | _, _ => outside end.
Definition interpolate_custom (s : dims) : outcome := both (reads s (of_values s)) (reads s (of_bc s)).
Definition interpolate_hermite (s : dims) : outcome := both (reads s (of_values s)) (reads s (of_derivs s)).
