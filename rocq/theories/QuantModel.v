(** Model of the quantiles (source/core/basic_statistics/order_statistics.cpp), with the fractional
    indices in double precision.

    The data are of any type with a comparison; nth_element and sort are functions given from
    outside.  [mean] and [interp] stand for the arithmetic on the data. *)
From Coq Require Import ZArith List Bool.
From Flocq Require Import Core IEEE754.BinarySingleNaN.
From Verif Require Import Base Par F64 SplitModel UtilModel.
Import ListNotations.
Local Open Scope Z_scope.

(** aoclda_basic_statistics.h:64-74 *)
Inductive quantile_type := Q1 | Q2 | Q3 | Q4 | Q5 | Q6 | Q7 | Q8 | Q9 | QOther.
Inductive axis := axis_col | axis_row | axis_all | axis_other.

(** ** Rounding to integers *)
(** A finite double as a fraction with positive denominator. *)
Definition ratio (x : f64) : option (Z * Z) :=
  match x with
  | B754_zero _ => Some (0, 1)
  | B754_finite s m e _ =>
      let v := if s then Z.neg m else Z.pos m in
      Some (if 0 <=? e then (v * 2 ^ e, 1) else (v, 2 ^ (- e)))
  | _ => None
  end.
(** (da_int)std::floor(x), (da_int)std::ceil(x), (da_int)std::nearbyint(x); [None]: infinities and
    NaN, for which the conversion is undefined *)
Definition ffloor (x : f64) : option Z := option_map (fun '(a, b) => a / b) (ratio x).
Definition fceil (x : f64) : option Z := option_map (fun '(a, b) => - (- a / b)) (ratio x).
Definition fnearest (x : f64) : option Z :=
  option_map (fun '(a, b) =>
    let k := (2 * a + b) / (2 * b) in
    if ((2 * a + b) mod (2 * b) =? 0) && Z.odd k then k - 1 else k) (ratio x).
Definition clamp (x lo hi : Z) : Z := if x <? lo then lo else if hi <? x then hi else x.

(** ** The fractional indices, order_statistics.cpp:110-162 *)
Definition f64_half : f64 := f64_div (f64_of_Z 1) (f64_of_Z 2).
Definition f64_third : f64 := f64_div (f64_of_Z 1) (f64_of_Z 3).
Definition f64_quarter : f64 := f64_div (f64_of_Z 1) (f64_of_Z 4).
Definition f64_three_eighths : f64 := f64_div (f64_of_Z 3) (f64_of_Z 8).
(** lines 122-158, before 1 is subtracted; [None]: unknown type *)
Definition quantile_h (t : quantile_type) (len : Z) (q : f64) : option f64 :=
  let l := f64_of_Z len in
  match t with
  | Q1 | Q4 => Some (f64_mul l q)
  | Q2 | Q5 => Some (f64_add (f64_mul l q) f64_half)
  | Q3 => Some (f64_sub (f64_mul l q) f64_half)
  | Q6 => Some (f64_mul (f64_of_Z (len + 1)) q)
  | Q7 => Some (f64_add (f64_mul (f64_of_Z (len - 1)) q) (f64_of_Z 1))
  | Q8 => Some (f64_add (f64_mul (f64_add l f64_third) q) f64_third)
  | Q9 => Some (f64_add (f64_mul (f64_add l f64_quarter) q) f64_three_eighths)
  | QOther => None
  end.
(** lines 110-162; the status, or the indices *)
Fixpoint get_quantile_indices (t : quantile_type) (len : Z) (q : list f64) : da_status * list f64 :=
  match q with
  | [] => (st_success, [])
  | qi :: q' =>
      if f64_lt qi (f64_of_Z 0) || f64_lt (f64_of_Z 1) qi then (st_invalid_input, [])
      else match quantile_h t len qi with
           | None => (st_internal_error, [])
           | Some y =>
               let (st, h) := get_quantile_indices t len q' in (st, f64_sub y (f64_of_Z 1) :: h)
           end
  end.

(** lines 277-300: the two positions for a fractional index *)
Definition ranks (t : quantile_type) (len : Z) (h : f64) : option (Z * Z) :=
  let both (a b : option Z) :=
    match a, b with
    | Some a, Some b => Some (clamp a 0 (len - 1), clamp b 0 (len - 1))
    | _, _ => None
    end in
  match t with
  | Q1 => both (fceil h) (fceil h)
  | Q2 => both (fceil (f64_sub h f64_half)) (ffloor (f64_add h f64_half))
  | Q3 => both (fnearest h) (fnearest h)
  | _ => both (ffloor h) (fceil h)
  end.

Section Quantile.
Variable T : Type.
Variable leb : T -> T -> bool.
Definition ltb (a b : T) : bool := negb (leb b a).
(** std::nth_element over a whole range *)
Variable nth_element : list T -> nat -> list T.
(** std::sort of the indices of a list of doubles by value *)
Variable sort : list f64 -> list nat.
(** (T)0.5 * (tmp1 + tmp2) and tmp1 + (h - h1) * (tmp2 - tmp1) *)
Variable mean : T -> T -> T.
Variable interp : f64 -> Z -> T -> T -> T.

(** std::max_element and std::min_element of a non-empty range *)
Definition max_element (x : T) (l : list T) : T := fold_left (fun m y => if ltb m y then y else m) l x.
Definition min_element (x : T) (l : list T) : T := fold_left (fun m y => if ltb y m then y else m) l x.

(** lines 47-74; [SOutside]: an element outside the array is used *)
Inductive selection := Selected (x : list T) (val1 val2 : T) | SError | SOutside.
Definition quick_selection (x : list T) (idx1 idx2 : Z) : selection :=
  let '(idx1, idx2) := if idx2 <? idx1 then (idx2, idx1) else (idx1, idx2) in
  let len := Z.of_nat (length x) in
  if negb (idx2 - idx1 =? 0) && negb (idx2 - idx1 =? 1) then SError
  else if (idx1 <? 0) || (len <=? idx2) then SOutside
  else if idx1 =? idx2 then
    let x := nth_element x (Z.to_nat idx1) in
    match nth_error x (Z.to_nat idx1) with Some v => Selected x v v | None => SOutside end
  else if idx1 <? len - 1 - idx2 then
    let x := nth_element x (Z.to_nat idx2) in
    match nth_error x (Z.to_nat idx2), firstn (Z.to_nat idx2) x with
    | Some v, a :: l => Selected x (max_element a l) v
    | _, _ => SOutside
    end
  else
    let x := nth_element x (Z.to_nat idx1) in
    match nth_error x (Z.to_nat idx1), skipn (Z.to_nat idx2) x with
    | Some v, a :: l => Selected x v (min_element a l)
    | _, _ => SOutside
    end.

Inductive outcome := QDone (st : da_status) (out : Z -> T) | QUndefined.

(** lines 310-325: what is stored, if anything *)
Definition stored (t : quantile_type) (h : f64) (h1 h2 : Z) (tmp1 tmp2 : T) : option T :=
  if h1 =? h2 then Some tmp1
  else match t with
       | Q2 => Some (mean tmp1 tmp2)
       | Q1 | Q3 => None
       | _ => Some (interp h h1 tmp1 tmp2)
       end.

(** lines 272-330: the quantiles of one row or column; [idx] is the position of the result [k] *)
Fixpoint quantile_loop (t : quantile_type) (len : Z) (idx : nat -> Z) (hs : list (nat * f64))
    (first : bool) (work : list T) (last_floor last_ceil : Z) (tmp1 tmp2 : T) (out : Z -> T) : outcome :=
  match hs with
  | [] => QDone st_success out
  | (k, h) :: hs' =>
      match ranks t len h with
      | None => QUndefined
      | Some (h1, h2) =>
          let sel :=
            if first || negb (h1 =? last_floor) || negb (h2 =? last_ceil) then
              match quick_selection (skipn (Z.to_nat last_ceil) work) (h1 - last_ceil) (h2 - last_ceil) with
              | Selected x v1 v2 => Selected (firstn (Z.to_nat last_ceil) work ++ x) v1 v2
              | r => r
              end
            else Selected work tmp1 tmp2 in
          match sel with
          | SError => QDone st_internal_error out
          | SOutside => QUndefined
          | Selected work tmp1 tmp2 =>
              let out := match stored t h h1 h2 tmp1 tmp2 with
                         | Some v => store_at out (idx k) v
                         | None => out
                         end in
              quantile_loop t len idx hs' false work h1 h2 tmp1 tmp2 out
          end
      end
  end.

(** ** quantile, lines 165-333 *)
(** lines 77-98 *)
Definition validate (o : order) (n p : Z) (nul : bool) (ldx n_q : Z) : da_status :=
  if nul then st_invalid_pointer
  else if (n <? 1) || (p <? 1) then st_invalid_array_dimension
  else if n_q <? 1 then st_invalid_input
  else match o with
       | column_major => if ldx <? n then st_invalid_leading_dimension else st_success
       | row_major => if ldx <? p then st_invalid_leading_dimension else st_success
       | other_order => st_success
       end.
Definition is_row_major (o : order) : bool := match o with row_major => true | _ => false end.
Definition is_column_major (o : order) : bool := match o with column_major => true | _ => false end.
Definition transposed (o : order) (a : axis) : bool :=
  match o, a with column_major, axis_row | row_major, axis_col => true | _, _ => false end.

(** lines 240-269: the elements of row or column [i] *)
Definition work_of (o : order) (a : axis) (n p : Z) (X : Z -> T) (ldx len i : Z) : list T :=
  match a with
  | axis_all =>
      let dim1 := if is_column_major o then n else p in
      let dim2 := if is_column_major o then p else n in
      flat_map (fun k => map (fun j => X (k * ldx + j)) (zrange dim1)) (zrange dim2)
  | _ => if transposed o a then map (fun j => X (i + j * ldx)) (zrange len)
         else map (fun j => X (i * ldx + j)) (zrange len)
  end.

(** lines 254-331: one row or column after the other *)
Fixpoint each_stat (f : Z -> (Z -> T) -> outcome) (is : list Z) (out : Z -> T) : outcome :=
  match is with
  | [] => QDone st_success out
  | i :: is' => match f i out with
                | QDone st_success out' => each_stat f is' out'
                | r => r
                end
  end.

(** [zero]: the initial value of tmp1 and tmp2; [len = n * p] does not overflow; [nul]: one of the
    pointers is null *)
Definition quantile (zero : T) (o : order) (a : axis) (n p : Z) (nul : bool) (X : Z -> T) (ldx : Z)
    (q : list f64) (t : quantile_type) (out : Z -> T) : outcome :=
  let n_q := Z.of_nat (length q) in
  match validate o n p nul ldx n_q with
  | st_success =>
      match (match a with
             | axis_col => Some (p, n)
             | axis_row => Some (n, p)
             | axis_all => Some (1, n * p)
             | axis_other => None
             end) with
      | None => QDone st_internal_error out
      | Some (num_stats, len) =>
          match get_quantile_indices t len q with
          | (st_success, h) =>
              let hs := map (fun k => (k, nth k h (f64_of_Z 0))) (sort h) in
              let idx i k := if is_row_major o then Z.of_nat k * num_stats + i else i * n_q + Z.of_nat k in
              if len =? 1 then
                let stride := if transposed o a then 1 else ldx in
                QDone st_success
                  (fold_left (fun out i =>
                     fold_left (fun out j => store_at out (idx i j) (X (i * stride))) (seq 0 (length q)) out)
                     (zrange num_stats) out)
              else
                each_stat (fun i out =>
                  quantile_loop t len (idx i) hs true (work_of o a n p X ldx len i) 0 0 zero zero out)
                  (zrange num_stats) out
          | (e, _) => QDone e out
          end
      end
  | e => QDone e out
  end.

(** five_point_summary, lines 336-408, on valid pointers: for row or column [i], in order, minimum, lower
    hinge, median, upper hinge, maximum *)
Definition summary_q : list f64 :=
  [f64_of_Z 0; f64_quarter; f64_half; f64_div (f64_of_Z 3) (f64_of_Z 4); f64_of_Z 1].
Definition five_point_summary (zero : T) (o : order) (a : axis) (n p : Z) (X : Z -> T) (ldx : Z)
  : option (da_status * (Z -> list T)) :=
  if (n <? 1) || (p <? 1) then Some (st_invalid_array_dimension, fun _ => [])
  else
    match quantile zero o a n p false X ldx summary_q Q6 (fun _ => zero) with
    | QUndefined => None
    | QDone st_success out =>
        let size := match a with axis_col => p | axis_row => n | _ => 1 end in
        Some (st_success, fun i =>
          map (fun k => out (if is_row_major o then k * size + i else i * 5 + k)) [0; 1; 2; 3; 4])
    | QDone e _ => Some (e, fun _ => [])
    end.
End Quantile.
Arguments Selected {T} x val1 val2. Arguments SError {T}. Arguments SOutside {T}.
Arguments QDone {T} st out. Arguments QUndefined {T}.
