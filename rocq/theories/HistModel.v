(** Histograms of the training data: source/core/decision_forest/common/histogram.cpp and histogram.hpp. *)
From Coq Require Import ZArith List Bool.
From Flocq Require Import BinarySingleNaN.
From Verif Require Import Base Par F64 UtilModel SortModel TreeSearchModel ForestModel.
Import ListNotations.
Local Open Scope Z_scope.

(** The arithmetic of the template parameter [T]. *)
Record num (T : Type) : Type := Num {
  of_Z : Z -> T; add : T -> T -> T; sub : T -> T -> T; mul : T -> T -> T; div : T -> T -> T; abs : T -> T;
  lt : T -> T -> bool; le : T -> T -> bool;
  round : T -> Z;          (* (da_int)std::round(x), for x >= 0 *)
  milli : T;               (* (T)0.001 *)
  tol : T }.               (* (T)1.0e-05, the default of histogram.hpp lines 81-82 *)
Arguments of_Z {_}. Arguments add {_}. Arguments sub {_}. Arguments mul {_}. Arguments div {_}. Arguments abs {_}.
Arguments lt {_}. Arguments le {_}. Arguments round {_}. Arguments milli {_}. Arguments tol {_}.

(** std::round of a number that is not negative: halves go up *)
Definition f64_round (x : f64) : Z :=
  let t := f64_trunc x in
  if f64_le (f64_div (f64_of_Z 1) (f64_of_Z 2)) (f64_sub x (f64_of_Z t)) then t + 1 else t.
Definition num64 : num f64 :=
  Num f64 f64_of_Z f64_add f64_sub f64_mul f64_div f64_abs f64_lt f64_le f64_round
    (f64_div (f64_of_Z 1) (f64_of_Z 1000)) (f64_div (f64_of_Z 1) (f64_of_Z 100000)).

Definition f32_sub (x y : f32) : f32 := @Bminus 24 128 eq_refl eq_refl mode_NE x y.
Definition f32_mul (x y : f32) : f32 := @Bmult 24 128 eq_refl eq_refl mode_NE x y.
Definition f32_abs (x : f32) : f32 := Babs x.
Definition f32_lt (x y : f32) : bool := Bltb x y.
Definition f32_le (x y : f32) : bool := Bleb x y.
Definition f32_round (x : f32) : Z :=
  let t := Btrunc x in
  if f32_le (f32_div (f32_of_Z 1) (f32_of_Z 2)) (f32_sub x (f32_of_Z t)) then t + 1 else t.
Definition num32 : num f32 :=
  Num f32 f32_of_Z f32_add f32_sub f32_mul f32_div f32_abs f32_lt f32_le f32_round
    (f32_div (f32_of_Z 1) (f32_of_Z 1000)) (f32_div (f32_of_Z 1) (f32_of_Z 100000)).

(** The constructor, histogram.hpp lines 62-75: the number of bins, or the exception (which the callers turn into an
    error of the option). *)
Definition bins_of (max_bin n_samples : Z) : option Z :=
  let m := Z.min max_bin (n_samples / 2) in
  if m <? 2 then None else if 65535 <? max_bin then None else Some m.

Section Hist.
Context {T : Type} (N : num T).
Variables n_elem max_bin : Z.

(** ** compute_thresholds, histogram.cpp lines 44-82, on one feature whose values [vals] have been sorted (line 47,
    boost's float_sort: a sorted arrangement).  The result lists the values stored from
    thresholds[feat_idx * (max_bin - 1)] on.  [None]: [values] is read outside its bounds, or the loop does not end
    within [fuel] turns. *)
Section Feature.
Variable vals : Z -> T.
(** line 50; the division is in double precision for [float], with the same result *)
Definition q_step : T := div N (of_Z N 1) (of_Z N max_bin).
(** lines 59-62 *)
Fixpoint explore (fuel : nat) (threshold_idx r_idx : Z) : Z :=
  match fuel with
  | O => r_idx
  | S fuel =>
      if (r_idx <? n_elem - 1) && lt N (abs N (sub N (vals threshold_idx) (vals (r_idx + 1)))) (tol N)
      then explore fuel threshold_idx (r_idx + 1) else r_idx
  end.
(** lines 68-70 *)
Fixpoint skip (fuel : nat) (last : T) (q : T) : T :=
  match fuel with
  | O => q
  | S fuel => if le N q (add N last q_step) then skip fuel last (add N q q_step) else q
  end.
(** lines 55-80 *)
Fixpoint thresholds_loop (fuel : nat) (q : T) : option (list T) :=
  match fuel with
  | O => None
  | S fuel' =>
      if le N q (sub N (of_Z N 1) (mul N (milli N) q_step)) then
        let threshold_idx := round N (mul N q (of_Z N n_elem)) - 1 in
        if inside n_elem threshold_idx then
          let r_idx := explore (Z.to_nat n_elem) threshold_idx threshold_idx in
          if n_elem - 1 <=? r_idx then Some []
          else
            let q' := if r_idx =? threshold_idx then add N q q_step
                      else skip fuel' (div N (of_Z N r_idx) (of_Z N n_elem)) q in
            option_map (cons (vals (r_idx + 1))) (thresholds_loop fuel' q')
        else None
      else Some []
  end.
Definition compute_thresholds : option (list T) := thresholds_loop (Z.to_nat (2 * max_bin + 8)) q_step.
End Feature.

(** ** compute_histograms, lines 120-160.  [sorted j]: the sorted values of feature [j]. *)
Variable n_features : Z.
Section Matrix.
Variable sorted : Z -> Z -> T.
(** the stores of the iteration for feature [j]: position and value *)
Fixpoint stores (pos : Z) (l : list T) : list (Z * T) :=
  match l with
  | [] => []
  | t :: l => (pos, t) :: stores (pos + 1) l
  end.
Definition feature_stores (j : Z) : option (list (Z * T)) :=
  option_map (stores (j * (max_bin - 1))) (compute_thresholds (sorted j)).
(** line 81 *)
Definition nbins (j : Z) : Z := match compute_thresholds (sorted j) with Some l => Z.of_nat (length l) + 1 | None => 0 end.
(** the stores in the order of the trace [tr]; [None]: a store outside the array of line 126 *)
Fixpoint store_all (tr : list (Z * T)) (thr : Z -> T) : option (Z -> T) :=
  match tr with
  | [] => Some thr
  | (p, t) :: tr => if inside (n_features * (max_bin - 1)) p then store_all tr (store_at thr p t) else None
  end.
End Matrix.

(** lines 149-157: the bin of a value *)
Fixpoint bin_search (fuel : nat) (thr : Z -> T) (base : Z) (x : T) (start last : Z) : Z :=
  match fuel with
  | O => start
  | S fuel =>
      if start <? last then
        let mid := (start + last) / 2 in
        if lt N x (thr (base + mid)) then bin_search fuel thr base x start mid
        else bin_search fuel thr base x (mid + 1) last
      else start
  end.
(** binned_data[j * n_samples + i], lines 143-160 *)
Definition binned (X : Z -> T) (ldx : Z) (nb : Z -> Z) (thr : Z -> T) (p : Z) : Z :=
  let j := p / n_elem in let i := p mod n_elem in
  bin_search (Z.to_nat (nb j)) thr (j * (max_bin - 1)) (X (j * ldx + i)) 0 (nb j - 1).
End Hist.
