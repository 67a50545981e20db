(** C33: quantiles are order statistics. *)
From Coq Require Import ZArith Reals Lia List Bool Permutation.
From Flocq Require Import Core IEEE754.BinarySingleNaN.
From Verif Require Import Base Par F64 SplitModel SplitSpec UtilModel QuantModel QuantSpec QuantFloatProofs
  QuantProofs QuantLoopProofs QuantMainProofs.
Import ListNotations.
Local Open Scope Z_scope.

(** C33.  For data that can be compared (no NaN) and quantiles between 0 and 1: the call succeeds, each
    result is the order statistic, or the combination of two of them, at the documented position, whatever
    the order and multiplicity of the quantiles, and nothing else is written.
    (For float data the positions are adjusted first; that is not modelled.) *)
Theorem quantiles_are_order_statistics_partial T leb nth_element sort mean interp zero o a n p X ldx q t out :
  preorder leb -> selects leb nth_element -> sorts sort ->
  valid_matrix o n p ldx -> a <> axis_other -> t <> QOther -> q <> [] -> Forall unit_q q ->
  lane_length a n p <= 2 ^ 50 ->
  exists out', quantile T leb nth_element sort mean interp zero o a n p false X ldx q t out = QDone st_success out' /\
    (forall i j qj r, 0 <= i < lanes a n p -> nth_error q j = Some qj -> is qj r ->
       quantile_value leb mean interp t (rounded_index t (lane_length a n p) r) (lane o a n p X ldx i)
         (out' (pos o (ld_out o a n p (Z.of_nat (length q))) (Z.of_nat j) i))) /\
    (forall x, ~ inside o (ld_out o a n p (Z.of_nat (length q))) (Z.of_nat (length q)) (lanes a n p) x ->
       out' x = out x).
Proof. exact (quantile_ok T leb nth_element sort mean interp zero o a n p X ldx q t out). Qed.
Print Assumptions quantiles_are_order_statistics_partial.

(** The five-point summary: smallest and largest element, and the quantiles of type 6 at the exact positions
    (n + 1) k / 4. *)
Theorem five_point_summary_correct T leb nth_element sort mean interp zero o a n p X ldx :
  preorder leb -> selects leb nth_element -> sorts sort ->
  valid_matrix o n p ldx -> a <> axis_other -> lane_length a n p <= 2 ^ 50 ->
  exists f, five_point_summary T leb nth_element sort mean interp zero o a n p X ldx = Some (st_success, f) /\
    forall i, 0 <= i < lanes a n p ->
      let l := lane o a n p X ldx i in
      let len := Z.of_nat (length l) in
      let at_ k v := quantile_value leb mean interp Q6 (IZR ((len + 1) * k) / 4) l v in
      exists minimum lower median upper maximum, f i = [minimum; lower; median; upper; maximum] /\
        is_kth leb l 0 minimum /\ at_ 1 lower /\ at_ 2 median /\ at_ 3 upper /\ is_kth leb l (len - 1) maximum.
Proof. exact (five_point_ok T leb nth_element sort mean interp zero o a n p X ldx). Qed.
Print Assumptions five_point_summary_correct.

(** Invalid input is reported and nothing is written. *)
Theorem quantile_input_checked T leb nth_element sort mean interp zero o a n p nul X ldx q t out :
  let run := quantile T leb nth_element sort mean interp zero o a n p nul X ldx q t out in
  (nul = true -> run = QDone st_invalid_pointer out) /\
  (nul = false -> n < 1 \/ p < 1 -> run = QDone st_invalid_array_dimension out) /\
  (nul = false -> 1 <= n -> 1 <= p -> q = [] -> run = QDone st_invalid_input out) /\
  (nul = false -> 1 <= n -> 1 <= p -> q <> [] ->
     (o = row_major /\ ldx < p) \/ (o = column_major /\ ldx < n) ->
     run = QDone st_invalid_leading_dimension out) /\
  (nul = false -> valid_matrix o n p ldx -> a <> axis_other -> t <> QOther ->
     (exists x r, In x q /\ is x r /\ (r < 0 \/ 1 < r)%R) -> run = QDone st_invalid_input out).
Proof. exact (quantile_invalid T leb nth_element sort mean interp zero o a n p nul X ldx q t out). Qed.
Print Assumptions quantile_input_checked.

(** A NaN among the quantiles passes the range check and is converted to an integer. *)
Theorem quantile_nan_refuted :
  quantile Z Z.leb (fun l _ => isort Z.leb l) sort_indices (fun a b => (a + b) / 2) (fun _ _ a _ => a) 0
    column_major axis_col 3 1 false (fun i => i) 3 [B754_nan] Q7 (fun _ => 0) = QUndefined.
Proof. vm_compute. reflexivity. Qed.
Print Assumptions quantile_nan_refuted.

(** ** Examples *)
(** Three rows and two columns, stored by rows with leading dimension 3. *)
Definition X1 (i : Z) : Z := nth (Z.to_nat i) [50; 7; 0; 10; 9; 0; 30; 8; 0] 0.
Definition run1 (a : axis) (q : list f64) (t : quantile_type) : outcome Z :=
  quantile Z Z.leb (fun l _ => isort Z.leb l) sort_indices (fun a b => (a + b) / 2) (fun _ _ a b => a + (b - a) / 2) 0
    row_major a 3 2 false X1 3 q t (fun _ => -1).
Definition results (k : Z) (r : outcome Z) : option (list Z) :=
  match r with QDone st_success out => Some (map out (zrange k)) | _ => None end.
Definition q_list : list f64 := [f64_of_Z 1; f64_half; f64_of_Z 0; f64_half].

Example ex_contracts : preorder Z.leb /\ selects Z.leb (fun l _ => isort Z.leb l) /\ sorts sort_indices.
Proof. split; [exact leb_preorder|]. split; [apply isort_selects, leb_preorder|exact sort_indices_sorts]. Qed.
Example ex_matrix : valid_matrix row_major 3 2 3.
Proof. repeat split; lia. Qed.
Example ex_q : Forall unit_q q_list.
Proof.
  assert (Z0 : is (f64_of_Z 0) 0) by (apply (f64_of_Z_is 0); lia).
  assert (Z1 : is (f64_of_Z 1) 1) by (apply (f64_of_Z_is 1); lia).
  repeat constructor; eexists; (split; [first [exact Z0|exact half_is|exact Z1]|Lra.lra]).
Qed.
Example ex_columns : results 9 (run1 axis_col q_list Q7) = Some [50; 9; 30; 8; 10; 7; 30; 8; -1].
Proof. vm_compute. reflexivity. Qed.
Example ex_rows : results 13 (run1 axis_row q_list Q2)
  = Some [50; 10; 30; 28; 9; 19; 7; 9; 8; 28; 9; 19; -1].
Proof. vm_compute. reflexivity. Qed.
Example ex_all : results 5 (run1 axis_all q_list Q1) = Some [50; 9; 7; 9; -1].
Proof. vm_compute. reflexivity. Qed.
Example ex_invalid : match run1 axis_all [f64_of_Z 2] Q1 with QDone st_invalid_input _ => True | _ => False end.
Proof. vm_compute. exact I. Qed.
Example ex_five :
  match five_point_summary Z Z.leb (fun l _ => isort Z.leb l) sort_indices (fun a b => (a + b) / 2)
          (fun _ _ a b => a + (b - a) / 2) 0 row_major axis_col 3 2 X1 3 with
  | Some (st_success, f) => (f 0, f 1) = ([10; 10; 30; 50; 50], [7; 7; 8; 9; 9])
  | _ => False
  end.
Proof. vm_compute. reflexivity. Qed.
