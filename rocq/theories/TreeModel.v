(** Decision trees: partition of the samples of a node, growing of the tree, prediction.
    source/core/decision_forest/tree/decision_tree_training_partition.hpp, decision_tree_training_fit.hpp,
    decision_tree_inference.hpp.

    [None] is an access outside an array, a conversion to an integer that is undefined, or a loop that
    needs more than its [fuel] rounds.  Integers do not overflow.  Values are doubles. *)
From Coq Require Import ZArith List Bool.
From Flocq Require Import Core IEEE754.BinarySingleNaN.
From Verif Require Import Base Par F64 UtilModel SortModel.
Import ListNotations.
Local Open Scope Z_scope.

(** std::round: to the nearest integer, halves away from zero; [None] for NaN and infinities *)
Definition f64_round (x : f64) : option Z :=
  match x with
  | B754_zero _ => Some 0
  | B754_finite s m e _ =>
      let v := if 0 <=? e then Zpos m * 2 ^ e else (2 * Zpos m + 2 ^ (- e)) / (2 * 2 ^ (- e)) in
      Some (if s then - v else v)
  | _ => None
  end.

(** enum split_property, tree_options_types.hpp *)
Inductive property := Continuous | OneVsAll | Ordered.

(** class node, decision_tree.hpp 50-89; [first] and [last] are start_idx and end_idx, [props] the entries of
    class_props for the node.  The marks of constant features belong to the search (see [fit_loop]). *)
Record node := Node {
  leaf : bool; parent : Z; lchild : Z; rchild : Z; ndepth : Z; nscore : f64; prop : property; pred_class : Z;
  feature : Z; threshold : f64; category : Z; first : Z; last : Z; n_node : Z; props : list f64 }.

(** struct split, decision_tree.hpp 91-118, as found by the search *)
Record split := Split {
  s_prop : property; s_feature : Z; s_threshold : f64; s_category : Z; s_left_score : f64; s_right_score : f64 }.

Section Data.
(** The training matrix: column-major, [X] at positions below [xlen]; labels, number of classes *)
Variables (X : Z -> f64) (xlen ldx n_samples : Z).
Variables (y : Z -> Z) (n_class : Z).
(** histograms: the bins of the samples, [binned_data], at positions below [blen] *)
Variables (use_hist : bool) (binned : Z -> Z) (blen : Z).

Definition x_at (pos : Z) : option f64 := if inside xlen pos then Some (X pos) else None.
Definition bin_at (pos : Z) : option Z := if inside blen pos then Some (binned pos) else None.
(** the comparison of std::round(x) with a category *)
Definition is_category (x : f64) (c : Z) : bool := match f64_round x with Some z => z =? c | None => false end.

(** Side of a sample: the test of the head sample and the test of the tail sample of the four loops of
    decision_tree_training_partition.hpp (60-66, 81-88, 107-113, 131-137).  Histograms are indexed with
    [ldx] as in the code (lines 102, 127). *)
Definition goes_left (nd : node) (i : Z) : option bool :=
  if use_hist then
    bind (bin_at (ldx * feature nd + i)) (fun b =>
      match prop nd with
      | OneVsAll => Some (b =? category nd)
      | _ => Some (b <=? category nd)
      end)
  else
    bind (x_at (ldx * feature nd + i)) (fun v =>
      match prop nd with
      | Continuous => Some (f64_le v (threshold nd))
      | _ => Some (is_category v (category nd))
      end).
Definition goes_right (nd : node) (i : Z) : option bool :=
  if use_hist then
    bind (bin_at (ldx * feature nd + i)) (fun b =>
      match prop nd with
      | OneVsAll => Some (negb (b =? category nd))
      | _ => Some (category nd <? b)
      end)
  else
    bind (x_at (ldx * feature nd + i)) (fun v =>
      match prop nd with
      | Continuous => Some (f64_lt (threshold nd) v)
      | _ => Some (negb (is_category v (category nd)))
      end).

(** partition_samples_*, decision_tree_training_partition.hpp 48-138: the four functions share this loop.
    [nobs] is the length of samples_idx. *)
Variable nobs : Z.
Fixpoint partition_loop (fuel : nat) (nd : node) (s : Z -> Z) (head tail : Z) : option ((Z -> Z) * Z) :=
  if head <? tail then
    match fuel with
    | O => None
    | Datatypes.S k =>
        if inside nobs head && inside nobs tail then
          bind (goes_left nd (s head)) (fun l =>
          bind (goes_right nd (s tail)) (fun r =>
            if l then partition_loop k nd s (head + 1) tail
            else if r then partition_loop k nd s head (tail - 1)
            else partition_loop k nd (store_at (store_at s head (s tail)) tail (s head)) head tail))
        else None
    end
  else Some (s, head - 1).

(** Two rounds for each step of the two indices are enough when every value is on one of the two sides. *)
Definition partition_samples (nd : node) (s : Z -> Z) : option ((Z -> Z) * Z) :=
  partition_loop (2 * Z.to_nat (last nd - first nd)) nd s (first nd) (last nd).

(** count_class_occurences, decision_tree_training_fit.hpp 81-104; weights when [bootstrap] *)
Variables (bootstrap : bool) (weights : Z -> Z).
Definition weight (i : Z) : Z := if bootstrap then weights i else 1.
Fixpoint count_class_occurences (s : Z -> Z) (positions : list Z) (count : Z -> Z) : option (Z -> Z) :=
  match positions with
  | [] => Some count
  | p :: rest =>
      if inside nobs p && inside n_samples (s p) then
        let c := y (s p) in
        if inside n_class c then count_class_occurences s rest (store_at count c (count c + weight (s p))) else None
      else None
  end.
Definition positions (f l : Z) : list Z := map (fun i => f + i) (zrange (l - f + 1)).

(** std::max_element over a vector of counts: the position of the first largest *)
Definition first_max (count : Z -> Z) (n : Z) : Z :=
  fold_left (fun best c => if count best <? count c then c else best) (zrange n) 0.

Definition total (count : Z -> Z) : Z := fold_left (fun acc c => acc + count c) (zrange n_class) 0.

(** class_props of a node, lines 150-155 and 541-546 *)
Definition class_props (count : Z -> Z) (n : Z) : list f64 :=
  map (fun c => f64_div (f64_of_Z (count c)) (f64_of_Z n)) (zrange n_class).

Record state := State { nodes : list node; queue : list Z; samples : Z -> Z; n_leaves : Z; tdepth : Z }.

Definition get_node (l : list node) (i : Z) : option node := if i <? 0 then None else nth_error l (Z.to_nat i).
Fixpoint set_nth {A} (l : list A) (i : nat) (x : A) : list A :=
  match l, i with
  | [], _ => []
  | _ :: r, O => x :: r
  | a :: r, Datatypes.S k => a :: set_nth r k x
  end.
Definition set_node (l : list node) (i : Z) (x : node) : list node := set_nth l (Z.to_nat i) x.

Definition with_left (nd : node) (c : Z) : node :=
  Node (leaf nd) (parent nd) c (rchild nd) (ndepth nd) (nscore nd) (prop nd) (pred_class nd) (feature nd)
       (threshold nd) (category nd) (first nd) (last nd) (n_node nd) (props nd).
Definition with_right (nd : node) (c : Z) : node :=
  Node (leaf nd) (parent nd) (lchild nd) c (ndepth nd) (nscore nd) (prop nd) (pred_class nd) (feature nd)
       (threshold nd) (category nd) (first nd) (last nd) (n_node nd) (props nd).

(** add_node, decision_tree_training_fit.hpp 107-160.  The vector of nodes is the list of the nodes in use,
    it grows as needed. *)
Definition add_node (st : state) (parent_idx : Z) (is_left : bool) (score : f64) (split_idx : Z) : option state :=
  bind (get_node (nodes st) parent_idx) (fun p =>
    let k := Z.of_nat (length (nodes st)) in
    let f := if is_left then first p else split_idx + 1 in
    let l := if is_left then split_idx else last p in
    bind (count_class_occurences (samples st) (positions f l) (fun _ => 0)) (fun count =>
      let n := if bootstrap then total count else l - f + 1 in
      let nd := Node true parent_idx (-1) (-1) (ndepth p + 1) score Continuous (first_max count n_class)
                     (-1) (f64_of_Z 0) (-1) f l n (class_props count n) in
      Some (State (set_node (nodes st) parent_idx (if is_left then with_left p k else with_right p k) ++ [nd])
                  (queue st) (samples st) (n_leaves st) (Z.max (tdepth st) (ndepth p + 1))))).

(** Options *)
Variables (max_depth min_node_sample : Z) (min_split_score : f64).

(** lines 214-219 and 221-226: the child just added goes into the queue or is a leaf for good *)
Definition treat_later (st : state) (score : f64) : option state :=
  let k := Z.of_nat (length (nodes st)) - 1 in
  bind (get_node (nodes st) k) (fun nd =>
    if f64_lt min_split_score score && (2 * min_node_sample <=? n_node nd) && (ndepth nd <? max_depth)
    then Some (State (nodes st) (k :: queue st) (samples st) (n_leaves st) (tdepth st))
    else Some (State (nodes st) (queue st) (samples st) (n_leaves st + 1) (tdepth st))).

(** lines 183-209: the node takes the split *)
Definition apply_split (nd : node) (sp : split) : node :=
  let p := if use_hist then s_prop sp else match s_prop sp with Continuous => Continuous | _ => OneVsAll end in
  let c := if use_hist then s_category sp else match p with Continuous => category nd | _ => s_category sp end in
  let t := if use_hist then match p with Ordered => s_threshold sp | _ => threshold nd end
           else match p with Continuous => s_threshold sp | _ => threshold nd end in
  Node false (parent nd) (lchild nd) (rchild nd) (ndepth nd) (nscore nd) p (pred_class nd) (s_feature sp)
       t c (first nd) (last nd) (n_node nd) (props nd).

(** split_node_and_add_children, lines 172-231.  A split on a continuous feature together with histograms
    (an internal error) is [None]. *)
Definition split_node_and_add_children (st : state) (idx : Z) (best : option split) : option state :=
  match best with
  | None => Some (State (nodes st) (queue st) (samples st) (n_leaves st + 1) (tdepth st))
  | Some sp =>
      bind (get_node (nodes st) idx) (fun nd0 =>
        let nd := apply_split nd0 sp in
        if use_hist && match s_prop sp with Continuous => true | _ => false end then None else
        bind (partition_samples nd (samples st)) (fun '(s, split_idx) =>
          let st := State (set_node (nodes st) idx nd) (queue st) s (n_leaves st) (tdepth st) in
          bind (add_node st idx false (s_right_score sp) split_idx) (fun st =>
          bind (treat_later st (s_right_score sp)) (fun st =>
          bind (add_node st idx true (s_left_score sp) split_idx) (fun st =>
          treat_later st (s_left_score sp))))))
  end.

(** fit_serial, lines 233-297.  The search for the best split (lines 243-290) is a given function: it has a
    state of its own (feature order, random engine, constant features), and may reorder the samples. *)
Variables (R : Type) (search : R -> Z -> node -> (Z -> Z) -> option (R * option split * (Z -> Z))).
Fixpoint fit_loop (fuel : nat) (r : R) (st : state) : option state :=
  match queue st with
  | [] => Some st
  | idx :: q =>
      match fuel with
      | O => None
      | Datatypes.S k =>
          bind (get_node (nodes st) idx) (fun nd =>
          bind (search r idx nd (samples st)) (fun '(r, best, s) =>
          bind (split_node_and_add_children (State (nodes st) q s (n_leaves st) (tdepth st)) idx best) (fun st =>
          fit_loop k r st)))
      end
  end.

(** fit, lines 496-556: root node; [s] holds the samples (0, 1, ... without bootstrap, the distinct drawn
    samples with it), [n_obs_total] their number with repetitions.  [depth0] is the depth left from an
    earlier fit (it is not reset). *)
Definition fit_init (depth0 : Z) (root_score : f64) (s : Z -> Z) (n_obs_total : Z) : option state :=
  bind (count_class_occurences s (positions 0 (nobs - 1)) (fun _ => 0)) (fun count =>
    let root := Node true (-1) (-1) (-1) 0 root_score Continuous (first_max count n_class) (-1) (f64_of_Z 0) (-1)
                     0 (nobs - 1) n_obs_total (class_props count n_obs_total) in
    Some (State [root] (if 0 <? max_depth then [0] else []) s 0 depth0)).
Definition fit (depth0 : Z) (root_score : f64) (s : Z -> Z) (n_obs_total : Z) (r : R) : option state :=
  bind (fit_init depth0 root_score s n_obs_total) (fit_loop (2 ^ (Z.to_nat max_depth + 1)) r).
End Data.

(** predict, decision_tree_inference.hpp 69-91, for one sample: [x j] is its value for feature [j] (checked
    by the caller).  Training does not bound the children of loaded trees, so they are checked here. *)
Definition predict_left (nd : node) (v : f64) : option bool :=
  match prop nd with
  | OneVsAll => bind (f64_round v) (fun c => Some (c =? category nd))
  | _ => Some (f64_lt v (threshold nd))
  end.
Fixpoint descend (side : node -> f64 -> option bool) (fuel : nat) (l : list node) (x : Z -> f64) (idx : Z) : option Z :=
  bind (get_node l idx) (fun nd =>
    if leaf nd then Some idx
    else match fuel with
         | O => None
         | Datatypes.S k =>
             bind (side nd (x (feature nd))) (fun b =>
               descend side k l x (if b then lchild nd else rchild nd))
         end).
Definition predict (l : list node) (x : Z -> f64) : option Z :=
  bind (descend predict_left (length l) l x 0) (fun i => bind (get_node l i) (fun nd => Some (pred_class nd))).

(** predict_proba, decision_tree_inference.hpp 141-160, for one sample: always compares with the threshold *)
Definition proba_left (nd : node) (v : f64) : option bool := Some (f64_lt v (threshold nd)).
Definition predict_proba (l : list node) (x : Z -> f64) : option (list f64) :=
  bind (descend proba_left (length l) l x 0) (fun i => bind (get_node l i) (fun nd => Some (props nd))).
