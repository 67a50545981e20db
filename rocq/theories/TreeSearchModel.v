(** Decision trees: search for the best split of a node.
    source/core/decision_forest/tree/decision_tree_training_split.hpp, decision_tree_training_fit.hpp 233-290.

    [None] is an access outside an array, a conversion to an integer that is undefined, or a loop that needs
    more than its [fuel] rounds.  Integers do not overflow.  Values are doubles, expressions are evaluated
    without fused operations.  The labels are not checked against the number of classes here: the same
    samples were counted when the node was made (count_class_occurences). *)
From Coq Require Import ZArith List Bool.
From Flocq Require Import Core IEEE754.BinarySingleNaN.
From Verif Require Import Base Par F64 UtilModel SortModel TreeModel.
Import ListNotations.
Local Open Scope Z_scope.

(** the literal 1.0e-05 *)
Definition const_tol : f64 := binary_normalize 53 1024 eq_refl eq_refl mode_NE 5902958103587057 (-69) false.
Definition f64_abs (x : f64) : f64 := Babs x.
(** (a + b) / 2 *)
Definition midpoint (a b : f64) : f64 := f64_div (f64_add a b) (f64_of_Z 2).

(** struct split, decision_tree.hpp 91-118 *)
Record best := Best {
  b_prop : property; b_feat : Z; b_score : f64; b_left : f64; b_right : f64; b_threshold : f64; b_category : Z }.

Section Search.
Variables (X : Z -> f64) (xlen ldx n_samples n_features : Z) (y : Z -> Z) (n_class : Z).
Variables (nobs n_obs_total : Z) (bootstrap : bool) (weights : Z -> Z).
(** the scoring function: number of samples, counts of the classes *)
Variable score : Z -> (Z -> Z) -> f64.
Variables (min_node_sample : Z) (min_improvement feat_thresh : f64).
(** option "category split strategy": one-vs-all or ordered *)
Variable one_vs_all : bool.
(** raw data: number of categories of each feature (0 or less if it is not categorical), the largest of them;
    depth limit of the sort *)
Variables (cat_feat : Z -> Z) (max_cat : Z) (depth_limit : Z -> Z).
(** histograms *)
Variables (use_hist : bool) (binned : Z -> Z) (blen max_bin : Z) (nbins : Z -> Z) (thresholds : Z -> f64).

Let w := weight bootstrap weights.

(** update_count_left and update_count_right, decision_tree_training_split.hpp 51-97: add the samples at the
    given positions to the counts and to their number *)
Definition add_counts (s : Z -> Z) (ps : list Z) (cn : (Z -> Z) * Z) : (Z -> Z) * Z :=
  fold_left (fun '(c, n) p => (store_at c (y (s p)) (c (y (s p)) + w (s p)), n + w (s p))) ps cn.

(** lines 136-137, 287, 345: the score of a split, and its improvement over the node *)
Definition split_score (ls rs : f64) (nl nr n : Z) : f64 :=
  f64_div (f64_add (f64_mul ls (f64_of_Z nl)) (f64_mul rs (f64_of_Z nr))) (f64_of_Z n).
Definition improvement (nd : node) (sc : f64) : f64 :=
  f64_mul (f64_div (f64_of_Z (n_node nd)) (f64_of_Z n_obs_total)) (f64_sub (nscore nd) sc).
Definition accepts (nd : node) (sc : f64) (sp : best) : bool :=
  f64_lt sc (b_score sp) && f64_lt min_improvement (improvement nd sc).

(** What update_split_sorted updates *)
Record scan := Scan {
  left_count : Z -> Z; right_count : Z -> Z; ns_left : Z; ns_right : Z;
  left_score : f64; right_score : f64; both_score : f64 }.

(** lines 109-113: the last position of the run of values that differ from the first by less than the
    threshold *)
Fixpoint end_of_ties (fuel : nat) (fv : Z -> f64) (sidx e next : Z) : Z :=
  match fuel with
  | O => next
  | Datatypes.S k =>
      if (next + 1 <=? e) && f64_lt (f64_abs (f64_sub (fv (next + 1)) (fv sidx))) feat_thresh
      then end_of_ties k fv sidx e (next + 1) else next
  end.

(** update_split_sorted, lines 99-140; [cc] are the counts of the classes in the node *)
Definition update_split_sorted (cc : Z -> Z) (s : Z -> Z) (fv : Z -> f64) (e ns sidx : Z) (st : scan) : Z * scan :=
  let next := end_of_ties (Z.to_nat (e - sidx)) fv sidx e sidx in
  if e <=? next then (next, st) else
  let '(cl, cr, nl, nr) :=
    if next - sidx + 1 <=? e - next + 1 then
      let '(cl, nl) := add_counts s (positions sidx next) (left_count st, ns_left st) in
      (cl, fun c => cc c - cl c, nl, ns - nl)
    else
      let '(cr, nr) := add_counts s (rev (positions (next + 1) e)) (fun _ => 0, 0) in
      (fun c => cc c - cr c, cr, ns - nr, nr) in
  let ls := score nl cl in
  let rs := score nr cr in
  (next, Scan cl cr nl nr ls rs (split_score ls rs nl nr ns)).

(** split_raw_continuous, lines 365-407 *)
Fixpoint scan_loop (fuel : nat) (nd : node) (cc : Z -> Z) (s : Z -> Z) (fv : Z -> f64) (sidx : Z) (st : scan) (sp : best) : option best :=
  if sidx <=? last nd - 1 then
    match fuel with
    | O => None
    | Datatypes.S k =>
        let '(next, st) := update_split_sorted cc s fv (last nd) (n_node nd) sidx st in
        if ns_left st <? min_node_sample then scan_loop k nd cc s fv (sidx + 1) st sp
        else if ns_right st <? min_node_sample then Some sp
        else if accepts nd (both_score st) sp then
          if inside nobs next && inside nobs (next + 1) then
            scan_loop k nd cc s fv (next + 1) st
              (Best Continuous (b_feat sp) (both_score st) (left_score st) (right_score st)
                    (midpoint (fv next) (fv (next + 1))) (b_category sp))
          else None
        else scan_loop k nd cc s fv (next + 1) st sp
    end
  else Some sp.
Definition split_raw_continuous (nd : node) (cc : Z -> Z) (s : Z -> Z) (fv : Z -> f64) (sp : best) : option best :=
  let sp := Best (b_prop sp) (b_feat sp) (nscore nd) (b_left sp) (b_right sp) (b_threshold sp) (b_category sp) in
  scan_loop (Z.to_nat (last nd - first nd)) nd cc s fv (first nd)
            (Scan (fun _ => 0) cc 0 (n_node nd) (f64_of_Z 0) (nscore nd) (f64_of_Z 0)) sp.

(** the table of lines 326-332: occurrences of each class for each category, not weighted *)
Fixpoint fill_table (s : Z -> Z) (fv : Z -> f64) (ps : list Z) (table : Z -> Z) : option (Z -> Z) :=
  match ps with
  | [] => Some table
  | p :: rest =>
      bind (f64_round (fv p)) (fun cat =>
        let k := cat * n_class + y (s p) in
        if inside (max_cat * n_class) k then fill_table s fv rest (store_at table k (table k + 1)) else None)
  end.

(** split_raw_onevall, lines 315-362 *)
Fixpoint try_categories (nd : node) (cc : Z -> Z) (feat : Z) (table : Z -> Z) (cats : list Z) (sp : best) : best :=
  match cats with
  | [] => sp
  | cat :: rest =>
      let cl c := table (cat * n_class + c) in
      let nl := total n_class cl in
      let cr c := cc c - cl c in
      let nr := n_node nd - nl in
      if (nl <? min_node_sample) || (nr <? min_node_sample) then try_categories nd cc feat table rest sp
      else
        let ls := score nl cl in
        let rs := score nr cr in
        let sc := split_score ls rs nl nr (n_node nd) in
        try_categories nd cc feat table rest
          (if accepts nd sc sp then Best OneVsAll feat sc ls rs (b_threshold sp) cat else sp)
  end.
Definition split_raw_onevall (nd : node) (cc : Z -> Z) (feat : Z) (s : Z -> Z) (fv : Z -> f64) (sp : best) : option best :=
  let sp := Best (b_prop sp) (b_feat sp) (nscore nd) (b_left sp) (b_right sp) (b_threshold sp) (b_category sp) in
  bind (fill_table s fv (positions (first nd) (last nd)) (fun _ => 0)) (fun table =>
    Some (try_categories nd cc feat table (zrange (cat_feat feat)) sp)).

(** compute_best_split_raw, lines 409-438, with update_feature_values, lines 305-312.  The values at other
    positions than those of the node are not read; here they are those of the same feature. *)
Definition compute_best_split_raw (nd : node) (cc : Z -> Z) (feat : Z) (s : Z -> Z) (sp : best)
  : option (bool * best * (Z -> Z)) :=
  if forallb (fun p => inside xlen (ldx * feat + s p)) (positions (first nd) (last nd)) then
    let a p := (s p, X (ldx * feat + s p)) in
    if negb one_vs_all || (cat_feat feat <=? 0) then
      bind (if cat_feat feat =? 1 then Some a
            else multi_range_intro_sort f64 f64_lt nobs a (first nd) (last nd - first nd + 1)
                                        (depth_limit (last nd - first nd + 1))) (fun a =>
        let s p := fst (a p) in
        let fv p := snd (a p) in
        if f64_lt (f64_abs (f64_sub (fv (first nd)) (fv (last nd)))) const_tol then Some (true, sp, s)
        else
          bind (split_raw_continuous nd cc s fv
                  (Best (b_prop sp) feat (b_score sp) (b_left sp) (b_right sp) (b_threshold sp) (b_category sp)))
               (fun sp => Some (false, sp, s)))
    else
      bind (split_raw_onevall nd cc feat s (fun p => X (ldx * feat + s p))
              (Best (b_prop sp) feat (b_score sp) (b_left sp) (b_right sp) (b_threshold sp) (b_category sp)))
           (fun sp => Some (false, sp, s))
  else None.

(** update_node_histogram, lines 142-202: occurrences of the classes in the bins, samples in the bins, first
    bin found, whether there is no other.  The bins of a feature start at [feat * n_samples]. *)
Fixpoint node_histogram (s : Z -> Z) (feat : Z) (ps : list Z) (hist count : Z -> Z) (seen : Z) (const : bool)
  : option ((Z -> Z) * (Z -> Z) * bool) :=
  match ps with
  | [] => Some (hist, count, const)
  | p :: rest =>
      let pos := feat * n_samples + s p in
      if inside blen pos then
        let cat := binned pos in
        if inside max_bin cat then
          let k := cat * n_class + y (s p) in
          node_histogram s feat rest (store_at hist k (hist k + w (s p))) (store_at count cat (count cat + 1))
            (if const && (seen =? -1) then cat else seen) (const && ((seen =? -1) || (seen =? cat)))
        else None
      else None
  end.

(** compute_best_split_hist, lines 246-302: the loop over the bins; [cl] are the left counts *)
Fixpoint try_bins (nd : node) (cc : Z -> Z) (feat : Z) (hist count : Z -> Z) (p : property) (bins : list Z)
    (cl : Z -> Z) (old_left : Z) (sp : best) : option best :=
  match bins with
  | [] => Some sp
  | cat :: rest =>
      if count cat =? 0 then try_bins nd cc feat hist count p rest cl old_left sp
      else
        let cl c := match p with OneVsAll => hist (cat * n_class + c) | _ => cl c + hist (cat * n_class + c) end in
        let cr c := cc c - cl c in
        let nl := total n_class cl in
        let nr := n_node nd - nl in
        if (nl <? min_node_sample) || (nl <=? old_left) then try_bins nd cc feat hist count p rest cl old_left sp
        else if nr <? min_node_sample then Some sp
        else
          let ls := score nl cl in
          let rs := score nr cr in
          let sc := split_score ls rs nl nr (n_node nd) in
          if accepts nd sc sp then
            match p with
            | OneVsAll => try_bins nd cc feat hist count p rest cl nl (Best p feat sc ls rs (b_threshold sp) cat)
            | _ => if inside (n_features * (max_bin - 1)) (feat * (max_bin - 1) + cat)
                   then try_bins nd cc feat hist count p rest cl nl
                          (Best p feat sc ls rs (thresholds (feat * (max_bin - 1) + cat)) cat)
                   else None
            end
          else try_bins nd cc feat hist count p rest cl nl sp
  end.
Definition compute_best_split_hist (nd : node) (cc : Z -> Z) (feat : Z) (s : Z -> Z) (sp : best) : option (bool * best) :=
  bind (node_histogram s feat (positions (first nd) (last nd)) (fun _ => 0) (fun _ => 0) (-1) true)
    (fun '(hist, count, const) =>
      if const : bool then Some (true, sp)
      else
        let p := if (nbins feat <? max_bin) && one_vs_all then OneVsAll else Ordered in
        bind (try_bins nd cc feat hist count p (zrange (nbins feat)) (fun _ => 0) 0 sp) (fun sp => Some (false, sp))).

(** compute_best_split, lines 440-455 *)
Definition compute_best_split (nd : node) (cc : Z -> Z) (feat : Z) (s : Z -> Z) (sp : best) : option (bool * best * (Z -> Z)) :=
  if use_hist then bind (compute_best_split_hist nd cc feat s sp) (fun '(const, sp) => Some (const, sp, s))
  else compute_best_split_raw nd cc feat s sp.

(** The state of the search: features_idx, const_feat_idx of the nodes, number of draws made *)
Record features := Features { order : Z -> Z; const_idx : Z -> Z; drawn : Z }.
(** option "maximum features" after line 454 of decision_tree_training_fit.hpp; the draws:
    [draw k a b] is the [k]-th draw, uniform on [a .. b] *)
Variable nfeat_split : Z.
Variable draw : Z -> Z -> Z -> Z.

(** decision_tree_training_fit.hpp 261-288 *)
Fixpoint feature_loop (fuel : nat) (nd : node) (cc : Z -> Z) (s : Z -> Z) (ord : Z -> Z) (const k : Z)
    (fvar to_draw : Z) (sp bs : best) : option (best * (Z -> Z) * (Z -> Z) * Z * Z) :=
  if (fvar <? to_draw) && (fvar <? const) then
    match fuel with
    | O => None
    | Datatypes.S fuel =>
        let r := if nfeat_split <? n_features then draw k fvar (n_features - 1) else fvar in
        let k := if nfeat_split <? n_features then k + 1 else k in
        if (nfeat_split <? n_features) && (const <=? r) then feature_loop fuel nd cc s ord const k fvar (to_draw - 1) sp bs
        else if inside n_features fvar && inside n_features r then
          let ord := store_at (store_at ord fvar (ord r)) r (ord fvar) in
          let feat := ord fvar in
          bind (compute_best_split nd cc feat s sp) (fun '(is_const, sp, s) =>
            if is_const : bool then
              if inside n_features (const - 1) then
                feature_loop fuel nd cc s (store_at (store_at ord fvar (ord (const - 1))) (const - 1) feat) (const - 1) k
                             fvar to_draw sp bs
              else None
            else
              feature_loop fuel nd cc s ord const k (fvar + 1) to_draw sp
                (if negb (b_feat sp =? -1) && f64_lt (b_score sp) (b_score bs) then sp else bs))
        else None
    end
  else Some (bs, s, ord, const, k).

(** The search for a node: decision_tree_training_fit.hpp 238-289 and 175-178.  A child has the
    const_feat_idx of its parent when it is made and takes over the one of the parent, which can only be
    smaller, when its turn comes; so it starts with the one its parent has then.  After the search, the parent
    takes over the one of the child if it is smaller. *)
Definition tree_search (r : features) (idx : Z) (nd : node) (s : Z -> Z) : option (features * option split * (Z -> Z)) :=
  let cc := fst (add_counts s (positions (first nd) (last nd)) (fun _ => 0, 0)) in
  let none := Best Continuous (-1) (nscore nd) (f64_of_Z 0) (f64_of_Z 0) (f64_of_Z 0) (-1) in
  let const := if 0 <? idx then const_idx r (parent nd) else n_features in
  bind (feature_loop (Z.to_nat (nfeat_split + n_features)) nd cc s (order r) const (drawn r) 0 nfeat_split none none)
    (fun '(bs, s, ord, const, k) =>
      let ci := store_at (const_idx r) idx const in
      let ci := if (0 <? idx) && (const <? ci (parent nd)) then store_at ci (parent nd) const else ci in
      Some (Features ord ci k,
            if b_feat bs =? -1 then None
            else Some (Split (b_prop bs) (b_feat bs) (b_threshold bs) (b_category bs) (b_left bs) (b_right bs)),
            s)).
End Search.
