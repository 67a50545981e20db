(** What a trained tree has to be. *)
From Coq Require Import ZArith List Bool.
From Flocq Require Import IEEE754.BinarySingleNaN.
From Verif Require Import Base Par F64 SortModel SortSpec TreeModel.
Import ListNotations.
Local Open Scope Z_scope.

(** The samples at positions [f .. l] are rearranged so that the positions up to [k] have exactly those on the
    left side; nothing else moves. *)
Definition split_at (left : Z -> bool) (f l : Z) (s s' : Z -> Z) (k : Z) : Prop :=
  rearranged f (l - f + 1) s s' /\ f - 1 <= k <= l /\
  (forall p, f <= p <= k -> left (s' p) = true) /\
  (forall p, k < p <= l -> left (s' p) = false).

(** The total weight of the samples of class [c] at positions [f .. l] (their number if all weigh 1). *)
Definition class_weight (y w : Z -> Z) (s : Z -> Z) (f l c : Z) : Z :=
  fold_right Z.add 0 (map (fun i => if y i =? c then w i else 0) (slice s f (l - f + 1))).
Definition total_weight (w : Z -> Z) (s : Z -> Z) (f l : Z) : Z :=
  fold_right Z.add 0 (map w (slice s f (l - f + 1))).

Section Sides.
Variables (X : Z -> f64) (xlen ldx : Z) (use_hist : bool) (binned : Z -> Z) (blen : Z).
(** The samples on the left side of the split of a node, as positions in the training matrix or its bins. *)
Definition on_left (nd : node) (i : Z) : bool :=
  let pos := ldx * feature nd + i in
  if use_hist then match prop nd with OneVsAll => binned pos =? category nd | _ => binned pos <=? category nd end
  else match prop nd with Continuous => f64_le (X pos) (threshold nd) | _ => is_category (X pos) (category nd) end.

(** The data of the samples are inside the arrays, and comparable with the threshold. *)
Definition readable (nd : node) (i : Z) : Prop :=
  let pos := ldx * feature nd + i in
  if use_hist then 0 <= pos < blen
  else 0 <= pos < xlen /\
       match prop nd with Continuous => is_nan (X pos) = false /\ is_nan (threshold nd) = false | _ => True end.

(** The samples at positions [0 .. nobs - 1] are rows of the training matrix. *)
Definition samples_ok (n_samples nobs : Z) (s : Z -> Z) : Prop := forall p, 0 <= p < nobs -> 0 <= s p < n_samples.

(** The samples at those positions weigh something. *)
Definition positive (w : Z -> Z) (nobs : Z) (s : Z -> Z) : Prop := forall p, 0 <= p < nobs -> 1 <= w (s p).

(** Prediction sends the sample where training did. *)
Definition agrees (nd : node) (i : Z) : Prop := predict_left nd (X (ldx * feature nd + i)) = Some (on_left nd i).

(** The total weight of the samples at positions [f .. l] on one side of the split of a node. *)
Definition side_weight (w : Z -> Z) (left : bool) (nd : node) (s : Z -> Z) (f l : Z) : Z :=
  fold_right Z.add 0 (map (fun i => if eqb (on_left nd i) left then w i else 0) (slice s f (l - f + 1))).

(** What the growing of a tree asks from the search for the best split of a node: it stays inside its arrays
    as long as its own data are [good], rearranges only the samples of the node, and the split it returns can
    be evaluated on these samples; if [sep], both sides get the minimum number of samples, and prediction
    agrees with training on these samples. *)
Definition search_contract (n_samples nobs : Z) (w : Z -> Z) (min_node_sample : Z) (R : Type)
    (search : R -> Z -> node -> (Z -> Z) -> option (R * option split * (Z -> Z))) (good : R -> Prop) (sep : Prop) (kind : property -> Prop) : Prop :=
  forall r idx nd s,
  good r -> 0 <= first nd <= last nd -> last nd < nobs -> samples_ok n_samples nobs s -> positive w nobs s ->
  n_node nd = total_weight w s (first nd) (last nd) ->
  exists r' best s', search r idx nd s = Some (r', best, s') /\ good r' /\
    rearranged (first nd) (last nd - first nd + 1) s s' /\
    match best with
    | None => True
    | Some sp => (use_hist = true -> s_prop sp <> Continuous) /\ kind (prop (apply_split use_hist nd sp)) /\
                 (forall p, first nd <= p <= last nd -> readable (apply_split use_hist nd sp) (s' p)) /\
                 (sep -> forall left, min_node_sample <= side_weight w left (apply_split use_hist nd sp) s' (first nd) (last nd)) /\
                 (sep -> forall p, first nd <= p <= last nd -> agrees (apply_split use_hist nd sp) (s' p))
    end.
End Sides.

(** The first of the classes [0 .. n - 1] with the largest count. *)
Definition is_first_max (count : Z -> Z) (n c : Z) : Prop :=
  0 <= c < n /\ (forall c', 0 <= c' < n -> count c' <= count c) /\ (forall c', 0 <= c' < c -> count c' < count c).

(** Node [i] of the tree; the positions of its samples. *)
Definition node_at (t : list node) (i : Z) (nd : node) : Prop := get_node t i = Some nd.
Definition has (nd : node) (p : Z) : Prop := first nd <= p <= last nd.

(** A tree over the positions [0 .. nobs - 1]: a root with all of them, nodes that are leaves or divide
    their positions between a left and a right child one level deeper. *)
Record well_grown (t : list node) (nobs max_depth : Z) : Prop := {
  wg_root : exists r, node_at t 0 r /\ first r = 0 /\ last r = nobs - 1 /\ ndepth r = 0;
  wg_children : forall i nd, node_at t i nd -> leaf nd = false -> exists a b,
    node_at t (lchild nd) a /\ node_at t (rchild nd) b /\ i < lchild nd /\ i < rchild nd /\ lchild nd <> rchild nd /\
    parent a = i /\ parent b = i /\ ndepth a = ndepth nd + 1 /\ ndepth b = ndepth nd + 1 /\
    first a = first nd /\ first b = last a + 1 /\ last b = last nd /\ first nd - 1 <= last a <= last nd;
  wg_parent : forall i nd, node_at t i nd -> i <> 0 -> exists p,
    node_at t (parent nd) p /\ leaf p = false /\ parent nd < i /\ (lchild p = i \/ rchild p = i);
  wg_depth : forall i nd, node_at t i nd -> 0 <= ndepth nd <= max_depth }.

(** Every position belongs to one leaf. *)
Definition leaves_partition (t : list node) (nobs : Z) : Prop :=
  forall p, 0 <= p < nobs -> exists! i, exists nd, node_at t i nd /\ leaf nd = true /\ has nd p.

(** Every node predicts the majority class of its samples. *)
Definition predicts_majority (y w : Z -> Z) (n_class : Z) (t : list node) (s : Z -> Z) : Prop :=
  forall i nd, node_at t i nd -> is_first_max (class_weight y w s (first nd) (last nd)) n_class (pred_class nd).

(** Every node has the class proportions of its samples, rounded. *)
Definition has_proportions (y w : Z -> Z) (n_class : Z) (t : list node) (s : Z -> Z) : Prop :=
  forall i nd, node_at t i nd -> n_node nd = total_weight w s (first nd) (last nd) /\
    props nd = map (fun c => f64_div (f64_of_Z (class_weight y w s (first nd) (last nd) c)) (f64_of_Z (n_node nd)))
                   (zrange n_class).

(** Every node but the root has at least [m] samples. *)
Definition has_minimum (m : Z) (t : list node) : Prop := forall i nd, node_at t i nd -> i <> 0 -> m <= n_node nd.

Definition count_leaves (t : list node) : Z := Z.of_nat (length (filter leaf t)).
(** [d] is the largest depth of a node *)
Definition is_depth (t : list node) (d : Z) : Prop :=
  (forall nd, In nd t -> ndepth nd <= d) /\ exists nd, In nd t /\ ndepth nd = d.
