(** k-means handles: source/core/clustering/kmeans/kmeans.cpp, the choice of the best run and the calls of one handle in any
    order.  The runs themselves are in KmModel, KmElkanModel and KmMacModel; here a run is its outcome.  Vectors are lists,
    of which only the size and the contents matter; the storage orders, mixed precision and the messages are left out.
    [None] is an access outside an array. *)
From Coq Require Import ZArith List Bool.
From Verif Require Import Base.
Import ListNotations.
Local Open Scope Z_scope.

Section Session.
Context {T : Type} (zero inf : T) (lt : T -> T -> bool).
(** The outcome of perform_kmeans: current_cluster_centres, current_labels, current_inertia, current_n_iter, converged; no
    outcome if empty_cluster_found. *)
Record outcome : Type := Outcome { o_centres : list T; o_labels : list nat; o_inertia : T; o_iter : nat; o_converged : nat }.
(** std::vector::resize(n, v) *)
Definition resize {A} (n : nat) (v : A) (l : list A) : list A := firstn n l ++ repeat v (n - length l).

(** best_cluster_centres, best_labels, best_inertia, best_n_iter, warn_maxit_reached *)
Record best : Type := Best { b_centres : list T; b_labels : list nat; b_inertia : T; b_iter : nat; b_warn : bool }.
(** lines 740-751 *)
Definition consider (b : best) (r : outcome) : best :=
  if lt (o_inertia r) (b_inertia b) || match b_centres b with [] => true | _ => false end
  then Best (o_centres r) (o_labels r) (o_inertia r) (o_iter r) (Nat.eqb (o_converged r) 0)
  else b.
(** lines 715-752; the second component: valid_run_found *)
Definition all_runs (b : best) (runs : list (option outcome)) : best * bool :=
  fold_left (fun bv r => match r with Some r => (consider (fst bv) r, true) | None => bv end) runs (b, false).

(** The handle.  [h_k], [h_n], [h_nf]: the members n_clusters, n_samples, n_features; [h_opt_k], [h_max_k], [h_opt_init],
    [h_opt_supplied]: the options "n_clusters" with its upper bound ([None]: the largest integer), "n_init",
    "initialization method" (whether it is "supplied"); [h_C]: rows, columns and leading dimension of the initial centres. *)
Record handle : Type := Handle {
  h_data : bool; h_trained : bool; h_n : nat; h_nf : nat; h_k : nat; h_best : best;
  h_opt_k : nat; h_max_k : option nat; h_opt_init : nat; h_opt_supplied : bool; h_C : option (nat * nat * nat) }.
Definition no_best : best := Best [] [] zero 0 false.
Definition fresh : handle := Handle false false 0 0 1 no_best 1 None 10 false None.

(** refresh, lines 224-243 *)
Definition refreshed (b : best) : best := Best (b_centres b) (b_labels b) zero 0 false.
Definition refresh (h : handle) : handle :=
  Handle (h_data h) (h_trained h) (h_n h) (h_nf h) (h_k h) (refreshed (h_best h)) (h_opt_k h) (h_max_k h) (h_opt_init h)
    (h_opt_supplied h) (h_C h).

(** The calls.  [SetOther]: an option that is not modelled, or a value that is refused.  [SetData n nf good]: [good] if the
    checks of the array pass.  [Compute runs]: [runs], the outcomes of as many runs as are made; [Refused]: a check of the
    options fails, lines 405-465. *)
Inductive call : Type :=
| SetK (k : nat) | SetInit (n : nat) | SetMethod (supplied : bool) | SetOther
| SetData (n nf : nat) (good : bool) | SetCentres (ldc : nat) | Compute (runs : list (option outcome)) | Refused
| GetCentres (dim : nat) | GetLabels (dim : nat) | GetInfo | Predict.
(** What a call gives: a status, and arrays of numbers and of labels. *)
Record reply : Type := Reply { r_status : da_status; r_numbers : list T; r_labels : list nat; r_dim : nat }.
Definition status (s : da_status) : reply := Reply s [] [] 0.

Definition fits (k : nat) (m : option nat) : bool := Nat.leb 1 k && match m with None => true | Some m => Nat.leb k m end.
(** options_public.cpp lines 40-60: the handle is refreshed whether the value is accepted or not *)
Definition set_k (h : handle) (k : nat) : handle * reply :=
  let h := refresh h in
  if fits k (h_max_k h) then
    (Handle (h_data h) (h_trained h) (h_n h) (h_nf h) (h_k h) (h_best h) k (h_max_k h) (h_opt_init h) (h_opt_supplied h) (h_C h), status st_success)
  else (h, status st_option_invalid_value).
Definition set_init (h : handle) (n : nat) : handle * reply :=
  let h := refresh h in
  if Nat.leb 1 n then
    (Handle (h_data h) (h_trained h) (h_n h) (h_nf h) (h_k h) (h_best h) (h_opt_k h) (h_max_k h) n (h_opt_supplied h) (h_C h), status st_success)
  else (h, status st_option_invalid_value).
Definition set_method (h : handle) (s : bool) : handle * reply :=
  let h := refresh h in
  (Handle (h_data h) (h_trained h) (h_n h) (h_nf h) (h_k h) (h_best h) (h_opt_k h) (h_max_k h) (h_opt_init h) s (h_C h), status st_success).
(** set_data, lines 246-292 *)
Definition set_data (h : handle) (n nf : nat) (good : bool) : handle * reply :=
  let h := refresh h in
  if good && Nat.leb 1 n && Nat.leb 1 nf then
    (Handle true false n nf (h_k h) (h_best h) (Nat.min (h_opt_k h) n) (Some n) (h_opt_init h) (h_opt_supplied h) (h_C h),
     status (if Nat.ltb n (h_opt_k h) then st_incompatible_options else st_success))
  else (h, status st_invalid_array_dimension).
(** set_init_centres, lines 294-348: n_clusters is read from the options; row-major centres are copied with ldc = n_clusters *)
Definition set_centres (h : handle) (ldc : nat) : handle * reply :=
  if negb (h_data h) then (h, status st_no_data)
  else
    let h' := fun C => Handle (h_data h) (h_trained h) (h_n h) (h_nf h) (h_opt_k h) (h_best h) (h_opt_k h) (h_max_k h) (h_opt_init h)
      (h_opt_supplied h) C in
    if Nat.leb (h_opt_k h) ldc then (h' (Some (h_opt_k h, h_nf h, ldc)), status st_success)
    else (h' (h_C h), status st_invalid_leading_dimension).

(** lines 666-673: element [i + ldc * j] of the initial centres is read for all [i < k], [j < nf]; the array has
    [ldc * (cols - 1) + rows] elements *)
Definition centres_readable (C : nat * nat * nat) (k nf : nat) : bool :=
  let '(rows, cols, ldc) := C in Nat.leb ((k - 1) + ldc * (nf - 1) + 1) (ldc * (cols - 1) + rows).

(** compute, lines 351-783.  n_clusters is read from the options (line 372) before all checks; the upper bound of the option
    is taken away (lines 405-408). *)
Definition compute (h : handle) (refused : bool) (runs : list (option outcome)) : option (handle * reply) :=
  if negb (h_data h) then Some (h, status st_no_data)
  else
    let k := h_opt_k h in
    let h1 := fun b trained => Handle true trained (h_n h) (h_nf h) k b k None (h_opt_init h) (h_opt_supplied h) (h_C h) in
    let failed := fun s => Some (h1 (h_best h) (h_trained h), status s) in
    if refused then failed st_incompatible_options
    else if Nat.ltb (h_n h) k then failed st_incompatible_options
    else if h_opt_supplied h && match h_C h with None => true | _ => false end then failed st_no_data
    else
      let n_init := if h_opt_supplied h then 1%nat else h_opt_init h in
      if h_opt_supplied h && negb (match h_C h with None => true | Some C => centres_readable C k (h_nf h) end) then None
      else
        let b := h_best h in
        let b0 := if Nat.ltb 1 n_init
                  then Best (resize (k * h_nf h) zero (b_centres b)) (resize (h_n h) 0%nat (b_labels b)) inf (b_iter b) (b_warn b)
                  else Best (b_centres b) (b_labels b) inf (b_iter b) (b_warn b) in
        let (b1, valid) := all_runs b0 (firstn n_init runs) in
        if negb valid then Some (h1 b1 (h_trained h), status st_operation_failed) (* da_status_empty_clusters *)
        (* the norms of the best centres, lines 766-774 *)
        else if Nat.ltb (length (b_centres b1)) (k * h_nf h) then None
        else Some (h1 b1 true, status (if b_warn b1 then st_maxit else st_success)).

(** get_result, lines 150-222 *)
Definition read {A} (n : nat) (l : list A) : option (list A) := if Nat.leb n (length l) then Some (firstn n l) else None.
Definition get_centres (h : handle) (dim : nat) : option reply :=
  if negb (h_trained h) then Some (status st_no_data)
  else
    let n := (h_k h * h_nf h)%nat in
    if Nat.ltb dim n then Some (Reply st_invalid_array_dimension [] [] n)
    else match read n (b_centres (h_best h)) with Some l => Some (Reply st_success l [] dim) | None => None end.
Definition get_labels (h : handle) (dim : nat) : option reply :=
  if negb (h_trained h) then Some (status st_no_data)
  else if Nat.ltb dim (h_n h) then Some (Reply st_invalid_array_dimension [] [] (h_n h))
  else match read (h_n h) (b_labels (h_best h)) with Some l => Some (Reply st_success [] l dim) | None => None end.
(** of da_rinfo: best_inertia, and n_samples, n_features, n_clusters, best_n_iter *)
Definition get_info (h : handle) : reply :=
  if negb (h_trained h) then status st_no_data
  else Reply st_success [b_inertia (h_best h)] [h_n h; h_nf h; h_k h; b_iter (h_best h)] 6.
(** predict, lines 893-993: all centres are read *)
Definition predict (h : handle) : option reply :=
  if negb (h_trained h) then Some (status st_no_data)
  else if Nat.ltb (length (b_centres (h_best h))) (h_k h * h_nf h) then None else Some (status st_success).

Definition step (h : handle) (c : call) : option (handle * reply) :=
  let same := fun r => match r with Some r => Some (h, r) | None => None end in
  match c with
  | SetK k => Some (set_k h k)
  | SetInit n => Some (set_init h n)
  | SetMethod s => Some (set_method h s)
  | SetOther => Some (refresh h, status st_success)
  | SetData n nf good => Some (set_data h n nf good)
  | SetCentres ldc => Some (set_centres h ldc)
  | Compute runs => compute h false runs
  | Refused => compute h true []
  | GetCentres dim => same (get_centres h dim)
  | GetLabels dim => same (get_labels h dim)
  | GetInfo => Some (h, get_info h)
  | Predict => same (predict h)
  end.
(** a program: the replies to the calls, one after the other *)
Fixpoint session (h : handle) (cs : list call) : option (handle * list reply) :=
  match cs with
  | [] => Some (h, [])
  | c :: cs =>
      match step h c with
      | None => None
      | Some (h, r) => match session h cs with None => None | Some (h, rs) => Some (h, r :: rs) end
      end
  end.
End Session.
Arguments Outcome {T}. Arguments Best {T}. Arguments Handle {T}. Arguments Reply {T}.
