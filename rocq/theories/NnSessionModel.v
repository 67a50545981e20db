(** A handle of nearest neighbours between calls: source/core/nearest_neighbors/nearest_neighbors.cpp, lines 293-512 and
    932-960, 1913.  Which data, metric and square root an answer is computed with. *)
From Coq Require Import ZArith List Bool.
From Verif Require Import Base.
Import ListNotations.
Local Open Scope Z_scope.

(** aoclda_metrics.h lines 43-57 *)
Inductive nn_metric : Type :=
  NEuclidean | NSqeuclidean | NEuclideanGemm | NSqeuclideanGemm | NManhattan | NMinkowski | NCosine | NInner.
Definition metric_eqb (a b : nn_metric) : bool :=
  match a, b with
  | NEuclidean, NEuclidean | NSqeuclidean, NSqeuclidean | NEuclideanGemm, NEuclideanGemm
  | NSqeuclideanGemm, NSqeuclideanGemm | NManhattan, NManhattan | NMinkowski, NMinkowski | NCosine, NCosine
  | NInner, NInner => true
  | _, _ => false
  end.
Inductive nn_algo : Type := AAuto | ABrute | AKd | ABall.
Definition algo_eqb (a b : nn_algo) : bool :=
  match a, b with AAuto, AAuto | ABrute, ABrute | AKd, AKd | ABall, ABall => true | _, _ => false end.

(** The options read here.  [o_p]: the Minkowski parameter in halves (so that 2 is 1.0 and 4 is 2.0). *)
Record options : Type := Options { o_algo : nn_algo; o_metric : nn_metric; o_p : Z; o_leaf : Z; o_k : Z }.

(** Where training data lie: the user's array of call number [d] or the copy made then (row-major data are copied into
    column-major storage). *)
Inductive source : Type := User (d : Z) | Copy (d : Z).
(** A tree keeps a pointer to the data, and its metric. *)
Record tree_of : Type := TreeOf { t_data : source; t_metric : nn_metric; t_p : Z }.

(** The members of the class, nearest_neighbors.hpp lines 46-110.  [freed]: the copies that were deleted. *)
Record session : Type := Session {
  opts : options; up_to_date : bool; trained : bool;
  algo : nn_algo; metric : nn_metric; p : Z; leaf : Z; k : Z;
  working : nn_algo; internal : nn_metric; get_squares : bool;
  n_samples : Z; x_train : option source; x_temp : option Z;
  kd : option tree_of; ball : option tree_of; freed : list Z }.

Definition default_options : options := Options AAuto NEuclidean 4 30 5.
(** lines 46-85 of the header *)
Definition fresh : session :=
  Session default_options false false AAuto NEuclidean 4 30 5 AAuto NSqeuclidean false 0 None None None None [].

(** an option is set: the registry changes and refresh (line 1913) is called *)
Definition set_options (s : session) (o : options) : session :=
  Session o false (trained s) (algo s) (metric s) (p s) (leaf s) (k s) (working s) (internal s) (get_squares s)
    (n_samples s) (x_train s) (x_temp s) (kd s) (ball s) (freed s).

(** lines 355-370 *)
Definition automatic (m : nn_metric) (p nf n : Z) : nn_algo :=
  match m with
  | NCosine | NSqeuclidean | NSqeuclideanGemm | NInner => ABrute
  | _ =>
      if (match m with NMinkowski => p <? 2 | _ => false end) then ABrute
      else if (nf <? 10) && (100000 <? n) then AKd else ABrute
  end.
(** lines 337-338 *)
Definition rooted (m : nn_metric) (p : Z) : bool :=
  match m with NEuclidean | NEuclideanGemm => true | NMinkowski => p =? 4 | _ => false end.
(** lines 317-335: options a tree refuses *)
Definition refused (a : nn_algo) (m : nn_metric) (p : Z) : bool :=
  match a with
  | AKd | ABall =>
      match m with NCosine | NSqeuclidean | NSqeuclideanGemm | NInner => true | NMinkowski => p <? 2 | _ => false end
  | _ => false
  end.
(** set_params, lines 293-352; [false]: da_status_incompatible_options *)
Definition set_params (s : session) (nf n : Z) : bool * session :=
  let o := opts s in
  let m := o_metric o in
  let work := match o_algo o with AAuto => automatic m (o_p o) nf n | a => a end in
  let st up internal squares :=
    Session o up (trained s) (o_algo o) m (o_p o) (o_leaf o) (o_k o) work internal squares
      (n_samples s) (x_train s) (x_temp s) (kd s) (ball s) (freed s) in
  if refused (o_algo o) m (o_p o) then (false, st (up_to_date s) m (get_squares s))
  else if rooted m (o_p o) then
    (true, st true (match work with
                    | ABrute => match m with NEuclideanGemm => NSqeuclideanGemm | _ => NSqeuclidean end
                    | _ => m
                    end) true)
  else (true, st true m (get_squares s)).

(** set_data, lines 472-512, of call number [d].  [valid]: the checks of store_2D_array pass; [row_major]: the storage
    order. *)
Definition free_copy (s : session) : session :=
  Session (opts s) (up_to_date s) (trained s) (algo s) (metric s) (p s) (leaf s) (k s) (working s) (internal s)
    (get_squares s) (n_samples s) (x_train s) None (kd s) (ball s)
    (match x_temp s with Some d => d :: freed s | None => freed s end).
Definition store_data (s : session) (d : Z) (row_major : bool) (n : Z) : session :=
  Session (opts s) (up_to_date s) (trained s) (algo s) (metric s) (p s) (leaf s) (k s) (working s) (internal s)
    (get_squares s) n (Some (if row_major then Copy d else User d)) (if row_major then Some d else None)
    (kd s) (ball s) (freed s).
Definition init_tree (s : session) : session :=
  let t := match x_train s with Some x => Some (TreeOf x (internal s) (p s)) | None => None end in
  let st kd ball :=
    Session (opts s) (up_to_date s) true (algo s) (metric s) (p s) (leaf s) (k s) (working s) (internal s)
      (get_squares s) (n_samples s) (x_train s) (x_temp s) kd ball (freed s) in
  match working s with
  | AKd => st t (ball s)
  | ABall => st (kd s) t
  | _ => st (kd s) (ball s)
  end.
Definition set_data (s : session) (d n nf : Z) (row_major valid : bool) : bool * session :=
  if (0 <? n_samples s) && negb (n =? n_samples s) then (false, s)
  else
    let s := free_copy s in
    if valid then
      let s := store_data s d row_major n in
      let (ok, s) := if up_to_date s then (true, s) else set_params s nf n in
      if ok then (true, init_tree s) else (false, s)
    else (false, s).

(** check_options_update, lines 397-462: [true] unless da_status_option_locked.  (radius and the outlier options are
    copied here as well.) *)
Definition check_options (s : session) : bool :=
  let o := opts s in
  match o_algo o with
  | ABrute => true
  | a =>
      algo_eqb (algo s) a && (leaf s =? o_leaf o) &&
      match a with AAuto => metric_eqb (metric s) (o_metric o) && (p s =? o_p o) | _ => true end
  end.

(** The distances an answer has: those of the kernel for a metric, or their square roots. *)
Inductive kind : Type :=
| Values (m : nn_metric) (p : Z)
| Roots (m : nn_metric) (p : Z).
(** the trees work with squares for Euclidean metrics, binary_tree.cpp lines 229-234, nearest_neighbors.cpp lines 66-68 *)
Definition kernel_of_tree (m : nn_metric) (p : Z) : nn_metric :=
  match m with
  | NEuclidean => NSqeuclidean
  | NEuclideanGemm => NSqeuclideanGemm
  | NMinkowski => if p =? 4 then NSqeuclidean else NMinkowski
  | m => m
  end.
Inductive answer : Type :=
| Refusal                          (* an error status *)
| Freed                            (* memory that was deleted is read *)
| Answer (d : Z) (c : kind) (k : Z).
(** kneighbors, lines 932-1000, with n_neigh = 0 (the option is used) *)
Definition answer_of (s : session) (src : source) (m : nn_metric) (p : Z) : answer :=
  let c := if get_squares s then Roots m p else Values m p in
  match src with
  | User d => Answer d c (k s)
  | Copy d => if existsb (Z.eqb d) (freed s) then Freed else Answer d c (k s)
  end.
Definition kneighbors (s : session) : answer :=
  if negb (trained s) then Refusal
  else if negb (check_options s) then Refusal
  else match working s with
       | ABrute => match x_train s with Some src => answer_of s src (internal s) (p s) | None => Refusal end
       | AKd => match kd s with Some t => answer_of s (t_data t) (kernel_of_tree (t_metric t) (t_p t)) (t_p t) | None => Refusal end
       | ABall => match ball s with Some t => answer_of s (t_data t) (kernel_of_tree (t_metric t) (t_p t)) (t_p t) | None => Refusal end
       | AAuto => Refusal
       end.

(** Calls of a program *)
Inductive call : Type :=
| SetOptions (o : options)
| SetData (d n nf : Z) (row_major valid : bool)
| Query.
Definition step (s : session) (c : call) : session :=
  match c with
  | SetOptions o => set_options s o
  | SetData d n nf rm v => snd (set_data s d n nf rm v)
  | Query => s
  end.
Definition after (cs : list call) : session := fold_left step cs fresh.
