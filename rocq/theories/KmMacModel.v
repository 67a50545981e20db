(** MacQueen's algorithm for k-means: source/core/clustering/kmeans/kmeans_macqueen.hpp and the loop in kmeans.cpp, with the
    Euclidean distance.  The data as in KmModel; the storage orders are left out. *)
From Coq Require Import ZArith List Bool.
From Verif Require Import Base Par UtilModel NnModel KmModel.
Import ListNotations.
Local Open Scope Z_scope.

Section Mac.
Context {T : Type} (N : arith T).
Let row := list T.
(** [prod x c]: the entry cblas_gemm computes; [lange], [isfin] as in KmModel *)
Variables (prod : row -> row -> T) (lange : list row -> T) (isfin : T -> bool).
Variables (bs k nf : nat) (X : list row) (mode : empties) (tol : T).

(** init_macqueen_block, lines 131-147: the labels of one block.  [flat]: the array workcs1, one column of length ldworkcs1 =
    n_clusters for every sample; line 137 starts from its element [i - block_index] whereas the others are taken from the
    column of the sample. *)
Definition start_label (norms : list T) (C : list row) (flat : list T) (i : nat) (x : row) : nat :=
  let vals := map (fun cn => add N (prod x (fst cn)) (snd cn)) (combine C norms) in
  scan_min (lt N) (skipn 1 vals) 1 0 (add N (nth i flat (zero N)) (nth 0 norms (zero N))).
Definition start_block (norms : list T) (C : list row) (xs : list row) : list nat :=
  let flat := concat (map (fun x => map (prod x) C) xs) in
  map (fun ix => start_label norms C flat (fst ix) (snd ix)) (combine (seq 0 (length xs)) xs).
(** the samples block by block, lines 89-95 *)
Definition start_labels (C : list row) : list nat :=
  let norms := map (square_norm N) C in
  concat (map (fun b => start_block norms C (block X bs b)) (seq 0 (n_blocks (length X) bs))).

(** the centre of cluster [j] from the labels: the sum of its samples, divided by the count unless this is 0 (lines 104-110,
    150-163; 241-275, 303-320) *)
Definition centre_of (ls : list nat) (count : Z) (j : nat) : row :=
  let s := fold_left (fun s lx => if Nat.eqb (fst lx) j then add_row N s (snd lx) else s) (combine ls X) (repeat (zero N) nf) in
  if 0 <? count then map (fun v => div N v (of_Z N count)) s else s.
(** The state: centres, labels, cluster_count, and workc1, the squared norms of the centres. *)
Record mac_state : Type := MacState { m_C : list row; m_ls : list nat; m_counts : list Z; m_norms : list T }.
(** init_macqueen, lines 50-116: workc1 is left with the norms of the initial centres *)
Definition mac_start (C : list row) : mac_state :=
  let ls := start_labels C in
  let counts := count_labels k ls in
  MacState (map (fun j => centre_of ls (nth j counts 0) j) (seq 0 k)) ls counts (map (square_norm N) C).

(** lines 204-215: the closest centre; a value that is not finite counts as infinity.  [None]: infinity. *)
Fixpoint closest_from (ds : list T) (j best : nat) (smallest : option T) : nat :=
  match ds with
  | [] => best
  | d :: ds =>
      if isfin d && (match smallest with None => true | Some s => lt N d s end) then closest_from ds (S j) j (Some d)
      else closest_from ds (S j) best smallest
  end.
Definition closest (C : list row) (norms : list T) (x : row) : nat :=
  match map (fun cn => add N (prod x (fst cn)) (snd cn)) (combine C norms) with
  | [] => O
  | d :: ds => closest_from ds 1 0 (if isfin d then Some d else None)
  end.
(** macqueen_iteration, lines 177-327, for sample [i]; [upd]: update_centres *)
Definition mac_norm (count : Z) (c : row) : T := if 0 <? count then square_norm N c else zero N.
Definition mac_step (upd : bool) (s : mac_state) (i : nat) : mac_state :=
  let c := closest (m_C s) (m_norms s) (nth i X []) in
  let old := nth i (m_ls s) O in
  if Nat.eqb old c then s
  else
    let ls := put (m_ls s) i c in
    if upd then
      let counts := put (m_counts s) c (nth c (m_counts s) 0 + 1) in
      let counts := put counts old (nth old counts 0 - 1) in
      let C_old := centre_of ls (nth old counts 0) old in
      let C_new := centre_of ls (nth c counts 0) c in
      MacState (put (put (m_C s) old C_old) c C_new) ls counts
        (put (put (m_norms s) old (mac_norm (nth old counts 0) C_old)) c (mac_norm (nth c counts 0) C_new))
    else MacState (m_C s) ls (m_counts s) (m_norms s).
Definition mac_pass (upd : bool) (s : mac_state) : mac_state := fold_left (mac_step upd) (seq 0 (length X)) s.

(** perform_kmeans, kmeans.cpp lines 995-1058, for MacQueen's algorithm; after a split the counts and the norms are set
    again (lines 1311-1329) *)
Fixpoint mac_loop (fuel iter : nat) (s : mac_state) : run :=
  match fuel with
  | O => Finished (m_C s) (m_ls (mac_pass false s)) iter 0
  | S fuel =>
      let s' := mac_pass true s in
      let test :=
        match convergence_test N lange iter (m_ls s') (m_ls s) tol (m_C s) (m_C s') with
        | O => mac_loop fuel (S iter) s'
        | 1%nat => Finished (m_C s') (m_ls (mac_pass false s')) iter 1
        | c => Finished (m_C s') (m_ls s') iter c
        end in
      match mode with
      | Ignore => test
      | Error => if any_empty k (m_ls s') then EmptyCluster else test
      | Split =>
          if any_empty k (m_ls s') then
            let (C'', ls'') := split_empty N isfin k X (m_C s') (m_ls s') in
            mac_loop fuel (S iter) (MacState C'' ls'' (count_labels k ls'') (map (square_norm N) C''))
          else test
      end
  end.
Definition macqueen (max_iter : nat) (C : list row) : run := mac_loop max_iter 0 (mac_start C).
End Mac.
