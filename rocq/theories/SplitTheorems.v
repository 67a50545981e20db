(** Theorems about da_train_test_split (C15, C53). *)
From Coq Require Import ZArith List Bool.
From Verif Require Import Base Par SplitModel SplitSpec SplitProofs.
Import ListNotations.
Local Open Scope Z_scope.

(** C15.  Whenever the split succeeds, for every number of threads, every schedule [tr], both
    storage orders and every data: row r of the train (test) matrix is the chosen row of X,
    nothing else of the outputs changes, and every access lies inside the matrices. *)
Theorem split_copies_chosen_rows :
  forall (T : Type) (X : Z -> T) mem bits threads a rs tr,
  train_test_split bits threads a = Some (st_success, rs) -> ord a <> other_order ->
  indices_in_range a -> regions rs tr ->
  (forall t r c, 0 <= r < rows_of a t -> 0 <= c < n a ->
     execute X mem tr t (pos (ord a) (ld_of a t) r c)
     = X (pos (ord a) (ldx a) (chosen a t r) c)) /\
  (forall t d, ~ inside (ord a) (ld_of a t) (rows_of a t) (n a) d ->
     execute X mem tr t d = mem t d) /\
  (forall w, In w tr -> inside (ord a) (ldx a) (m a) (n a) (wsrc w) /\
     inside (ord a) (ld_of a (wto w)) (rows_of a (wto w)) (n a) (wdst w)).
Proof. exact @split_correct. Qed.
Print Assumptions split_copies_chosen_rows.

(** A 5 x 2 row-major matrix split 3 + 2 with shuffling and padded outputs. *)
Definition ex_args (o : order) (ld1 ld2 ld3 : Z) :=
  mkArgs o 5 2 false ld1 3 2 (Some (fun k => nth (Z.to_nat k) [4; 0; 3; 1; 2] 0))
         false ld2 false ld3.
Definition ex_read (threads : Z) (a : args) : list Z * list Z :=
  match train_test_split 32 threads a with
  | Some (_, rs) =>
      let mem := execute (fun p => p) (fun _ _ => -1) (concat (map (@concat _) rs)) in
      (map (mem Train) (zrange 9), map (mem Test) (zrange 8))
  | None => ([], [])
  end.
Example split_case :
  ex_read 4 (ex_args row_major 3 3 4)
  = ([12; 13; -1; 0; 1; -1; 9; 10; -1], [3; 4; -1; -1; 6; 7; -1; -1]) /\
  ex_read 1 (ex_args row_major 3 3 4) = ex_read 4 (ex_args row_major 3 3 4) /\
  ex_read 1 (ex_args column_major 6 3 4)
  = ([4; 0; 3; 10; 6; 9; -1; -1; -1], [1; 2; -1; -1; 7; 8; -1; -1]).
Proof. vm_compute. repeat split. Qed.

(** C53, what holds: when the sum of the two sizes is a da_int, the split succeeds exactly when the
    documented constraints hold, and otherwise does nothing.  Missing: the sums that overflow. *)
Theorem split_status_partial : forall bits threads a,
  fits bits (train a + test a) = true ->
  exists s rs, train_test_split bits threads a = Some (s, rs) /\
    (s = st_success <-> constraints a) /\ (s <> st_success -> rs = []).
Proof. exact split_status. Qed.
Print Assumptions split_status_partial.

Example split_status_case :
  option_map fst (train_test_split 32 4 (mkArgs row_major 5 2 false 2 3 3 None false 2 false 2))
  = Some st_invalid_input /\
  option_map fst (train_test_split 32 4 (mkArgs row_major 5 2 false 2 3 2 None false 2 false 1))
  = Some st_invalid_leading_dimension.
Proof. split; reflexivity. Qed.

(** C53 is false: with 32-bit da_int the sum of the sizes may overflow in the test that should
    refuse them. *)
Theorem split_size_check_refuted :
  exists a, ~ constraints a /\ train a <= 2 ^ 31 - 1 /\ test a <= 2 ^ 31 - 1 /\
    train_test_split 32 4 a = None.
Proof.
  exists (mkArgs row_major 5 2 false 2 (2 ^ 31 - 1) 1 None false 2 false 2).
  split; [intros (_ & _ & _ & _ & _ & _ & _ & H & _); apply H; reflexivity|].
  split; [discriminate|]. split; [discriminate|]. vm_compute. reflexivity.
Qed.
Print Assumptions split_size_check_refuted.
