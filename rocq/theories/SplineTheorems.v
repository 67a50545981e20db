(** Theorems about interpolation by cubic splines. *)
From Coq Require Import QArith List Bool Arith Lia Lqa.
From Verif Require Import SplineModel SplineSpec SplineProofs.
Import ListNotations.
Local Open Scope Q_scope.

(** ** Cells *)

(** da_interpolation_search_cells finds the cell of every point, and there is
    only one. *)
Theorem search_finds_cell n s x : (2 <= n)%nat -> increasing n s ->
  right_cell n s x (cell_of n s x) /\ forall c, right_cell n s x c -> c = cell_of n s x.
Proof.
  intros Hn I. split; [apply cell_right; auto|]. intros c C. apply (cell_unique n s Hn I x); [exact C|].
  apply cell_right; auto.
Qed.
Print Assumptions search_finds_cell.
Theorem search_finds_uniform_cell n a b x : (2 <= n)%nat -> a < b ->
  right_cell n (uniform_site n a b) x (cell_of_uniform n a (uniform_step n a b) x).
Proof. exact (uniform_cell n a b x). Qed.
Print Assumptions search_finds_uniform_cell.

Definition five_sites : nat -> Q := fun i => nth i [0; 1; 3 # 2; 8; 10] 0.
Lemma five_increasing : increasing 5 five_sites.
Proof. intros i H. destruct i as [|[|[|[|i]]]]; try (vm_compute; reflexivity). lia. Qed.
Example five_cells : map (cell_of 5 five_sites) [- (3); 0; 1 # 2; 1; 5 # 4; 3 # 2; 7; 8; 9; 10; 25] =
  [0; 0; 0; 1; 1; 2; 2; 3; 3; 3; 3]%nat.
Proof. vm_compute. reflexivity. Qed.
Example uniform_cells : map (cell_of_uniform 5 1 (uniform_step 5 1 3)) [0; 1; 3 # 2; 8 # 5; 3; 4] =
  [0; 0; 1; 1; 3; 3]%nat.
Proof. vm_compute. reflexivity. Qed.

(** da_interpolation_set_sites accepts exactly the strictly increasing sites. *)
Theorem sites_accepted n s : (2 <= n)%nat ->
  (snd (set_sites n s) = true <-> increasing n s) /\
  (snd (set_sites n s) = true -> forall i, (i + 1 < n)%nat ->
     nth i (fst (set_sites n s)) 0 = s (i + 1)%nat - s i).
Proof.
  intro Hn. unfold set_sites. pose proof (check_sites_spec s (n - 1) 0) as C.
  destruct (check_sites s 0 (n - 1)) as [l ok]. cbn [fst snd]. destruct C as (_ & A & B). cbn [Nat.add] in A, B. split.
  - rewrite A. unfold increasing. split; intros H i Hi; apply H; lia.
  - intros O i Hi. apply B; [exact O|lia].
Qed.
Print Assumptions sites_accepted.
Example five_accepted : set_sites 5 five_sites = ([1 - 0; (3 # 2) - 1; 8 - (3 # 2); 10 - 8], true).
Proof. reflexivity. Qed.

(** The steps kept for uniform sites are those of the sites on a new handle, but
    not after a refused call of set_sites. *)
Theorem uniform_steps_partial n a b i : (i + 1 < n)%nat ->
  nth i (uniform_dx [] n a b) 0 == uniform_site n a b (i + 1) - uniform_site n a b i.
Proof. exact (uniform_steps n a b i). Qed.
Print Assumptions uniform_steps_partial.
Theorem uniform_steps_refuted : exists n s a b i,
  (2 <= n)%nat /\ a < b /\ snd (set_sites n s) = false /\ (i + 1 < n)%nat /\
  ~ nth i (uniform_dx (fst (set_sites n s)) n a b) 0 == uniform_site n a b (i + 1) - uniform_site n a b i.
Proof.
  exists 3%nat, (fun i => nth i [0; 5; 1] 0), 0, 2, 0%nat.
  split; [lia|]. split; [reflexivity|]. split; [reflexivity|]. split; [lia|]. vm_compute. discriminate.
Qed.
Print Assumptions uniform_steps_refuted.

(** ** The spline *)

(** The values of order 1 to 3 are the derivatives of those of order 0. *)
Theorem orders_are_derivatives p : derivatives (fun k => eval k p).
Proof. exact (eval_derivatives p). Qed.
Print Assumptions orders_are_derivatives.

(** The pieces of the natural, clamped and custom spline pass through the
    values, join with two derivatives and have the derivatives asked for at the
    ends, and no other pieces do. *)
Theorem spline_is_the_spline uniform k n s h dy y z : (2 <= n)%nat -> increasing n s ->
  steps n s h -> steps n y dy -> (uniform = true -> forall i, (i + 1 < n)%nat -> h i == h 0%nat) ->
  orders_ok k -> gtsv_solved uniform k n h dy z ->
  let p := spline_piece h dy y (second k n z) in
  is_spline k n s y p /\
  forall p', is_spline k n s y p' -> forall i q t, (i + 1 < n)%nat -> eval q (p i) t == eval q (p' i) t.
Proof.
  intros Hn I Hs Hy Hu Ho G p.
  assert (Hp : forall i, (i + 1 < n)%nat -> 0 < h i).
  { intros i Hi. rewrite (Hs i Hi). specialize (I i Hi). lra. }
  split; [apply (solved_spline uniform k n s h dy y); auto|].
  intros p' S' i q t Hi. apply (spline_only uniform k n s h dy y Hn Hp Hs Hy Hu Ho z p' G S' i q t Hi).
Qed.
Print Assumptions spline_is_the_spline.

(** Three sites 0, 1, 2 with the values 0, 1, 0. *)
Definition unit_step : nat -> Q := fun _ => 1.
Definition up_down : nat -> Q := fun i => nth i [1; - (1)] 0.
Example natural_solved : gtsv_solved true natural 3 unit_step up_down (fun i => nth i [7; - (3); 7] 0).
Proof. intros i H. assert (i = 1)%nat as -> by lia. vm_compute. reflexivity. Qed.
Example clamped_solved : gtsv_solved true clamped 3 unit_step up_down (fun i => nth i [6; - (6); 6] 0).
Proof. intros i H. destruct i as [|[|[|i]]]; try lia; vm_compute; reflexivity. Qed.
(** The cube at the sites 0, 1, 3: slope 0 on the left, curvature 18 on the right. *)
Definition cube_sites : nat -> Q := fun i => nth i [0; 1; 3] 0.
Definition cube_steps : nat -> Q := fun i => nth i [1; 2] 0.
Definition cube_dy : nat -> Q := fun i => nth i [1; 26] 0.
Definition cube_kind : kind := custom 1 (slope 1 1 0 0 (cube_sites 0)) 2 (slope 2 1 0 0 (cube_sites (3 - 1))).
Example custom_solved : gtsv_solved false cube_kind 3 cube_steps cube_dy (fun i => nth i [0; 6; 18] 0) /\
  orders_ok cube_kind /\ increasing 3 cube_sites /\ steps 3 cube_sites cube_steps.
Proof.
  split; [|split; [|split]].
  - intros i H. destruct i as [|[|[|i]]]; try lia; vm_compute; reflexivity.
  - simpl. auto.
  - intros i H. destruct i as [|[|i]]; try lia; vm_compute; reflexivity.
  - intros i H. destruct i as [|[|i]]; try lia; vm_compute; reflexivity.
Qed.

(** A cubic polynomial is reproduced at every point, also outside the sites, when
    its derivatives are passed as boundary conditions. *)
Theorem cubic_reproduced uniform a b c d lo ro n s h dy y z x : (2 <= n)%nat -> increasing n s ->
  steps n s h -> steps n y dy -> (uniform = true -> forall i, (i + 1 < n)%nat -> h i == h 0%nat) ->
  (lo = 1 \/ lo = 2)%nat -> (ro = 1 \/ ro = 2)%nat ->
  (forall i, (i < n)%nat -> y i == cubic a b c d (s i)) ->
  let k := custom lo (slope lo a b c (s 0%nat)) ro (slope ro a b c (s (n - 1)%nat)) in
  gtsv_solved uniform k n h dy z ->
  let i := cell_of n s x in
  eval 0 (spline_piece h dy y (second k n z) i) (x - s i) == cubic a b c d x.
Proof.
  intros Hn I Hs Hy Hu L R Y k G i.
  destruct (cell_right n s Hn I x) as (C & _). fold i in C.
  destruct (spline_is_the_spline uniform k n s h dy y z Hn I Hs Hy Hu (conj L R) G) as [_ U].
  rewrite (U (expansion a b c d s) (expansion_spline a b c d lo ro n s y Hn L R Y) i 0%nat (x - s i) ltac:(lia)).
  apply expansion_value.
Qed.
Print Assumptions cubic_reproduced.

(** The Hermite spline has the values and slopes given, and no other cubic has. *)
Theorem hermite_is_the_spline n s h dy y yp i : increasing n s -> steps n s h -> steps n y dy -> (i + 1 < n)%nat ->
  let p := hermite_piece h dy y yp i in
  eval 0 p 0 == y i /\ eval 0 p (h i) == y (i + 1)%nat /\ eval 1 p 0 == yp i /\ eval 1 p (h i) == yp (i + 1)%nat /\
  forall p', eval 0 p' 0 == y i -> eval 0 p' (h i) == y (i + 1)%nat -> eval 1 p' 0 == yp i ->
    eval 1 p' (h i) == yp (i + 1)%nat -> forall t, eval 0 p t == eval 0 p' t.
Proof.
  intros I Hs Hy Hi p.
  assert (P : 0 < h i) by (rewrite (Hs i Hi); specialize (I i Hi); lra).
  destruct (hermite_ends h dy y yp i P (Hy i Hi)) as (A & B & C & D). repeat split; auto.
  intros p' A' B' C' D' t. apply hermite_only; auto.
Qed.
Print Assumptions hermite_is_the_spline.
Example hermite_of_cube :
  let p := hermite_piece cube_steps cube_dy (fun i => nth i [0; 1; 27] 0) (fun i => nth i [0; 3; 27] 0) 1 in
  eval 0 p 1 == 8 /\ eval 1 p 1 == 12 /\ eval 2 p 1 == 12 /\ eval 3 p 1 == 6.
Proof. vm_compute. repeat split; reflexivity. Qed.

(** ** Orders of derivatives *)

(** The derivatives come in the order asked for if that order is increasing. *)
Theorem orders_in_place_partial orders : (forall k, In k orders -> (k < 4)%nat) ->
  (forall i j, (i < j < length orders)%nat -> (nth i orders 0 < nth j orders 0)%nat) ->
  slots orders = orders.
Proof.
  intros B O. unfold slots. apply mem_filter; [|exact O]. intros x H. specialize (B x H). lia.
Qed.
Print Assumptions orders_in_place_partial.
Theorem orders_in_place_refuted :
  (exists orders, (forall k, In k orders -> (k < 4)%nat) /\ NoDup orders /\ slots orders <> orders) /\
  (exists orders, (forall k, In k orders -> (k < 4)%nat) /\ (length (slots orders) < length orders)%nat).
Proof.
  split.
  - exists [1; 0]%nat. split; [simpl; intros; lia|]. split; [|vm_compute; discriminate].
    repeat constructor; simpl; lia.
  - exists [2; 2]%nat. split; [simpl; intros; lia|]. vm_compute. lia.
Qed.
Print Assumptions orders_in_place_refuted.
Example orders_0_2 : slots [0; 2]%nat = [0; 2]%nat.
Proof. reflexivity. Qed.

(** ** Layout and dimensions of the values *)

(** The values are those of the user's matrix if it has no gaps. *)
Theorem values_read_partial (rm : bool) n dim ld y i d : ld = (if rm then dim else n) ->
  value_at rm n dim y i d = user_value rm ld y i d.
Proof. intros ->. unfold value_at, user_value. destruct rm; reflexivity. Qed.
Print Assumptions values_read_partial.
Theorem values_read_refuted (rm : bool) : exists n dim ld y i d,
  (i < n)%nat /\ (d < dim)%nat /\ ((if rm then dim else n) <= ld)%nat /\
  value_at rm n dim y i d <> user_value rm ld y i d.
Proof.
  exists 2%nat, 2%nat, 3%nat, of_nat.
  destruct rm; [exists 1%nat, 0%nat|exists 0%nat, 1%nat]; (split; [lia|]; split; [lia|]; split; [lia|]; vm_compute; discriminate).
Qed.
Print Assumptions values_read_refuted.

(** Calls that agree on the number of dimensions never make interpolate read
    outside an array; others do. *)
Theorem dimensions_agree_partial d l :
  (forall c, In c l -> c = set_values d \/ c = set_derivatives d \/ c = set_bc d) ->
  let s := fold_left do_call l no_dims in
  interpolate_custom s <> outside /\ interpolate_hermite s <> outside.
Proof.
  intros H s. apply (with_dim_reads d). apply with_dim_calls; [exact H|].
  unfold with_dim, no_dims. cbn. repeat split; try lia; discriminate.
Qed.
Print Assumptions dimensions_agree_partial.
Theorem dimensions_checked_refuted :
  interpolate_custom (fold_left do_call [set_bc 1; set_values 2] no_dims) = outside /\
  interpolate_custom (fold_left do_call [set_values 1; set_bc 1; set_values 2] no_dims) = outside /\
  interpolate_hermite (fold_left do_call [set_values 1; set_derivatives 2] no_dims) = outside.
Proof. repeat split. Qed.
Print Assumptions dimensions_checked_refuted.
Example two_dimensions : interpolate_hermite (fold_left do_call [set_values 2; set_derivatives 2] no_dims) = done.
Proof. reflexivity. Qed.
