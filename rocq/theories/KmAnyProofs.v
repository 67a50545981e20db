(** k-means: labels and prediction in any arithmetic, the sum of squares from iteration to iteration, doubles. *)
From Coq Require Import ZArith Reals List Bool Lia Lra Arith Permutation.
From Flocq Require Import Core BinarySingleNaN.
From Verif Require Import Base Par F64 FloatOrder UtilModel NnModel RealArith KmModel KmSpec KmKernelProofs KmLloydProofs KmCostProofs KmLoopProofs.
Import ListNotations.
Local Open Scope R_scope.

(** ** any arithmetic, the same team in all iterations *)
Section Any.
Context {T : Type} (N : arith T).
Variables (prod : list T -> list T -> T) (kernel : list T -> nat) (lange : list (list T) -> T) (isfin : T -> bool).
Variables (st : style) (bs : nat) (t : team) (k nf : nat) (X : list (list T)) (mode : empties) (tol : T).
Hypothesis no_split : mode <> Split.
Notation loop := (lloyd_loop N prod kernel lange isfin st bs (fun _ => t) k nf X mode tol).
Notation labs C := (labels N prod kernel C X).

Lemma loop_predict fuel : forall iter C prev, (iter = O \/ C = new_centres N st bs t k nf prev X) ->
  match loop fuel iter C prev with EmptyCluster => True | Finished C' ls _ _ => ls = labs C' end.
Proof.
  induction fuel as [|fuel IH]; intros iter C prev H; cbn [lloyd_loop]; auto.
  set (ls := labs C). set (C' := new_centres N st bs t k nf ls X).
  assert (Test : match (match convergence_test N lange iter ls prev tol C C' with
      | O => loop fuel (S iter) C' ls | 1%nat => Finished C' (labs C') iter 1 | c => Finished C' ls iter c end) with
      EmptyCluster => True | Finished C' ls _ _ => ls = labs C' end).
  { unfold convergence_test. destruct (Nat.ltb 1 iter && same_labels ls prev) eqn:B.
    - apply andb_true_iff in B. destruct B as [B1 B2]. apply Nat.ltb_lt in B1. apply same_labels_eq in B2.
      destruct H as [->|H]; [lia|]. unfold C'. rewrite B2 at 2. rewrite <- H. reflexivity.
    - destruct (lt N (lange (shift N C C')) (mul N tol (frobenius N C))); [reflexivity|]. apply IH. right. reflexivity. }
  destruct mode eqn:Em; auto.
  - destruct (any_empty k ls); auto.
  - congruence.
Qed.
Theorem lloyd_predict max_iter C C' ls it conv :
  lloyd N prod kernel lange isfin st bs (fun _ => t) k nf X mode tol max_iter C = Finished C' ls it conv -> ls = labs C'.
Proof. unfold lloyd. intros E. pose proof (loop_predict max_iter 0 C [] (or_introl eq_refl)) as H. rewrite E in H. auto. Qed.
End Any.

(** ** splitting does not increase the sum of squares *)
Section SplitCost.
Variables (k nf : nat) (X : list rw) (isfin : R -> bool).
Hypothesis k_pos : k <> 0%nat.
Hypothesis TX : table nf X.
Notation valid := (valid k X).
Notation inv := (inv k nf X).
Definition potential (ls : list nat) : R := cost X (means k nf ls X) ls.

Lemma cnt_zero_nth ls c i : cnt ls c = 0%Z -> (i < length ls)%nat -> nth i ls O <> c.
Proof.
  intros Z Hi E. assert (In c ls) by (rewrite <- E; apply nth_In; auto). apply (count_occ_In Nat.eq_dec) in H. unfold cnt in Z. lia.
Qed.
Lemma move_cost ls i c : valid ls -> (i < length X)%nat -> (c < k)%nat -> cnt ls c = 0%Z -> potential (put ls i c) <= potential ls.
Proof.
  intros [L H] Hi Hc Z. unfold potential. set (C := means k nf ls X). set (ls' := put ls i c).
  assert (SC : shape k nf C) by apply means_shape.
  assert (L' : length ls' = length X) by (unfold ls'; rewrite put_length; auto).
  assert (H' : forall l, In l ls' -> (l < k)%nat) by (intros l Hl; destruct (in_put _ _ _ _ Hl) as [->|]; auto).
  assert (Lx : length (nth i X []) = nf) by (apply TX, nth_In; auto).
  apply Rle_trans with (cost X (put C c (nth i X [])) ls').
  - apply (means_minimise k nf 1 X k_pos (Nat.neq_succ_0 0) TX); auto. destruct SC as [SC1 SC2]. split; [rewrite put_length; auto|].
    intros r Hr. destruct (in_put _ _ _ _ Hr) as [->|]; auto.
  - rewrite !(cost_nth k 1 X k_pos (Nat.neq_succ_0 0)) by auto. apply rsum_map_le. intros j Hj. apply in_seq in Hj. unfold ls'. destruct SC as [SC1 SC2].
    assert (En : nth j (put ls i c) O = if Nat.eqb j i then c else nth j ls O) by (apply put_nth; lia). rewrite En. destruct (Nat.eqb_spec j i) as [->|].
    + rewrite put_nth by lia. rewrite Nat.eqb_refl. 
      assert (S0 : sqdist (nth i X []) (nth i X []) = 0) by (rewrite (sqdist_expand _ _ eq_refl); lra). rewrite S0.
      pose proof (sqdist_nonneg (nth i X []) (nth (nth i ls 0%nat) C [])). lra.
    + assert (nth j ls O < k)%nat by (apply H, nth_In; lia). rewrite put_nth by lia. destruct (Nat.eqb_spec (nth j ls O) c) as [E|]; [|lra].
      exfalso. apply (cnt_zero_nth ls c j Z ltac:(lia) E).
Qed.
Lemma split_one_cost ne s c s' : inv s -> (c < k)%nat -> cnt (sp_ls s) c = 0%Z -> split_one arithR isfin ne X s c = Some s' ->
  potential (sp_ls s') <= potential (sp_ls s).
Proof.
  intros I Hc Z E. destruct I as [V _ _ _ _ _]. unfold split_one in E.
  destruct (find_donor arithR isfin (sp_ls s) (sp_ds s) (sp_counts s) 0 None (of_Z arithR (-1))) as [i|] eqn:Ei; [|discriminate].
  destruct (find_donor_some _ _ _ _ _ _ _ _ Ei) as [Q|[_ [Hi _]]]; [discriminate|]. injection E as <-. cbn [sp_ls].
  apply move_cost; auto. destruct V. lia.
Qed.
Lemma split_loop_cost ne cs : forall s, (forall c, In c cs -> (c < k)%nat) -> inv s ->
  potential (sp_ls (split_loop arithR isfin ne X s cs)) <= potential (sp_ls s).
Proof.
  induction cs as [|c cs IH]; intros s Hcs I; cbn [split_loop]; [lra|].
  assert (Hc : (c < k)%nat) by (apply Hcs; left; auto). rewrite (inv_c _ _ _ s I c Hc).
  assert (Hcs' : forall c, In c cs -> (c < k)%nat) by (intros; apply Hcs; right; auto).
  destruct (Z.eqb_spec (cnt (sp_ls s) c) 0) as [Z|Z]; auto.
  destruct (split_one arithR isfin ne X s c) as [s'|] eqn:E; [|lra].
  destruct (split_one_inv k nf X isfin TX ne s c s' I Hc Z E) as [I' _].
  pose proof (split_one_cost ne s c s' I Hc Z E). specialize (IH s' Hcs' I'). lra.
Qed.
Theorem split_empty_cost ls : valid ls -> potential (snd (split_empty arithR isfin k X (means k nf ls X) ls)) <= potential ls.
Proof.
  intros V. unfold split_empty. cbv zeta. cbn [snd]. set (s0 := SplitState _ _ _ _).
  change (potential ls) with (potential (sp_ls s0)). apply split_loop_cost.
  - intros c Hc. apply in_seq in Hc. lia.
  - destruct V as [L H]. destruct (count_labels_ok k ls H) as [Lc Ec]. constructor; cbn [s0 sp_C sp_ls sp_counts sp_ds]; auto.
    + split; auto.
    + rewrite map_length, combine_length. lia.
    + intros d Hd. apply in_map_iff in Hd. destruct Hd as [lx [<- _]]. apply own_distance_nonneg.
Qed.
End SplitCost.

(** ** the sum of squares over the run *)
Section LoopCost.
Variables (k nf w bs : nat) (X : list rw) (prod : rw -> rw -> R) (lange : list rw -> R) (isfin : R -> bool).
Variables (st : style) (schedule : nat -> team) (mode : empties) (tol : R).
Hypothesis k_pos : k <> 0%nat.
Hypothesis w_pos : w <> 0%nat.
Hypothesis bs_pos : bs <> 0%nat.
Hypothesis TX : table nf X.
Hypothesis prod_exact : gemm_contract nf prod.
Hypothesis teams : forall i, good_team (length X) bs (schedule i).
Notation kern := (pick arithR Rltb w).
Notation labs C := (labels arithR prod kern C X).
Notation loop := (lloyd_loop arithR prod kern lange isfin st bs schedule k nf X mode tol).
Notation valid := (valid k X).

Lemma step_cost C : shape k nf C -> let C' := means k nf (labs C) X in cost X C' (labs C') <= cost X C (labs C).
Proof. intros SC C'. destruct (labs_valid k nf w X prod k_pos w_pos TX prod_exact C SC) as [L H]. apply (iteration_cost k nf w X prod); auto. Qed.
Lemma split_cost C : shape k nf C -> let ls := labs C in
  let r := split_empty arithR isfin k X (means k nf ls X) ls in
  shape k nf (fst r) /\ cost X (fst r) (labs (fst r)) <= cost X C ls.
Proof.
  intros SC ls. pose proof (labs_valid k nf w X prod k_pos w_pos TX prod_exact C SC) as V. fold ls in V.
  destruct (split_empty_ok k nf X isfin TX ls V) as [V' [E _]]. pose proof (split_empty_cost k nf X isfin k_pos TX ls V) as Q.
  cbv zeta. destruct (split_empty arithR isfin k X (means k nf ls X) ls) as [C2 ls2]. cbn [fst snd] in *.
  assert (SC2 : shape k nf C2) by (rewrite E; apply means_shape). split; auto.
  destruct V as [L H]. destruct V' as [L' H'].
  apply Rle_trans with (cost X C2 ls2).
  - apply (nearest_cost k nf 1 X); auto. apply (labels_nearest k nf w X prod); auto.
  - rewrite E at 1. unfold potential in Q. apply Rle_trans with (1 := Q). apply (means_minimise k nf 1 X); auto.
Qed.

Lemma loop_cost fuel : forall iter C prev, shape k nf C ->
  match loop fuel iter C prev with EmptyCluster => True | Finished C' ls _ _ => cost X C' ls <= cost X C (labs C) end.
Proof.
  induction fuel as [|fuel IH]; intros iter C prev SC; cbn [lloyd_loop]; [lra|].
  pose proof (labs_valid k nf w X prod k_pos w_pos TX prod_exact C SC) as V.
  rewrite (new_means k nf bs X st schedule bs_pos TX teams) by auto. pose proof (step_cost C SC) as Q. cbv zeta in Q.
  pose proof (split_cost C SC) as SQ. cbv zeta in SQ.
  set (ls := labs C) in *. set (C' := means k nf ls X) in *.
  assert (SC' : shape k nf C') by apply means_shape.
  assert (Test : match (match convergence_test arithR lange iter ls prev tol C C' with
      | O => loop fuel (S iter) C' ls | 1%nat => Finished C' (labs C') iter 1 | c => Finished C' ls iter c end) with
      EmptyCluster => True | Finished C' ls' _ _ => cost X C' ls' <= cost X C ls end).
  { destruct (convergence_test arithR lange iter ls prev tol C C') as [|[|c]].
    - specialize (IH (S iter) C' ls SC'). destruct (loop fuel (S iter) C' ls); auto. apply Rle_trans with (1 := IH). exact Q.
    - auto.
    - destruct V as [L H]. apply (means_minimise k nf 1 X); auto. }
  destruct mode eqn:Em; auto.
  - destruct (any_empty k ls); auto.
  - destruct (any_empty k ls); auto. destruct (split_empty arithR isfin k X C' ls) as [C2 ls2]. cbn [fst] in SQ. destruct SQ as [S2 Q2].
    specialize (IH (S iter) C2 ls2 S2). match type of IH with match ?t with _ => _ end => destruct t end; auto. apply Rle_trans with (1 := IH). exact Q2.
Qed.

(** one more iteration *)
Lemma loop_more fuel : forall iter C prev, shape k nf C ->
  match loop fuel iter C prev, loop (S fuel) iter C prev with
  | Finished C1 l1 _ _, Finished C2 l2 _ _ => cost X C2 l2 <= cost X C1 l1
  | _, _ => True
  end.
Proof.
  induction fuel as [|fuel IH]; intros iter C prev SC.
  - change (loop 0 iter C prev) with (Finished C (labs C) iter 0%nat). pose proof (loop_cost 1 iter C prev SC) as H.
    destruct (loop 1 iter C prev); auto.
  - pose (fu := S fuel). change (loop (S (S fuel)) iter C prev) with (loop (S fu) iter C prev).
    assert (Ef : fu = S fuel) by reflexivity. clearbody fu. cbn [lloyd_loop].
    pose proof (labs_valid k nf w X prod k_pos w_pos TX prod_exact C SC) as V.
    rewrite (new_means k nf bs X st schedule bs_pos TX teams) by auto. pose proof (split_cost C SC) as SQ. cbv zeta in SQ.
    set (ls := labs C) in *. set (C' := means k nf ls X) in *.
    assert (SC' : shape k nf C') by apply means_shape.
    assert (I1 : forall C1 p, shape k nf C1 -> match loop fuel (S iter) C1 p, loop fu (S iter) C1 p with
      | Finished C1 l1 _ _, Finished C2 l2 _ _ => cost X C2 l2 <= cost X C1 l1 | _, _ => True end) by (intros; rewrite Ef; apply IH; auto).
    assert (Test : match (match convergence_test arithR lange iter ls prev tol C C' with
      | O => loop fuel (S iter) C' ls | 1%nat => Finished C' (labs C') iter 1 | c => Finished C' ls iter c end),
      (match convergence_test arithR lange iter ls prev tol C C' with
      | O => loop fu (S iter) C' ls | 1%nat => Finished C' (labs C') iter 1 | c => Finished C' ls iter c end) with
      Finished C1 l1 _ _, Finished C2 l2 _ _ => cost X C2 l2 <= cost X C1 l1 | _, _ => True end).
    { destruct (convergence_test arithR lange iter ls prev tol C C') as [|[|c]]; [apply I1; auto|apply Rle_refl|apply Rle_refl]. }
    destruct mode eqn:Em; auto.
    + destruct (any_empty k ls); auto.
    + destruct (any_empty k ls); auto. destruct (split_empty arithR isfin k X C' ls) as [C2 ls2]. cbn [fst] in SQ. destruct SQ as [S2 Q2]. apply (I1 C2 ls2 S2).
Qed.
End LoopCost.

Lemma inertia_cost nf X C ls : table nf X -> inertia arithR X C ls = cost X C ls.
Proof.
  intros _. unfold inertia, cost, zero. cbn [of_Z arithR].
  assert (A : forall l s, fold_left (fun s (ab : R * R) => let d := sub arithR (fst ab) (snd ab) in add arithR s (mul arithR d d)) l s =
     s + rsum (map (fun ab => (fst ab - snd ab) * (fst ab - snd ab)) l)).
  { induction l as [|ab l IH]; intros s; cbn [fold_left map]; [unfold rsum; cbn; lra|].
    rewrite IH. unfold rsum. cbn [add sub mul arithR fold_right]. lra. }
  assert (B : forall l s, fold_left (fun s (lx : nat * rw) => fold_left (fun s ab => let d := sub arithR (fst ab) (snd ab) in add arithR s (mul arithR d d))
       (combine (snd lx) (nth (fst lx) C [])) s) l s = s + rsum (map (fun lx => sqdist (snd lx) (nth (fst lx) C [])) l)).
  { induction l as [|lx l IH]; intros s; cbn [fold_left map]; [unfold rsum; cbn; lra|]. rewrite IH, A. unfold sqdist, rsum. cbn [fold_right]. lra. }
  rewrite B. lra.
Qed.

(** ** doubles *)
Lemma plus_inf_never (x y : f64) : f64_lt (f64_add x infinity) y = false.
Proof. unfold f64_lt, f64_add, infinity. destruct x as [s|[] | |s m e p], y as [t|[] | |t n f q]; try reflexivity; destruct s; reflexivity. Qed.
Lemma plus_inf (x : f64) : is_nan x = false -> x <> B754_infinity true -> f64_add x infinity = infinity.
Proof. unfold f64_add, infinity. destruct x as [s|[] | |s m e p]; intros H H'; try reflexivity; try discriminate; congruence. Qed.
Lemma pad_length inf (vals rest : list f64) pw : padded (arith64 pw) inf vals rest = vals ++ map (fun x => f64_add x inf) rest.
Proof. reflexivity. Qed.

Theorem kernel_f64_range pw w vals rest : w <> O -> vals <> [] -> length rest = w ->
  exists r, kernel_vector f64_lt w (length vals) (padded (arith64 pw) infinity vals rest) = Some r /\ (r < length vals)%nat.
Proof.
  intros W NE L. apply (kernel_vector_range (arith64 pw) f64_lt); auto.
  - destruct vals; cbn; congruence.
  - rewrite pad_length, app_length, map_length. lia.
  - intros j y J1 J2. rewrite pad_length, app_nth2 by lia.
    rewrite (nth_map_in _ rest (zero (arith64 pw))) by lia. apply plus_inf_never.
Qed.
Theorem kernel_f64_pick pw w vals rest : w <> O -> vals <> [] -> length rest = w ->
  (forall x, In x vals -> is_nan x = false) -> (forall x, In x rest -> clean x) ->
  kernel_vector f64_lt w (length vals) (padded (arith64 pw) infinity vals rest) = Some (pick (arith64 pw) f64_lt w vals).
Proof.
  intros W NE L H1 H2. rewrite pad_length.
  apply (kernel_vector_pick (arith64 pw) f64_lt (fun x => is_nan x = false) key); auto.
  - intros x y Hx Hy. apply f64_lt_key; auto.
  - rewrite map_length. auto.
  - intros x Hx. apply in_app_iff in Hx. destruct Hx as [|Hx]; auto. apply in_map_iff in Hx. destruct Hx as [y [<- Hy]].
    destruct (H2 y Hy). rewrite plus_inf; auto.
  - intros x y Hx. apply in_map_iff in Hx. destruct Hx as [z [<- _]]. apply plus_inf_never.
Qed.
Theorem pick_f64 pw w vals : w <> O -> vals <> [] -> (forall x, In x vals -> is_nan x = false) ->
  smallest_in_lanes w (map key vals) (pick (arith64 pw) f64_lt w vals).
Proof. intros W NE H. apply (pick_smallest (arith64 pw) f64_lt (fun x => is_nan x = false) key); auto. intros x y Hx Hy. apply f64_lt_key; auto. Qed.
