(** The partition of the samples of a node. *)
From Coq Require Import ZArith List Bool Lia Permutation.
From Flocq Require Import Core IEEE754.BinarySingleNaN.
From Verif Require Import Base Par F64 UtilModel SortModel SortSpec SortProofs FloatOrder TreeModel TreeSpec.
Import ListNotations.
Local Open Scope Z_scope.

Section Part.
Variables (X : Z -> f64) (xlen ldx : Z) (use_hist : bool) (binned : Z -> Z) (blen nobs : Z).
Let on_left := on_left X ldx use_hist binned.
Let readable := readable X xlen ldx use_hist blen.
Let goes_left := goes_left X xlen ldx use_hist binned blen.
Let goes_right := goes_right X xlen ldx use_hist binned blen.
Let partition_loop := partition_loop X xlen ldx use_hist binned blen nobs.
Let partition_samples := partition_samples X xlen ldx use_hist binned blen nobs.

(** every sample of the range is on exactly one side *)
Definition sided (nd : node) (left : Z -> bool) (s : Z -> Z) : Prop :=
  forall p, first nd <= p <= last nd ->
    goes_left nd (s p) = Some (left (s p)) /\ goes_right nd (s p) = Some (negb (left (s p))).

Lemma partition_loop_ok nd left : 0 <= first nd -> last nd < nobs -> forall fuel s head tail,
  sided nd left s -> first nd <= head -> tail <= last nd -> head <= tail ->
  (2 * (tail - head) - (if left (s head) then 1 else 0) <= Z.of_nat fuel) ->
  (forall p, first nd <= p < head -> left (s p) = true) ->
  (forall p, tail < p <= last nd -> left (s p) = false) ->
  (tail = last nd \/ left (s head) = false \/ left (s tail) = false) ->
  exists s' k, partition_loop fuel nd s head tail = Some (s', k) /\
    rearranged (first nd) (last nd - first nd + 1) s s' /\ first nd - 1 <= k < last nd /\
    (forall p, first nd <= p <= k -> left (s' p) = true) /\
    (forall p, k + 1 < p <= last nd -> left (s' p) = false) /\
    (left (s' (k + 1)) = false \/ k = last nd - 1).
Proof.
  intros F L fuel. induction fuel as [|fuel IH]; intros s head tail SD H T HT M B A K; cbn [TreeModel.partition_loop] in *;
    unfold partition_loop; cbn [TreeModel.partition_loop].
  - destruct (Z.ltb_spec head tail) as [C|C].
    + exfalso. destruct (left (s head)); lia.
    + assert (head = tail) by lia. subst tail. exists s, (head - 1).
      split; [auto|]. split; [apply rearranged_refl|]. split; [lia|]. split; [intros; apply B; lia|].
      split; [intros; apply A; lia|]. replace (head - 1 + 1) with head by lia.
      destruct K as [->|[K|K]]; auto.
  - destruct (Z.ltb_spec head tail) as [C|C].
    + rewrite (proj2 (andb_true_iff (inside nobs head) (inside nobs tail)))
        by (unfold inside; rewrite !andb_true_iff, !Z.leb_le, !Z.ltb_lt; lia).
      destruct (SD head ltac:(lia)) as [GL _]. destruct (SD tail ltac:(lia)) as [_ GR].
      unfold goes_left, goes_right in GL, GR. rewrite GL, GR. cbn [bind].
      destruct (left (s head)) eqn:EH.
      * apply IH; auto; try lia.
        -- destruct (left (s (head + 1))); lia.
        -- intros p Hp. destruct (Z.eq_dec p head) as [->|]; auto. apply B. lia.
        -- destruct K as [K|[K|K]]; auto. discriminate.
      * destruct (left (s tail)) eqn:ET; cbn [negb].
        -- set (s2 := store_at (store_at s head (s tail)) tail (s head)).
           change s2 with (exchange s head tail) in *. clear s2.
           assert (RE : rearranged (first nd) (last nd - first nd + 1) s (exchange s head tail))
             by (apply exchange_rearranged; lia).
           destruct (IH (exchange s head tail) head tail) as (s' & k & E & R & REST); auto; try lia.
           ++ intros p Hp. destruct (rearranged_from _ _ _ _ p RE ltac:(lia)) as (j & J & ->). apply SD. lia.
           ++ rewrite exchange_l, ET. lia.
           ++ intros p Hp. rewrite exchange_o by lia. apply B. lia.
           ++ intros p Hp. rewrite exchange_o by lia. apply A. lia.
           ++ rewrite exchange_r. auto.
           ++ exists s', k. split; [exact E|]. split; [exact (rearranged_trans _ _ _ _ _ RE R)|exact REST].
        -- apply IH; auto; try lia.
           ++ rewrite EH. lia.
           ++ intros p Hp. destruct (Z.eq_dec p tail) as [->|]; auto. apply A. lia.
    + assert (head = tail) by lia. subst tail. exists s, (head - 1).
      split; [auto|]. split; [apply rearranged_refl|]. split; [lia|]. split; [intros; apply B; lia|].
      split; [intros; apply A; lia|]. replace (head - 1 + 1) with head by lia.
      destruct K as [->|[K|K]]; auto.
Qed.

(** With samples on both sides, or none on the left, the result is right; if all are on the left, the last
    is split off. *)
Lemma partition_ok nd left s : 0 <= first nd -> last nd < nobs -> first nd <= last nd -> sided nd left s ->
  exists s' k, partition_samples nd s = Some (s', k) /\ rearranged (first nd) (last nd - first nd + 1) s s' /\
    first nd - 1 <= k < last nd /\
    ((exists p, first nd <= p <= last nd /\ left (s p) = false) -> split_at left (first nd) (last nd) s s' k) /\
    ((forall p, first nd <= p <= last nd -> left (s p) = true) -> k = last nd - 1).
Proof.
  intros F L N SD.
  destruct (partition_loop_ok nd left F L (2 * Z.to_nat (last nd - first nd)) s (first nd) (last nd)) as (s' & k & E & R & K & LE & RI & BD);
    auto; try lia.
  - destruct (left (s (first nd))); lia.
  - exists s', k. split; [exact E|]. split; [exact R|]. split; [exact K|]. split.
    + intros (p & P & LP). split; [exact R|]. split; [lia|]. split; [exact LE|].
      intros q Q. destruct (Z.eq_dec q (k + 1)) as [->|]; [|apply RI; lia].
      destruct BD as [BD|BD]; auto. destruct (left (s' (k + 1))) eqn:EQ; auto. exfalso.
      destruct (rearranged_to _ _ _ _ p R ltac:(lia)) as (j & J & EJ). rewrite <- EJ in LP.
      destruct (Z.eq_dec j (k + 1)) as [->|]; [congruence|]. rewrite LE in LP; [discriminate|lia].
    + intros AL. destruct BD as [BD|BD]; auto.
      destruct (rearranged_from _ _ _ _ (k + 1) R ltac:(lia)) as (j & J & EJ). rewrite EJ, AL in BD by lia. discriminate.
Qed.

(** A node without samples. *)
Lemma partition_empty nd s : last nd < first nd -> partition_samples nd s = Some (s, first nd - 1).
Proof.
  intros H. unfold partition_samples, TreeModel.partition_samples. replace (2 * Z.to_nat (last nd - first nd))%nat with O by lia.
  cbn [TreeModel.partition_loop]. destruct (Z.ltb_spec (first nd) (last nd)); [lia|reflexivity].
Qed.

Lemma readable_sided nd s : (forall p, first nd <= p <= last nd -> readable nd (s p)) -> sided nd (on_left nd) s.
Proof.
  intros H p P. specialize (H p P). unfold readable, TreeSpec.readable in H. unfold goes_left, goes_right, TreeModel.goes_left, TreeModel.goes_right, on_left, TreeSpec.on_left.
  destruct use_hist.
  - unfold bin_at. assert (inside blen (ldx * feature nd + s p) = true) as -> by (unfold inside; lia). cbn [bind].
    destruct (prop nd); split; auto; f_equal; lia.
  - destruct H as [I H]. unfold x_at. assert (inside xlen (ldx * feature nd + s p) = true) as -> by (unfold inside; lia). cbn [bind].
    destruct (prop nd); split; auto. f_equal. now apply f64_le_lt.
Qed.
End Part.
