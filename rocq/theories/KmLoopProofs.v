(** Lloyd's algorithm in exact arithmetic: the loop, empty clusters. *)
From Coq Require Import ZArith Reals List Bool Lia Lra Arith Permutation.
From Verif Require Import Base Par UtilModel NnModel RealArith KmModel KmSpec KmKernelProofs KmLloydProofs KmCostProofs.
Import ListNotations.
Local Open Scope R_scope.

(** ** moving one sample *)
Lemma combine_put {A B} (ls : list A) : forall (X : list B) i c dx, (i < length ls)%nat -> length ls = length X ->
  combine (put ls i c) X = put (combine ls X) i (c, nth i X dx).
Proof.
  induction ls as [|a ls IH]; intros [|x X] [|i] c dx Hi L; cbn in *; try lia; auto. f_equal. apply IH; lia.
Qed.
Lemma part_put lx : forall i a j f, (i < length lx)%nat ->
  part j f (put lx i a) = part j f lx - (if Nat.eqb (fst (nth i lx (O, []))) j then nth f (snd (nth i lx (O, []))) 0 else 0)
                        + (if Nat.eqb (fst a) j then nth f (snd a) 0 else 0).
Proof.
  induction lx as [|b lx IH]; intros [|i] a j f Hi; cbn [length] in Hi; try lia; cbn [put nth]; rewrite !part_cons.
  - lra.
  - rewrite IH by lia. lra.
Qed.
Lemma cnt_put ls : forall i c j, (i < length ls)%nat ->
  (cnt (put ls i c) j = cnt ls j - (if Nat.eqb (nth i ls O) j then 1 else 0) + (if Nat.eqb c j then 1 else 0))%Z.
Proof.
  induction ls as [|b ls IH]; intros [|i] c j Hi; cbn [length] in Hi; try lia; cbn [put nth]; rewrite !cnt_cons.
  - lia.
  - rewrite IH by lia. lia.
Qed.

Lemma means_part k nf ls X j f : length ls = length X -> (j < k)%nat -> (f < nf)%nat ->
  entry j f (means k nf ls X) = part j f (combine ls X) / IZR (if (cnt ls j =? 0)%Z then 1 else cnt ls j).
Proof.
  intros L J F. rewrite means_entry, part_members by auto. f_equal. rewrite (cnt_members ls X) by auto.
  destruct (length (members ls X j)) as [|n]; [reflexivity|]. rewrite INR_IZR_INZ. destruct (Z.eqb_spec (Z.of_nat (S n)) 0); [lia|reflexivity].
Qed.
Lemma cnt_zero_part ls X j f : length ls = length X -> cnt ls j = 0%Z -> part j f (combine ls X) = 0.
Proof.
  intros L E. rewrite part_members. rewrite (cnt_members ls X) in E by auto. destruct (members ls X j); [reflexivity|cbn in E; lia].
Qed.
Lemma cnt_nonneg ls j : (0 <= cnt ls j)%Z.
Proof. unfold cnt. lia. Qed.

Section Split.
Variables (k nf : nat) (X : list rw) (isfin : R -> bool).
Hypothesis TX : table nf X.
Notation donor := (find_donor arithR isfin).

Lemma find_donor_some : forall ls ds counts i best bd r, donor ls ds counts i best bd = Some r ->
  best = Some r \/ (i <= r)%nat /\ (r < i + length ls)%nat /\ (1 < nth (nth (r - i) ls O) counts 0)%Z.
Proof.
  induction ls as [|l ls IH]; intros [|d ds] counts i best bd r E; cbn [find_donor] in E; auto.
  destruct ((1 <? nth l counts 0)%Z && isfin d && lt arithR bd d) eqn:B.
  - destruct (IH _ _ _ _ _ _ E) as [Q|[Q1 [Q2 Q3]]].
    + injection Q as <-. right. rewrite Nat.sub_diag. cbn [length nth]. apply andb_true_iff in B. destruct B as [B _].
      apply andb_true_iff in B. destruct B as [B _]. apply Z.ltb_lt in B. repeat split; auto; lia.
    + right. cbn [length]. repeat split; try lia. replace (r - i)%nat with (S (r - S i)) by lia. cbn [nth]. auto.
  - destruct (IH _ _ _ _ _ _ E) as [Q|[Q1 [Q2 Q3]]]; auto.
    right. cbn [length]. repeat split; try lia. replace (r - i)%nat with (S (r - S i)) by lia. cbn [nth]. auto.
Qed.
Lemma find_donor_none : forall ls ds counts i best bd, length ds = length ls -> donor ls ds counts i best bd = None ->
  best = None /\ forall r, (r < length ls)%nat ->
    ((1 <? nth (nth r ls O) counts 0)%Z && isfin (nth r ds 0) && Rltb bd (nth r ds 0)) = false.
Proof.
  induction ls as [|l ls IH]; intros [|d ds] counts i best bd L E; cbn in L; try discriminate; cbn [find_donor] in E.
  - split; auto. cbn. intros; lia.
  - destruct ((1 <? nth l counts 0)%Z && isfin d && lt arithR bd d) eqn:B.
    + destruct (IH ds counts (S i) (Some i) d ltac:(lia) E) as [Q _]. discriminate.
    + destruct (IH ds counts (S i) best bd ltac:(lia) E) as [Q H]. split; auto. intros [|r] Hr; cbn [nth]; auto. apply H. cbn in Hr. lia.
Qed.

Definition valid (ls : list nat) : Prop := length ls = length X /\ forall l, In l ls -> (l < k)%nat.
Record inv (s : split_state) : Prop := Inv {
  inv_ls : valid (sp_ls s);
  inv_C : sp_C s = means k nf (sp_ls s) X;
  inv_cl : length (sp_counts s) = k;
  inv_c : forall j, (j < k)%nat -> nth j (sp_counts s) 0%Z = cnt (sp_ls s) j;
  inv_dl : length (sp_ds s) = length X;
  inv_d : forall d, In d (sp_ds s) -> 0 <= d }.

Lemma own_distance_nonneg C lx : 0 <= own_distance arithR C lx.
Proof.
  unfold own_distance. assert (H : forall l s, 0 <= s ->
    0 <= fold_left (fun s ab => let d := sub arithR (fst ab) (snd ab) in add arithR s (mul arithR d d)) l s).
  { induction l as [|ab l IH]; intros s Hs; cbn [fold_left]; auto. apply IH. cbn [add mul sub arithR].
    pose proof (Rle_0_sqr (fst ab - snd ab)) as Q. unfold Rsqr in Q. lra. }
  apply H. unfold zero. cbn. lra.
Qed.

Lemma split_one_inv ne s c s' : inv s -> (c < k)%nat -> cnt (sp_ls s) c = 0%Z -> split_one arithR isfin ne X s c = Some s' ->
  inv s' /\ (0 < cnt (sp_ls s') c)%Z /\ forall j, (j < k)%nat -> (0 < cnt (sp_ls s) j)%Z -> (0 < cnt (sp_ls s') j)%Z.
Proof.
  intros [IL IC ICl Ic IDl ID] Hc Ec E. unfold split_one in E.
  destruct (donor (sp_ls s) (sp_ds s) (sp_counts s) 0 None (of_Z arithR (-1))) as [i|] eqn:Ei; [|discriminate].
  destruct (find_donor_some _ _ _ _ _ _ _ Ei) as [Q|[_ [Hi Hn]]]; [discriminate|]. cbn [Nat.add] in Hi. rewrite Nat.sub_0_r in Hn.
  destruct IL as [Ll Hl]. set (ls := sp_ls s) in *. set (old := nth i ls O) in *. set (x := nth i X []) in *.
  assert (Ho : (old < k)%nat) by (apply Hl, nth_In; auto).
  rewrite (Ic old Ho) in *. set (n := cnt ls old) in *.
  assert (Hoc : old <> c) by (intros ->; fold n in Ec; lia).
  assert (Lx : length x = nf) by (apply TX, nth_In; lia).
  destruct (means_shape k nf ls X) as [LM HM].
  assert (Lold : length (nth old (sp_C s) []) = nf) by (rewrite IC; apply HM, nth_In; lia).
  set (C1 := put (sp_C s) old (without arithR (nth old (sp_C s) []) x n)) in *.
  set (C2 := put C1 c x) in *. set (ls' := put ls i c) in *.
  assert (LC1 : length C1 = k) by (unfold C1; rewrite put_length, IC; auto).
  assert (V' : valid ls').
  { split; [unfold ls'; rewrite put_length; auto|]. intros l Hin. destruct (in_put _ _ _ _ Hin) as [->|]; auto. }
  assert (Cnt : forall j, cnt ls' j = (cnt ls j - (if Nat.eqb old j then 1 else 0) + (if Nat.eqb c j then 1 else 0))%Z)
    by (intros j; apply cnt_put; auto).
  assert (Prt : forall j f, part j f (combine ls' X) = part j f (combine ls X) - (if Nat.eqb old j then nth f x 0 else 0) + (if Nat.eqb c j then nth f x 0 else 0)).
  { intros j f. unfold ls'. rewrite (combine_put ls X i c []) by auto. rewrite part_put by (rewrite combine_length; lia).
    rewrite combine_nth by auto. reflexivity. }
  assert (EC2 : C2 = means k nf ls' X).
  { apply (shape_ext k nf).
    - split; [unfold C2; rewrite put_length; auto|]. intros r Hr. destruct (in_put _ _ _ _ Hr) as [->|Hr1]; auto.
      destruct (in_put _ _ _ _ Hr1) as [->|Hr2].
      + unfold without. rewrite map_length, combine_length. lia.
      + rewrite IC in Hr2. auto.
    - apply means_shape.
    - intros j f J F. rewrite means_part by (auto; apply V'). rewrite Prt, Cnt. unfold entry, C2.
      rewrite put_nth by lia. destruct (Nat.eqb_spec j c) as [->|Jc].
      + rewrite Nat.eqb_refl. destruct (Nat.eqb_spec old c); [contradiction|]. rewrite Ec, (cnt_zero_part ls X) by auto.
        cbn [Z.sub Z.add Z.opp Z.eqb]. cbn. lra.
      + destruct (Nat.eqb_spec c j); [congruence|]. unfold C1. rewrite put_nth by (rewrite IC; lia).
        destruct (Nat.eqb_spec j old) as [->|Jo].
        * rewrite Nat.eqb_refl. unfold without. rewrite (nth_map_in _ _ (0, 0)) by (rewrite combine_length; lia).
          rewrite combine_nth by lia. cbn [fst snd div sub mul of_Z arithR]. rewrite IC. fold (entry old f (means k nf ls X)).
          rewrite means_part by auto. fold n. destruct (Z.eqb_spec n 0); [lia|].
          destruct (Z.eqb_spec (n - 1 + 0) 0); [lia|]. rewrite Z.add_0_r. 
          assert (IZR n <> 0) by (apply IZR_neq; auto). assert (IZR (n - 1) <> 0) by (apply IZR_neq; lia). field. auto.
        * destruct (Nat.eqb_spec old j); [congruence|]. rewrite IC. fold (entry j f (means k nf ls X)). rewrite means_part by auto.
          rewrite Z.sub_0_r, Z.add_0_r. f_equal. lra. }
  set (ds' := if Nat.ltb 1 ne then _ else _) in *. injection E as <-.
  split; [|split].
  - constructor; cbn [sp_C sp_ls sp_counts sp_ds]; auto.
    + rewrite !put_length. auto.
    + intros j J. rewrite put_nth by (rewrite put_length; lia). rewrite put_nth by lia. rewrite Cnt.
      destruct (Nat.eqb_spec j c) as [->|]; [rewrite Nat.eqb_refl; destruct (Nat.eqb_spec old c); [contradiction|lia]|].
      destruct (Nat.eqb_spec c j); [congruence|]. destruct (Nat.eqb_spec j old) as [->|]; [rewrite Nat.eqb_refl; fold n; lia|].
      destruct (Nat.eqb_spec old j); [congruence|]. rewrite Ic by auto. lia.
    + unfold ds'. destruct (Nat.ltb 1 ne); rewrite ?map_length, ?combine_length, ?put_length; auto.
      unfold ls'. rewrite put_length. lia.
    + assert (P0 : forall d, In d (put (sp_ds s) i (zero arithR)) -> 0 <= d).
      { intros d Hd. destruct (in_put _ _ _ _ Hd) as [->|]; auto. unfold zero; cbn; lra. }
      unfold ds'. destruct (Nat.ltb 1 ne); auto. intros d Hd. apply in_map_iff in Hd. destruct Hd as [[d0 lx] [<- Hd]].
      cbn [fst snd]. destruct (Nat.eqb (fst lx) old); [apply own_distance_nonneg|]. apply P0. eapply in_combine_l; eauto.
  - cbn [sp_ls]. rewrite Cnt, Nat.eqb_refl. destruct (Nat.eqb_spec old c); [contradiction|lia].
  - cbn [sp_ls]. intros j J Pj. rewrite Cnt. destruct (Nat.eqb_spec old j) as [<-|]; [fold n in Pj |- *; destruct (Nat.eqb c old); lia|].
    destruct (Nat.eqb c j); lia.
Qed.

(** pigeonhole *)
Lemma sum_cnt ls : (forall l, In l ls -> (l < k)%nat) -> fold_right Z.add 0%Z (map (cnt ls) (seq 0 k)) = Z.of_nat (length ls).
Proof.
  induction ls as [|a ls IH]; intros H.
  - cbn [length]. clear. induction (seq 0 k) as [|j l IH]; cbn [map fold_right]; auto; unfold cnt in *; cbn in *; lia.
  - specialize (IH (fun l Hl => H l (or_intror Hl))). cbn [length].
    assert (Q : fold_right Z.add 0%Z (map (cnt (a :: ls)) (seq 0 k)) =
                (fold_right Z.add 0 (map (cnt ls) (seq 0 k)) + fold_right Z.add 0 (map (fun j => if Nat.eqb a j then 1 else 0) (seq 0 k)))%Z).
    { clear. induction (seq 0 k) as [|j l IH]; cbn [map fold_right]; auto. rewrite IH, cnt_cons. lia. }
    rewrite Q, IH. assert (S1 : fold_right Z.add 0%Z (map (fun j => if Nat.eqb a j then 1%Z else 0%Z) (seq 0 k)) = 1%Z); [|lia].
    specialize (H a (or_introl eq_refl)). clear -H. induction k as [|m IH]; [lia|].
    rewrite seq_S, map_app, fold_right_app. cbn [map fold_right Nat.add].
    assert (G : forall l z, fold_right Z.add z (map (fun j => if Nat.eqb a j then 1%Z else 0%Z) l) =
                       (fold_right Z.add 0 (map (fun j => if Nat.eqb a j then 1%Z else 0%Z) l) + z)%Z).
    { clear. induction l; intros z; cbn [map fold_right]; [lia|]. rewrite IHl. lia. }
    rewrite G. destruct (Nat.eqb_spec a m) as [->|].
    + assert (Z0 : forall l, (forall j, In j l -> (j < m)%nat) -> fold_right Z.add 0%Z (map (fun j => if Nat.eqb m j then 1%Z else 0%Z) l) = 0%Z).
      { clear. induction l as [|j l IH]; intros H; cbn [map fold_right]; auto. rewrite IH by (intros; apply H; right; auto).
        specialize (H j (or_introl eq_refl)). destruct (Nat.eqb_spec m j); lia. }
      rewrite Z0; [lia|]. intros j Hj. apply in_seq in Hj. lia.
    + rewrite IH by lia. lia.
Qed.
Lemma pigeon ls c : (forall l, In l ls -> (l < k)%nat) -> (k <= length ls)%nat -> (c < k)%nat -> cnt ls c = 0%Z ->
  exists i, (i < length ls)%nat /\ (1 < cnt ls (nth i ls O))%Z.
Proof.
  intros H K Hc Ec. pose proof (sum_cnt ls H) as S.
  destruct (existsb (fun j => (1 <? cnt ls j)%Z) (seq 0 k)) eqn:B.
  - apply existsb_exists in B. destruct B as [j [Hj Q]]. apply Z.ltb_lt in Q.
    assert (Hin : In j ls). { apply (count_occ_In Nat.eq_dec). unfold cnt in Q. lia. }
    destruct (In_nth _ _ O Hin) as [i [Hi Ei]]. exists i. rewrite Ei. auto.
  - exfalso. assert (A : forall j, In j (seq 0 k) -> (cnt ls j <= 1)%Z).
    { intros j Hj. destruct (Z.leb_spec (cnt ls j) 1); auto. assert (existsb (fun j => (1 <? cnt ls j)%Z) (seq 0 k) = true); [|congruence].
      apply existsb_exists. exists j. split; auto. apply Z.ltb_lt. lia. }
    assert (Bnd : forall l, (forall j, In j l -> (cnt ls j <= 1)%Z) -> (fold_right Z.add 0 (map (cnt ls) l) <= Z.of_nat (length l))%Z /\
       (In c l -> fold_right Z.add 0 (map (cnt ls) l) < Z.of_nat (length l))%Z).
    { clear -Ec. induction l as [|j l IH]; intros A; cbn [map fold_right length]; [split; [lia|intros []]|].
      destruct (IH (fun j Hj => A j (or_intror Hj))) as [I1 I2]. specialize (A j (or_introl eq_refl)).
      split; [lia|]. intros [->|Hin]; [lia|]. specialize (I2 Hin). lia. }
    destruct (Bnd _ A) as [_ Bn]. rewrite seq_length in Bn. assert (In c (seq 0 k)) by (apply in_seq; lia). specialize (Bn H0). lia.
Qed.

Lemma split_one_some ne s c : (forall r, isfin r = true) -> (k <= length X)%nat -> inv s -> (c < k)%nat -> cnt (sp_ls s) c = 0%Z ->
  exists s', split_one arithR isfin ne X s c = Some s'.
Proof.
  intros F K [[Ll Hl] IC ICl Ic IDl ID] Hc Ec. unfold split_one.
  destruct (donor (sp_ls s) (sp_ds s) (sp_counts s) 0 None (of_Z arithR (-1))) as [i|] eqn:Ei; [eexists; reflexivity|].
  exfalso. assert (Ld : length (sp_ds s) = length (sp_ls s)) by lia. destruct (find_donor_none _ _ _ _ _ _ Ld Ei) as [_ H].
  destruct (pigeon (sp_ls s) c Hl ltac:(lia) Hc Ec) as [i [Hi Q]]. specialize (H i Hi).
  assert (Hli : (nth i (sp_ls s) O < k)%nat) by (apply Hl, nth_In; auto). rewrite Ic, F in H by auto.
  rewrite (proj2 (Z.ltb_lt _ _)) in H by auto. cbn [andb] in H. apply Rltb_false in H.
  assert (0 <= nth i (sp_ds s) 0) by (apply ID, nth_In; lia). cbn in H. lra.
Qed.

Lemma split_loop_inv ne cs : forall s, (forall c, In c cs -> (c < k)%nat) -> inv s ->
  inv (split_loop arithR isfin ne X s cs) /\
  ((forall r, isfin r = true) -> (k <= length X)%nat ->
   (forall c, In c cs -> (0 < cnt (sp_ls (split_loop arithR isfin ne X s cs)) c)%Z) /\
   (forall j, (j < k)%nat -> (0 < cnt (sp_ls s) j)%Z -> (0 < cnt (sp_ls (split_loop arithR isfin ne X s cs)) j)%Z)).
Proof.
  induction cs as [|c cs IH]; intros s Hcs I; cbn [split_loop].
  - split; auto. intros _ _. split; [intros c []|auto].
  - assert (Hc : (c < k)%nat) by (apply Hcs; left; auto). rewrite (inv_c s I c Hc).
    assert (Hcs' : forall c, In c cs -> (c < k)%nat) by (intros; apply Hcs; right; auto).
    destruct (Z.eqb_spec (cnt (sp_ls s) c) 0) as [Z|Z].
    + destruct (split_one arithR isfin ne X s c) as [s'|] eqn:E.
      * destruct (split_one_inv ne s c s' I Hc Z E) as [I' [P1 P2]]. destruct (IH s' Hcs' I') as [J1 J2]. split; auto.
        intros F K. destruct (J2 F K) as [J3 J4]. split.
        -- intros d [<-|Hd]; auto.
        -- intros j J Pj. apply J4; auto.
      * split; auto. intros F K. destruct (split_one_some ne s c F K I Hc Z) as [s' E']. congruence.
    + destruct (IH s Hcs' I) as [J1 J2]. split; auto. intros F K. destruct (J2 F K) as [J3 J4]. split; auto.
      intros d [<-|Hd]; auto. apply J4; auto. pose proof (cnt_nonneg (sp_ls s) c). lia.
Qed.

Theorem split_empty_ok ls : valid ls ->
  let r := split_empty arithR isfin k X (means k nf ls X) ls in
  valid (snd r) /\ fst r = means k nf (snd r) X /\
  ((forall r, isfin r = true) -> (k <= length X)%nat -> forall j, (j < k)%nat -> In j (snd r)).
Proof.
  intros V. unfold split_empty. cbv zeta. cbn [fst snd].
  set (s0 := SplitState _ _ _ _).
  assert (I0 : inv s0).
  { destruct V as [L H]. destruct (count_labels_ok k ls H) as [Lc Ec]. constructor; cbn [s0 sp_C sp_ls sp_counts sp_ds]; auto.
    - split; auto.
    - rewrite map_length, combine_length. lia.
    - intros d Hd. apply in_map_iff in Hd. destruct Hd as [lx [<- _]]. apply own_distance_nonneg. }
  destruct (split_loop_inv (length (filter (fun n => (n =? 0)%Z) (count_labels k ls))) (seq 0 k) s0) as [I1 I2]; auto.
  { intros c Hc. apply in_seq in Hc. lia. }
  destruct I1 as [V1 C1 _ _ _ _]. split; auto. split; auto.
  intros F K j J. destruct (I2 F K) as [P _]. specialize (P j ltac:(apply in_seq; lia)).
  apply (count_occ_In Nat.eq_dec). unfold cnt in P. lia.
Qed.
End Split.

(** ** the loop *)
Section Loop.
Variables (k nf w bs : nat) (X : list rw) (prod : rw -> rw -> R) (lange : list rw -> R) (isfin : R -> bool).
Variables (st : style) (schedule : nat -> team) (mode : empties) (tol : R).
Hypothesis k_pos : k <> 0%nat.
Hypothesis w_pos : w <> 0%nat.
Hypothesis bs_pos : bs <> 0%nat.
Hypothesis TX : table nf X.
Hypothesis prod_exact : gemm_contract nf prod.
Hypothesis teams : forall i, good_team (length X) bs (schedule i).
Notation kern := (pick arithR Rltb w).
Notation labs C := (labels arithR prod kern C X).
Notation loop := (lloyd_loop arithR prod kern lange isfin st bs schedule k nf X mode tol).
Notation valid := (valid k X).

Lemma labs_valid C : shape k nf C -> valid (labs C).
Proof. intros SC. split; [apply labels_length|]. apply (labels_range k nf w X prod); auto. Qed.
Lemma new_means i ls : valid ls -> new_centres arithR st bs (schedule i) k nf ls X = means k nf ls X.
Proof. intros [L H]. apply new_centres_means; auto. Qed.

Lemma same_labels_eq a : forall b, same_labels a b = true <-> a = b.
Proof.
  induction a as [|x a IH]; intros [|y b]; cbn [same_labels]; split; intros E; try discriminate; auto.
  - apply andb_true_iff in E. destruct E as [E1 E2]. apply Nat.eqb_eq in E1. apply IH in E2. congruence.
  - injection E as -> ->. rewrite Nat.eqb_refl. cbn. apply IH. auto.
Qed.

(** The state before iteration [iter]. *)
Definition before_iteration (iter : nat) (C : list rw) (prev : list nat) : Prop :=
  shape k nf C /\ (iter = 0%nat \/ valid prev /\ C = means k nf prev X).

Definition good_end (r : run) : Prop :=
  match r with
  | EmptyCluster => mode = Error
  | Finished C ls it conv =>
      shape k nf C /\ ls = labs C /\ nearest_labels X C ls /\
      (exists ls0, valid ls0 /\ C = means k nf ls0 X) /\ (conv = 2%nat -> C = means k nf ls X)
  end.

Theorem loop_end fuel : forall iter C prev, before_iteration iter C prev -> (fuel + iter <> 0)%nat -> good_end (loop fuel iter C prev).
Proof.
  induction fuel as [|fuel IH]; intros iter C prev [SC HP] F; cbn [lloyd_loop].
  - cbn. destruct HP as [->|[V E]]; [lia|]. split; auto. split; auto. split; [apply (labels_nearest k nf w X prod); auto|].
    split; [exists prev; auto|discriminate].
  - pose proof (labs_valid C SC) as V. rewrite new_means by auto. set (ls := labs C) in *. set (C' := means k nf ls X).
    assert (SC' : shape k nf C') by apply means_shape.
    assert (Test : good_end (match convergence_test arithR lange iter ls prev tol C C' with
        | O => loop fuel (S iter) C' ls | 1%nat => Finished C' (labs C') iter 1 | c => Finished C' ls iter c end)).
    { unfold convergence_test. destruct (Nat.ltb 1 iter && same_labels ls prev) eqn:B.
      - apply andb_true_iff in B. destruct B as [B1 B2]. apply Nat.ltb_lt in B1. apply same_labels_eq in B2.
        destruct HP as [->|[_ HP]]; [lia|]. assert (EC : C' = C) by (unfold C'; rewrite B2; auto).
        cbn. split; auto. split; [rewrite EC; auto|]. split; [rewrite EC; apply (labels_nearest k nf w X prod); auto|].
        split; [exists ls; auto|auto].
      - destruct (lt arithR (lange (shift arithR C C')) (mul arithR tol (frobenius arithR C))).
        + cbn. split; auto. split; auto. split; [apply (labels_nearest k nf w X prod); auto|]. split; [exists ls; auto|discriminate].
        + apply IH; [|lia]. split; auto. }
    destruct mode eqn:Em; auto.
    + destruct (any_empty k ls); auto; cbn; auto.
    + destruct (any_empty k ls); auto.
      destruct (split_empty_ok k nf X isfin TX ls V) as [V' [E' _]].
      fold C' in V', E'. destruct (split_empty arithR isfin k X C' ls) as [C'' ls'']. cbn [fst snd] in *.
      apply IH; [|lia]. split; [rewrite E'; apply means_shape|]. right. auto.
Qed.

(** ** termination *)
Notation low := (lower k nf w X).
Lemma loop_converges fuel : mode <> Split -> forall iter C prev visited, before_iteration iter C prev ->
  (iter = 0%nat /\ visited = [] \/ iter <> 0%nat /\ exists v, visited = prev :: v /\ (forall l, In l v -> low prev l)) ->
  NoDup visited -> (forall l, In l visited -> valid l) -> (iter - 1 <= length visited)%nat ->
  (k ^ length X + 2 <= fuel + iter)%nat ->
  match loop fuel iter C prev with
  | EmptyCluster => mode = Error
  | Finished _ _ it conv => conv <> O
  end.
Proof.
  intros NS. induction fuel as [|fuel IH]; intros iter C prev visited [SC HP] HV ND VV Len F.
  - exfalso. assert (B : (length visited <= k ^ length X)%nat).
    { rewrite <- labellings_length. apply NoDup_incl_length; auto. intros l Hl. destruct (VV l Hl). apply (in_labellings k w); auto. }
    lia.
  - cbn [lloyd_loop]. pose proof (labs_valid C SC) as V. rewrite new_means by auto. set (ls := labs C) in *. set (C' := means k nf ls X).
    assert (SC' : shape k nf C') by apply means_shape.
    assert (BI : before_iteration (S iter) C' ls) by (split; auto).
    assert (Test : match (match convergence_test arithR lange iter ls prev tol C C' with
        | O => loop fuel (S iter) C' ls | 1%nat => Finished C' (labs C') iter 1 | c => Finished C' ls iter c end) with
        | EmptyCluster => mode = Error | Finished _ _ it conv => conv <> O end).
    { unfold convergence_test. destruct (Nat.ltb 1 iter && same_labels ls prev) eqn:B; [discriminate|].
      destruct (lt arithR (lange (shift arithR C C')) (mul arithR tol (frobenius arithR C))); [discriminate|].
      destruct HV as [[-> ->]|[I0 [v [-> Hv]]]].
      - apply (IH 1%nat C' ls [ls]); auto.
        + right. split; [lia|]. exists []. split; auto. intros l [].
        + constructor; [intros []|constructor].
        + intros l [<-|[]]; auto.
        + cbn. lia.
        + lia.
      - destruct (list_eq_dec Nat.eq_dec ls prev) as [Eq|NE].
        + (* only in the second iteration *)
          assert (iter <= 1)%nat.
          { destruct (Nat.ltb_spec 1 iter); auto. cbn [andb] in B. rewrite (proj2 (same_labels_eq ls prev) Eq) in B. discriminate. }
          apply (IH (S iter) C' ls (prev :: v)); auto.
          * right. split; [lia|]. exists v. rewrite Eq. split; auto.
          * cbn [length]. lia.
          * lia.
        + destruct HP as [HP|[VP EC]]; [lia|].
          assert (Lo : low ls prev).
          { unfold ls. rewrite EC. apply (next_lower k nf w X prod); auto; try apply VP. rewrite <- EC. auto. }
          apply (IH (S iter) C' ls (ls :: prev :: v)); auto.
          * right. split; [lia|]. exists (prev :: v). split; auto. intros l [<-|Hl]; auto.
            apply (lower_trans k nf w X k_pos w_pos ls prev l); auto.
          * constructor; auto. intros [Q|Q]; [congruence|]. apply (lower_irrefl k nf w X k_pos w_pos ls).
            apply (lower_trans k nf w X k_pos w_pos ls prev ls); auto.
          * intros l [<-|Hl]; auto.
          * cbn [length] in *. lia.
          * lia. }
    destruct mode eqn:Em; auto.
    + destruct (any_empty k ls); auto.
    + congruence.
Qed.

Theorem lloyd_converges max_iter C : mode <> Split -> shape k nf C -> (k ^ length X + 2 <= max_iter)%nat ->
  match lloyd arithR prod kern lange isfin st bs schedule k nf X mode tol max_iter C with
  | EmptyCluster => mode = Error
  | Finished _ _ it conv => conv <> O
  end.
Proof.
  intros NS SC M. unfold lloyd. apply (loop_converges max_iter NS 0 C [] []).
  - split; auto.
  - auto.
  - constructor.
  - intros l [].
  - cbn. lia.
  - lia.
Qed.
End Loop.
