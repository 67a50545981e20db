From Coq Require Import ZArith List Bool Permutation Lia Reals Lra.
From Verif Require Import Base Par F64 UtilModel SortModel ForestModel ForestSpec.
Import ListNotations.
Local Open Scope Z_scope.

Lemma flat_map_map {A B C} (g : A -> B) (f : B -> list C) l : flat_map f (map g l) = flat_map (fun a => f (g a)) l.
Proof. induction l; cbn; congruence. Qed.

(** ** Threads with separate parts of the buffer *)
Section Private.
Variables (V E : Type) (len : Z) (owns : Z -> Z -> bool).
Hypothesis separate : forall k k' p, owns k p = true -> owns k' p = true -> k = k'.

Definition mine (k : Z) (a : step V E) : Prop :=
  match a with
  | Put ok pos _ => ok = true /\ inside len pos = true /\ owns k pos = true
  | Load r pos => r = k /\ inside len pos = true /\ owns k pos = true
  | Add r _ => r = k
  end.
(** what a thread adds if it runs alone *)
Fixpoint local (l : list (step V E)) (b : Z -> V) (r : V) : list E :=
  match l with
  | [] => []
  | Put _ pos v :: l => local l (store_at b pos v) r
  | Load _ pos :: l => local l b (b pos)
  | Add _ f :: l => f r :: local l b r
  end.
Fixpoint locals (k : Z) (ths : list (list (step V E))) (b rg : Z -> V) : list E :=
  match ths with [] => [] | l :: rest => local l b (rg k) ++ locals (k + 1) rest b rg end.
Fixpoint all_mine (k : Z) (ths : list (list (step V E))) : Prop :=
  match ths with [] => True | l :: rest => Forall (mine k) l /\ all_mine (k + 1) rest end.

Lemma local_ext k : forall l b b' r, Forall (mine k) l -> (forall p, owns k p = true -> b p = b' p) -> local l b r = local l b' r.
Proof.
  induction l as [|a l IH]; intros b b' r H E0; auto. inversion H as [|? ? Ha Hl]; subst.
  destruct a as [ok pos v|rr pos|rr f]; cbn [local].
  - apply IH; auto. intros p O. unfold store_at. destruct (p =? pos); auto.
  - destruct Ha as (_ & _ & O). rewrite (E0 pos O). apply IH; auto.
  - f_equal. apply IH; auto.
Qed.

Lemma locals_ext j : forall ths k b b' rg rg', all_mine k ths -> (j < k \/ k + Z.of_nat (length ths) <= j) ->
  (forall p, owns j p = false -> b p = b' p) -> (forall i, i <> j -> rg i = rg' i) -> locals k ths b rg = locals k ths b' rg'.
Proof.
  induction ths as [|l ths IH]; intros k b b' rg rg' A R B G; auto. cbn [locals length all_mine] in *. destruct A as [A1 A2].
  f_equal.
  - rewrite (G k) by lia. apply (local_ext k); auto. intros p O. apply B. destruct (owns j p) eqn:Ej; auto.
    pose proof (separate _ _ _ O Ej). lia.
  - apply IH; auto. lia.
Qed.

Lemma locals_app : forall l1 l2 k b rg, locals k (l1 ++ l2) b rg = locals k l1 b rg ++ locals (k + Z.of_nat (length l1)) l2 b rg.
Proof.
  induction l1 as [|a l1 IH]; intros; cbn [locals app length].
  - f_equal. lia.
  - rewrite IH, <- app_assoc. do 2 f_equal. f_equal. lia.
Qed.
Lemma all_mine_app : forall l1 l2 k, all_mine k (l1 ++ l2) <-> all_mine k l1 /\ all_mine (k + Z.of_nat (length l1)) l2.
Proof.
  induction l1 as [|a l1 IH]; intros; cbn [all_mine app length].
  - rewrite Z.add_0_r. tauto.
  - rewrite IH. replace (k + 1 + Z.of_nat (length l1)) with (k + Z.of_nat (S (length l1))) by lia. tauto.
Qed.

Lemma locals_nil : forall ths k b rg, Forall (fun t => t = []) ths -> locals k ths b rg = [].
Proof. induction ths as [|l ths IH]; intros k b rg H; auto. inversion H; subst. cbn. auto. Qed.

Lemma private_run ths tr : interleaving ths tr -> forall k0 m, all_mine k0 ths ->
  exists m', run len tr m = Some m' /\ Permutation (updates m') (updates m ++ locals k0 ths (buf m) (regs m)).
Proof.
  induction 1 as [ths H|pre a t post tr H IH]; intros k0 m A.
  - exists m. split; auto. rewrite locals_nil by auto. rewrite app_nil_r. auto.
  - apply all_mine_app in A. cbn [all_mine] in A. destruct A as (A1 & A2 & A3).
    set (k := k0 + Z.of_nat (length pre)) in *. inversion A2 as [|? ? Aa At]; subst.
    assert (A' : all_mine k0 (pre ++ t :: post)) by (apply all_mine_app; cbn [all_mine]; auto).
    assert (Same : forall b' rg', (forall p, owns k p = false -> buf m p = b' p) -> (forall i, i <> k -> regs m i = rg' i) ->
      locals k0 (pre ++ t :: post) b' rg' = locals k0 pre (buf m) (regs m) ++ local t b' (rg' k) ++ locals (k + 1) post (buf m) (regs m)).
    { intros b' rg' B G. rewrite locals_app. cbn [locals]. fold k.
      rewrite (locals_ext k pre k0 (buf m) b' (regs m) rg'), (locals_ext k post (k + 1) (buf m) b' (regs m) rg'); auto; lia. }
    rewrite locals_app. cbn [locals]. fold k.
    destruct a as [ok pos v|r pos|r f]; cbn [run exec mine] in *.
    + destruct Aa as (-> & Ip & Op). rewrite Ip. cbn [andb bind].
      destruct (IH k0 (Memory (store_at (buf m) pos v) (regs m) (updates m)) A') as (m' & R & P).
      exists m'. split; auto. cbn [buf regs updates] in P. rewrite P. apply Permutation_app_head.
      rewrite Same; auto.
      intros p O. unfold store_at. destruct (p =? pos) eqn:Ep; auto. apply Z.eqb_eq in Ep. subst. congruence.
    + destruct Aa as (-> & Ip & Op). rewrite Ip. cbn [bind].
      destruct (IH k0 (Memory (buf m) (store_at (regs m) k (buf m pos)) (updates m)) A') as (m' & R & P).
      exists m'. split; auto. cbn [buf regs updates] in P. rewrite P. apply Permutation_app_head.
      rewrite Same; auto.
      * cbn [local]. unfold store_at at 1. rewrite Z.eqb_refl. auto.
      * intros i N. unfold store_at. destruct (i =? k) eqn:Ei; auto. apply Z.eqb_eq in Ei. contradiction.
    + subst r. cbn [bind].
      destruct (IH k0 (Memory (buf m) (regs m) (updates m ++ [f (regs m k)])) A') as (m' & R & P).
      exists m'. split; auto. cbn [buf regs updates] in P. rewrite P. rewrite <- app_assoc. apply Permutation_app_head.
      rewrite Same; auto. cbn [local app]. apply Permutation_middle.
Qed.

(** ** One iteration: stores, then loads with updates *)
Definition puts (ws : list (bool * Z * V)) : list (step V E) := map (fun w => Put (fst (fst w)) (snd (fst w)) (snd w)) ws.
Definition stored (ws : list (bool * Z * V)) (b : Z -> V) : Z -> V := fold_left (fun b w => store_at b (snd (fst w)) (snd w)) ws b.
Definition uses (k : Z) (us : list (Z * (V -> E))) : list (step V E) := flat_map (fun u => [Load k (fst u); Add k (snd u)]) us.

Lemma local_puts ws : forall rest b r, local (puts ws ++ rest) b r = local rest (stored ws b) r.
Proof. induction ws as [|w ws IH]; intros; cbn; auto. Qed.
Lemma local_uses k us : forall rest b r, exists r',
  local (uses k us ++ rest) b r = map (fun u => snd u (b (fst u))) us ++ local rest b r'.
Proof.
  induction us as [|u us IH]; intros rest b r.
  - exists r. auto.
  - destruct (IH rest b (b (fst u))) as (r' & E0). exists r'. cbn. f_equal. exact E0.
Qed.

Lemma stored_in ws : forall b p v, In p (map (fun w => snd (fst w)) ws) ->
  (forall w, In w ws -> snd (fst w) = p -> snd w = v) -> stored ws b p = v.
Proof using.
  assert (Keep : forall ws b p v, b p = v -> (forall w, In w ws -> snd (fst w) = p -> snd w = v) -> stored ws b p = v).
  { induction ws0 as [|w ws0 IH]; intros b p v E0 H; cbn; auto. apply IH; [|intros w' I' E'; apply H; [now right|auto]].
    unfold store_at. destruct (p =? snd (fst w)) eqn:Ep; auto. apply H; [now left|]. apply Z.eqb_eq in Ep. auto. }
  induction ws as [|w ws IH]; intros b p v I H; [easy|]. cbn. destruct I as [I|I].
  - apply Keep; [|intros w' I' E'; apply H; [now right|auto]]. cbn in I. unfold store_at. subst p. rewrite Z.eqb_refl. apply H; [now left|auto].
  - apply IH; auto. intros w' I' E'. apply H; [now right|auto].
Qed.

Lemma item_local {A} k (ok : A -> bool) (pos : A -> Z) (val : A -> V) (ev : A -> V -> E) (l : list A) rest b r :
  (forall a a', In a l -> In a' l -> pos a = pos a' -> a = a') -> exists b' r',
  local (map (fun a => Put (ok a) (pos a) (val a)) l ++ flat_map (fun a => [Load k (pos a); Add k (ev a)]) l ++ rest) b r
  = map (fun a => ev a (val a)) l ++ local rest b' r'.
Proof using.
  intros Inj. set (ws := map (fun a => (ok a, pos a, val a)) l). set (us := map (fun a => (pos a, ev a)) l).
  assert (E1 : map (fun a => Put (ok a) (pos a) (val a)) l = puts ws) by (unfold puts, ws; rewrite map_map; auto).
  assert (E2 : flat_map (fun a => [Load k (pos a); Add k (ev a)]) l = uses k us).
  { unfold uses, us. rewrite flat_map_map. auto. }
  rewrite E1, E2, local_puts. destruct (local_uses k us rest (stored ws b) r) as (r' & ->).
  exists (stored ws b), r'. f_equal. unfold us. rewrite map_map. apply map_ext_in. intros a I. cbn [fst snd]. f_equal.
  apply stored_in.
  - unfold ws. rewrite map_map. apply in_map_iff. exists a. auto.
  - unfold ws. intros w W E0. apply in_map_iff in W. destruct W as (a' & <- & I'). cbn [fst snd] in *. f_equal. auto.
Qed.

(** Iterations that add what [evs] says *)
Variables (body : Z -> Z * Z -> list (step V E)) (evs : Z * Z -> list E).
Variable fine : Z -> Z * Z -> Prop.
Hypothesis body_local : forall k it rest b r, fine k it -> exists b' r', local (body k it ++ rest) b r = evs it ++ local rest b' r'.
Hypothesis body_mine : forall k it, fine k it -> Forall (mine k) (body k it).

Lemma thread_local k : forall its b r, Forall (fine k) its -> local (concat (map (body k) its)) b r = flat_map evs its.
Proof.
  induction its as [|it its IH]; intros b r F; auto. inversion F; subst. cbn [map concat flat_map].
  destruct (body_local k it (concat (map (body k) its)) b r) as (b' & r' & ->); auto. f_equal. auto.
Qed.
Lemma threads_locals : forall sched k b rg, (forall i its, In its sched -> k <= i < k + Z.of_nat (length sched) -> Forall (fine i) its) ->
  locals k (threads body k sched) b rg = flat_map evs (concat sched) /\ all_mine k (threads body k sched).
Proof.
  induction sched as [|its sched IH]; intros k b rg F; [cbn; auto|]. cbn [threads locals all_mine concat length] in *.
  destruct (IH (k + 1) b rg) as [E1 A1]. { intros i its' I R. apply F; [now right|lia]. }
  assert (Fk : Forall (fine k) its) by (apply F; [now left|lia]).
  rewrite E1, flat_map_app, thread_local by auto. split; auto. split; auto.
  apply Forall_concat, Forall_map. eapply Forall_impl; [|exact Fk]. auto.
Qed.

Lemma team_run sched tr m : (forall i its, In its sched -> 0 <= i < Z.of_nat (length sched) -> Forall (fine i) its) ->
  interleaving (threads body 0 sched) tr ->
  exists m', run len tr m = Some m' /\ Permutation (updates m') (updates m ++ flat_map evs (concat sched)).
Proof.
  intros F I. destruct (threads_locals sched 0 (buf m) (regs m) F) as [L A].
  destruct (private_run _ _ I 0 m A) as (m' & R & P). exists m'. rewrite L in P. auto.
Qed.
End Private.

(** ** Lists *)
Lemma zrange_app a b : 0 <= a -> 0 <= b -> zrange (a + b) = zrange a ++ map (fun i => a + i) (zrange b).
Proof.
  intros. unfold zrange. rewrite Z2Nat.inj_add, seq_app, map_app by lia. f_equal.
  rewrite map_map. cbn [plus]. assert (G : forall n k, map Z.of_nat (seq k n) = map (fun x => Z.of_nat k + Z.of_nat x) (seq 0 n)).
  { induction n as [|n IH]; intros k; auto. cbn [seq map]. f_equal; [lia|]. rewrite IH. rewrite <- seq_shift, map_map. apply map_ext. lia. }
  rewrite G. apply map_ext. intros. lia.
Qed.

Lemma flat_map_swap {A B C} (f : A -> B -> list C) (l1 : list A) (l2 : list B) :
  Permutation (flat_map (fun a => flat_map (f a) l2) l1) (flat_map (fun b => flat_map (fun a => f a b) l1) l2).
Proof.
  induction l1 as [|a l1 IH]; cbn [flat_map].
  - induction l2; cbn; auto.
  - rewrite IH. clear IH. induction l2 as [|b l2 IH]; cbn [flat_map]; auto.
    rewrite <- IH. rewrite <- !app_assoc. apply Permutation_app_head. rewrite !app_assoc. apply Permutation_app_tail.
    apply Permutation_app_comm.
Qed.
Lemma flat_map_flat {A B C} (g : A -> list B) (f : B -> list C) l : flat_map f (flat_map g l) = flat_map (fun a => flat_map f (g a)) l.
Proof. induction l; cbn; auto. rewrite flat_map_app. congruence. Qed.
Lemma flat_map_ext_in {A B} (f g : A -> list B) l : (forall a, In a l -> f a = g a) -> flat_map f l = flat_map g l.
Proof. induction l as [|a l IH]; intros H; cbn; auto. rewrite (H a) by now left. f_equal. apply IH. firstorder. Qed.

Section Cover.
Variables (nsamp block_size n_blocks block_rem : Z).
Hypothesis Hn : 0 <= nsamp.
Hypothesis Hb : 0 < block_size.
Hypothesis Hs : blocking_scheme nsamp block_size = Some (n_blocks, block_rem).

Lemma scheme : block_rem = nsamp mod block_size /\ 0 <= block_rem < block_size /\
  nsamp = (n_blocks - if 0 <? block_rem then 1 else 0) * block_size + block_rem /\ 0 <= n_blocks /\ (0 < block_rem -> 1 <= n_blocks).
Proof.
  unfold blocking_scheme in Hs. destruct (block_size =? 0) eqn:Ez; [lia|].
  rewrite Z.quot_div_nonneg, Z.rem_mod_nonneg in Hs by lia. rewrite Z.gtb_ltb in Hs. injection Hs as E1 E2.
  pose proof (Z.mod_pos_bound nsamp block_size Hb). pose proof (Z.div_mod nsamp block_size ltac:(lia)).
  pose proof (Z.div_pos nsamp block_size ltac:(lia) Hb).
  rewrite E2 in *. destruct (0 <? block_rem) eqn:El; subst n_blocks; repeat split; try lia; nia.
Qed.

Lemma full_blocks (k : nat) : flat_map (fun b => map (fun i => b * block_size + i) (zrange block_size)) (zrange (Z.of_nat k))
  = zrange (Z.of_nat k * block_size).
Proof.
  induction k as [|k IH]; auto. replace (Z.of_nat (S k)) with (Z.of_nat k + 1) by lia.
  rewrite zrange_app by lia. rewrite flat_map_app, IH.
  replace ((Z.of_nat k + 1) * block_size) with (Z.of_nat k * block_size + block_size) by lia.
  rewrite (zrange_app (Z.of_nat k * block_size)) by nia. f_equal. change (zrange 1) with [0]. cbn [map flat_map].
  rewrite app_nil_r. apply map_ext. lia.
Qed.

Lemma blocks_cover : flat_map (fun b => map (fun i => b * block_size + i) (zrange (n_elem n_blocks block_size block_rem b))) (zrange n_blocks)
  = zrange nsamp.
Proof.
  destruct scheme as (_ & R & N & P & L).
  assert (F : forall k, 0 <= k -> flat_map (fun b => map (fun i => b * block_size + i) (zrange block_size)) (zrange k) = zrange (k * block_size)).
  { intros k Hk. rewrite <- (Z2Nat.id k Hk). apply full_blocks. }
  destruct (0 <? block_rem) eqn:El.
  - apply Z.ltb_lt in El. specialize (L El).
    assert (Ez : zrange n_blocks = zrange (n_blocks - 1) ++ [n_blocks - 1]).
    { replace n_blocks with (n_blocks - 1 + 1) at 1 by lia. rewrite zrange_app by lia. f_equal. change (zrange 1) with [0]. cbn [map]. f_equal. lia. }
    rewrite Ez, flat_map_app.
    replace nsamp with ((n_blocks - 1) * block_size + block_rem) by lia. rewrite zrange_app by nia. f_equal.
    + rewrite <- F by lia.
      apply flat_map_ext_in. intros b I. apply in_zrange in I. unfold n_elem. replace (b =? n_blocks - 1) with false by lia. auto.
    + cbn [map flat_map]. rewrite app_nil_r. unfold n_elem.
      rewrite Z.eqb_refl. replace (0 <? block_rem) with true by lia. auto.
  - assert (block_rem = 0) by lia. replace nsamp with (n_blocks * block_size) by lia. rewrite <- F by lia.
    apply flat_map_ext_in. intros b I. unfold n_elem. rewrite El, andb_false_r. auto.
Qed.

Lemma elem_inside b i : 0 <= b < n_blocks -> 0 <= i < n_elem n_blocks block_size block_rem b ->
  i < block_size /\ 0 <= b * block_size + i < nsamp.
Proof.
  intros B I. assert (In (b * block_size + i) (zrange nsamp)).
  { rewrite <- blocks_cover. apply in_flat_map. exists b. split; [apply in_zrange; auto|]. apply in_map_iff. exists i. split; auto. apply in_zrange; auto. }
  apply in_zrange in H. split; auto. destruct scheme as (_ & R & _). unfold n_elem in I. destruct ((b =? n_blocks - 1) && (0 <? block_rem)); lia.
Qed.

(** The updates of all iterations, sample by sample *)
Lemma all_updates {E} (ev : Z -> Z -> list E) n_tree :
  Permutation (flat_map (fun it => flat_map (fun i => ev (snd it) (fst it * block_size + i)) (zrange (n_elem n_blocks block_size block_rem (fst it))))
                        (iterations n_blocks n_tree))
              (flat_map (fun t => flat_map (ev t) (zrange nsamp)) (zrange n_tree)).
Proof.
  unfold iterations. rewrite flat_map_flat.
  rewrite (flat_map_ext_in _ (fun b => flat_map (fun t => flat_map (fun i => ev t (b * block_size + i)) (zrange (n_elem n_blocks block_size block_rem b))) (zrange n_tree))).
  2:{ intros b _. rewrite flat_map_map. auto. }
  rewrite flat_map_swap. apply Permutation_refl'. apply flat_map_ext_in. intros t _.
  rewrite <- blocks_cover, flat_map_flat. apply flat_map_ext_in. intros b _. rewrite flat_map_map. auto.
Qed.
End Cover.

Lemma in_iterations n_blocks n_tree it : In it (iterations n_blocks n_tree) <-> 0 <= fst it < n_blocks /\ 0 <= snd it < n_tree.
Proof.
  unfold iterations. rewrite in_flat_map. split.
  - intros (b & B & I). apply in_map_iff in I. destruct I as (t & <- & T). apply in_zrange in B, T. auto.
  - intros [B T]. exists (fst it). split; [apply in_zrange; auto|]. apply in_map_iff. exists (snd it). split; [destruct it; auto|apply in_zrange; auto].
Qed.
