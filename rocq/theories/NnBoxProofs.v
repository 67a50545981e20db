(** Distances and bounding boxes. *)
From Coq Require Import ZArith List Bool Reals Permutation Sorted Lia Lra.
From Verif Require Import Base Par UtilModel NnModel NnSpec NnSelectProofs.
Import ListNotations.

Section Box.
Context {T : Type} (N : arith T) (num fin : T -> Prop) (key : T -> R).
Hypothesis M : monotone N num fin key.
Variables (m : metric) (p p_inv : T).
Hypothesis Hm : metric_ok N num fin key m p p_inv.

Let Hc := m_order _ _ _ _ M.
Lemma lt_t a b : num a -> num b -> lt N a b = true -> (key a < key b)%R.
Proof. intros. apply (lt_k _ _ num key Hc); auto. Qed.
Lemma lt_f a b : num a -> num b -> lt N a b = false -> (key b <= key a)%R.
Proof. intros. apply (lt_kf _ _ num key Hc); auto. Qed.
Lemma le_t a b : num a -> num b -> le N a b = true -> (key a <= key b)%R.
Proof. intros. apply (le_k _ _ num key Hc); auto. Qed.
Lemma le_f a b : num a -> num b -> le N a b = false -> (key b < key a)%R.
Proof. intros. apply (le_kf _ _ num key Hc); auto. Qed.
Lemma fin_num a : fin a -> num a.
Proof. apply M. Qed.
Lemma zero_num : num (zero N).
Proof. apply fin_num, M. Qed.
Lemma zero_key : key (zero N) = 0%R.
Proof. apply (m_zero _ _ _ _ M). Qed.
Lemma sub_num a b : fin a -> fin b -> num (sub N a b).
Proof. intros. now apply (m_sub _ _ _ _ M). Qed.
Lemma sub_opp a b : fin a -> fin b -> key (sub N b a) = (- key (sub N a b))%R.
Proof. intros. now apply (m_sub _ _ _ _ M). Qed.
Lemma sub_self a : fin a -> key (sub N a a) = 0%R.
Proof. intros H. pose proof (sub_opp a a H H). lra. Qed.
Lemma sub_mono_r a b c : fin a -> fin b -> fin c -> (key a <= key b)%R -> (key (sub N c b) <= key (sub N c a))%R.
Proof. intros. rewrite (sub_opp b c), (sub_opp a c) by auto. apply Ropp_le_contravar. now apply (m_sub_mono _ _ _ _ M). Qed.
Lemma sub_mono a b c : fin a -> fin b -> fin c -> (key a <= key b)%R -> (key (sub N a c) <= key (sub N b c))%R.
Proof. intros. now apply (m_sub_mono _ _ _ _ M). Qed.

(** the cost of a difference, of a bound, the root, and what is compared with the radius before summing *)
Definition kc (d : T) : T := match m with Euclidean | EuclideanGemm => mul N d d | Manhattan => abs N d | _ => pow N (abs N d) p end.
Definition bc (t : T) : T := match m with Euclidean | EuclideanGemm => mul N t t | Manhattan => t | _ => pow N t p end.
Definition th (t : T) : T := if euclid m then mul N t t else t.
Notation rt := (root_of N m p_inv).

Lemma kc_num d : num d -> num (kc d) /\ (0 <= key (kc d))%R.
Proof.
  intros H. destruct (m_abs _ _ _ _ M d H) as [Ha Hb].
  unfold kc. destruct m; cbn in Hm; try (apply M; auto); try tauto.
  - rewrite Hb. split; auto. apply Rabs_pos.
  - apply Hm; auto. rewrite Hb. apply Rabs_pos.
Qed.
Lemma bc_num t : num t -> (0 <= key t)%R -> num (bc t) /\ (0 <= key (bc t))%R.
Proof.
  intros H H0. unfold bc. destruct m; cbn in Hm; try (apply M; auto); try tauto.
  apply Hm; auto.
Qed.
Lemma bc_le t d : num t -> num d -> (0 <= key t <= Rabs (key d))%R -> (key (bc t) <= key (kc d))%R.
Proof.
  intros Ht Hd H. destruct (m_abs _ _ _ _ M d Hd) as [Ha Hb].
  unfold bc, kc. destruct m; cbn in Hm; try tauto.
  - apply (m_square_mono _ _ _ _ M); auto. rewrite (Rabs_pos_eq (key t)); lra.
  - apply (m_square_mono _ _ _ _ M); auto. rewrite (Rabs_pos_eq (key t)); lra.
  - lra.
  - destruct Hm as (_ & P2 & _). apply P2; auto. rewrite Hb. lra.
Qed.
Lemma kc_le t d : num t -> num d -> (Rabs (key d) <= key t)%R -> (key (kc d) <= key (bc t))%R.
Proof.
  intros Ht Hd H. destruct (m_abs _ _ _ _ M d Hd) as [Ha Hb]. pose proof (Rabs_pos (key d)).
  unfold bc, kc. destruct m; cbn in Hm; try tauto.
  - apply (m_square_mono _ _ _ _ M); auto. rewrite (Rabs_pos_eq (key t)); lra.
  - apply (m_square_mono _ _ _ _ M); auto. rewrite (Rabs_pos_eq (key t)); lra.
  - lra.
  - destruct Hm as (_ & P2 & _). apply P2; auto. rewrite Hb. lra.
Qed.
Lemma rt_num s : num s -> (0 <= key s)%R -> num (rt s) /\ (0 <= key (rt s))%R.
Proof. intros H H0. unfold root_of. destruct m; cbn in Hm; auto; try tauto. apply Hm; auto. Qed.
Lemma rt_mono a b : num a -> num b -> (0 <= key a <= key b)%R -> (key (rt a) <= key (rt b))%R.
Proof. intros Ha Hb H. unfold root_of. destruct m; cbn in Hm; try lra; try tauto. destruct Hm as (_ & P2 & _). apply P2; auto. Qed.
Lemma th_num t : num t -> num (th t).
Proof. intros H. unfold th. destruct (euclid m); auto. now apply (m_square _ _ _ _ M). Qed.
Lemma th_le t d s : num t -> num d -> num s -> (0 <= key t <= Rabs (key d))%R -> (key (kc d) <= key s)%R ->
  (key (th t) <= key (rt s))%R.
Proof.
  intros Ht Hd Hs H1 H2. pose proof (bc_le t d Ht Hd H1) as H3.
  unfold th, root_of, bc in *. destruct m; cbn in *; try lra; try tauto.
  destruct Hm as (_ & _ & P3). apply P3; auto; lra.
Qed.

Notation gsum := (sum_diff N kc).
Lemma dist_sum x y : length x = length y -> Forall fin x -> Forall fin y ->
  (m = EuclideanGemm \/ num (rt (gsum x y))) ->
  num (distance N m p p_inv x y) /\ key (distance N m p p_inv x y) = key (rt (gsum x y)).
Proof.
  intros Hl Hx Hy Hn. unfold distance, root_of, kc, metric_ok in *. destruct m; cbn in Hn; try (now destruct Hn as [Hn|Hn]; [discriminate|]); try tauto.
  apply (Hm x y Hl Hx Hy).
Qed.

(** the loop of check_bounding_box with the costs named *)
Fixpoint gloop (eps : T) (x lo hi : list T) (min_d max_d : T) : option (T * T) :=
  match x, lo, hi with
  | xi :: x, l :: lo, h :: hi =>
      let tmp := if lt N xi l then (sub N l xi, sub N h xi)
                 else if lt N h xi then (sub N xi h, sub N xi l)
                 else (zero N, std_max N (sub N h xi) (sub N xi l)) in
      if lt N eps (th (fst tmp)) then None
      else gloop eps x lo hi (add N min_d (bc (fst tmp))) (add N max_d (bc (snd tmp)))
  | _, _, _ => Some (min_d, max_d)
  end.
Lemma gloop_eq eps x : forall lo hi a b, box_loop N m p eps x lo hi a b = gloop eps x lo hi a b.
Proof.
  induction x as [|xi x IH]; intros [|l lo] [|h hi] a b; auto.
  cbn [box_loop gloop]. unfold th, bc. destruct m eqn:E; cbn [euclid];
    destruct (lt N eps _); auto.
Qed.

Definition in_box (lo hi a : list T) : Prop :=
  Forall2 (fun l v => (key l <= key v)%R) lo a /\ Forall2 (fun v h => (key v <= key h)%R) a hi.

Lemma bounds_one xi l h a : fin xi -> fin l -> fin h -> fin a -> (key l <= key a <= key h)%R ->
  let tmp := if lt N xi l then (sub N l xi, sub N h xi)
             else if lt N h xi then (sub N xi h, sub N xi l)
             else (zero N, std_max N (sub N h xi) (sub N xi l)) in
  num (fst tmp) /\ num (snd tmp) /\ (0 <= key (fst tmp) <= Rabs (key (sub N xi a)))%R /\
  (Rabs (key (sub N xi a)) <= key (snd tmp))%R.
Proof.
  intros Hx Hl Hh Ha [H1 H2]. cbv zeta.
  pose proof (sub_self xi Hx) as H0.
  pose proof (sub_opp a xi Ha Hx) as Ho.
  destruct (lt N xi l) eqn:E1.
  { apply lt_t in E1; try (apply fin_num; auto). cbn [fst snd].
    pose proof (sub_mono xi l xi Hx Hl Hx). pose proof (sub_mono l a xi Hl Ha Hx H1). pose proof (sub_mono a h xi Ha Hh Hx H2).
    repeat split; try (apply sub_num; auto); rewrite ?Ho, ?Rabs_Ropp, ?Rabs_pos_eq; try lra. }
  destruct (lt N h xi) eqn:E2.
  { apply lt_t in E2; try (apply fin_num; auto). cbn [fst snd].
    pose proof (sub_mono_r h xi xi Hh Hx Hx). pose proof (sub_mono_r l a xi Hl Ha Hx H1).
    pose proof (sub_mono_r a h xi Ha Hh Hx H2).
    repeat split; try (apply sub_num; auto); rewrite ?Rabs_pos_eq; try lra. }
  cbn [fst snd].
  assert (Hmx : num (std_max N (sub N h xi) (sub N xi l)) /\
    (key (sub N h xi) <= key (std_max N (sub N h xi) (sub N xi l)))%R /\
    (key (sub N xi l) <= key (std_max N (sub N h xi) (sub N xi l)))%R).
  { unfold std_max. destruct (lt N (sub N h xi) (sub N xi l)) eqn:E3.
    - apply lt_t in E3; try (apply sub_num; auto). repeat split; try (apply sub_num; auto); lra.
    - apply lt_f in E3; try (apply sub_num; auto). repeat split; try (apply sub_num; auto); lra. }
  destruct Hmx as (Hn & Hb1 & Hb2). repeat split; auto.
  - apply zero_num.
  - rewrite zero_key. lra.
  - rewrite zero_key. apply Rabs_pos.
  - destruct (Rle_or_lt (key a) (key xi)) as [Hle|Hlt].
    + pose proof (sub_mono_r a xi xi Ha Hx Hx Hle). pose proof (sub_mono_r l a xi Hl Ha Hx H1).
      rewrite Rabs_pos_eq by lra. lra.
    + pose proof (sub_mono xi a xi Hx Ha Hx). pose proof (sub_mono a h xi Ha Hh Hx H2).
      rewrite Ho, Rabs_Ropp, Rabs_pos_eq by lra. lra.
Qed.

Lemma sum_step f s x y xs ys : fold_left (fun s ab => add N s (f (sub N (fst ab) (snd ab)))) (combine (x :: xs) (y :: ys)) s =
  fold_left (fun s ab => add N s (f (sub N (fst ab) (snd ab)))) (combine xs ys) (add N s (f (sub N x y))).
Proof. reflexivity. Qed.

Notation fsum := (fun s x y => fold_left (fun s ab => add N s (kc (sub N (fst ab) (snd ab)))) (combine x y) s).

Lemma fsum_ok x : forall y s, Forall fin x -> Forall fin y -> num s -> (0 <= key s)%R ->
  num (fsum s x y) /\ (key s <= key (fsum s x y))%R.
Proof.
  induction x as [|a x IH]; intros [|b y] s Hx Hy Hs H0; cbn [combine fold_left]; try (split; auto; lra).
  inversion Hx; subst. inversion Hy; subst.
  destruct (kc_num (sub N a b)) as [K1 K2]; [apply sub_num; auto|].
  destruct (m_add _ _ _ _ M s (kc (sub N a b)) Hs K1 H0 K2) as (A1 & A2 & A3).
  destruct (IH y (add N s (kc (sub N a b)))) as [I1 I2]; auto; try lra.
  split; auto. cbn [fst snd]. lra.
Qed.

Lemma fsum_term x : forall y s j, Forall fin x -> Forall fin y -> num s -> (0 <= key s)%R -> length x = length y ->
  (j < length x)%nat ->
  (key (kc (sub N (nth j x (zero N)) (nth j y (zero N)))) <= key (fsum s x y))%R.
Proof.
  induction x as [|a x IH]; intros [|b y] s j Hx Hy Hs H0 Hl Hj; cbn [length] in *; try lia.
  inversion Hx; subst. inversion Hy; subst. cbn [combine fold_left fst snd].
  destruct (kc_num (sub N a b)) as [K1 K2]; [apply sub_num; auto|].
  destruct (m_add _ _ _ _ M s (kc (sub N a b)) Hs K1 H0 K2) as (A1 & A2 & A3).
  destruct j as [|j]; cbn [nth].
  - pose proof (fsum_ok x y (add N s (kc (sub N a b))) ltac:(assumption) ltac:(assumption) A1 ltac:(lra)) as [_ F]. cbn [fst snd] in F. lra.
  - apply IH; auto; try lra; lia.
Qed.

Lemma gsum_num x y : Forall fin x -> Forall fin y -> num (gsum x y) /\ (0 <= key (gsum x y))%R.
Proof.
  intros Hx Hy. destruct (fsum_ok x y (zero N) Hx Hy zero_num) as [H1 H2].
  - rewrite zero_key; lra.
  - rewrite zero_key in H2. split; auto.
Qed.
Lemma dist_ok x y : length x = length y -> Forall fin x -> Forall fin y ->
  num (distance N m p p_inv x y) /\ key (distance N m p p_inv x y) = key (rt (gsum x y)).
Proof.
  intros Hl Hx Hy. apply dist_sum; auto. right. destruct (gsum_num x y Hx Hy). apply rt_num; auto.
Qed.

(** one coordinate bounds the distance *)
Lemma dist_coord x y j t : length x = length y -> Forall fin x -> Forall fin y -> (j < length x)%nat -> num t ->
  (0 <= key t <= Rabs (key (sub N (nth j x (zero N)) (nth j y (zero N)))))%R ->
  (key (th t) <= key (distance N m p p_inv x y))%R.
Proof.
  intros Hl Hx Hy Hj Ht H. destruct (dist_ok x y Hl Hx Hy) as [_ ->].
  destruct (gsum_num x y Hx Hy) as [G1 G2].
  assert (F : forall l k, Forall fin l -> fin (nth k l (zero N))).
  { intros l k Hl'. destruct (nth_in_or_default k l (zero N)) as [Hi|Hd].
    - rewrite Forall_forall in Hl'. auto.
    - rewrite Hd. apply M. }
  apply (th_le t (sub N (nth j x (zero N)) (nth j y (zero N)))); auto.
  - apply sub_num; auto.
  - apply fsum_term; auto; [apply zero_num|rewrite zero_key; lra].
Qed.

Lemma gloop_ok eps x : forall lo hi a mn mx s, Forall fin x -> Forall fin lo -> Forall fin hi -> Forall fin a ->
  length x = length a -> in_box lo hi a -> num mn -> num mx -> num s -> num eps ->
  (0 <= key mn <= key s)%R -> (key s <= key mx)%R ->
  match gloop eps x lo hi mn mx with
  | None => (key eps < key (rt (fsum s x a)))%R
  | Some (mn', mx') => num mn' /\ num mx' /\ (0 <= key mn' <= key (fsum s x a))%R /\ (key (fsum s x a) <= key mx')%R
  end.
Proof.
  induction x as [|xi x IH]; intros lo hi a mn mx s Hx Hlo Hhi Ha Hl [Hb1 Hb2] Hmn Hmx Hs He H1 H2.
  - cbn. repeat split; auto; lra.
  - destruct a as [|ai a]; [discriminate|].
    destruct lo as [|l lo]; [inversion Hb1|]. destruct hi as [|h hi]; [inversion Hb2|].
    inversion Hb1; subst. inversion Hb2; subst.
    inversion Hx; subst. inversion Hlo; subst. inversion Hhi; subst. inversion Ha; subst.
    cbn [gloop]. cbv zeta. cbn [combine fold_left].
    pose proof (bounds_one xi l h ai) as B. cbv zeta in B.
    destruct B as (B1 & B2 & B3 & B4); auto.
    set (tmp := if lt N xi l then (sub N l xi, sub N h xi)
             else if lt N h xi then (sub N xi h, sub N xi l)
             else (zero N, std_max N (sub N h xi) (sub N xi l))) in *.
    clearbody tmp. destruct tmp as [tmn tmx]. cbn [fst snd] in *.
    assert (Hd : num (sub N xi ai)) by (apply sub_num; auto).
    destruct (kc_num _ Hd) as [K1 K2].
    destruct (bc_num tmn B1) as [C1 C2]; [lra|].
    destruct (bc_num tmx B2) as [D1 D2]; [pose proof (Rabs_pos (key (sub N xi ai))); lra|].
    pose proof (bc_le tmn _ B1 Hd B3) as E1. pose proof (kc_le tmx _ B2 Hd B4) as E2.
    destruct (m_add _ _ _ _ M s (kc (sub N xi ai)) Hs K1) as (A1 & A2 & A3); auto; try lra.
    destruct (m_add _ _ _ _ M mn (bc tmn) Hmn C1) as (A4 & A5 & A6); auto; try lra.
    destruct (m_add _ _ _ _ M mx (bc tmx) Hmx D1) as (A7 & A8 & A9); auto; try lra.
    destruct (lt N eps (th tmn)) eqn:El.
    + apply lt_t in El; auto; [|apply th_num; auto].
      match goal with H : Forall fin x |- _ => pose proof (fsum_ok x a (add N s (kc (sub N xi ai))) H) as F end.
      destruct F as [F1 F2]; auto; try lra.
      cbn [fst snd] in *.
      apply Rlt_le_trans with (1 := El).
      apply (th_le tmn (sub N xi ai)); auto; lra.
    + apply IH; auto.
      * split; auto.
      * split; [lra|]. apply (m_add_mono _ _ _ _ M); auto; lra.
      * apply (m_add_mono _ _ _ _ M); auto; lra.
Qed.

Lemma check_box_ok eps x lo hi a : Forall fin x -> Forall fin lo -> Forall fin hi -> Forall fin a ->
  length x = length a -> in_box lo hi a -> num eps ->
  match check_box N m p p_inv eps x lo hi with
  | Outside => (key eps < key (distance N m p p_inv x a))%R
  | Inside => (key (distance N m p p_inv x a) <= key eps)%R
  | Near => True
  end.
Proof.
  intros Hx Hlo Hhi Ha Hl Hb He. destruct (dist_ok x a Hl Hx Ha) as [Hd ->].
  unfold check_box. rewrite gloop_eq.
  pose proof (gloop_ok eps x lo hi a (zero N) (zero N) (zero N) Hx Hlo Hhi Ha Hl Hb zero_num zero_num zero_num He) as G.
  rewrite !zero_key in G. specialize (G ltac:(lra) ltac:(lra)).
  destruct (gloop eps x lo hi (zero N) (zero N)) as [[mn mx]|]; auto.
  destruct G as (G1 & G2 & G3 & G4). destruct (gsum_num x a Hx Ha) as [S1 S2].
  change (fsum (zero N) x a) with (gsum x a) in *.
  assert (P1 : (key (rt mn) <= key (rt (gsum x a)))%R) by (apply rt_mono; auto; lra).
  assert (P2 : (key (rt (gsum x a)) <= key (rt mx))%R) by (apply rt_mono; auto; lra).
  destruct (rt_num mn G1) as [N1 _]; [lra|]. destruct (rt_num mx G2) as [N2 _]; [lra|].
  destruct (le N (rt mx) eps) eqn:E1.
  - apply le_t in E1; auto. lra.
  - destruct (le N (rt mn) eps) eqn:E2; auto. apply le_f in E2; auto. lra.
Qed.
End Box.
