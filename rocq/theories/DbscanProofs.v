(** The serial clustering. *)
From Coq Require Import ZArith Lia List Bool Relations.
From Verif Require Import Base Par UtilModel DbscanModel DbscanSpec.
Import ListNotations.
Local Open Scope Z_scope.

Section Serial.
Variable n : Z.
Variable nb : Z -> list Z.
Variable m : Z.
Hypothesis H : neighbour_lists n nb.
Notation near := (fun i j => In j (nb i)).
Notation dense := (fun i => core nb m i = true).
Notation C := (core_sample n dense).
Notation connected := (connected n near dense).
Notation adjacent := (adjacent n near dense).

Lemma adjacent_sym x y : adjacent x y -> adjacent y x.
Proof.
  intros (X & Y & N). split; auto. split; auto. apply (proj2 H); auto; [apply X|apply Y].
Qed.
Lemma connected_sym x y : connected x y -> connected y x.
Proof.
  induction 1; [apply rt_step, adjacent_sym; auto|apply rt_refl|eapply rt_trans; eauto].
Qed.
Lemma connected_core x y : connected x y -> C x -> C y.
Proof. induction 1 as [x y (A & B & _)| |]; auto. Qed.

(** ** The number of samples not visited yet *)
Definition unvisited (L : Z -> Z) : nat := length (filter (fun x => L x =? UNVISITED) (zrange n)).
Lemma filter_le {A} (f g : A -> bool) l : (forall x, g x = true -> f x = true) ->
  (length (filter g l) <= length (filter f l))%nat.
Proof.
  intros I. induction l as [|x l IH]; cbn; auto. destruct (g x) eqn:E; [rewrite (I x E); cbn; lia|].
  destruct (f x); cbn; lia.
Qed.
Lemma filter_lt {A} (f g : A -> bool) l a : (forall x, g x = true -> f x = true) ->
  In a l -> f a = true -> g a = false -> (length (filter g l) < length (filter f l))%nat.
Proof.
  intros I. induction l as [|x l IH]; intros Ha F G; [contradiction|]. cbn. destruct Ha as [-> |Ha].
  - rewrite F, G. cbn. pose proof (filter_le f g l I). lia.
  - specialize (IH Ha F G). destruct (g x) eqn:E; [rewrite (I x E); cbn; lia|]. destruct (f x); cbn; lia.
Qed.
Lemma unvisited_le L x c : 0 <= c -> (unvisited (store_at L x c) <= unvisited L)%nat.
Proof.
  intros Hc. apply filter_le. intros y. unfold store_at. destruct (y =? x); auto.
  rewrite !Z.eqb_eq. unfold UNVISITED. lia.
Qed.
Lemma unvisited_lt L x c : 0 <= c -> sample n x -> L x = UNVISITED -> (unvisited (store_at L x c) < unvisited L)%nat.
Proof.
  intros Hc Hx E. apply filter_lt with (a := x).
  - intros y. unfold store_at. destruct (y =? x); auto. rewrite !Z.eqb_eq. unfold UNVISITED. lia.
  - apply in_zrange. auto.
  - rewrite E. reflexivity.
  - unfold store_at. rewrite Z.eqb_refl. apply Z.eqb_neq. unfold UNVISITED. lia.
Qed.
Lemma unvisited_max L : (unvisited L <= Z.to_nat n)%nat.
Proof.
  unfold unvisited. rewrite <- (zrange_len n). clear. induction (zrange n) as [|x l IH]; cbn; auto.
  destruct (_ =? _); cbn; lia.
Qed.

(** ** One cluster *)
Section Cluster.
Variable L0 : Z -> Z.
Variables (i c : Z).
Hypothesis Hc : 0 <= c.
Hypothesis R0 : forall x, L0 x = UNVISITED \/ L0 x = NOISE \/ 0 <= L0 x < c.
Hypothesis N0 : forall x, L0 x = NOISE -> core nb m x = false.
Record inv (todo : list Z) (L : Z -> Z) : Prop := {
  j0 : L i = c;
  j1 : forall x, L x = L0 x \/ (L x = c /\ L0 x < 0);
  j2a : forall x, C x -> L x = c -> connected i x;
  j2b : forall x, sample n x -> core nb m x = false -> L x = c -> exists j, C j /\ L j = c /\ In x (nb j);
  j2c : forall y, In y todo -> exists j, C j /\ L j = c /\ In y (nb j);
  j3 : forall j y, C j -> L j = c -> In y (nb j) -> 0 <= L y \/ In y todo }.
Lemma inv_sample todo L y : inv todo L -> In y todo -> sample n y.
Proof.
  intros I Hy. destruct (j2c _ _ I y Hy) as (j & (Sj & _) & _ & Hj). apply (proj1 H j y Sj Hj).
Qed.
Lemma inv_noncore y todo L : inv (y :: todo) L -> core nb m y = false -> L y < 0 -> inv todo (store_at L y c).
Proof.
  intros I Ny Ly. assert (E : forall x, store_at L y c x = c <-> x = y \/ L x = c).
  { intros x. unfold store_at. destruct (Z.eqb_spec x y); subst; [split; auto|].
    split; auto. intros [-> |]; auto. congruence. }
  assert (J : forall j, C j -> store_at L y c j = c <-> L j = c).
  { intros j (_ & Dj). rewrite E. split; auto. intros [-> |]; auto. congruence. }
  constructor.
  - apply E. right. apply (j0 _ _ I).
  - intros x. unfold store_at. destruct (Z.eqb_spec x y) as [-> |]; [|apply (j1 _ _ I)].
    right. split; auto. destruct (j1 _ _ I y) as [A|(A & B)]; auto. lia.
  - intros x Cx Ex. apply (j2a _ _ I); auto. apply J; auto.
  - intros x Sx Nx Ex. apply E in Ex. destruct Ex as [-> |Ex].
    + destruct (j2c _ _ I y) as (j & Cj & Lj & Hj); [left; auto|]. exists j. split; auto. split; auto. apply J; auto.
    + destruct (j2b _ _ I x Sx Nx Ex) as (j & Cj & Lj & Hj). exists j. split; auto. split; auto. apply J; auto.
  - intros z Hz. destruct (j2c _ _ I z) as (j & Cj & Lj & Hj); [right; auto|]. exists j. split; auto. split; auto. apply J; auto.
  - intros j z Cj Lj Hz. apply J in Lj; auto. unfold store_at. destruct (Z.eqb_spec z y); [lia|].
    destruct (j3 _ _ I j z Cj Lj Hz) as [|[->|]]; auto. congruence.
Qed.
Lemma inv_skip y todo L : inv (y :: todo) L -> 0 <= L y -> inv todo L.
Proof.
  intros I Ly. constructor.
  - apply (j0 _ _ I).
  - apply (j1 _ _ I).
  - apply (j2a _ _ I).
  - apply (j2b _ _ I).
  - intros z Hz. apply (j2c _ _ I). right. auto.
  - intros j z Cj Lj Hz. destruct (j3 _ _ I j z Cj Lj Hz) as [|[->|]]; auto.
Qed.
Lemma inv_core y todo L : inv (y :: todo) L -> core nb m y = true -> L y < 0 -> inv (todo ++ nb y) (store_at L y c).
Proof.
  intros I Dy Ly. assert (Sy : sample n y) by (apply (inv_sample (y :: todo) L); auto; left; auto).
  assert (Cy : C y) by (split; auto).
  assert (E : forall x, store_at L y c x = c <-> x = y \/ L x = c).
  { intros x. unfold store_at. destruct (Z.eqb_spec x y); subst; [split; auto|].
    split; auto. intros [-> |]; auto. congruence. }
  constructor.
  - apply E. right. apply (j0 _ _ I).
  - intros x. unfold store_at. destruct (Z.eqb_spec x y) as [-> |]; [|apply (j1 _ _ I)].
    right. split; auto. destruct (j1 _ _ I y) as [A|(A & B)]; auto. lia.
  - intros x Cx Ex. apply E in Ex. destruct Ex as [-> |Ex]; [|apply (j2a _ _ I); auto].
    destruct (j2c _ _ I y) as (j & Cj & Lj & Hj); [left; auto|].
    eapply rt_trans; [apply (j2a _ _ I j); auto|]. apply rt_step. split; auto.
  - intros x Sx Nx Ex. apply E in Ex. destruct Ex as [-> |Ex]; [congruence|].
    destruct (j2b _ _ I x Sx Nx Ex) as (j & Cj & Lj & Hj). exists j. split; auto. split; auto. apply E. auto.
  - intros z Hz. apply in_app_or in Hz. destruct Hz as [Hz|Hz].
    + destruct (j2c _ _ I z) as (j & Cj & Lj & Hj); [right; auto|]. exists j. split; auto. split; auto. apply E. auto.
    + exists y. split; auto. split; auto. apply E. auto.
  - intros j z Cj Lj Hz. unfold store_at at 1. destruct (Z.eqb_spec z y); [lia|]. apply E in Lj.
    destruct Lj as [-> |Lj]; [right; apply in_or_app; auto|].
    destruct (j3 _ _ I j z Cj Lj Hz) as [|[->|]]; auto; [congruence|]. right. apply in_or_app. auto.
Qed.
Lemma inv_range todo L x : inv todo L -> L x = UNVISITED \/ L x = NOISE \/ 0 <= L x.
Proof.
  intros I. destruct (j1 _ _ I x) as [E|(E & _)]; [rewrite E; destruct (R0 x) as [|[|]]; auto; lia|lia].
Qed.
Lemma expand_spec fuel : forall todo L, (unvisited L <= fuel)%nat -> inv todo L ->
  exists L', expand nb m fuel c todo L = Some L' /\ inv [] L'.
Proof.
  induction fuel as [|fuel IHf]; induction todo as [|y todo IH]; intros L U I; try (exists L; split; auto; fail);
    cbn [expand].
  - destruct (Z.eqb_spec (L y) NOISE) as [E|E].
    + assert (core nb m y = false).
      { destruct (j1 _ _ I y) as [A|(A & _)]; [apply N0; congruence|]. unfold NOISE in E. lia. }
      apply IH; [pose proof (unvisited_le L y c Hc); lia|]. apply inv_noncore; auto. rewrite E. reflexivity.
    + destruct (Z.eqb_spec (L y) UNVISITED) as [E'|E']; cbn [negb].
      * assert (Sy : sample n y) by (apply (inv_sample (y :: todo) L); auto; left; auto).
        pose proof (unvisited_lt L y c Hc Sy E'). lia.
      * apply IH; auto. apply (inv_skip y); auto. destruct (inv_range _ _ y I) as [|[|]]; congruence.
  - destruct (Z.eqb_spec (L y) NOISE) as [E|E].
    + assert (core nb m y = false).
      { destruct (j1 _ _ I y) as [A|(A & _)]; [apply N0; congruence|]. unfold NOISE in E. lia. }
      apply IH; [pose proof (unvisited_le L y c Hc); lia|]. apply inv_noncore; auto. rewrite E. reflexivity.
    + destruct (Z.eqb_spec (L y) UNVISITED) as [E'|E']; cbn [negb].
      * assert (Sy : sample n y) by (apply (inv_sample (y :: todo) L); auto; left; auto).
        pose proof (unvisited_lt L y c Hc Sy E'). destruct (core nb m y) eqn:D.
        -- apply IHf; [lia|]. apply inv_core; auto. rewrite E'. reflexivity.
        -- apply IH; [lia|]. apply inv_noncore; auto. rewrite E'. reflexivity.
      * apply IH; auto. apply (inv_skip y); auto. destruct (inv_range _ _ y I) as [|[|]]; congruence.
Qed.
End Cluster.

(** ** All clusters *)
Record outer (k p : Z) (L : Z -> Z) : Prop := {
  o0 : 0 <= k;
  o1 : forall x, L x = UNVISITED \/ L x = NOISE \/ 0 <= L x < k;
  o2 : forall x, sample n x -> x < p -> L x <> UNVISITED;
  o3 : forall x, L x = NOISE -> core nb m x = false;
  o4 : forall x y, C x -> 0 <= L x -> adjacent x y -> L y = L x;
  o5 : forall x y, C x -> C y -> 0 <= L x -> L x = L y -> connected x y;
  o6 : forall x, sample n x -> core nb m x = false -> 0 <= L x -> exists j, C j /\ In x (nb j) /\ L j = L x;
  o6' : forall x j, sample n x -> core nb m x = false -> C j -> 0 <= L j -> In x (nb j) -> 0 <= L x <= L j;
  o7 : forall c, 0 <= c < k -> exists r, C r /\ L r = c /\ forall y, C y -> L y < 0 \/ c <= L y -> r <= y }.

Lemma outer_start : outer 0 0 (fun _ => UNVISITED).
Proof.
  constructor; unfold UNVISITED, NOISE, sample; intros; lia || auto.
Qed.
Lemma outer_step k p L : 0 <= p < n -> outer k p L ->
  exists L' k', serial_step n nb m (Some (L, k)) p = Some (L', k') /\ outer k' (p + 1) L'.
Proof.
  intros Hp O. cbn [serial_step]. pose proof (o0 _ _ _ O) as K.
  destruct (Z.eqb_spec (L p) UNVISITED) as [E|E]; cbn [negb].
  2:{ exists L, k. split; auto. constructor; try apply O.
      intros x Sx Lx. destruct (Z.eq_dec x p) as [-> |]; auto. apply (o2 _ _ _ O); auto. lia. }
  destruct (core nb m p) eqn:D; cbn [negb].
  - assert (Cp : C p) by (split; auto).
    assert (I : inv L p k (nb p) (store_at L p k)).
    { assert (Lk : forall x, store_at L p k x = k -> x = p).
      { intros x. unfold store_at. destruct (Z.eqb_spec x p); auto. intros F.
        destruct (o1 _ _ _ O x) as [A|[A|A]]; unfold UNVISITED, NOISE in A; lia. }
      constructor.
      - unfold store_at. rewrite Z.eqb_refl. auto.
      - intros x. unfold store_at. destruct (Z.eqb_spec x p) as [-> |]; auto. right. split; auto. rewrite E. reflexivity.
      - intros x Cx Ex. apply Lk in Ex. subst. apply rt_refl.
      - intros x Sx Nx Ex. apply Lk in Ex. subst. congruence.
      - intros y Hy. exists p. split; auto. split; auto. unfold store_at. rewrite Z.eqb_refl. auto.
      - intros j y Cj Lj Hy. apply Lk in Lj. subst. auto. }
    destruct (expand_spec L p k K (o1 _ _ _ O) (o3 _ _ _ O) (Z.to_nat n) (nb p) (store_at L p k)) as (L' & -> & I'); auto.
    { apply unvisited_max. }
    clear I. exists L', (k + 1). split; auto.
    assert (Old : forall x, 0 <= L x -> L' x = L x).
    { intros x Lx. destruct (j1 _ _ _ _ _ I' x) as [|(_ & F)]; auto. lia. }
    assert (New : forall x, 0 <= L' x -> (L' x = L x /\ 0 <= L x < k) \/ (L' x = k /\ L x < 0)).
    { intros x Lx. destruct (j1 _ _ _ _ _ I' x) as [A|A]; auto. left. split; auto.
      rewrite A in Lx. destruct (o1 _ _ _ O x) as [B|[B|B]]; unfold UNVISITED, NOISE in B; lia. }
    pose proof (j0 _ _ _ _ _ I') as Pk.
    constructor.
    + lia.
    + intros x. destruct (j1 _ _ _ _ _ I' x) as [A|(A & _)]; [|lia]. rewrite A.
      destruct (o1 _ _ _ O x) as [B|[B|B]]; auto. lia.
    + intros x Sx Lx. destruct (j1 _ _ _ _ _ I' x) as [A|(A & _)]; [|unfold UNVISITED; lia]. rewrite A.
      destruct (Z.eq_dec x p) as [-> |]; [|apply (o2 _ _ _ O); auto; lia].
      rewrite <- A, Pk. unfold UNVISITED. lia.
    + intros x Ex. apply (o3 _ _ _ O). destruct (j1 _ _ _ _ _ I' x) as [A|(A & _)]; [congruence|unfold NOISE in Ex; lia].
    + intros x y Cx Lx Axy. destruct (New x Lx) as [(A & B)|(A & B)].
      * rewrite A. assert (Ey : L y = L x) by (apply (o4 _ _ _ O); auto; lia). rewrite Old by lia. auto.
      * rewrite A. pose proof Axy as (_ & Cy & Nxy).
        destruct (j3 _ _ _ _ _ I' x y Cx A Nxy) as [Ly|[]].
        destruct (New y Ly) as [(A' & B')|(A' & _)]; auto. exfalso.
        assert (L x = L y) by (apply (o4 _ _ _ O y x); auto; [lia|apply adjacent_sym; auto]). lia.
    + intros x y Cx Cy Lx Exy. destruct (New x Lx) as [(A & B)|(A & B)].
      * destruct (New y) as [(A' & B')|(A' & B')]; [lia| |lia]. apply (o5 _ _ _ O); auto; lia.
      * destruct (New y) as [(A' & B')|(A' & B')]; [lia|lia|].
        eapply rt_trans; [apply connected_sym|]; apply (j2a _ _ _ _ _ I'); auto.
    + intros x Sx Nx Lx. destruct (New x Lx) as [(A & B)|(A & B)].
      * destruct (o6 _ _ _ O x Sx Nx) as (j & Cj & Hj & Lj); [lia|]. exists j. split; auto. split; auto.
        rewrite Old by lia. lia.
      * destruct (j2b _ _ _ _ _ I' x Sx Nx A) as (j & Cj & Lj & Hj). exists j. split; auto. split; auto. lia.
    + intros x j Sx Nx Cj Lj Hj. destruct (New j Lj) as [(A & B)|(A & B)].
      * destruct (o6' _ _ _ O x j Sx Nx Cj) as (A1 & A2); auto; [lia|]. rewrite Old by lia. lia.
      * destruct (j3 _ _ _ _ _ I' j x Cj A Hj) as [Lx|[]]. destruct (New x Lx) as [(A' & B')|(A' & B')]; lia.
    + intros c Hc. destruct (Z.eq_dec c k) as [-> |].
      * exists p. split; auto. split; auto. intros y Cy Ly.
        assert (Ny : L y < 0).
        { destruct (Z.lt_ge_cases (L y) 0) as [|G]; auto. pose proof (Old y G) as Ey. rewrite Ey in Ly.
          destruct (o1 _ _ _ O y) as [B|[B|B]]; unfold UNVISITED, NOISE in B; lia. }
        destruct (Z.lt_ge_cases y p) as [G|]; auto. exfalso.
        pose proof (o2 _ _ _ O y (proj1 Cy) G) as Vy. destruct (o1 _ _ _ O y) as [B|[B|B]]; [auto| |lia].
        pose proof (o3 _ _ _ O y B). destruct Cy. congruence.
      * destruct (o7 _ _ _ O c) as (r & Cr & Er & Hr); [lia|]. exists r. split; auto. split; [rewrite Old; lia|].
        intros y Cy Ly. apply Hr; auto. destruct (Z.lt_ge_cases (L y) 0) as [|G]; auto. rewrite (Old y G) in Ly. lia.
  - exists (store_at L p NOISE), k. split; auto.
    assert (Nn : L p < 0) by (rewrite E; reflexivity).
    assert (Ep : forall x, 0 <= store_at L p NOISE x -> store_at L p NOISE x = L x).
    { intros x. unfold store_at, NOISE. destruct (Z.eqb_spec x p); auto. lia. }
    assert (Ne : forall x, x <> p -> store_at L p NOISE x = L x).
    { intros x Hx. unfold store_at. destruct (Z.eqb_spec x p); auto. congruence. }
    assert (Cn : forall x, C x -> store_at L p NOISE x = L x).
    { intros x (_ & Dx). apply Ne. intros ->. congruence. }
    constructor; auto.
    + intros x. unfold store_at. destruct (Z.eqb_spec x p); auto. apply (o1 _ _ _ O).
    + intros x Sx Lx. unfold store_at. destruct (Z.eqb_spec x p); [discriminate|]. apply (o2 _ _ _ O); auto. lia.
    + intros x. unfold store_at. destruct (Z.eqb_spec x p) as [-> |]; auto. apply (o3 _ _ _ O).
    + intros x y Cx Lx A. rewrite !Cn in * by (auto; apply A). apply (o4 _ _ _ O); auto.
    + intros x y Cx Cy. rewrite !Cn by auto. apply (o5 _ _ _ O); auto.
    + intros x Sx Nx Lx. pose proof (Ep x Lx) as Ex. rewrite Ex in Lx |- * . destruct (o6 _ _ _ O x Sx Nx Lx) as (j & Cj & Hj & Lj).
      exists j. rewrite Cn; auto.
    + intros x j Sx Nx Cj. rewrite (Cn j Cj). intros Lj Hj. destruct (o6' _ _ _ O x j Sx Nx Cj Lj Hj) as (A & B).
      rewrite Ne; auto. intros ->. lia.
    + intros c Hc. destruct (o7 _ _ _ O c Hc) as (r & Cr & Er & Hr). exists r. rewrite Cn by auto. split; auto. split; auto.
      intros y Cy. rewrite Cn by auto. apply Hr. auto.
Qed.
Lemma serial_spec : exists L k, dbscan_clusters_serial n nb m = Some (L, k) /\ outer k (Z.max 0 n) L.
Proof.
  assert (G : forall q, 0 <= Z.of_nat q <= Z.max 0 n ->
    exists L k, fold_left (serial_step n nb m) (map Z.of_nat (seq 0 q)) (Some (fun _ => UNVISITED, 0)) = Some (L, k) /\
      outer k (Z.of_nat q) L).
  { induction q as [|q IH]; intros Hq.
    - exists (fun _ => UNVISITED), 0. split; auto. apply outer_start.
    - destruct IH as (L & k & E & O); [lia|]. rewrite seq_S, map_app, fold_left_app, E. cbn [plus map fold_left].
      destruct (outer_step k (Z.of_nat q) L) as (L' & k' & E' & O'); auto; [lia|].
      exists L', k'. split; auto. rewrite Nat2Z.inj_succ. auto. }
  unfold dbscan_clusters_serial, zrange. destruct (G (Z.to_nat n)) as (L & k & E & O); [lia|].
  exists L, k. split; auto. replace (Z.max 0 n) with (Z.of_nat (Z.to_nat n)) by lia. auto.
Qed.
Lemma serial_clustering : exists L k, dbscan_clusters_serial n nb m = Some (L, k) /\ clustering n near dense L k.
Proof.
  destruct serial_spec as (L & k & E & O). exists L, k. split; auto.
  assert (V : forall x, C x -> 0 <= L x < k).
  { intros x (Sx & Dx). destruct (o1 _ _ _ O x) as [B|[B|B]]; auto.
    - exfalso. apply (o2 _ _ _ O x); auto. unfold sample in Sx. lia.
    - pose proof (o3 _ _ _ O x B). congruence. }
  assert (Eq : forall i j, C i -> C j -> L i = L j <-> connected i j).
  { intros i j Ci Cj. split.
    - intros Eij. apply (o5 _ _ _ O); auto. apply V. auto.
    - intros K. clear Cj. induction K as [x y A| |x y z K1 IH1 K2 IH2]; auto.
      + symmetry. apply (o4 _ _ _ O); auto. apply V. auto.
      + rewrite IH1 by auto. apply IH2. eapply connected_core; eauto. }
  split; [exact Eq|]. split; [exact V|]. split; [|split; [|split]].
  - intros c Hc. destruct (o7 _ _ _ O c Hc) as (r & Cr & Er & _). eauto.
  - intros i j Ci Cj. split.
    + intros Lij. destruct (o7 _ _ _ O (L i)) as (r & Cr & Er & Hr); [apply V; auto|]. exists r. split; [apply Eq; auto|].
      intros j' Kj. assert (Cj' : C j') by (eapply connected_core; eauto). apply Eq in Kj; auto.
      assert (r <= j') by (apply Hr; auto; lia). assert (r <> j') by (intros F; subst; lia). lia.
    + intros (i' & Ki & Hi). assert (Ci' : C i') by (eapply connected_core; eauto). apply Eq in Ki; auto.
      destruct (Z.lt_ge_cases (L i) (L j)) as [|G]; auto. exfalso.
      destruct (o7 _ _ _ O (L j)) as (r & Cr & Er & Hr); [apply V; auto|].
      assert (r <= i') by (apply Hr; auto; lia).
      assert (i' < r) by (apply Hi; apply Eq; auto). lia.
  - intros i Si Di (j & Cj & Hj). apply not_true_iff_false in Di.
    assert (B : 0 <= L i) by (apply (o6' _ _ _ O i j); auto; apply V; auto). split.
    + destruct (o6 _ _ _ O i Si Di B) as (j' & Cj' & Hj' & Ej). eauto.
    + intros j' Cj' Hj'. apply (o6' _ _ _ O i j'); auto. apply V. auto.
  - intros i Si (Di & Ri). apply not_true_iff_false in Di. destruct (o1 _ _ _ O i) as [B|[B|B]]; auto.
    + exfalso. apply (o2 _ _ _ O i); auto. unfold sample in Si. lia.
    + exfalso. apply Ri. destruct (o6 _ _ _ O i Si Di) as (j & Cj & Hj & _); [lia|]. exists j. auto.
Qed.
End Serial.

(** ** Restating *)
Lemma core_sample_dense n (d d' : Z -> Prop) : (forall i, d i <-> d' i) ->
  forall i, core_sample n d i <-> core_sample n d' i.
Proof. intros E i. unfold core_sample. rewrite E. tauto. Qed.
Lemma connected_dense n near (d d' : Z -> Prop) : (forall i, d i <-> d' i) ->
  forall i j, connected n near d i j -> connected n near d' i j.
Proof.
  intros E i j. induction 1 as [x y (A & B & N)| |x y z K1 IH1 K2 IH2].
  - apply rt_step. split; [|split]; auto; apply (core_sample_dense n d d' E); auto.
  - apply rt_refl.
  - eapply rt_trans; eauto.
Qed.
Lemma connected_dense_iff n near (d d' : Z -> Prop) : (forall i, d i <-> d' i) ->
  forall i j, connected n near d i j <-> connected n near d' i j.
Proof.
  intros E i j. split; apply connected_dense; auto. intros. rewrite E. tauto.
Qed.
Lemma linked_dense n near (d d' : Z -> Prop) : (forall i, d i <-> d' i) ->
  forall i j, linked n near d i j -> linked n near d' i j.
Proof.
  intros E i j. induction 1 as [x y (A & N)| | |x y z K1 IH1 K2 IH2].
  - apply rst_step. split; auto. apply (core_sample_dense n d d' E). auto.
  - apply rst_refl.
  - apply rst_sym. auto.
  - eapply rst_trans; eauto.
Qed.
Lemma reached_dense n near (d d' : Z -> Prop) : (forall i, d i <-> d' i) ->
  forall i, reached n near d i <-> reached n near d' i.
Proof.
  intros E i. unfold reached. split; intros (j & Cj & N); exists j; split; auto; apply (core_sample_dense n d d' E); auto.
Qed.
Lemma clustering_dense n near (d d' : Z -> Prop) lab k : (forall i, d i <-> d' i) ->
  clustering n near d lab k -> clustering n near d' lab k.
Proof.
  intros E (A1 & A2 & A3 & A4 & A5 & A6).
  assert (Cd := core_sample_dense n d d' E). assert (Kd := connected_dense_iff n near d d' E).
  assert (Rd := reached_dense n near d d' E).
  split; [|split; [|split; [|split; [|split]]]].
  - intros i j Ci Cj. rewrite <- Kd. apply A1; apply Cd; auto.
  - intros i Ci. apply A2. apply Cd. auto.
  - intros c Hc. destruct (A3 c Hc) as (i & Ci & L). exists i. split; auto. apply Cd. auto.
  - intros i j Ci Cj. rewrite A4 by (apply Cd; auto). split; intros (i' & K & Q); exists i'; split;
      try (apply Kd; auto); intros j' K'; apply Q; apply Kd; auto.
  - intros i Si Di Ri. destruct (A5 i Si) as ((j & Cj & N & L) & B); [rewrite E; auto|apply Rd; auto|]. split.
    + exists j. split; auto. apply Cd. auto.
    + intros j' Cj'. apply B. apply Cd. auto.
  - intros i Si (Di & Ri). apply A6; auto. split; [rewrite E; auto|]. intros F. apply Ri. apply Rd. auto.
Qed.
Lemma labelled_dense n near (d d' : Z -> Prop) lab k : (forall i, d i <-> d' i) ->
  labelled_samples n near d lab k -> labelled_samples n near d' lab k.
Proof.
  intros E (A1 & A2 & A3). split; [|split]; auto. intros i Si. rewrite (A1 i Si). unfold noise.
  rewrite E, (reached_dense n near d d' E). tauto.
Qed.
Lemma neighbour_lists_b_ok n nb : neighbour_lists_b n nb = true -> neighbour_lists n nb.
Proof.
  intros B. unfold neighbour_lists_b in B. rewrite forallb_forall in B.
  assert (G : forall i j, 0 <= i < n -> In j (nb i) -> 0 <= j < n /\ j <> i /\ In i (nb j)).
  { intros i j Hi Hj. specialize (B i). rewrite in_zrange in B. specialize (B Hi). rewrite forallb_forall in B.
    specialize (B j Hj). rewrite !andb_true_iff, negb_true_iff, Z.eqb_neq in B.
    destruct B as (((B1 & B2) & B3) & B4). apply existsb_exists in B4. destruct B4 as (y & Hy & Ey).
    apply Z.eqb_eq in Ey. subst. split; [lia|auto]. }
  split; intros i j Hi.
  - intros Hj. destruct (G i j Hi Hj) as (A1 & A2 & _). auto.
  - intros _ Hj. apply G; auto.
Qed.
