(** The order of the doubles other than NaN, infinities included. *)
From Coq Require Import ZArith Reals Lia Lra Bool.
From Flocq Require Import Core BinarySingleNaN.
From Verif Require Import Base F64 SortSpec.
Local Open Scope R_scope.

(** A real number of the same order. *)
Definition key (x : f64) : R :=
  match x with
  | B754_infinity s => if s then - bpow radix2 1024 else bpow radix2 1024
  | _ => B2R x
  end.

Lemma key_finite x : is_finite x = true -> key x = B2R x.
Proof. destruct x; auto; discriminate. Qed.

Lemma f64_lt_key x y : is_nan x = false -> is_nan y = false -> f64_lt x y = true <-> key x < key y.
Proof.
  intros Nx Ny. pose proof (bpow_gt_0 radix2 1024) as G.
  assert (B : forall z : f64, - bpow radix2 1024 < B2R z < bpow radix2 1024).
  { intros z. pose proof (abs_B2R_lt_emax 53 1024 z) as H. unfold Rabs in H. destruct (Rcase_abs (B2R z)); lra. }
  destruct (is_finite x) eqn:Fx; [destruct (is_finite y) eqn:Fy|].
  - rewrite !key_finite by auto. apply (f64_lt_is x y); split; auto.
  - rewrite (key_finite x) by auto. specialize (B x). destruct y as [| s | |]; try discriminate. cbn [key].
    assert (E : f64_lt x (B754_infinity s) = negb s) by (destruct x, s; try discriminate; reflexivity).
    rewrite E. destruct s; cbn [negb]; split; intros; try discriminate; try lra; auto.
  - destruct x as [| s | |]; try discriminate. cbn [key]. destruct (is_finite y) eqn:Fy.
    + rewrite (key_finite y) by auto. specialize (B y).
      assert (E : f64_lt (B754_infinity s) y = s) by (destruct y, s; try discriminate; reflexivity).
      rewrite E. destruct s; split; intros; try discriminate; try lra; auto.
    + destruct y as [| t | |]; try discriminate. cbn [key].
      assert (E : f64_lt (B754_infinity s) (B754_infinity t) = s && negb t) by (destruct s, t; reflexivity).
      rewrite E. destruct s, t; cbn [negb andb orb]; split; intros; try discriminate; try lra; auto.
Qed.

Lemma f64_lt_irrefl x : f64_lt x x = false.
Proof.
  destruct (is_nan x) eqn:N; [destruct x; try discriminate; reflexivity|].
  destruct (f64_lt x x) eqn:E; auto. apply f64_lt_key in E; auto. lra.
Qed.

Lemma f64_lt_false x y : is_nan x = false -> is_nan y = false -> f64_lt x y = false <-> key y <= key x.
Proof.
  intros Nx Ny. destruct (f64_lt x y) eqn:E.
  - apply f64_lt_key in E; auto. split; [discriminate|lra].
  - split; auto. intros _. destruct (Rle_dec (key y) (key x)); auto.
    assert (f64_lt x y = true) by (apply f64_lt_key; auto; lra). congruence.
Qed.

Lemma f64_orders : orders f64_lt (fun x => is_nan x = false).
Proof.
  split.
  - intros x y Nx Ny E. apply f64_lt_key in E; auto. apply f64_lt_false; auto. lra.
  - intros x y z Nx Ny Nz E1 E2. apply f64_lt_false in E1, E2; auto. apply f64_lt_false; auto. lra.
Qed.

Lemma f64_le_key x y : is_nan x = false -> is_nan y = false -> f64_le x y = true <-> key x <= key y.
Proof.
  intros Nx Ny. pose proof (bpow_gt_0 radix2 1024) as G.
  assert (B : forall z : f64, - bpow radix2 1024 < B2R z < bpow radix2 1024).
  { intros z. pose proof (abs_B2R_lt_emax 53 1024 z) as H. unfold Rabs in H. destruct (Rcase_abs (B2R z)); lra. }
  destruct (is_finite x) eqn:Fx; [destruct (is_finite y) eqn:Fy|].
  - rewrite !key_finite by auto. unfold f64_le. rewrite Bleb_correct by auto. case Rle_bool_spec; intros; split; intros; auto; try discriminate; lra.
  - rewrite (key_finite x) by auto. specialize (B x). destruct y as [| s | |]; try discriminate. cbn [key].
    assert (E : f64_le x (B754_infinity s) = negb s) by (destruct x, s; try discriminate; reflexivity).
    rewrite E. destruct s; cbn [negb]; split; intros; try discriminate; try lra; auto.
  - destruct x as [| s | |]; try discriminate. cbn [key]. destruct (is_finite y) eqn:Fy.
    + rewrite (key_finite y) by auto. specialize (B y).
      assert (E : f64_le (B754_infinity s) y = s) by (destruct y, s; try discriminate; reflexivity).
      rewrite E. destruct s; split; intros; try discriminate; try lra; auto.
    + destruct y as [| t | |]; try discriminate. cbn [key].
      assert (E : f64_le (B754_infinity s) (B754_infinity t) = s || negb t) by (destruct s, t; reflexivity).
      rewrite E. destruct s, t; cbn [negb andb orb]; split; intros; try discriminate; try lra; auto.
Qed.

Lemma f64_le_lt x t : is_nan x = false -> is_nan t = false -> f64_lt t x = negb (f64_le x t).
Proof.
  intros Nx Nt. destruct (f64_le x t) eqn:E; cbn [negb].
  - apply f64_le_key in E; auto. apply f64_lt_false; auto.
  - apply f64_lt_key; auto. destruct (Rlt_dec (key t) (key x)); auto.
    assert (f64_le x t = true) by (apply f64_le_key; auto; lra). congruence.
Qed.
