From Coq Require Import ZArith List Reals Lra Lia Bool.
From Verif Require Import NnModel RealArith CdModel CdSpec CdProofs LogProofs LinModel LinSpec LinProofs LinScaleProofs LinMainProofs.
Import ListNotations.
Local Open Scope R_scope.

(** ** the solver's cost in the user's units *)
Lemma scale_last m sc icept X y : sc <> ScNone -> arrays_ok m sc icept X y ->
  nth (length X) (p_scales (prep arithR m sc icept X y)) 0 = s_y sc icept y.
Proof. intros H A. unfold arrays_ok in A. destruct sc; [congruence| | |]; destruct A as (_ & _ & A & _); exact A. Qed.

Definition solver_factors (m : solver) (sc : scaling) (n : nat) (alpha lam : R) : R * R * R :=
  match m with
  | Coord => (match sc with ScaleOnly => / 2 | _ => / (2 * INR n) end, l1_of arithR alpha lam, l2_of arithR alpha lam)
  | Lbfgs => (/ (2 * INR n), l1_of arithR alpha lam, l2_of arithR alpha lam)
  | _ => (1, 0, lam)
  end.
Lemma solver_factors_ok m sc alpha lam X y icept :
  solver_cost m sc alpha lam X y icept =
  let '(c, l1, l2) := solver_factors m sc (length y) alpha lam in cost c X y icept l1 l2.
Proof. destruct m; reflexivity. Qed.

Definition root2 (sc : scaling) (n : nat) : R := match sc with ScaleOnly => INR n | _ => 1 end.
Lemma lambda_arith m sc n z s ss alpha lambda :
  of_Z arithR z = INR n -> 0 < INR n -> 0 < s ->
  match sc with ScNone => s = 1 | Centering => s = 1 /\ ss = s | _ => ss = s end -> allowed m alpha lambda ->
  exists k, 0 < k /\
    let '(c, l1, l2) := solver_factors m sc n alpha (scale_lambda arithR m sc z ss alpha lambda) in
    k * (s ^ 2 * root2 sc n / (2 * INR n)) = c /\ k * l1_user alpha lambda * s = l1 /\
    k * l2_user sc n s alpha lambda * s ^ 2 = l2 /\ 0 < c /\ 0 <= l1 /\ 0 <= l2.
Proof.
  intros Hz Hn Hs Hss Al.
  assert (S2 : 0 < s ^ 2) by (apply pow_lt; auto).
  assert (Hi : 0 < / (2 * INR n)) by (apply Rinv_0_lt_compat; lra).
  assert (E1 : forall l, l1_of arithR alpha l = l * alpha) by reflexivity.
  assert (E2 : forall l, l2_of arithR alpha l = l * (1 - alpha) / 2) by reflexivity.
  assert (Pd : forall a b, 0 <= a -> 0 < b -> 0 <= a / b) by (intros; apply Rmult_le_pos; [|apply Rlt_le, Rinv_0_lt_compat]; auto).
  assert (Pq : forall a b, 0 < a -> 0 < b -> 0 < a / b) by (intros; apply Rdiv_lt_0_compat; auto).
  assert (Zz : scale_lambda arithR m sc z ss alpha 0 = 0).
  { unfold scale_lambda. destruct (eqz_R_dec 0) as [[-> _]|[_ F]]; [|congruence]. cbn [negb]. rewrite ?andb_false_r. destruct m, sc; reflexivity. }
  destruct (Req_EM_T lambda 0) as [->|Nl].
  { rewrite Zz.
    assert (U1 : l1_user alpha 0 = 0) by (unfold l1_user; ring).
    assert (U2 : l2_user sc n s alpha 0 = 0) by (unfold l2_user; destruct sc; try destruct (Req_EM_T alpha 0); field; lra).
    rewrite U1, U2.
    assert (R2 : 0 < root2 sc n) by (unfold root2; destruct sc; lra).
    assert (K : forall c, 0 < c -> exists k, 0 < k /\ k * (s ^ 2 * root2 sc n / (2 * INR n)) = c).
    { intros c Hc. exists (c / (s ^ 2 * root2 sc n / (2 * INR n))).
      assert (0 < s ^ 2 * root2 sc n / (2 * INR n)) by (apply Pq; [apply Rmult_lt_0_compat; auto|lra]).
      split; [apply Pq; auto|]. field. repeat split; lra. }
    assert (C : 0 < fst (fst (solver_factors m sc n alpha 0))) by (destruct m; cbn; try lra; destruct sc; lra).
    destruct (K _ C) as (k & Hk & Ek). exists k. split; auto.
    destruct m; cbn in Ek, C |- *; rewrite ?E1, ?E2; (split; [exact Ek|]); repeat split; try ring; try lra. }
  unfold scale_lambda. destruct (eqz_R_dec lambda) as [[_ F]|[El _]]; [contradiction|]. rewrite ?El. cbn [negb].
  destruct (Req_EM_T alpha 0) as [Za|Na].
  - destruct (eqz_R_dec alpha) as [[Ea _]|[_ F]]; [|contradiction]. rewrite ?Ea. cbn [negb andb].
    assert (Hl : 0 < lambda) by (destruct m; cbn in Al; lra).
    assert (U1 : l1_user alpha lambda = 0) by (unfold l1_user; rewrite Za; ring). rewrite U1.
    unfold l2_user. destruct (Req_EM_T alpha 0) as [_|]; [|contradiction].
    unfold root2. rewrite Za in *.
    destruct sc; cbn in Hss; try (match type of Hss with _ /\ _ => destruct Hss as [Hss1 Hss2] end); subst;
    destruct m; cbn in Al; try (exfalso; lra); cbn [solver_factors div mul arithR]; rewrite ?E1, ?E2, ?Hz.
    all: let go k := (exists k; split; [|split; [field; repeat split; lra|split; [ring|split; [field; repeat split; lra|split; [lra|split; [lra|]]]]]]) in
         first [ solve [go (2 * INR n); try lra; repeat (apply Pd || apply Rmult_le_pos); lra]
               | solve [go 1; try lra; repeat (apply Pd || apply Rmult_le_pos); lra]
               | solve [go (2 / s ^ 2); try (apply Pq; lra); repeat (apply Pd || apply Rmult_le_pos); lra]
               | solve [go (/ s ^ 2); try (apply Rinv_0_lt_compat; lra); repeat (apply Pd || apply Rmult_le_pos); lra]
               | solve [go (/ (INR n * s ^ 2)); try (apply Rinv_0_lt_compat, Rmult_lt_0_compat; lra); repeat (apply Pd || apply Rmult_le_pos); lra]
               | solve [go (2 * INR n / s ^ 2); try (apply Pq; lra); repeat (apply Pd || apply Rmult_le_pos); lra]
               | idtac ].
  - destruct (eqz_R_dec alpha) as [[_ F]|[Ea _]]; [contradiction|]. rewrite ?Ea. cbn [negb andb].
    destruct m; cbn in Al; try (exfalso; lra). destruct Al as [[Ha1 Ha2] Hl].
    unfold l1_user, l2_user. destruct (Req_EM_T alpha 0) as [|_]; [contradiction|].
    unfold root2.
    destruct sc; cbn in Hss; try (match type of Hss with _ /\ _ => destruct Hss as [Hss1 Hss2] end); subst; cbn [solver_factors div mul arithR]; rewrite ?E1, ?E2.
    1-2: exists 1; repeat split; try lra; try (field; lra); try (apply Rmult_le_pos; lra); apply Rmult_le_pos; [apply Rmult_le_pos|]; lra.
    all: assert (0 <= lambda / s) by (apply Pd; auto); exists (/ s ^ 2);
      (split; [apply Rinv_0_lt_compat; lra|]); repeat split; try (field; repeat split; lra); try lra;
      try (apply Rmult_le_pos; [exact H|lra]); apply Rmult_le_pos; [apply Rmult_le_pos; [exact H|lra]|lra].
Qed.

Section Solver.
Context (m : solver) (sc : scaling) (icept : bool) (X : list (list R)) (y : list R) (alpha lambda : R).
Context (Sh : shaped X y) (Sc : scalable sc icept X y) (Al : allowed m alpha lambda).
Let P := prep arithR m sc icept X y.
Let lam := scale_lambda arithR m sc (samples y) (nth (length X) (p_scales P) 0) alpha lambda.
Let f := solver_cost m sc alpha lam (p_X P) (p_y P) icept.
Let g := spread_cost (s_x sc X y) (l1_user alpha lambda) (l2_user sc (length y) (s_y sc icept y) alpha lambda) X y icept.
Lemma solver_units : exists k c l1 l2, 0 < k /\ 0 < c /\ 0 <= l1 /\ 0 <= l2 /\ f = cost c (p_X P) (p_y P) icept l1 l2 /\
  forall b, f b = k * g (unscale sc icept X y b).
Proof.
  pose proof (n_pos1 X y Sh) as Hn. pose proof (sy_pos sc icept X y Sc) as Hs.
  pose proof (prep_ok m sc icept X y Sh Sc) as [A (Ly & _)].
  destruct (lambda_arith m sc (length y) (samples y) (s_y sc icept y) (nth (length X) (p_scales P) 0) alpha lambda (samples_R y) Hn Hs) as (k & Hk & H).
  { pose proof (scale_last m sc icept X y) as E. unfold P. clear - E A. destruct sc; try (split; [reflexivity|]); try (apply E; [discriminate|exact A]). reflexivity. }
  { exact Al. }
  fold lam in H.
  assert (Ef : f = let '(c, l1, l2) := solver_factors m sc (length y) alpha lam in cost c (p_X P) (p_y P) icept l1 l2).
  { unfold f. rewrite solver_factors_ok. unfold P at 1. rewrite Ly. reflexivity. }
  destruct (solver_factors m sc (length y) alpha lam) as [[c l1] l2]. destruct H as (E1 & E2 & E3 & Hc & H1 & H2).
  exists k, c, l1, l2. repeat split; auto. intros b. rewrite Ef. unfold g.
  apply (cost_units m sc icept X y Sh Sc); auto. rewrite Rpow_mult_distr, (root_sq sc icept X y Sh) by auto. exact E1.
Qed.
Lemma solver_zero b : sc = ScaleOnly -> icept = true -> minimises (ncoef X icept) f b -> nth (length X) b 0 = 0.
Proof.
  intros Es Ei [Hl Hm]. destruct solver_units as (k & c & l1 & l2 & _ & Hc & _ & _ & Ef & _).
  pose proof (prep_ok m sc icept X y Sh Sc) as [_ (Ly & Lx & Fx & _)]. fold P in Ly, Lx, Fx.
  rewrite <- Lx. apply (centred_intercept c l1 l2 (p_X P) (p_y P)).
  - exact Hc.
  - split; [|rewrite Ly; exact Fx]. intros E. rewrite E in Ly. pose proof (n_pos0 X y Sh). cbn in Ly. lia.
  - unfold P. rewrite Ei in *. apply prep_centred; auto. rewrite Es. discriminate.
  - rewrite Hl. unfold ncoef. rewrite Lx, Ei. reflexivity.
  - intros b' Hb'. assert (Et : cost c (p_X P) (p_y P) true l1 l2 = cost c (p_X P) (p_y P) icept l1 l2) by (rewrite Ei; reflexivity).
    rewrite Et, <- Ef. apply Hm. rewrite Hb'. unfold ncoef. rewrite Lx, Ei. reflexivity.
Qed.
Lemma solver_min b : minimises (ncoef X icept) f b ->
  minimises (ncoef X icept) g (revert arithR sc icept (p_scales P) (p_shifts P) (length X) b).
Proof.
  intros Hm. destruct solver_units as (k & c & l1 & l2 & Hk & _ & _ & _ & _ & E).
  unfold P. rewrite (revert_unscale m sc icept X y Sh Sc b (proj1 Hm)).
  - apply (minimises_units sc icept X y Sh Sc f g k Hk); auto.
  - destruct (icept_cases icept) as [Ei|Ei]; [|auto].
    destruct (match sc as s return {s = ScaleOnly} + {s <> ScaleOnly} with ScaleOnly => left eq_refl | _ => ltac:(right; discriminate) end) as [Es|Es].
    + right; right. apply solver_zero; auto.
    + left. unfold root. destruct sc; auto. contradiction.
Qed.
End Solver.
