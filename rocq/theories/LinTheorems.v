(** Scaling, direct solvers and warm starts of linear regression: theorems. *)
From Coq Require Import ZArith List Bool Reals Lra Lia.
From Flocq Require Import BinarySingleNaN.
From Verif Require Import Base F64 NnModel RealArith CdModel CdSpec CdProofs LinModel LinSpec LinProofs LinScaleProofs LinMainProofs
  LinDirectProofs LinSysProofs LinGradProofs KmTheorems CdTheorems.
Import ListNotations.
Local Open Scope R_scope.

(** *** A concrete problem: one feature, three samples; the other one has two samples and exact standard deviations *)
Definition lX : list (list R) := [[1; 3]].
Definition ly : list R := [2; 6].
Lemma l_shaped : shaped lX ly. Proof. split; [discriminate|repeat constructor]. Qed.
Lemma sqrt_is a b : 0 <= b -> a = b * b -> R_sqrt.sqrt a = b. Proof. intros H ->. apply sqrt_square. exact H. Qed.
Lemma l_means : meanR 2 (fun i => nth i ly 0) = 4 /\ meanR 2 (elem lX 0) = 2.
Proof. unfold meanR, Sigma, elem. cbn. split; lra. Qed.
Lemma l_sds : sdR 2 (fun i => nth i ly 0) = 2 /\ sdR 2 (elem lX 0) = 1.
Proof.
  destruct l_means as [E1 E2]. unfold sdR. rewrite E1, E2. unfold Sigma, elem. cbn. split; apply sqrt_is; lra.
Qed.
Lemma l_table : m_y Standardize true ly = 4 /\ s_y Standardize true ly = 2 /\ m_x Standardize true lX ly 0 = 2 /\ s_x Standardize lX ly 0 = 1.
Proof. destruct l_means, l_sds. unfold m_y, s_y, m_x, s_x. cbn [length]. auto. Qed.
Lemma l_scalable : scalable Standardize true lX ly.
Proof.
  destruct l_table as (_ & E1 & _ & E2). split; [rewrite E1; lra|]. intros j Hj. cbn in Hj. assert (j = 0)%nat as -> by lia. rewrite E2. lra.
Qed.

(** *** C128: the data and factors the solver gets are those of the table in the documentation *)
Theorem scaled_data_is_the_table (m : solver) (sc : scaling) (icept : bool) (X : list (list R)) (y : list R) :
  shaped X y -> scalable sc icept X y ->
  let P := prep arithR m sc icept X y in
  length (p_y P) = length y /\ length (p_X P) = length X /\ Forall (fun c => length c = length y) (p_X P) /\
  (forall i, (i < length y)%nat -> nth i (p_y P) 0 = (nth i y 0 - m_y sc icept y) / (s_y sc icept y * root sc y)) /\
  (forall j i, (j < length X)%nat -> (i < length y)%nat ->
     elem (p_X P) j i = (elem X j i - m_x sc icept X y j) / (s_x sc X y j * root sc y)).
Proof. intros Sh Sc. apply prep_ok; assumption. Qed.
Print Assumptions scaled_data_is_the_table.
Theorem scaled_data_is_centred (m : solver) (sc : scaling) (X : list (list R)) (y : list R) :
  sc <> ScNone -> shaped X y -> scalable sc true X y -> centred (p_X (prep arithR m sc true X y)) (p_y (prep arithR m sc true X y)).
Proof. intros Ns Sh Sc. apply prep_centred; assumption. Qed.
Print Assumptions scaled_data_is_centred.
Theorem coordinate_factors (sc : scaling) (icept : bool) (X : list (list R)) (y : list R) :
  shaped X y -> scalable sc icept X y ->
  let P := prep arithR Coord sc icept X y in norms sc (p_X P) (p_y P) (p_xv P).
Proof. intros Sh Sc. apply prep_norms; assumption. Qed.
Print Assumptions coordinate_factors.
Lemma l_prep m : p_X (prep arithR m Standardize true lX ly) = [[-1; 1]] /\ p_y (prep arithR m Standardize true lX ly) = [-1; 1].
Proof.
  destruct (scaled_data_is_the_table m Standardize true lX ly l_shaped l_scalable) as (Ly & Lx & Fx & Dy & Dx).
  destruct l_table as (E1 & E2 & E3 & E4). rewrite E1, E2 in Dy.
  set (P := prep _ _ _ _ _ _) in *. clearbody P.
  assert (D0 := Dy 0%nat ltac:(cbn; lia)). assert (D1 := Dy 1%nat ltac:(cbn; lia)).
  assert (B0 := Dx 0%nat 0%nat ltac:(cbn; lia) ltac:(cbn; lia)). assert (B1 := Dx 0%nat 1%nat ltac:(cbn; lia) ltac:(cbn; lia)).
  rewrite E3, E4 in B0, B1. unfold elem in B0, B1. cbn in D0, D1, B0, B1.
  destruct (p_X P) as [|c [|? ?]]; try discriminate. inversion Fx as [|? ? F _]; subst. cbn in F.
  destruct c as [|a [|b [|? ?]]]; try discriminate. destruct (p_y P) as [|u [|v [|? ?]]]; try discriminate.
  cbn in D0, D1, B0, B1. unfold root in *. split; [f_equal; f_equal; [|f_equal]; lra|f_equal; [|f_equal]; lra].
Qed.
Example scaled_case : shaped lX ly /\ scalable Standardize true lX ly /\ p_X (prep arithR Qr Standardize true lX ly) = [[-1; 1]].
Proof. split; [exact l_shaped|]. split; [exact l_scalable|]. apply l_prep. Qed.

(** A feature with the same value in all samples: "standardize" stores its standard deviation 0 as the scale and
    revert_scaling divides by it.  The solution 0, 1 with intercept 0 of the scaled problem comes back as NaN for the
    coefficient of the feature and for the intercept. *)
Theorem constant_feature_refuted :
  let X := [c64 [1; 1]%Z; c64 [0; 2]%Z] in
  let P := prep (arith64 pw0) Coord Standardize true X (c64 [0; 2]%Z) in
  map (map B2SF) (p_X P) = [map B2SF (c64 [0; 0]%Z); map B2SF (c64 [-1; 1]%Z)] /\ map B2SF (p_y P) = map B2SF (c64 [-1; 1]%Z) /\
  map B2SF (result (arith64 pw0) Coord Standardize true X (c64 [0; 2]%Z) (c64 [0; 1; 0]%Z)) =
    [SpecFloat.S754_nan; B2SF (n64 1); SpecFloat.S754_nan].
Proof. vm_compute. auto. Qed.
Print Assumptions constant_feature_refuted.
(** The same response in all samples: "scale only" divides 0 by 0, the solver works on NaN *)
Theorem constant_response_refuted :
  map B2SF (p_y (prep (arith64 pw0) Coord ScaleOnly true [c64 [0; 2; 0; 2]%Z] (c64 [3; 3; 3; 3]%Z))) = repeat SpecFloat.S754_nan 4.
Proof. vm_compute. auto. Qed.
Print Assumptions constant_response_refuted.

(** *** C129: what a fit minimises, in the user's units *)
Theorem scaled_minimiser_reverts (m : solver) (sc : scaling) (icept : bool) (X : list (list R)) (y : list R) (alpha lambda : R) (b : list R) :
  shaped X y -> scalable sc icept X y -> allowed m alpha lambda ->
  let P := prep arithR m sc icept X y in
  minimises (ncoef X icept) (solver_cost m sc alpha (solver_lambda arithR m sc icept X y alpha lambda) (p_X P) (p_y P) icept) b ->
  minimises (ncoef X icept) (user_cost sc icept alpha lambda X y) (result arithR m sc icept X y b).
Proof. intros Sh Sc Al P. apply (solver_min m sc icept X y alpha lambda Sh Sc Al b). Qed.
Print Assumptions scaled_minimiser_reverts.
(** the standardized problem above: 1 with intercept 0 is the solution, and comes back as y = 2 x *)
Lemma l_minimises : minimises 2 (cost 1 [[-1; 1]] [-1; 1] true 0 0) [1; 0].
Proof.
  split; [reflexivity|]. intros c Hc. unfold cost.
  assert (E : sse [[-1; 1]] [-1; 1] true [1; 0] = 0) by (unfold sse, fitted, Sigma, elem; cbn; ring). rewrite E.
  assert (0 <= sse [[-1; 1]] [-1; 1] true c) by (apply Sigma_nonneg; intros; apply pow2_ge_0). lra.
Qed.
Lemma l_lambda m : solver_lambda arithR m Standardize true lX ly 0 0 = 0.
Proof.
  unfold solver_lambda, scale_lambda. destruct (eqz_R_dec 0) as [[-> _]|[_ F]]; [|lra]. reflexivity.
Qed.
Example reverts_case :
  let P := prep arithR Cholesky Standardize true lX ly in
  minimises 2 (solver_cost Cholesky Standardize 0 (solver_lambda arithR Cholesky Standardize true lX ly 0 0) (p_X P) (p_y P) true) [1; 0] /\
  minimises 2 (user_cost Standardize true 0 0 lX ly) (result arithR Cholesky Standardize true lX ly [1; 0]).
Proof.
  assert (M : let P := prep arithR Cholesky Standardize true lX ly in
    minimises 2 (solver_cost Cholesky Standardize 0 (solver_lambda arithR Cholesky Standardize true lX ly 0 0) (p_X P) (p_y P) true) [1; 0]).
  { cbn zeta. destruct (l_prep Cholesky) as [-> ->]. rewrite l_lambda. exact l_minimises. }
  split; [exact M|]. apply (scaled_minimiser_reverts Cholesky Standardize true lX ly 0 0 [1; 0] l_shaped l_scalable); [cbn; lra|exact M].
Qed.

(** without a penalty: the least squares solution, whatever the scaling *)
Theorem unpenalised_fit (m : solver) (sc : scaling) (icept : bool) (X : list (list R)) (y : list R) (alpha : R) (b : list R) :
  shaped X y -> scalable sc icept X y -> allowed m alpha 0 ->
  let P := prep arithR m sc icept X y in
  minimises (ncoef X icept) (solver_cost m sc alpha (solver_lambda arithR m sc icept X y alpha 0) (p_X P) (p_y P) icept) b ->
  minimises (ncoef X icept) (sse X y icept) (result arithR m sc icept X y b).
Proof.
  intros Sh Sc Al P Hm. destruct (scaled_minimiser_reverts m sc icept X y alpha 0 b Sh Sc Al Hm) as [L M]. split; [exact L|].
  intros c Hc. specialize (M c Hc). unfold user_cost, spread_cost in M.
  pose proof (n_pos1 X y Sh) as Hn.
  assert (U1 : l1_user alpha 0 = 0) by (unfold l1_user; ring).
  assert (U2 : l2_user sc (length y) (s_y sc icept y) alpha 0 = 0).
  { pose proof (sy_pos sc icept X y Sc). unfold l2_user. destruct sc; try destruct (Req_EM_T alpha 0); field; lra. }
  rewrite U1, U2, !Rmult_0_l, !Rplus_0_r in M. apply (Rmult_le_reg_l (/ (2 * INR (length y)))); [|exact M].
  apply Rinv_0_lt_compat. lra.
Qed.
Print Assumptions unpenalised_fit.
(** the cost of the documentation: what is missing is the ridge (alpha = 0), refuted below, and the scalings "standardize" and
    "scale only", which weigh the coefficients by the spread of the features and divide the penalty on the squares by s_Y *)
Theorem documented_cost_partial (m : solver) (sc : scaling) (icept : bool) (X : list (list R)) (y : list R) (alpha lambda : R) (b : list R) :
  shaped X y -> sc = ScNone \/ sc = Centering -> allowed m alpha lambda -> alpha <> 0 \/ lambda = 0 ->
  let P := prep arithR m sc icept X y in
  minimises (ncoef X icept) (solver_cost m sc alpha (solver_lambda arithR m sc icept X y alpha lambda) (p_X P) (p_y P) icept) b ->
  minimises (ncoef X icept) (doc_cost alpha lambda X y icept) (result arithR m sc icept X y b).
Proof.
  intros Sh Hsc Al Ha P Hm.
  assert (Sc : scalable sc icept X y).
  { split; [|intros j _]; destruct Hsc as [-> | ->]; cbn; lra. }
  destruct (scaled_minimiser_reverts m sc icept X y alpha lambda b Sh Sc Al Hm) as [L M]. split; [exact L|].
  intros c Hc. specialize (M c Hc).
  assert (E : forall d, user_cost sc icept alpha lambda X y d = doc_cost alpha lambda X y icept d).
  { intros d. unfold user_cost, doc_cost, spread_cost.
    assert (W : forall j, s_x sc X y j = 1) by (intros; destruct Hsc as [-> | ->]; reflexivity).
    rewrite (Sigma_ext _ (fun j => Rabs (s_x sc X y j * nth j d 0)) (fun j => Rabs (nth j d 0))) by (intros; rewrite W, Rmult_1_l; reflexivity).
    rewrite (Sigma_ext _ (fun j => (s_x sc X y j * nth j d 0) ^ 2) (fun j => nth j d 0 ^ 2)) by (intros; rewrite W, Rmult_1_l; reflexivity).
    assert (U : l2_user sc (length y) (s_y sc icept y) alpha lambda = lambda * (1 - alpha) / 2).
    { unfold l2_user. destruct Hsc as [-> | ->]; destruct (Req_EM_T alpha 0) as [Z|Z]; try reflexivity; destruct Ha as [Ha|Ha]; try contradiction; rewrite Ha; field;
        apply not_0_INR; destruct Sh as [Ne _]; destruct y; cbn; congruence. }
    rewrite U. unfold l1_user. field. pose proof (n_pos1 X y Sh). lra. }
  rewrite !E in M. exact M.
Qed.
Print Assumptions documented_cost_partial.
Example documented_case :
  let P := prep arithR Coord ScNone false [[1; 1]] [3; 3] in
  minimises 1 (solver_cost Coord ScNone 1 (solver_lambda arithR Coord ScNone false [[1; 1]] [3; 3] 1 1) (p_X P) (p_y P) false) [2] /\
  minimises 1 (doc_cost 1 1 [[1; 1]] [3; 3] false) (result arithR Coord ScNone false [[1; 1]] [3; 3] [2]).
Proof.
  assert (M : let P := prep arithR Coord ScNone false [[1; 1]] [3; 3] in
    minimises 1 (solver_cost Coord ScNone 1 (solver_lambda arithR Coord ScNone false [[1; 1]] [3; 3] 1 1) (p_X P) (p_y P) false) [2]).
  { cbn zeta. unfold solver_lambda, scale_lambda. destruct (eqz_R_dec 1) as [[_ F]|[-> _]]; [lra|]. cbn [andb negb prep p_X p_y].
    unfold solver_cost, l1_of, l2_of. cbn [mul div sub of_Z arithR]. split; [reflexivity|]. intros c Hc. destruct c as [|t [|? ?]]; try discriminate.
    unfold cost, factor, sse, fitted, Sigma, elem. cbn. rewrite (Rabs_right 2) by lra.
    pose proof (Rle_abs t). pose proof (pow2_ge_0 (t - 2)). nra. }
  split; [exact M|]. apply (documented_cost_partial Coord ScNone false [[1; 1]] [3; 3] 1 1 [2]).
  - split; [discriminate|]. constructor; [reflexivity|constructor].
  - auto.
  - cbn. lra.
  - left. lra.
  - exact M.
Qed.
(** Ridge: the penalty is lambda / (2 n_samples), not lambda / 2.  Two samples with feature 1 and response 2, lambda = 2: the
    Cholesky solver's coefficient is 1, the minimiser of the documented cost is 2 / 3. *)
Theorem documented_ridge_refuted :
  let P := prep arithR Cholesky ScNone false [[1; 1]] [2; 2] in
  allowed Cholesky 0 2 /\
  minimises 1 (solver_cost Cholesky ScNone 0 (solver_lambda arithR Cholesky ScNone false [[1; 1]] [2; 2] 0 2) (p_X P) (p_y P) false) [1] /\
  ~ minimises 1 (doc_cost 0 2 [[1; 1]] [2; 2] false) (result arithR Cholesky ScNone false [[1; 1]] [2; 2] [1]).
Proof.
  cbn zeta. split; [cbn; lra|]. split.
  - assert (E : solver_lambda arithR Cholesky ScNone false [[1; 1]] [2; 2] 0 2 = 2).
    { unfold solver_lambda, scale_lambda. destruct (eqz_R_dec 0) as [[-> _]|[_ F]]; [|lra]. destruct (eqz_R_dec 2) as [[_ F]|[-> _]]; [lra|]. reflexivity. }
    rewrite E. split; [reflexivity|]. intros c Hc. destruct c as [|t [|? ?]]; try discriminate.
    unfold solver_cost, cost, sse, fitted, Sigma, elem. cbn. pose proof (pow2_ge_0 (t - 1)). nra.
  - intros [_ H]. specialize (H [2 / 3] eq_refl). revert H. unfold result, doc_cost, sse, fitted, Sigma, elem. cbn. lra.
Qed.
Print Assumptions documented_ridge_refuted.
(** "scale only": documentation and comment say that ridge and elastic net meet as alpha tends to 0; the penalties on the
    squares stay apart (s_Y = 1, four samples, lambda = 1) *)
Theorem scale_only_path_refuted : forall alpha, 0 < alpha <= 1 / 2 ->
  l2_user ScaleOnly 4 1 0 1 = 1 / 8 /\ 1 / 4 <= l2_user ScaleOnly 4 1 alpha 1.
Proof.
  intros a Ha. unfold l2_user. destruct (Req_EM_T 0 0) as [_|]; [|lra]. destruct (Req_EM_T a 0) as [|_]; [lra|].
  replace (INR 4) with 4 by (cbn; lra). lra.
Qed.
Print Assumptions scale_only_path_refuted.

(** *** C130: solutions of the systems the direct solvers set up are minimisers *)
Theorem direct_solutions_minimise (m : solver) (icept : bool) (eps : R) (X : list (list R)) (y : list R) (lambda : R) (b : list R) :
  shaped X y -> 0 <= lambda -> (m = Qr -> lambda = 0) ->
  (icept = true -> match m with Qr => centred X y /\ (ncoef X icept <= length y)%nat | Svd => centred X y
                           | _ => centred X y \/ (ncoef X icept <= length y)%nat end) ->
  solved_by m icept eps X y lambda b -> minimises (ncoef X icept) (cost 1 X y icept 0 lambda) b.
Proof.
  intros Sh Hl Hq Hi Hs. unfold solved_by in Hs.
  destruct m; try contradiction.
  - destruct (Nat.leb_spec (ncoef X icept) (length y)) as [Hw|Hw].
    + destruct Hs as (Q & Rm & x & H1 & H2 & H3 & ->). apply (qr_min X y icept lambda) with (Q := Q) (Rm := Rm); auto. intros E. apply (Hi E).
    + destruct Hs as (Q & Rm & z & H1 & H2 & H3 & ->). apply (qr_dual_min X y icept lambda) with (Rm := Rm); auto.
      destruct icept; auto. destruct (Hi eq_refl). lia.
  - destruct Hs as (U & S & Vt & H1 & H2 & H3 & ->). apply (svd_min X y icept lambda Hl U S Vt eps H1 H3 H2). exact Hi.
  - destruct (Nat.leb_spec (ncoef X icept) (length y)) as [Hw|Hw].
    + destruct Hs as [H1 H2]. apply (normal_min X y icept lambda Sh Hl); auto.
    + destruct Hs as (d & H1 & H2 & ->). apply (dual_min X y icept lambda Sh Hl); auto. intros E. destruct (Hi E); [auto|lia].
  - destruct (Nat.leb_spec (ncoef X icept) (length y)) as [Hw|Hw].
    + destruct Hs as [H1 H2]. apply (normal_min X y icept lambda Sh Hl); auto.
    + destruct Hs as (d & H1 & H2 & ->). apply (dual_min X y icept lambda Sh Hl); auto. intros E. destruct (Hi E); [auto|lia].
Qed.
Print Assumptions direct_solutions_minimise.
(** ... of the whole fit, in the user's units *)
Theorem direct_fit (m : solver) (sc : scaling) (icept : bool) (eps : R) (X : list (list R)) (y : list R) (alpha lambda : R) (b : list R) :
  shaped X y -> scalable sc icept X y -> allowed m alpha lambda -> intercept_ok m sc icept (length y) (length X) ->
  let P := prep arithR m sc icept X y in
  solved_by m icept eps (p_X P) (p_y P) (solver_lambda arithR m sc icept X y alpha lambda) b ->
  minimises (ncoef X icept) (user_cost sc icept alpha lambda X y) (result arithR m sc icept X y b).
Proof.
  intros Sh Sc Al Ii P Hs. apply scaled_minimiser_reverts; auto. fold P.
  destruct (scaled_data_is_the_table m sc icept X y Sh Sc) as (Ly & Lx & Fx & _). fold P in Ly, Lx, Fx.
  assert (ShP : shaped (p_X P) (p_y P)).
  { split; [|rewrite Ly; exact Fx]. intros E. rewrite E in Ly. destruct Sh as [Ne _]. destruct y; [congruence|discriminate]. }
  assert (Nc : ncoef (p_X P) icept = ncoef X icept) by (unfold ncoef; rewrite Lx; reflexivity).
  destruct (solver_units m sc icept X y alpha lambda Sh Sc Al) as (k & c & l1 & l2 & Hk & Hc & H1 & H2 & Ef & _).
  assert (Cn : icept = true -> sc <> ScNone -> centred (p_X P) (p_y P)).
  { intros Ei Es. unfold P. rewrite Ei in *. apply prep_centred; auto. }
  set (lam := solver_lambda arithR m sc icept X y alpha lambda) in *.
  assert (Lam : match m with Coord | Lbfgs => True | _ => 0 <= lam end /\ (m = Qr -> lam = 0)).
  { pose proof (n_pos1 X y Sh) as Hn. pose proof (sy_pos sc icept X y Sc) as Hsy. destruct (prep_ok m sc icept X y Sh Sc) as [A _].
    destruct (lambda_arith m sc (length y) (samples y) (s_y sc icept y) (nth (length X) (p_scales P) 0) alpha lambda (samples_R y) Hn Hsy) as (k' & Hk' & H).
    { pose proof (scale_last m sc icept X y) as E. unfold P. clear - E A. destruct sc; try (split; [reflexivity|]); try (apply E; [discriminate|exact A]). reflexivity. }
    { exact Al. }
    change (scale_lambda arithR m sc (samples y) (nth (length X) (p_scales P) 0) alpha lambda) with lam in H.
    destruct m; cbn in H; try (split; [|discriminate]; exact Logic.I || apply H).
    split; [apply H|]. intros _. destruct H as (_ & _ & H & _). cbn in Al. rewrite Al in H.
    rewrite <- H. unfold l2_user. destruct sc; try destruct (Req_EM_T alpha 0); field; repeat split; lra. }
  assert (Hm : minimises (ncoef X icept) (cost 1 (p_X P) (p_y P) icept 0 lam) b).
  { rewrite <- Nc. apply (direct_solutions_minimise m icept eps); auto.
    - unfold solved_by in Hs. destruct m; try contradiction; apply Lam.
    - apply Lam.
    - intros Ei. specialize (Ii Ei). specialize (Cn Ei). rewrite Nc, Ly. unfold ncoef. rewrite Ei.
      destruct m; try (destruct Ii as [Ii|Ii]); auto. destruct Ii; auto. }
  destruct m; try exact Hm; unfold solved_by in Hs; contradiction.
Qed.
Print Assumptions direct_fit.

(** normal equations: ridge with lambda = 2 and no scaling; the dual system: two features, one sample, lambda = 3 *)
Example direct_cholesky_case : minimises 1 (user_cost ScNone false 0 2 [[1; 1]] [2; 2]) (result arithR Cholesky ScNone false [[1; 1]] [2; 2] [1]).
Proof.
  apply (direct_fit Cholesky ScNone false 0).
  - split; [discriminate|]. constructor; [reflexivity|constructor].
  - split; [cbn; lra|intros; cbn; lra].
  - cbn. lra.
  - discriminate.
  - assert (E : solver_lambda arithR Cholesky ScNone false [[1; 1]] [2; 2] 0 2 = 2).
    { unfold solver_lambda, scale_lambda. destruct (eqz_R_dec 0) as [[-> _]|[_ F]]; [|lra]. destruct (eqz_R_dec 2) as [[_ F]|[-> _]]; [lra|]. reflexivity. }
    rewrite E. cbn [solved_by prep p_X p_y]. cbn [length ncoef Nat.leb Nat.add]. split; [reflexivity|].
    intros i Hi. assert (i = 0)%nat as -> by lia. unfold xtx, xty, cd_dot, Sigma. cbn.
    destruct (Rltb 0 2) eqn:E2; [lra|]. apply Rltb_false in E2. lra.
Qed.
Example direct_dual_case : minimises 2 (user_cost ScNone false 0 3 [[1]; [2]] [4]) (result arithR Cg ScNone false [[1]; [2]] [4] [1 / 2; 1]).
Proof.
  apply (direct_fit Cg ScNone false 0).
  - split; [discriminate|]. repeat (constructor; [reflexivity|]). constructor.
  - split; [cbn; lra|intros; cbn; lra].
  - cbn. lra.
  - discriminate.
  - assert (E : solver_lambda arithR Cg ScNone false [[1]; [2]] [4] 0 3 = 3).
    { unfold solver_lambda, scale_lambda. destruct (eqz_R_dec 0) as [[-> _]|[_ F]]; [|lra]. destruct (eqz_R_dec 3) as [[_ F]|[-> _]]; [lra|]. reflexivity. }
    rewrite E. cbn [solved_by prep p_X p_y]. cbn [length ncoef Nat.leb Nat.add]. exists [1 / 2]. split; [reflexivity|]. split.
    + intros i Hi. assert (i = 0)%nat as -> by lia. unfold xxt, row, cd_dot, Sigma. cbn.
      destruct (Rltb 0 3) eqn:E2; [lra|]. apply Rltb_false in E2. lra.
    + unfold from_dual, cd_dot. cbn. apply f_equal2; [lra|apply f_equal2; [lra|reflexivity]].
Qed.
Example direct_svd_case : minimises 1 (user_cost ScNone false 0 0 [[3; 4]] [5; 0]) (result arithR Svd ScNone false [[3; 4]] [5; 0] [3 / 5]).
Proof.
  apply (direct_fit Svd ScNone false (1 / 1000)).
  - split; [discriminate|]. constructor; [reflexivity|constructor].
  - split; [cbn; lra|intros; cbn; lra].
  - cbn. lra.
  - discriminate.
  - assert (E : solver_lambda arithR Svd ScNone false [[3; 4]] [5; 0] 0 0 = 0).
    { unfold solver_lambda, scale_lambda. destruct (eqz_R_dec 0) as [[-> _]|[_ F]]; [|lra]. reflexivity. }
    rewrite E. cbn [solved_by prep p_X p_y]. exists [[3 / 5; 4 / 5]], [5], [[1]].
    assert (M : Rmax 5 1 = 5) by (apply Rmax_left; lra).
    split; [|split; [lra|split]].
    + unfold is_svd. cbn [length]. repeat split; try (repeat constructor); unfold Sigma, elem.
      * assert (a = 0 /\ b = 0)%nat as [-> ->] by lia. cbn. lra.
      * assert (a = 0 /\ b = 0)%nat as [-> ->] by lia. cbn. lra.
      * intros j i Hj Hi. assert (j = 0)%nat as -> by lia. destruct i as [|[|i]]; [| |lia]; cbn; lra.
    + intros _ a Ha. cbn in Ha. assert (a = 0)%nat as -> by lia. right. cbn [nth]. rewrite M. lra.
    + unfold svd_coef, svd_scale. cbn [at_ nth combine map fst snd length seq app]. destruct (eqz_R_dec 0) as [[-> _]|[_ F]]; [|lra]. cbn [negb].
      rewrite tmax_R. cbn [at_ nth of_Z mul arithR lt]. change (IZR 1) with 1. rewrite M.
      rewrite (proj2 (Rltb_true _ _)) by lra. cbn. f_equal. unfold cd_dot. cbn. field.
Qed.
Example direct_qr_case : minimises 1 (user_cost ScNone false 0 0 [[3; 4]] [5; 0]) (result arithR Qr ScNone false [[3; 4]] [5; 0] [3 / 5]).
Proof.
  apply (direct_fit Qr ScNone false 0).
  - split; [discriminate|]. constructor; [reflexivity|constructor].
  - split; [cbn; lra|intros; cbn; lra].
  - cbn. lra.
  - discriminate.
  - cbn [solved_by prep p_X p_y]. cbn [length ncoef Nat.leb Nat.add]. exists [[3 / 5; 4 / 5]], (fun _ _ => 5), [3 / 5].
    split; [|split; [reflexivity|split; [|reflexivity]]].
    + unfold is_qr. repeat split; try (repeat constructor); unfold Sigma, elem.
      * intros a b Ha Hb. assert (a = 0 /\ b = 0)%nat as [-> ->] by lia. cbn. lra.
      * intros i j Hi Hj. assert (j = 0)%nat as -> by lia. destruct i as [|[|i]]; [| |lia]; cbn; lra.
    + intros i Hi. assert (i = 0)%nat as -> by lia. unfold qr_rhs, cd_dot, Sigma. cbn. lra.
Qed.
(** Singular values below 1e2 eps are dropped even if they are all there is: a feature with values around 1e-18 (in metres, say)
    gets the coefficient 0 without a penalty, not the one that explains the response. *)
Definition eps64 : R := / 2 ^ 52.
Theorem svd_small_data_refuted :
  let X := [[/ 2 ^ 60]] in
  is_svd X 1 [[1]] [/ 2 ^ 60] [[1]] /\
  svd_coef arithR false eps64 0 [[1]] [/ 2 ^ 60] [[1]] 1 [1] = [0] /\
  sse X [1] false [2 ^ 60] = 0 /\ sse X [1] false [0] = 1.
Proof.
  cbn zeta.
  split; [|split; [|split]].
  - unfold is_svd. cbn [length]. repeat split; try (repeat constructor); unfold Sigma, elem.
    + assert (a = 0 /\ b = 0)%nat as [-> ->] by lia. cbn. lra.
    + assert (a = 0 /\ b = 0)%nat as [-> ->] by lia. cbn. lra.
    + intros j i Hj Hi. assert (j = 0 /\ i = 0)%nat as [-> ->] by lia. cbn [nth map seq fold_right]. ring.
  - unfold svd_coef, svd_scale. cbn [at_ nth combine map fst snd length seq app]. destruct (eqz_R_dec 0) as [[-> _]|[_ F]]; [|lra]. cbn [negb].
    rewrite tmax_R. unfold at_. cbn [nth of_Z mul arithR lt]. change (IZR 1) with 1. unfold eps64.
    assert (P1 : / 2 ^ 60 <= 1) by (rewrite <- Rinv_1; apply Rinv_le_contravar; lra).
    rewrite Rmax_right by lra.
    assert (P2 : / 2 ^ 60 <= / 2 ^ 52) by (apply Rinv_le_contravar; [lra|apply Rle_pow; [lra|lia]]).
    assert (P3 : 0 < / 2 ^ 52) by (apply Rinv_0_lt_compat; lra).
    destruct (Rltb (100 * / 2 ^ 52 * 1) (/ 2 ^ 60)) eqn:E; [apply Rltb_true in E; lra|].
    unfold cd_dot. cbn [combine map fst snd fold_left add mul arithR zero of_Z]. change (IZR 0) with 0. f_equal. ring.
  - unfold sse, fitted, Sigma, elem. cbn [length seq map fold_right nth]. field.
  - unfold sse, fitted, Sigma, elem. cbn [length seq map fold_right nth]. ring.
Qed.
Print Assumptions svd_small_data_refuted.

(** Coordinate descent: coefficients of the scaled problem that no step changes come back as a minimiser *)
Theorem coordinate_fit (sc : scaling) (icept : bool) (X : list (list R)) (y : list R) (alpha lambda : R) (b : list R) kdiff r :
  shaped X y -> scalable sc icept X y -> allowed Coord alpha lambda -> intercept_ok Coord sc icept (length y) (length X) ->
  let P := prep arithR Coord sc icept X y in
  let lam := solver_lambda arithR Coord sc icept X y alpha lambda in
  divisible sc (l2_of arithR alpha lam) (p_X P) (p_xv P) -> length b = ncoef X icept ->
  (forall k, (k < ncoef X icept)%nat ->
     fst (step arithR (p_X P) (p_y P) (p_xv P) (l1_of arithR alpha lam) (l2_of arithR alpha lam) icept sc 1 kdiff b r k) = nth k b 0) ->
  minimises (ncoef X icept) (user_cost sc icept alpha lambda X y) (result arithR Coord sc icept X y b).
Proof.
  intros Sh Sc Al Ii P lam Dv Lb Hf. apply scaled_minimiser_reverts; auto. fold P.
  destruct (scaled_data_is_the_table Coord sc icept X y Sh Sc) as (Ly & Lx & Fx & _). fold P in Ly, Lx, Fx.
  assert (ShP : shaped (p_X P) (p_y P)).
  { split; [|rewrite Ly; exact Fx]. intros E. rewrite E in Ly. destruct Sh as [Ne _]. destruct y; [congruence|discriminate]. }
  assert (Nc : ncoef (p_X P) icept = ncoef X icept) by (unfold ncoef; rewrite Lx; reflexivity).
  assert (Lam : 0 <= l1_of arithR alpha lam /\ 0 <= l2_of arithR alpha lam).
  { pose proof (n_pos1 X y Sh) as Hn. pose proof (sy_pos sc icept X y Sc) as Hsy. destruct (prep_ok Coord sc icept X y Sh Sc) as [A _].
    destruct (lambda_arith Coord sc (length y) (samples y) (s_y sc icept y) (nth (length X) (p_scales P) 0) alpha lambda (samples_R y) Hn Hsy) as (k' & Hk' & H).
    { pose proof (scale_last Coord sc icept X y) as E. unfold P. clear - E A. destruct sc; try (split; [reflexivity|]); try (apply E; [discriminate|exact A]). reflexivity. }
    { exact Al. }
    change (scale_lambda arithR Coord sc (samples y) (nth (length X) (p_scales P) 0) alpha lambda) with lam in H.
    unfold solver_factors in H. destruct H as (_ & _ & _ & _ & H1 & H2). auto. }
  split; [exact Lb|]. intros c Hc. rewrite <- Nc in *.
  apply (fixed_point_minimises (p_X P) (p_y P) (p_xv P) _ _ icept sc ShP (proj1 Lam) (proj2 Lam)) with (kdiff := kdiff) (r := r); auto.
  - apply prep_norms; auto.
  - intros Ei. assert (Hn : sc <> ScNone) by (apply Ii; exact Ei). assert (C : centred (p_X P) (p_y P)) by (unfold P; rewrite Ei in *; apply prep_centred; auto).
    destruct sc; auto.
Qed.
Print Assumptions coordinate_fit.

(** *** C131: predictions before and after reverting the scaling, warm starts *)
(** What the scaled model predicts for the scaled sample is what the user's coefficients predict, in the user's units.  Missing:
    "scale only" with an intercept other than 0 in the scaled problem (minimisers have 0 there, C129). *)
Theorem reverted_predictions_partial (m : solver) (sc : scaling) (icept : bool) (X : list (list R)) (y : list R) (b : list R) (x : nat -> R) :
  shaped X y -> scalable sc icept X y -> length b = ncoef X icept -> sc <> ScaleOnly \/ icept = false \/ nth (length X) b 0 = 0 ->
  predicted (length X) icept (result arithR m sc icept X y b) x =
  m_y sc icept y + s_y sc icept y * root sc y * predicted (length X) icept b (fun j => (x j - m_x sc icept X y j) / (s_x sc X y j * root sc y)).
Proof.
  intros Sh Sc Lb H. unfold result. apply revert_predicted; auto. destruct H as [H|H]; [left|right; exact H]. unfold root. destruct sc; auto. contradiction.
Qed.
Print Assumptions reverted_predictions_partial.
Example reverted_case : predicted 1 true (result arithR Svd Standardize true lX ly [1; 0]) (fun _ => 10) = 20.
Proof.
  change 1%nat with (length lX) at 1. rewrite (reverted_predictions_partial Svd Standardize true lX ly [1; 0] (fun _ => 10) l_shaped l_scalable eq_refl); [|left; discriminate].
  destruct l_table as (E1 & E2 & E3 & E4). rewrite E1, E2. cbn [length lX]. unfold predicted, Sigma. cbn [seq map fold_right nth]. rewrite E3, E4. cbn [root]. lra.
Qed.
(** coefficients passed as a starting point and reverted at once are the same coefficients *)
Theorem warm_start_round_trip (m : solver) (sc : scaling) (icept : bool) (X : list (list R)) (y : list R) (b : list R) :
  shaped X y -> scalable sc icept X y -> length b = ncoef X icept -> iterative m = true -> X <> [] ->
  let P := prep arithR m sc icept X y in
  result arithR m sc icept X y (start arithR m sc icept (p_scales P) (p_shifts P) (length X) b) = b.
Proof.
  intros Sh Sc Lb It Ne P. unfold start. rewrite It. fold (ncoef X icept).
  assert (L0 : (0 < length X)%nat) by (destruct X; [congruence|cbn; lia]).
  replace (length X <=? length b)%nat with true by (symmetry; apply Nat.leb_le; rewrite Lb; unfold ncoef; lia).
  replace (length b =? 0)%nat with false by (symmetry; apply Nat.eqb_neq; rewrite Lb; unfold ncoef; lia).
  replace (ncoef X icept <=? length b)%nat with true by (symmetry; apply Nat.leb_le; lia). cbn [andb negb].
  assert (E : firstn (length X) b ++ (if icept then [at_ arithR b (length X)] else []) = b).
  { apply list_ext.
    - rewrite app_length, firstn_length, Lb. unfold ncoef. destruct icept; cbn [length]; lia.
    - intros i Hi. rewrite app_length, firstn_length, Lb in Hi. destruct (Nat.lt_ge_cases i (length X)) as [H|H].
      + rewrite app_nth1 by (rewrite firstn_length, Lb; unfold ncoef; lia). apply nth_first; auto.
      + assert (Ei : icept = true /\ i = length X) by (unfold ncoef in Hi; destruct icept; cbn [length] in Hi; split; auto; lia).
        destruct Ei as [-> ->]. rewrite app_last by (rewrite firstn_length, Lb; unfold ncoef; lia). reflexivity. }
  rewrite E. unfold result. fold P.
  destruct (match sc as s return {s = ScNone} + {s <> ScNone} with ScNone => left eq_refl | _ => ltac:(right; discriminate) end) as [Es|Es].
  - rewrite Es. reflexivity.
  - assert (E2 : match sc with ScNone => b | _ => scale_warmstart arithR icept (p_scales P) (p_shifts P) (length X) b end =
                scale_warmstart arithR icept (p_scales P) (p_shifts P) (length X) b) by (clear - Es; destruct sc; [contradiction| | |]; reflexivity).
    rewrite E2. apply (warm_round m sc icept X y Sh Sc b Es Lb).
Qed.
Print Assumptions warm_start_round_trip.
Example warm_case :
  let P := prep arithR Coord Standardize true lX ly in
  result arithR Coord Standardize true lX ly (start arithR Coord Standardize true (p_scales P) (p_shifts P) 1 [7; -3]) = [7; -3].
Proof. apply (warm_start_round_trip Coord Standardize true lX ly [7; -3] l_shaped l_scalable); auto. discriminate. Qed.
(** ... but the model the solver starts with is the user's only without a factor sqrt(n_samples) *)
Theorem warm_start_model_partial (m : solver) (sc : scaling) (icept : bool) (X : list (list R)) (y : list R) (b : list R) (i : nat) :
  shaped X y -> scalable sc icept X y -> sc <> ScNone -> sc <> ScaleOnly \/ icept = false -> length b = ncoef X icept -> (i < length y)%nat ->
  let P := prep arithR m sc icept X y in
  fitted X icept b i =
  m_y sc icept y + s_y sc icept y * root sc y * fitted (p_X P) icept (scale_warmstart arithR icept (p_scales P) (p_shifts P) (length X) b) i.
Proof.
  intros Sh Sc Ns H Lb Hi. apply warm_predicted; auto. destruct H as [H|H]; [left|right; exact H]. unfold root. destruct sc; auto. contradiction.
Qed.
Print Assumptions warm_start_model_partial.
(** "scale only" with an intercept, four samples: a starting model that predicts 4 for every sample is taken for one that
    predicts 8 (scale_warmstart and revert_scaling leave out the sqrt(n_samples) at the intercept) *)
Definition wX : list (list R) := [[1; -1; 1; -1]].
Definition wy : list R := [1; -1; 1; -1].
Theorem warm_start_refuted :
  let P := prep arithR Coord ScaleOnly true wX wy in
  shaped wX wy /\ scalable ScaleOnly true wX wy /\ fitted wX true [0; 4] 0 = 4 /\
  m_y ScaleOnly true wy + s_y ScaleOnly true wy * root ScaleOnly wy * fitted (p_X P) true (scale_warmstart arithR true (p_scales P) (p_shifts P) 1 [0; 4]) 0 = 8.
Proof.
  intros P. assert (Sh : shaped wX wy) by (split; [discriminate|]; constructor; [reflexivity|constructor]).
  assert (Em : m_y ScaleOnly true wy = 0) by (unfold m_y, meanR, Sigma, wy; cbn; lra).
  assert (Es : s_y ScaleOnly true wy = 1).
  { unfold s_y, sdR. change (meanR (length wy) (fun i => nth i wy 0)) with (m_y ScaleOnly true wy). rewrite Em. unfold Sigma, wy. cbn. apply sqrt_is; lra. }
  assert (Er : root ScaleOnly wy = 2) by (unfold root, wy; cbn; apply sqrt_is; lra).
  assert (Sc : scalable ScaleOnly true wX wy) by (split; [rewrite Es; lra|intros; cbn; lra]).
  split; [exact Sh|]. split; [exact Sc|]. split; [unfold fitted, Sigma, elem, wX; cbn; lra|].
  destruct (prep_ok Coord ScaleOnly true wX wy Sh Sc) as [(_ & _ & A1 & A2 & A3) (_ & Lx & _)]. fold P in A1, A2, A3, Lx.
  destruct (warm_spec (p_scales P) (p_shifts P) 1 true [0; 4] eq_refl) as (L & W1 & W2).
  set (w := scale_warmstart _ _ _ _ _ _) in *. change (length wX) with 1%nat in A1, A2, Lx. rewrite A1, Es in W1, W2. rewrite A2, Em in W2.
  specialize (W1 0%nat ltac:(lia)). specialize (W2 eq_refl). clearbody w. clearbody P. unfold Sigma in W2. cbn in W1, W2.
  rewrite Em, Es, Er. unfold fitted, Sigma. rewrite Lx. cbn [seq map fold_right]. rewrite W1, W2. field.
Qed.
Print Assumptions warm_start_refuted.

(** *** C132: the objective and gradient L-BFGS-B gets for linear regression *)
Theorem linreg_objective (X : list (list R)) (y : list R) (l1 l2 : R) (icept : bool) (coef : list R) :
  shaped X y -> 0 <= l1 -> 0 <= l2 -> length coef = ncoef X icept ->
  objfun_mse arithR X y l1 l2 icept coef = cost (/ (2 * INR (length y))) X y icept l1 l2 coef.
Proof. intros Sh H1 H2 Hc. apply objfun_cost; assumption. Qed.
Print Assumptions linreg_objective.
Theorem linreg_gradient (X : list (list R)) (y : list R) (l1 l2 : R) (icept : bool) (coef : list R) :
  shaped X y -> 0 <= l1 -> 0 <= l2 -> length coef = ncoef X icept ->
  length (objgrd_mse arithR X y l1 l2 icept coef) = ncoef X icept /\
  forall coef', length coef' = ncoef X icept ->
    cost (/ (2 * INR (length y))) X y icept l1 l2 coef +
      Sigma (ncoef X icept) (fun t => nth t (objgrd_mse arithR X y l1 l2 icept coef) 0 * (nth t coef' 0 - nth t coef 0))
    <= cost (/ (2 * INR (length y))) X y icept l1 l2 coef'.
Proof. intros Sh H1 H2 Hc. split; [apply grad_spec; assumption|]. intros coef' Hc'. apply grad_tangent; assumption. Qed.
Print Assumptions linreg_gradient.
(** where the gradient is 0 the fit is done *)
Theorem linreg_stationary (sc : scaling) (icept : bool) (X : list (list R)) (y : list R) (alpha lambda : R) (b : list R) :
  shaped X y -> scalable sc icept X y -> allowed Lbfgs alpha lambda ->
  let P := prep arithR Lbfgs sc icept X y in
  let lam := solver_lambda arithR Lbfgs sc icept X y alpha lambda in
  length b = ncoef X icept ->
  (forall t, (t < ncoef X icept)%nat ->
     nth t (objgrd_mse arithR (p_X P) (p_y P) (l1_of arithR alpha lam) (l2_of arithR alpha lam) icept b) 0 = 0) ->
  minimises (ncoef X icept) (user_cost sc icept alpha lambda X y) (result arithR Lbfgs sc icept X y b).
Proof.
  intros Sh Sc Al P lam Lb Hg. apply scaled_minimiser_reverts; auto. fold P lam.
  destruct (scaled_data_is_the_table Lbfgs sc icept X y Sh Sc) as (Ly & Lx & Fx & _). fold P in Ly, Lx, Fx.
  assert (ShP : shaped (p_X P) (p_y P)).
  { split; [|rewrite Ly; exact Fx]. intros E. rewrite E in Ly. destruct Sh as [Ne _]. destruct y; [congruence|discriminate]. }
  assert (Nc : ncoef (p_X P) icept = ncoef X icept) by (unfold ncoef; rewrite Lx; reflexivity).
  assert (Lam : 0 <= l1_of arithR alpha lam /\ 0 <= l2_of arithR alpha lam).
  { pose proof (n_pos1 X y Sh) as Hn. pose proof (sy_pos sc icept X y Sc) as Hsy. destruct (prep_ok Lbfgs sc icept X y Sh Sc) as [A _].
    destruct (lambda_arith Lbfgs sc (length y) (samples y) (s_y sc icept y) (nth (length X) (p_scales P) 0) alpha lambda (samples_R y) Hn Hsy) as (k' & Hk' & H).
    { pose proof (scale_last Lbfgs sc icept X y) as E. unfold P. clear - E A. destruct sc; try (split; [reflexivity|]); try (apply E; [discriminate|exact A]). reflexivity. }
    { exact Al. }
    change (scale_lambda arithR Lbfgs sc (samples y) (nth (length X) (p_scales P) 0) alpha lambda) with lam in H.
    unfold solver_factors in H. destruct H as (_ & _ & _ & _ & H1 & H2). auto. }
  split; [exact Lb|]. intros c Hc. rewrite <- Nc in *. unfold solver_cost.
  pose proof (grad_tangent (p_X P) (p_y P) icept _ _ ShP (proj1 Lam) (proj2 Lam) b c Lb Hc) as T.
  rewrite (Sigma_ext _ _ (fun _ => 0)), Sigma_zero, Rplus_0_r in T by (intros t Ht; rewrite Hg by exact Ht; ring). exact T.
Qed.
Print Assumptions linreg_stationary.
Example linreg_stationary_case : forall t, (t < 2)%nat -> nth t (objgrd_mse arithR [[-1; 1]] [-1; 1] 0 0 true [1; 0]) 0 = 0.
Proof.
  intros t Ht. assert (Sh : shaped [[-1; 1]] [-1; 1]) by (split; [discriminate|]; constructor; [reflexivity|constructor]).
  destruct (grad_spec [[-1; 1]] [-1; 1] true 0 0 Sh (Rle_refl 0) (Rle_refl 0) [1; 0] eq_refl) as (_ & G1 & G2). cbn [length] in G1, G2.
  destruct t as [|[|t]]; [| |lia].
  - rewrite (G1 0%nat ltac:(lia)), slope0. unfold resid, fitted, Sigma, elem. cbn. field.
  - rewrite (G2 eq_refl). unfold resid, fitted, Sigma, elem. cbn. field.
Qed.
Example coordinate_fit_case :
  minimises 1 (user_cost ScNone false 1 1 [[1; 1]] [3; 3]) (result arithR Coord ScNone false [[1; 1]] [3; 3] [2]).
Proof.
  assert (Sh : shaped [[1; 1]] [3; 3]) by (split; [discriminate|]; constructor; [reflexivity|constructor]).
  apply (coordinate_fit ScNone false [[1; 1]] [3; 3] 1 1 [2] 0 []); auto.
  - split; [cbn; lra|intros; cbn; lra].
  - cbn. lra.
  - discriminate.
  - exact Logic.I.
  - intros k Hk. cbn in Hk. assert (k = 0)%nat as -> by lia.
    assert (E : solver_lambda arithR Coord ScNone false [[1; 1]] [3; 3] 1 1 = 1).
    { unfold solver_lambda, scale_lambda. destruct (eqz_R_dec 1) as [[_ F]|[-> _]]; [lra|]. reflexivity. }
    rewrite E.
    replace (l1_of arithR 1 1) with 1 by (cbn; lra). replace (l2_of arithR 1 1) with 0 by (cbn; lra).
    unfold prep, step, glmnet, sk_step, sk_new, sk_sign, eqz, tmax, cd_dot, residual, matvec, add_col, cd_axpy, at_, ns. run_R. lra.
Qed.
