(** Scaling of linear regression problems: linear_model<T>::preprocess_data, revert_scaling, scale_warmstart, setup_xtx_xty,
    the scaling of lambda in fit_impl and the direct solvers around LAPACK, source/core/linear_model/linear_model.cpp.

    The feature matrix is a list of columns of length n_samples; copies, storage orders, strides and the explicit
    transposition for the QR solver (prep_matrix_x, lines 1925-2010) are left out, and so is _Float16.  Sums and products add
    from the first element on; the order is not fixed by the code (C116 is about it). *)
From Coq Require Import ZArith List Bool.
From Verif Require Import Base NnModel CdModel.
Import ListNotations.
Local Open Scope Z_scope.

(** linmod_method, linmod_types.hpp, without undefined *)
Inductive solver := Qr | Svd | Cholesky | Cg | Coord | Lbfgs.

Section Lin.
Context {T : Type} (N : arith T).
Let vec := list T.

Definition samples (y : vec) : Z := Z.of_nat (length y).
Definition zeros (k : nat) : vec := repeat (zero N) k.
Definition ones (k : nat) : vec := repeat (of_Z N 1) k.

(** mean and variance of a column, moment_statistics.cpp, with dof = [n], the number of samples (MomModel.mean, variance) *)
Definition col_mean (n : Z) (c : vec) : T := div N (cd_sum N c) (of_Z N n).
Definition col_var (n : Z) (c : vec) : T :=
  let m := col_mean n c in
  let v := cd_sum N (map (fun x => mul N (sub N x m) (sub N x m)) c) in
  if 1 <? n then div N v (of_Z N n) else v.

(** standardize, statistical_utilities.cpp lines 53-276, in the three ways preprocess_data calls it on the columns: where the
    shifts and scales come from (MomModel.choose_arrays) and the loop over the data (MomModel.apply_arrays).  An array of
    zeros is filled in. *)
Definition all_zero (v : vec) : bool := forallb (eqz N) v.
Definition apply_col (shift scale : T) (c : vec) : vec :=
  let d := if eqz N scale then of_Z N 1 else scale in map (fun x => div N (sub N x shift) d) c.
Definition apply_cols (shifts scales : vec) (X : list vec) : list vec :=
  map (fun p => apply_col (fst (fst p)) (snd (fst p)) (snd p)) (combine (combine shifts scales) X).
Definition std_shift (n : Z) (X : list vec) (sh : vec) : list vec * vec :=
  let sh := if all_zero sh then map (col_mean n) X else sh in
  (apply_cols sh (ones (length X)) X, sh).
Definition std_scale (n : Z) (X : list vec) (sc : vec) : list vec * vec :=
  let sc := if all_zero sc then map (fun c => sqrt N (col_var n c)) X else sc in
  (apply_cols (zeros (length X)) sc X, sc).
(** both arrays zeros, lines 160-175 *)
Definition std_both (n : Z) (X : list vec) : list vec * vec * vec :=
  let sh := map (col_mean n) X in
  let sc := map (fun c => sqrt N (col_var n c)) X in
  (apply_cols sh sc X, sh, sc).
(** the shifts may be zeros, the scales are not (lines 176-182) *)
Definition std_given (n : Z) (X : list vec) (sh sc : vec) : list vec * vec :=
  let sh := if all_zero sh then map (col_mean n) X else sh in
  (apply_cols sh sc X, sh).

(** What preprocess_data leaves in X, y, std_scales, std_shifts and std_xv. *)
Record prepared := Prepared { p_X : list vec; p_y : vec; p_scales : vec; p_shifts : vec; p_xv : vec }.

(** The column loop for "standardize" without intercept, lines 2189-2213: the mean of the squares and the square of the mean *)
Definition square_mean (n : Z) (c : vec) : T := div N (cd_dot N c c) (of_Z N n).
Definition mean_square (n : Z) (c : vec) : T := let m := col_mean n c in mul N m m.

(** preprocess_data, lines 2070-2334; [m] decides whether std_xv is filled *)
Definition prep (m : solver) (sc : scaling) (icept : bool) (X : list vec) (y : vec) : prepared :=
  let n := samples y in
  let p := length X in
  let xv (v : vec) : vec := match m with Coord => v | _ => [] end in
  let dots (X : list vec) : vec := map (fun c => cd_dot N c c) X in
  match sc with
  | ScNone => Prepared X y [] [] (xv (dots X))                                               (* lines 2072-2116 *)
  | Centering =>                                                                             (* lines 2118-2158 *)
    if icept then
      let '(X', sh) := std_shift n X (zeros p) in
      let '(y', ysh) := std_shift n [y] [zero N] in
      Prepared X' (nth 0 y' []) (ones (p + 1)) (sh ++ ysh) (xv (dots X'))
    else Prepared X y (ones (p + 1)) (zeros (p + 1)) (xv (dots X))
  | Standardize =>
    if icept then                                                                            (* lines 2168-2188 *)
      let '(X', sh, scl) := std_both n X in
      let '(y', ysh, ysc) := std_both n [y] in
      Prepared X' (nth 0 y' []) (scl ++ ysc) (sh ++ ysh) (xv (ones p))
    else                                                                                     (* lines 2189-2241 *)
      let scl := map (fun c => sqrt N (sub N (square_mean n c) (mean_square n c))) X in
      let '(X', scl) := std_scale n X scl in
      let '(y', ysc) := std_scale n [y] [sqrt N (div N (cd_dot N y y) (of_Z N n))] in
      Prepared X' (nth 0 y' []) (scl ++ ysc) (zeros (p + 1))
        (xv (map (fun c => div N (square_mean n c) (sub N (square_mean n c) (mean_square n c))) X))
  | ScaleOnly =>
    let rn := sqrt N (of_Z N n) in
    if icept then                                                                            (* lines 2242-2296 *)
      (* variance() has put the means into the shifts if std_xv is wanted *)
      let sh0 := match m with Coord => map (col_mean n) X | _ => zeros p end in
      let '(X', sh) := std_given n X sh0 (repeat rn p) in
      let ysh := col_mean n y in
      let ysc := sqrt N (col_var n y) in
      let d := mul N ysc rn in
      Prepared X' (map (fun v => div N (sub N v ysh) d) y) (ones p ++ [ysc]) (sh ++ [ysh]) (xv (map (col_var n) X))
    else                                                                                     (* lines 2297-2330 *)
      let ynrm := sqrt N (cd_dot N y y) in
      Prepared (map (map (fun x => div N x rn)) X) (map (fun v => div N v ynrm) y) (ones p ++ [div N ynrm rn]) (zeros (p + 1))
        (xv (map (square_mean n) X))
  end.

(** revert_scaling, lines 2351-2363; [p] is nfeat *)
Definition revert_loop (scales shifts coef : vec) (p : nat) : vec * T :=
  let ys := at_ N scales p in
  fold_left (fun st k =>
      let '(c, cum0) := st in
      let v := mul N (div N ys (at_ N scales k)) (at_ N c k) in
      (upd c k v, add N cum0 (mul N (at_ N shifts k) v)))
    (seq 0 p) (coef, zero N).
Definition revert (sc : scaling) (icept : bool) (scales shifts : vec) (p : nat) (coef : vec) : vec :=
  match sc with
  | ScNone => coef
  | _ =>
    let '(c, cum0) := revert_loop scales shifts coef p in
    if icept then upd c p (sub N (add N (at_ N shifts p) (mul N (at_ N scales p) (at_ N c p))) cum0) else c
  end.

(** scale_warmstart, lines 2424-2434 *)
Definition warm_loop (scales shifts coef : vec) (p : nat) : vec * T :=
  let ys := at_ N scales p in
  fold_left (fun st k =>
      let '(c, cum0) := st in
      (upd c k (div N (mul N (at_ N scales k) (at_ N c k)) ys), add N cum0 (mul N (at_ N shifts k) (at_ N c k))))
    (seq 0 p) (coef, zero N).
Definition scale_warmstart (icept : bool) (scales shifts : vec) (p : nat) (coef : vec) : vec :=
  let '(c, cum0) := warm_loop scales shifts coef p in
  if icept then upd c p (div N (add N (sub N (at_ N c p) (at_ N shifts p)) cum0) (at_ N scales p)) else c.
(** the coefficients a fit starts from, lines 1004-1048, for the solvers that take primal coefficients; [usr] is what the
    user passed *)
Definition iterative (m : solver) : bool := match m with Cg | Coord | Lbfgs => true | _ => false end.
Definition start (m : solver) (sc : scaling) (icept : bool) (scales shifts : vec) (p : nat) (usr : vec) : vec :=
  let ncf := (p + if icept then 1 else 0)%nat in
  if iterative m && (p <=? length usr)%nat && negb (length usr =? 0)%nat then
    let c := firstn p usr ++ (if icept then [if (ncf <=? length usr)%nat then at_ N usr p else zero N] else []) in
    match sc with ScNone => c | _ => scale_warmstart icept scales shifts p c end
  else zeros ncf.

(** lambda as fit_impl passes it to the solver, lines 975-1002; [sy] is std_scales[nfeat] *)
Definition scale_lambda (m : solver) (sc : scaling) (n : Z) (sy alpha lambda : T) : T :=
  if eqz N alpha && negb (eqz N lambda) then
    let l :=
      match sc with
      | Standardize =>
        let l := div N lambda sy in
        match m with Coord | Lbfgs => l | _ => mul N l (of_Z N n) end
      | ScaleOnly => div N lambda (of_Z N n)
      | _ => lambda
      end in
    let l := match m, sc with Lbfgs, Standardize => l | Lbfgs, _ => div N l (of_Z N n) | _, _ => l end in
    match m, sc with Coord, (ScNone | Centering) => div N l (of_Z N n) | _, _ => l end
  else if negb (eqz N alpha) && negb (eqz N lambda) then
    match sc with Standardize | ScaleOnly => div N lambda sy | _ => lambda end
  else lambda.
(** usrdata_base, linmod_nln_optim.cpp lines 67-69 *)
Definition l1_of (alpha lambda : T) : T := mul N lambda alpha.
Definition l2_of (alpha lambda : T) : T := div N (mul N lambda (sub N (of_Z N 1) alpha)) (of_Z N 2).

(** lambda as the solver gets it and the coefficients the user gets, for the data of a fit (fit_impl, lines 946-1002 and 1130) *)
Definition solver_lambda (m : solver) (sc : scaling) (icept : bool) (X : list vec) (y : vec) (alpha lambda : T) : T :=
  scale_lambda m sc (samples y) (at_ N (p_scales (prep m sc icept X y)) (length X)) alpha lambda.
Definition result (m : solver) (sc : scaling) (icept : bool) (X : list vec) (y : vec) (coef : vec) : vec :=
  let P := prep m sc icept X y in revert sc icept (p_scales P) (p_shifts P) (length X) coef.

(** ** The direct solvers *)
(** setup_xtx_xty, lines 2368-2420: the well-determined case ... *)
Definition xtx (icept : bool) (X : list vec) (y : vec) (lambda : T) (k l : nat) : T :=
  let p := length X in
  if (k <? p)%nat then
    if (l <? p)%nat then
      let v := cd_dot N (nth k X []) (nth l X []) in
      if (k =? l)%nat && lt N (zero N) lambda then add N v lambda else v
    else cd_sum N (nth k X [])
  else if (l <? p)%nat then cd_sum N (nth l X []) else of_Z N (samples y).
Definition xty (X : list vec) (y : vec) (k : nat) : T :=
  if (k <? length X)%nat then cd_dot N (nth k X []) y else cd_sum N y.
(** ... and the other one *)
Definition row (X : list vec) (i : nat) : vec := map (fun c => at_ N c i) X.
Definition xxt (X : list vec) (lambda : T) (i j : nat) : T :=
  let v := cd_dot N (row X i) (row X j) in
  if (i =? j)%nat && lt N (zero N) lambda then add N v lambda else v.
(** coefficients from dual coefficients (cblas_gemv with X transposed), lines 1567-1573 and 1690-1696; the coefficient of the
    intercept keeps the value 0 it was given in fit_impl *)
Definition from_dual (icept : bool) (X : list vec) (dual : vec) : vec :=
  map (fun c => cd_dot N c dual) X ++ (if icept then [zero N] else []).
(** fit_linreg_qr, lines 1444-1527, around geqrf and trtrs: the right hand side Q' y and the coefficients R^-1 Q' y, or, with more
    features than samples, the coefficients Q z for z = R^-T y.  [Q] is a list of columns. *)
Definition qr_rhs (Q : list vec) (y : vec) (a : nat) : T := cd_dot N (nth a Q []) y.
Definition qr_coef (icept : bool) (x : vec) : vec := x ++ (if icept then [zero N] else []).
Definition qr_from (Q : list vec) (z : vec) (p : nat) : vec := map (fun j => cd_dot N (map (fun q => at_ N q j) Q) z) (seq 0 p).
(** fit_linreg_svd, lines 1600-1640, after gesdd: columns of U, singular values, rows of Vt; [eps] is
    numeric_limits<T>::epsilon() *)
Definition svd_scale (eps lambda s0 s : T) : T :=
  if negb (eqz N lambda) then div N s (add N (mul N s s) lambda)
  else if lt N (mul N (mul N (of_Z N 100) eps) (tmax N s0 (of_Z N 1))) s then div N (of_Z N 1) s else zero N.
Definition svd_coef (icept : bool) (eps lambda : T) (U : list vec) (S : vec) (Vt : list vec) (p : nat) (y : vec) : vec :=
  let temp := map (fun us => mul N (svd_scale eps lambda (at_ N S 0) (snd us)) (cd_dot N (fst us) y)) (combine U S) in
  map (fun j => cd_dot N (map (fun v => at_ N v j) Vt) temp) (seq 0 p) ++ (if icept then [zero N] else []).

(** ** The objective and the gradient L-BFGS-B works with: objfun_mse, objgrd_mse, linmod_nln_optim.cpp lines 541-664 *)
Definition mse_residual (X : list vec) (y : vec) (icept : bool) (coef : vec) : vec :=
  map (fun p => add N (snd p) (mul N (opp N (of_Z N 1)) (fst p))) (combine y (matvec N X y icept coef)).
Definition objfun_mse (X : list vec) (y : vec) (l1 l2 : T) (icept : bool) (coef : vec) : T :=
  let r := mse_residual X y icept coef in
  add N (div N (cd_sum N (map (fun v => mul N v v) r)) (of_Z N (2 * samples y))) (regfun N X l1 l2 coef).
(** reggrd, lines 173-188 *)
Definition reg_slope (l1 l2 b g : T) : T :=
  let g := if lt N (zero N) l1 && negb (eqz N b) then add N g (if lt N b (zero N) then opp N l1 else l1) else g in
  if lt N (zero N) l2 then add N g (mul N (mul N (of_Z N 2) l2) b) else g.
Definition objgrd_mse (X : list vec) (y : vec) (l1 l2 : T) (icept : bool) (coef : vec) : vec :=
  let r := mse_residual X y icept coef in
  let a := div N (of_Z N 1) (of_Z N (samples y)) in
  map (fun j => reg_slope l1 l2 (at_ N coef j) (mul N a (cd_dot N (nth j X []) r))) (seq 0 (length X)) ++
  (if icept then [fold_left (fun s v => add N s (mul N a v)) r (zero N)] else []).
End Lin.
