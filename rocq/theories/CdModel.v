(** Coordinate descent for the elastic net: the solver of source/core/optimization/coord.hpp with the step functions and the
    dual gap of source/core/linear_model/linmod_nln_optim.cpp, as linear_model<T>::fit_linreg_coord (linear_model.cpp lines
    1247-1331) puts them together.  The feature matrix is a list of columns; storage orders and strides are left out.
    The products and sums (cblas_dot, cblas_axpy, cblas_gemv, the simd reductions) add from the first element on; the order
    is not fixed by the code.  One floating-point type (the wider type of _Float16 is left out). *)
From Coq Require Import ZArith List Bool.
From Verif Require Import Base NnModel.
Import ListNotations.
Local Open Scope Z_scope.

(** scaling_t, linmod_types.hpp, without automatic *)
Inductive scaling : Type := ScNone | Centering | ScaleOnly | Standardize.

Section Cd.
Context {T : Type} (N : arith T).
Let vec := list T.
(** stepfun_usrdata_linreg, nln_optim_callbacks.hpp lines 45-78: columns, response, xv, l1reg, l2reg, intercept, scaling;
    [positive] is false throughout (linmod_nln_optim.cpp line 70) and is left out *)
Variables (X : list vec) (y xv : vec) (l1reg l2reg : T) (icept : bool) (sc : scaling).

Definition cd_dot (u v : vec) : T := fold_left (add N) (map (fun p => mul N (fst p) (snd p)) (combine u v)) (zero N).
Definition cd_sum (u : vec) : T := fold_left (add N) u (zero N).
(** cblas_axpy: r + a x *)
Definition cd_axpy (a : T) (x r : vec) : vec := map (fun p => add N (snd p) (mul N a (fst p))) (combine x r).
Definition eqz (v : T) : bool := le N v (zero N) && le N (zero N) v.
Definition tmax (a b : T) : T := if lt N a b then b else a.
Definition nsam : Z := Z.of_nat (length y).
Definition ns : T := of_Z N nsam.
Definition nmod : nat := length X.
Definition column (k : nat) : vec := nth k X [].
Definition at_ (v : vec) (k : nat) : T := nth k v (zero N).

(** eval_feature_matrix with the intercept, linmod_nln_optim.cpp lines 138-155, then y - X coef (lines 732-745, 856-869) *)
Definition matvec (coef : vec) : vec :=
  let v := fold_left (fun v cx => cd_axpy (fst cx) (snd cx) v) (combine coef X) (map (fun _ => zero N) y) in
  if icept then map (fun vi => add N vi (at_ coef nmod)) v else v.
Definition residual (coef : vec) : vec := map (fun p => sub N (fst p) (snd p)) (combine y (matvec coef)).

(** regfun on the model coefficients, lines 158-171 *)
Definition regfun (coef : vec) : T :=
  let w := firstn nmod coef in
  let f1 := if lt N (zero N) l1reg then mul N (fold_left (fun s v => add N s (abs N v)) w (zero N)) l1reg else zero N in
  let f2 := if lt N (zero N) l2reg then mul N (cd_dot w w) l2reg else zero N in
  add N f1 f2.

(** ** The step function of scalings "standardize" and "scale only": stepfun_linreg_glmnet, lines 705-809 *)
Definition standardized : bool := match sc with Standardize => true | _ => false end.
Definition uses_xv : bool := match sc with Standardize | ScaleOnly => true | _ => false end.
(** the residual before the step: recomputed, changed along one column, or kept (lines 730-770) *)
Definition glm_update (action : Z) (kdiff : T) (coef r : vec) : vec :=
  if 0 <? action then residual coef
  else if (action <? 0) && negb (eqz kdiff) then
    let kold := Z.to_nat (- (action + 1)) in
    if (kold <? nmod)%nat then cd_axpy (opp N kdiff) (column kold) r else map (fun v => sub N v kdiff) r
  else r.
(** the soft threshold, lines 795-803 *)
Definition shrink (b l1 : T) : T :=
  let s := sub N (if lt N b (zero N) then opp N b else b) l1 in
  let s := if lt N s (zero N) then zero N else s in
  if lt N b (zero N) then opp N s else s.
Definition glm_new (coef r : vec) (k : nat) : T :=
  if (k <? nmod)%nat then
    let g := cd_dot (column k) r in
    let g := if standardized then div N g ns else g in
    let xvk := if uses_xv then at_ xv k else of_Z N 1 in
    div N (shrink (add N g (mul N (at_ coef k) xvk)) l1reg) (add N xvk (mul N (of_Z N 2) l2reg))
  else add N (div N (cd_sum r) ns) (at_ coef k).
Definition glm_step (action : Z) (kdiff : T) (coef r : vec) (k : nat) : T * vec :=
  let r := glm_update action kdiff coef r in (glm_new coef r k, r).
(** the objective, lines 714-725: the residual is taken as it is *)
Definition glm_objective (coef r : vec) : T := add N (div N (cd_dot r r) (mul N ns (of_Z N 2))) (regfun coef).

(** ** The step function of scalings "none" and "centering": stepfun_linreg_sklearn, lines 827-963 *)
Definition sk_sign (v : T) : T := if eqz (abs N v) then zero N else div N v (abs N v).
Definition add_col (k : nat) (a : T) (r : vec) : vec :=
  if (k <? nmod)%nat then cd_axpy a (column k) r else map (fun v => add N v a) r.
Definition sk_new (r : vec) (k : nat) : T :=
  let g := if (k <? nmod)%nat then cd_dot (column k) r else cd_sum r in
  let l1 := mul N l1reg ns in
  let l2 := mul N l2reg (of_Z N (nsam * 2)) in
  let xvk := if (k <? nmod)%nat then at_ xv k else of_Z N 1 in     (* the intercept: 1, lines 932-935 *)
  div N (mul N (sk_sign g) (tmax (sub N (abs N g) l1) (zero N))) (add N xvk l2).
Definition sk_step (action : Z) (coef r : vec) (k : nat) : T * vec :=
  let r := if 0 <? action then residual coef else r in
  if (k <? nmod)%nat && eqz (at_ xv k) then (zero N, r)            (* a column of zeros, lines 876-883 *)
  else
    let r := if eqz (at_ coef k) then r else add_col k (at_ coef k) r in
    let b := sk_new r k in
    (b, if eqz b then r else add_col k (opp N b) r).
(** lines 843-851 *)
Definition sk_objective (coef r : vec) : T := add N (div N (div N (cd_dot r r) ns) (of_Z N 2)) (regfun coef).

Definition glmnet : bool := uses_xv.      (* fit_linreg_coord lines 1264-1270 *)
Definition step (action : Z) (kdiff : T) (coef r : vec) (k : nat) : T * vec :=
  if glmnet then glm_step action kdiff coef r k else sk_step action coef r k.
Definition objective (coef r : vec) : T := if glmnet then glm_objective coef r else sk_objective coef r.

(** ** stepchk_linreg_dualgap, lines 970-1031: [r] is the residual as the last step left it *)
Definition gap_factor (l1 dn : T) : T := if lt N l1 dn then div N l1 dn else of_Z N 1.
Definition dual_gap (coef r : vec) : T :=
  let l1 := mul N l1reg ns in
  let half := mul N l2reg ns in
  let l2 := mul N (of_Z N 2) half in
  let w := firstn nmod coef in
  let XtA := map (fun cx => sub N (cd_dot (snd cx) r) (mul N l2 (fst cx))) (combine w X) in
  let dn := fold_left (fun m v => tmax m (abs N v)) XtA (zero N) in
  let rr := cd_dot r r in
  let C := gap_factor l1 dn in
  let CC := if lt N l1 dn then mul N C C else of_Z N 1 in
  let g := if lt N l1 dn then div N (add N rr (mul N rr CC)) (of_Z N 2) else rr in
  let n1 := fold_left (fun s v => add N s (abs N v)) w (zero N) in
  div N (add N g (add N (sub N (mul N l1 n1) (mul N C (cd_dot r y)))
                        (mul N (mul N half (add N (of_Z N 1) CC)) (cd_dot w w)))) ns.

(** ** coord_rcomm, coord.hpp lines 880-1070 *)
Inductive task : Type := TNewx | TEval | TStop | TOptim.
(** options and constants: "coord convergence tol", "coord optimality tol", "coord skip tol", "coord skip max" (raised to
    "coord skip min" + 3, lines 420-424), "coord skip min", "coord restart", the iteration limit, 2 epsilon.  The hidden
    settings are at their defaults: convergence type 1, skipmin_reset 10, skipmax_threshold 1000, slow progress 0.9999 (a
    parameter here) and 10.  No bounds, no time limit, no monitor, a callback that returns 0. *)
Record cd_opts : Type := CdOpts { o_tol : T; o_optim : T; o_skiptol : T; o_skipmin : Z; o_skipmax : Z; o_restart : Z;
                                  o_maxit : Z; o_eps : T; o_slow : T }.
Variable o : cd_opts.
Record rci : Type := Rci { c_x : vec; c_k : nat; c_action : Z; c_kdiff : T; c_iter : Z; c_inorm : T; c_beta : T;
                           c_skip : list Z; c_max : list Z; c_min : Z; c_task : task }.
Definition nvar (s : rci) : nat := length (c_x s).
Definition upd {V} (l : list V) (k : nat) (v : V) : list V := firstn k l ++ match skipn k l with [] => [] | _ :: t => v :: t end.
Definition nthZ (l : list Z) (k : nat) : Z := nth k l 0.

(** START, lines 903-931 *)
Definition rci_start (x : vec) : rci :=
  Rci x 0 1 (zero N) 0 (zero N) (zero N) (repeat 0 (length x)) (repeat (o_skipmax o) (length x)) (o_skipmin o) TEval.

(** the ledger entry of coordinate k, lines 961-983: (skip, skipmax) *)
Definition ledger (small : bool) (sk sm : Z) : Z * Z :=
  if negb small then (if 0 <? sk then (0, o_skipmax o) else (sk, sm))
  else if sm <=? sk then
    let big := Z.max (o_skipmax o) 1000 in
    let sm' := Z.min (sm * 2) big in
    (sk + (if sm' =? big then 0 else 1), sm')
  else (sk + 1, sm).
(** the search for the next coordinate, lines 996-1005: [(k, skip, endcycle)] *)
Fixpoint next_coord (fuel n kold : nat) (smin : Z) (sm : list Z) (k : nat) (sk : list Z) (ended : bool) : nat * list Z * bool :=
  match fuel with
  | O => (k, sk, ended)
  | S f => if (smin <? nthZ sk k) && (nthZ sk k <? nthZ sm k) && negb (Nat.eqb k kold) then
             let sk := upd sk k (nthZ sk k + 1) in
             if (n <=? S k)%nat then next_coord f n kold smin sm 0 sk true else next_coord f n kold smin sm (S k) sk ended
           else (k, sk, ended)
  end.

(** EVAL, lines 933-1047; None: the remainder by "coord restart" = 0 *)
Definition rci_eval (s : rci) (newxk : T) : option rci :=
  let n := nvar s in
  let k := c_k s in
  let d := sub N newxk (at_ (c_x s) k) in
  let small := le N (abs N d) (o_eps o) in
  let newxk := if small then at_ (c_x s) k else newxk in
  let d := if small then zero N else d in
  let change := if small then zero N else abs N d in
  let inorm := tmax (c_inorm s) change in
  let beta := tmax (c_beta s) (abs N newxk) in
  let x := upd (c_x s) k newxk in
  let action := if eqz change then 0 else - (Z.of_nat k + 1) in
  let e := ledger (negb (lt N (o_skiptol o) change)) (nthZ (c_skip s) k) (nthZ (c_max s) k) in
  let sk := upd (c_skip s) k (fst e) in
  let sm := upd (c_max s) k (snd e) in
  let first := if (S k <? n)%nat then S k else 0%nat in
  let '(k', sk, ended) := next_coord n n k (c_min s) sm first sk (negb (S k <? n)%nat) in
  let iter := if ended then c_iter s + 1 else c_iter s in
  let tol := tmax (mul N (o_tol o) beta) (o_eps o) in
  let check := eqz beta || le N inorm tol || Nat.eqb k' k in
  let unskipped := forallb (fun v => v <=? c_min s) sk in
  let reset := ended && check && negb unskipped in
  let sk := if reset then repeat 0 n else sk in
  let sm := if reset then repeat (o_skipmax o) n else sm in
  let smin := if ended && check then Z.max (c_min s) 10 else c_min s in
  let t := if ended then (if check then TOptim else TNewx) else TEval in
  if o_restart o =? 0 then None
  else
    let rst := (iter * Z.of_nat n + Z.of_nat k') mod (o_restart o) in
    Some (Rci x k' (if rst =? 0 then 1 else action) d iter inorm beta sk sm smin t).
(** NEWX and OPTIMCHK, lines 1050-1069 *)
Definition rci_newx (s : rci) : rci :=
  Rci (c_x s) (c_k s) (c_action s) (c_kdiff s) (c_iter s) (zero N) (zero N) (c_skip s) (c_max s) (c_min s) TEval.
Definition rci_optim (s : rci) (optim : T) : rci :=
  Rci (c_x s) (c_k s) (c_action s) (c_kdiff s) (c_iter s) (c_inorm s) (c_beta s) (c_skip s) (c_max s) (c_min s)
    (if le N optim (o_optim o) then TStop else TNewx).

(** ** coord, lines 352-830.  o_tol and o_optim stand for w.tol = max(macheps_safe, tol) and w.optim (lines 918-919) *)
(** the variables of the loop: the state of the solver, the residual of the callback, newxk, the optimality measure and its
    previous value, the number of checks, the iteration of the last one, the count of slow checks *)
Record drv : Type := Drv { d_s : rci; d_r : vec; d_new : T; d_gap : T; d_old : T; d_checks : Z; d_at : Z; d_slow : Z }.
Inductive exit_status : Type := Converged | IterationLimit | SlowProgress.
Record result : Type := Result { r_exit : exit_status; r_x : vec; r_r : vec; r_f : option T; r_gap : T; r_iter : Z }.
Inductive outcome : Type := Finished (r : result) | DivByZero | OutOfFuel.

Definition call_step (s : rci) (r : vec) : T * vec := step (c_action s) (c_kdiff s) (c_x s) r (c_k s).
(** lines 668-682: a check of the optimality measure *)
Definition measure (d : drv) (s : rci) : drv :=
  Drv s (d_r d) (d_new d) (dual_gap (c_x s) (d_r d)) (if d_checks d =? 0 then d_old d else d_gap d) (d_checks d + 1) (c_iter s)
    (d_slow d).
(** The objective is evaluated when the task is TStop or the iteration limit is reached (lines 704-709; "print level" at most
    1), not when slow progress stops the run: it is then infinity, as set on line 493 ([None] here). *)
Definition finish (e : exit_status) (d : drv) : outcome :=
  let s := d_s d in
  let d := if d_at d <? c_iter s then measure d s else d in
  let f := match e with SlowProgress => None | _ => Some (objective (c_x s) (d_r d)) end in
  Finished (Result e (c_x s) (d_r d) f (d_gap d) (c_iter s)).
(** what happens after coord_rcomm asked for task TNewx, lines 688-797: [inr] means go on *)
Definition after_newx (d : drv) : outcome + drv :=
  let s := d_s d in
  if o_maxit o <=? c_iter s then inl (finish IterationLimit d)
  else if d_at d =? c_iter s then
    let slow := if 1 <? d_checks d then (if le N (o_slow o) (div N (d_gap d) (d_old d)) then d_slow d + 1 else 0) else d_slow d in
    let d := Drv s (d_r d) (d_new d) (d_gap d) (d_old d) (d_checks d) (d_at d) slow in
    if 10 <=? slow then inl (finish SlowProgress d) else inr d
  else inr d.
(** one turn of the while loop, lines 518-797, from the state after the previous one *)
Definition turn (d : drv) : outcome + drv :=
  let s := d_s d in
  let to_eval s' r := let c := call_step s' r in
    Drv s' (snd c) (fst c) (d_gap d) (d_old d) (d_checks d) (d_at d) (d_slow d) in
  match c_task s with
  | TEval =>
      match rci_eval s (d_new d) with
      | None => inl DivByZero
      | Some s' =>
          let d' := Drv s' (d_r d) (d_new d) (d_gap d) (d_old d) (d_checks d) (d_at d) (d_slow d) in
          match c_task s' with
          | TEval => inr (to_eval s' (d_r d))
          | TOptim => inr (measure d' s')
          | TNewx => after_newx d'
          | TStop => inl (finish Converged d')
          end
      end
  | TOptim =>
      let s' := rci_optim s (d_gap d) in
      let d' := Drv s' (d_r d) (d_new d) (d_gap d) (d_old d) (d_checks d) (d_at d) (d_slow d) in
      match c_task s' with TStop => inl (finish Converged d') | _ => after_newx d' end
  | TNewx => inr (to_eval (rci_newx s) (d_r d))
  | TStop => inl (finish Converged d)
  end.
Fixpoint turns (fuel : nat) (d : drv) : outcome :=
  match fuel with
  | O => OutOfFuel
  | S f => match turn d with inl r => r | inr d => turns f d end
  end.
(** the first turn: START, then the first step; the residual of the callback is all zeros before (lines 117-131) *)
Definition cd_first (x : vec) : drv :=
  let s := rci_start x in
  let c := call_step s (map (fun _ => zero N) y) in
  Drv s (snd c) (fst c) (highest N) (highest N) 0 (-1) 0.
Definition coordinate_descent (fuel : nat) (x : vec) : outcome := turns fuel (cd_first x).
End Cd.
Arguments Drv {T}. Arguments Rci {T}. Arguments CdOpts {T}. Arguments Result {T}. Arguments Finished {T}. Arguments DivByZero {T}. Arguments OutOfFuel {T}.
Arguments c_x {T}. Arguments c_k {T}. Arguments c_action {T}. Arguments c_kdiff {T}. Arguments c_iter {T}. Arguments c_inorm {T}.
Arguments c_beta {T}. Arguments c_skip {T}. Arguments c_max {T}. Arguments c_min {T}. Arguments c_task {T}.
Arguments d_s {T}. Arguments d_r {T}. Arguments d_new {T}. Arguments d_gap {T}. Arguments d_old {T}. Arguments d_checks {T}.
Arguments d_at {T}. Arguments d_slow {T}. Arguments r_exit {T}. Arguments r_x {T}. Arguments r_r {T}. Arguments r_f {T}.
Arguments r_gap {T}. Arguments r_iter {T}. Arguments o_eps {T}. Arguments o_optim {T}. Arguments o_tol {T}. Arguments o_restart {T}.
Arguments o_maxit {T}. Arguments o_skiptol {T}. Arguments o_skipmin {T}. Arguments o_skipmax {T}. Arguments o_slow {T}.

(** The status fit_linreg_coord returns for every exit of the solver that is not an error, linear_model.cpp lines 1319-1329:
    warnings are cleared *)
Definition fit_status (e : exit_status) : da_status := st_success.
