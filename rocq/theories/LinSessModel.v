(** A linear model handle over its life: how the options are turned into a solver, a scaling and a
    prepared matrix, the retry after a failed Cholesky factorisation, and what is kept between
    calls.  The solvers themselves are one oracle ([solve]).

    /repo/source/core/linear_model/linear_model.cpp, linmod_types.hpp, linmod_options.hpp.
    Left out: mixed precision (off), the hidden setting that forces the retry, allocation failures,
    builds without Fortran, the constructor that bypasses the options, loading a saved model. *)
From Coq Require Import ZArith QArith List Bool.
From Verif Require Import Base.
Import ListNotations.
Local Open Scope Z_scope.

(** linmod_types.hpp:34-44 ([linmod_method]), 52-58 ([scaling_t]); aoclda_linmod.h ([linmod_model]). *)
Inductive meth := Mauto | Mlbfgs | Mqr | Mcoord | Msvd | Mcg | Mchol.
Inductive scal := Sauto | Snone | Scale | Sstd | Scentre.
Inductive kind := Kundef | Kmse | Klogistic.

Definition meth_eqb (a b : meth) : bool :=
  match a, b with
  | Mauto, Mauto | Mlbfgs, Mlbfgs | Mqr, Mqr | Mcoord, Mcoord | Msvd, Msvd | Mcg, Mcg
  | Mchol, Mchol => true
  | _, _ => false
  end.

Definition scal_eqb (a b : scal) : bool :=
  match a, b with
  | Sauto, Sauto | Snone, Snone | Scale, Scale | Sstd, Sstd | Scentre, Scentre => true
  | _, _ => false
  end.

Definition kind_eqb (a b : kind) : bool :=
  match a, b with
  | Kundef, Kundef | Kmse, Kmse | Klogistic, Klogistic => true
  | _, _ => false
  end.

(** The user's arrays X and y ([t_id] names them), their shape and storage order. *)
Record table := mkTable { t_id : nat; t_n : Z; t_p : Z; t_row : bool }.

(** The options that matter here: linmod_options.hpp:100-190; their values on a new handle. *)
Record opts := mkOpts { o_meth : meth; o_scal : scal; o_alpha : Q; o_lambda : Q; o_icept : bool }.
Definition opts0 : opts := mkOpts Mauto Sauto 0 0 false.

(** What the member pointers X and y show: whether X is a copy of the user's array, the scaling
    applied to X and to y, X column-major, X transposed, X overwritten by a factorisation; and
    whether [std_xv] is filled. *)
Record view := mkView { v_copy : bool; v_x : scal; v_y : scal; v_cm : bool; v_tr : bool;
                        v_lost : bool; v_xv : bool }.

(** reset_data (155-180) and the same assignments in define_features (378-396).  The latter does
    not clear [std_xv]; see [define]. *)
Definition raw (t : table) (xv : bool) : view :=
  mkView false Snone Snone (negb (t_row t)) false false xv.

(** One call of a solver: everything it is given. *)
Record call := mkCall { c_data : table; c_kind : kind; c_meth : meth; c_scal : scal;
                        c_icept : bool; c_alpha : Q; c_lambda : Q; c_view : view }.

(** Setting one option: da_options_set (options_public.cpp:30-57). *)
Inductive setting :=
| set_meth (m : meth) | set_scal (s : scal) | set_alpha (a : Q) | set_lambda (l : Q)
| set_icept (b : bool) | set_other.

Definition put (o : opts) (s : setting) : opts :=
  match s with
  | set_meth m => mkOpts m (o_scal o) (o_alpha o) (o_lambda o) (o_icept o)
  | set_scal x => mkOpts (o_meth o) x (o_alpha o) (o_lambda o) (o_icept o)
  | set_alpha a => mkOpts (o_meth o) (o_scal o) a (o_lambda o) (o_icept o)
  | set_lambda l => mkOpts (o_meth o) (o_scal o) (o_alpha o) l (o_icept o)
  | set_icept b => mkOpts (o_meth o) (o_scal o) (o_alpha o) (o_lambda o) b
  | set_other => o
  end.

(** is_well_determined as [fit] computes it, 837-839. *)
Definition well (t : table) (icept : bool) : bool :=
  t_p t + (if icept then 1 else 0) <=? t_n t.

(** choose_method, 1780-1813: the method written into the option. *)
Definition choose (k : kind) (alpha : Q) : da_status * meth :=
  match k with
  | Kmse => (st_success, if Qeq_bool alpha 0 then Mchol else Mcoord)
  | Klogistic => if Qeq_bool alpha 0 then (st_success, Mlbfgs) else (st_not_implemented, Mauto)
  | Kundef => (st_internal_error, Mauto)
  end.

(** validate_options, 1704-1778. *)
Definition validate (k : kind) (m : meth) (us : scal) (icept w : bool) (alpha lambda : Q)
  : da_status :=
  let reg := negb (Qeq_bool lambda 0) in
  match k with
  | Kmse =>
      if negb (meth_eqb m Mcoord) && negb (Qle_bool alpha 0) && reg then st_incompatible_options
      else if meth_eqb m Mqr && reg then st_incompatible_options
      else if negb w && scal_eqb us Snone && icept && negb (meth_eqb m Mlbfgs)
           then st_incompatible_options
      else if (meth_eqb m Mqr || meth_eqb m Msvd) && scal_eqb us Snone && icept
           then st_incompatible_options
      else if meth_eqb m Mqr && negb w && icept then st_incompatible_options
      else if meth_eqb m Mqr && negb w && scal_eqb us Sstd then st_incompatible_options
      else st_success
  | Klogistic =>
      if negb (meth_eqb m Mlbfgs) then st_incompatible_options
      else if negb (Qeq_bool alpha 0) && reg then st_incompatible_options
      else st_success
  | Kundef => st_internal_error
  end.

(** get_required_scaling, 1818-1853. *)
Definition required (m : meth) (us : scal) (icept w in_fallback : bool) : scal :=
  let minimum :=
    match m with
    | Mcoord | Msvd | Mqr => if icept then Scentre else Snone
    | Mchol | Mcg | Mlbfgs => if negb w && icept then Scentre else Snone
    | Mauto => Snone
    end in
  if scal_eqb us Sauto then minimum
  else if negb in_fallback then us
  else if negb (scal_eqb minimum Snone) && scal_eqb us Snone then minimum
  else us.

(** requires_column_major and requires_transpose, 1855-1868. *)
Definition needs_cm (m : meth) (w : bool) : bool :=
  meth_eqb m Msvd || (meth_eqb m Mqr && w).
Definition needs_tr (m : meth) (w row : bool) : bool :=
  meth_eqb m Mqr && negb w && negb row.

(** The solvers that want a copy (or column norms) even without scaling: 1875-1878, 2070-2073. *)
Definition copying (m : meth) : bool := meth_eqb m Msvd || meth_eqb m Mqr || meth_eqb m Mcoord.

(** preprocess_data with prep_matrix_x, 1929-2090: what X and y are afterwards. *)
Definition preprocess (t : table) (m : meth) (s : scal) (w : bool) (v : view) : view :=
  if scal_eqb s Snone && negb (copying m) then v
  else if scal_eqb s Snone && meth_eqb m Mcoord then
    mkView (v_copy v) (v_x v) (v_y v) (v_cm v) (v_tr v) (v_lost v) true
  else mkView true s s (negb (t_row t) || needs_cm m w) (needs_tr m w (t_row t)) false
              (v_xv v || meth_eqb m Mcoord).

(** do_preprocessing, 1870-1905.  [s] is the scaling of the attempt that failed. *)
Definition again (t : table) (us : scal) (icept w : bool) (s : scal) (next prev : meth) (v : view)
  : bool :=
  let req := required next us icept w true in
  if scal_eqb req Snone && negb (copying next) then false
  else if negb (v_copy v || v_xv v) then true
  else if meth_eqb prev Mqr then true
  else if negb (scal_eqb s req) then true
  else if needs_cm next w && negb (v_cm v) then true
  else if xorb (needs_tr next w (t_row t)) (needs_tr prev w (t_row t)) then true
  else meth_eqb next Mcoord && negb (v_xv v).

(** A factorisation in place: dgeqrf in fit_linreg_qr and dgesdd in fit_linreg_svd. *)
Definition spoils (m : meth) : bool := meth_eqb m Mqr || meth_eqb m Msvd.

(** fit_impl, 956-984 (linear regression; the logistic branch leaves lambda alone): the member
    [lambda] after it is rescaled.  [ysc] is [std_scales[nfeat]]. *)
Definition rescale (ysc : table -> Q) (c : call) : Q :=
  let n := inject_Z (t_n (c_data c)) in
  let l := c_lambda c in
  match c_kind c with
  | Kmse =>
      if Qeq_bool l 0 then l
      else if Qeq_bool (c_alpha c) 0 then
        let l1 := match c_scal c with
                  | Sstd => let l1 := Qdiv l (ysc (c_data c)) in
                            if meth_eqb (c_meth c) Mcoord || meth_eqb (c_meth c) Mlbfgs then l1
                            else Qmult l1 n
                  | Scale => Qdiv l n
                  | _ => l
                  end in
        let l2 := if meth_eqb (c_meth c) Mlbfgs && negb (scal_eqb (c_scal c) Sstd) then Qdiv l1 n
                  else l1 in
        if meth_eqb (c_meth c) Mcoord && negb (scal_eqb (c_scal c) Sstd || scal_eqb (c_scal c) Scale)
        then Qdiv l2 n else l2
      else match c_scal c with
           | Sstd | Scale => Qdiv l (ysc (c_data c))
           | _ => l
           end
  | _ => l
  end.

Section Handle.
Variables C W : Type.
(** The solver run on what it is given and on the starting point: status and coefficients. *)
Variable solve : call -> W -> da_status * C.
(** The member [lambda] after fit_impl ([rescale] for the code as it is). *)
Variable lambda' : call -> Q.

(** The handle.  [h_us] is [user_scaling]; [h_alpha], [h_lambda], [h_icept] the members that
    read_options fills; [h_coef] the coefficients of a trained model. *)
Record handle := mkHandle {
  h_opts : opts; h_us : scal; h_alpha : Q; h_lambda : Q; h_icept : bool;
  h_kind : kind; h_data : option table; h_view : view; h_trained : bool; h_coef : option C }.

Definition new : handle :=
  mkHandle opts0 Sauto 0 0 false Kundef None (mkView false Snone Snone true false false false)
           false None.

(** da_options_set: refresh (221-225) first, then the option. *)
Definition set_option (s : setting) (h : handle) : handle :=
  mkHandle (put (h_opts h) s) Sauto (h_alpha h) (h_lambda h) (h_icept h) (h_kind h) (h_data h)
           (match h_data h with Some t => raw t false | None => h_view h end) false (h_coef h).

(** define_features, 354-404, for arguments it accepts. *)
Definition define (t : table) (h : handle) : handle :=
  mkHandle (h_opts h) (h_us h) (h_alpha h) (h_lambda h) (h_icept h) (h_kind h) (Some t)
           (raw t (v_xv (h_view h))) false (h_coef h).

(** select_model, 408-416. *)
Definition select (k : kind) (h : handle) : handle :=
  mkHandle (h_opts h) (h_us h) (h_alpha h) (h_lambda h) (h_icept h) k (h_data h) (h_view h)
           (h_trained h && kind_eqb k (h_kind h)) (h_coef h).

(** fit_impl, 926-1242: prepare, rescale lambda, solve.  The logistic branch copies a row-major X
    (1211-1228) and otherwise takes X and y as they are; its check of the number of classes is
    part of the oracle. *)
Definition attempt (t : table) (m : meth) (s : scal) (w do_prep : bool) (st : W) (h : handle)
  : da_status * handle * call :=
  let v := match h_kind h with
           | Kmse => if do_prep then preprocess t m s w (h_view h) else h_view h
           | _ => if t_row t
                  then mkView true Snone (v_y (h_view h)) true false false (v_xv (h_view h))
                  else h_view h
           end in
  let c := mkCall t (h_kind h) m s (h_icept h) (h_alpha h) (h_lambda h) v in
  let r := solve c st in
  let lost := v_lost v || (match h_kind h with Kmse => spoils m | _ => false end) in
  let ok := is_success (fst r) in
  (fst r,
   mkHandle (h_opts h) (h_us h) (h_alpha h) (lambda' c) (h_icept h) (h_kind h) (h_data h)
            (mkView (v_copy v) (v_x v) (v_y v) (v_cm v) (v_tr v) lost (v_xv v))
            ok (if ok then Some (snd r) else h_coef h),
   c).

Definition with_opts (o : opts) (h : handle) : handle :=
  mkHandle o (h_us h) (h_alpha h) (h_lambda h) (h_icept h) (h_kind h) (h_data h) (h_view h)
           (h_trained h) (h_coef h).

(** read_options, 111-153. *)
Definition read_options (h : handle) : handle :=
  let o := h_opts h in
  mkHandle o (if scal_eqb (h_us h) Sauto then o_scal o else h_us h) (o_alpha o) (o_lambda o)
           (o_icept o) (h_kind h) (h_data h) (h_view h) (h_trained h) (h_coef h).

Definition set_scaling (s : scal) (h : handle) : handle := with_opts (put (h_opts h) (set_scal s)) h.
Definition set_method (m : meth) (h : handle) : handle := with_opts (put (h_opts h) (set_meth m)) h.

(** The retry, 890-920: alpha and lambda restored, the option "optim method" overwritten, the data
    reset if they are to be prepared again. *)
Definition retry (t : table) (alpha lambda : Q) (m : meth) (again : bool) (h : handle) : handle :=
  let o := put (h_opts h) (set_meth m) in
  mkHandle o (h_us h) alpha lambda (h_icept h) (h_kind h) (h_data h)
           (if again then raw t false else h_view h) false (h_coef h).

(** The first part of fit, 777-815: read the options and settle the method. *)
Definition resolve (h : handle) : da_status * handle :=
  let h := read_options h in
  match o_meth (h_opts h) with
  | Mauto => let '(s0, m) := choose (h_kind h) (h_alpha h) in
             (s0, if is_success s0 then set_method m h else h)
  | _ => (st_success, h)
  end.

(** The loop of fit, 871-922, with fallback_oracle, 762-782: only Cholesky has a second choice, so
    it runs at most twice.  Also the list of solver calls made. *)
Definition loop (t : table) (m : meth) (st : W) (h : handle) : da_status * handle * list call :=
  let w := well t (h_icept h) in
  let sc := required m (h_us h) (h_icept h) w false in
  let h := set_scaling sc h in
  let '(s2, h2, c2) := attempt t m sc w true st h in
  match s2, m with
  | st_numerical_difficulties, Mchol =>
      let ag := again t (h_us h2) (h_icept h2) w sc Msvd Mchol (h_view h2) in
      let h3 := retry t (h_alpha h) (h_lambda h) Msvd ag h2 in
      let sc' := required Msvd (h_us h3) (h_icept h3) w true in
      let h3 := set_scaling sc' h3 in
      let '(s4, h4, c4) := attempt t Msvd sc' w ag st h3 in
      (s4, h4, [c2; c4])
  | _, _ => (s2, h2, [c2])
  end.

(** fit, 773-925. *)
Definition fit (st : W) (h : handle) : da_status * handle * list call :=
  match h_data h with
  | None => (st_no_data, h, [])
  | Some t =>
      if h_trained h then (st_success, h, [])
      else
        let '(s0, h) := resolve h in
        if negb (is_success s0) then (s0, h, [])
        else
          let m := o_meth (h_opts h) in
          let s1 := validate (h_kind h) m (h_us h) (h_icept h) (well t (h_icept h))
                             (h_alpha h) (h_lambda h) in
          if negb (is_success s1) then (s1, h, []) else loop t m st h
  end.

(** The calls a program can make on the handle. *)
Inductive op := Oset (s : setting) | Odefine (t : table) | Oselect (k : kind) | Ofit (st : W).

Definition step (h : handle) (o : op) : handle :=
  match o with
  | Oset s => set_option s h
  | Odefine t => define t h
  | Oselect k => select k h
  | Ofit st => snd (fst (fit st h))
  end.

Definition run (ops : list op) : handle := fold_left step ops new.

(** da_linmod_evaluate_model: the weights of the penalty in the reported loss, 636-637. *)
Definition loss_weights (h : handle) : Q * Q :=
  (Qmult (h_alpha h) (h_lambda h), Qdiv (Qmult (Qminus 1 (h_alpha h)) (h_lambda h)) 2).

End Handle.

Arguments Oset {W}. Arguments Odefine {W}. Arguments Oselect {W}. Arguments Ofit {W}.
