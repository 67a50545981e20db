(** What a user of a linear model handle expects of one fit, from the options they set, the data
    they defined last and the model they selected last. *)
From Coq Require Import ZArith QArith List Bool.
From Verif Require Import Base LinSessModel.
Import ListNotations.
Local Open Scope Z_scope.

(** ** What the program asked for *)
Section History.
Variable W : Type.

Fixpoint asked (o : opts) (ops : list (op W)) : opts :=
  match ops with
  | [] => o
  | Oset s :: l => asked (put o s) l
  | _ :: l => asked o l
  end.

Fixpoint last_data (d : option table) (ops : list (op W)) : option table :=
  match ops with
  | [] => d
  | Odefine t :: l => last_data (Some t) l
  | _ :: l => last_data d l
  end.

Fixpoint last_kind (k : kind) (ops : list (op W)) : kind :=
  match ops with
  | [] => k
  | Oselect k' :: l => last_kind k' l
  | _ :: l => last_kind k l
  end.

(** The starting points of the fits made. *)
Fixpoint fits_of (ops : list (op W)) : list W :=
  match ops with [] => [] | Ofit w :: l => w :: fits_of l | _ :: l => fits_of l end.

(** The program never selects a different model after a fit without defining the data again or
    setting an option in between.  [used]: a fit was made since then. *)
Fixpoint no_switch (used : bool) (k : kind) (ops : list (op W)) : Prop :=
  match ops with
  | [] => True
  | Oset _ :: l => no_switch false k l
  | Odefine _ :: l => no_switch false k l
  | Oselect k' :: l => (used = true -> k' = k) /\ no_switch used k' l
  | Ofit _ :: l => no_switch true k l
  end.
End History.

(** ** What one fit should do *)

(** The solver: the user's, or the documented default (docs: Cholesky without an l1 term, coordinate
    descent with one, L-BFGS for logistic regression). *)
Definition documented_method (k : kind) (o : opts) : option meth :=
  match o_meth o with
  | Mauto =>
      match k with
      | Kmse => Some (if Qeq_bool (o_alpha o) 0 then Mchol else Mcoord)
      | Klogistic => if Qeq_bool (o_alpha o) 0 then Some Mlbfgs else None
      | Kundef => None
      end
  | m => Some m
  end.

Definition under (t : table) (icept : bool) : Prop := t_n t < t_p t + (if icept then 1 else 0).

(** The combinations that are refused. *)
Definition refused (k : kind) (o : opts) (m : meth) (t : table) : Prop :=
  let l1 := (~ (o_lambda o == 0))%Q in
  match k with
  | Kmse =>
      (m <> Mcoord /\ (0 < o_alpha o)%Q /\ l1) \/
      (m = Mqr /\ ~ (o_lambda o == 0)%Q) \/
      (o_icept o = true /\ o_scal o = Snone /\
       (m = Mqr \/ m = Msvd \/ (under t true /\ m <> Mlbfgs))) \/
      (m = Mqr /\ under t (o_icept o) /\ (o_icept o = true \/ o_scal o = Sstd))
  | Klogistic => m <> Mlbfgs \/ (~ (o_alpha o == 0)%Q /\ l1)
  | Kundef => True
  end.

(** Only centring makes the intercept separable: needed by coordinate descent, SVD and QR always and
    by the others when there are too few samples. *)
Definition needs_centring (m : meth) (t : table) (icept : bool) : Prop :=
  icept = true /\ (m = Mcoord \/ m = Msvd \/ m = Mqr \/ (m <> Mauto /\ under t icept)).

(** The scaling of the first attempt, and of the retry. *)
Definition scaling_is (m : meth) (t : table) (icept : bool) (us s : scal) : Prop :=
  match us with
  | Sauto => (needs_centring m t icept /\ s = Scentre) \/ (~ needs_centring m t icept /\ s = Snone)
  | _ => s = us
  end.
Definition retry_scaling_is (m : meth) (t : table) (icept : bool) (us s : scal) : Prop :=
  match us with
  | Sauto | Snone =>
      (needs_centring m t icept /\ s = Scentre) \/ (~ needs_centring m t icept /\ s = Snone)
  | _ => s = us
  end.

(** What the solver is to see: X and y scaled alike and once, X in the layout the solver wants,
    nothing left over. *)
Definition layout_cm (t : table) (k : kind) (m : meth) (icept : bool) (cm : bool) : Prop :=
  match k with
  | Kmse => (t_row t = false -> cm = true) /\
            (m = Msvd \/ (m = Mqr /\ ~ under t icept) -> cm = true) /\
            (t_row t = true -> m <> Msvd -> ~ (m = Mqr /\ ~ under t icept) -> cm = false)
  | _ => cm = true
  end.
Definition transposed (t : table) (k : kind) (m : meth) (icept : bool) : Prop :=
  k = Kmse /\ m = Mqr /\ under t icept /\ t_row t = false.

Record prepared (c : call) : Prop := {
  p_x : v_x (c_view c) = match c_kind c with Kmse => c_scal c | _ => Snone end;
  p_y : v_y (c_view c) = v_x (c_view c);
  p_whole : v_lost (c_view c) = false;
  p_layout : layout_cm (c_data c) (c_kind c) (c_meth c) (c_icept c) (v_cm (c_view c));
  p_tr : v_tr (c_view c) = true <-> transposed (c_data c) (c_kind c) (c_meth c) (c_icept c);
  p_norms : c_kind c = Kmse -> c_meth c = Mcoord -> v_xv (c_view c) = true }.

(** The same, with nothing left over in the two marks that do not describe X or y either. *)
Definition fresh_marks (c : call) : Prop :=
  (v_xv (c_view c) = true <-> c_kind c = Kmse /\ c_meth c = Mcoord) /\
  (v_copy (c_view c) = true <->
     match c_kind c with
     | Kmse => c_scal c <> Snone \/ c_meth c = Msvd \/ c_meth c = Mqr
     | _ => t_row (c_data c) = true
     end).

(** A solver call that carries what the user asked for. *)
Definition faithful (o : opts) (t : table) (k : kind) (c : call) : Prop :=
  c_data c = t /\ c_kind c = k /\ c_icept c = o_icept o /\ c_alpha c = o_alpha o /\
  c_lambda c = o_lambda o /\ prepared c.

Section Fit.
Variables C W : Type.
Variable solve : call -> W -> da_status * C.

(** The outcome of one fit: [Fit o t k st status coefficients calls]. *)
Inductive documented (o : opts) (t : table) (k : kind) (st : W)
  : da_status -> option C -> list call -> Prop :=
| doc_no_method status :
    documented_method k o = None -> status <> st_success -> documented o t k st status None []
| doc_refused m status :
    documented_method k o = Some m -> refused k o m t -> status <> st_success ->
    documented o t k st status None []
| doc_solved m c :
    documented_method k o = Some m -> ~ refused k o m t ->
    faithful o t k c -> fresh_marks c -> c_meth c = m ->
    scaling_is m t (o_icept o) (o_scal o) (c_scal c) ->
    (m = Mchol -> fst (solve c st) <> st_numerical_difficulties) ->
    documented o t k st (fst (solve c st))
               (if is_success (fst (solve c st)) then Some (snd (solve c st)) else None) [c]
| doc_retried c c' :
    documented_method k o = Some Mchol -> ~ refused k o Mchol t ->
    faithful o t k c -> fresh_marks c -> c_meth c = Mchol ->
    scaling_is Mchol t (o_icept o) (o_scal o) (c_scal c) ->
    fst (solve c st) = st_numerical_difficulties ->
    faithful o t k c' -> fresh_marks c' -> c_meth c' = Msvd ->
    retry_scaling_is Msvd t (o_icept o) (o_scal o) (c_scal c') ->
    documented o t k st (fst (solve c' st))
               (if is_success (fst (solve c' st)) then Some (snd (solve c' st)) else None) [c; c'].
End Fit.

(** Cholesky never reports numerical difficulties, so no fit ever changes solver. *)
Definition never_retries {C W} (solve : call -> W -> da_status * C) : Prop :=
  forall c st, c_meth c = Mchol -> fst (solve c st) <> st_numerical_difficulties.

(** The solver and the scaling are spelt out by the user. *)
Definition explicit (o : opts) : Prop := o_meth o <> Mauto /\ o_scal o <> Sauto.
