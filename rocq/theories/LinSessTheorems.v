(** The life of a linear model handle: what one fit does, and what earlier calls leave behind. *)
From Coq Require Import ZArith QArith List Bool Lia.
From Verif Require Import Base LinSessModel LinSessSpec LinSessProofs.
Import ListNotations.
Local Open Scope Z_scope.

(** ** C133 *)

(** The first fit of a handle picks the documented solver and scaling, refuses exactly the
    documented combinations, hands the solver the user's alpha, lambda and intercept and data
    prepared once in the layout it wants, and retries a failed Cholesky with SVD on the same terms. *)
Theorem first_fit :
  forall (C W : Type) (solve : call -> W -> da_status * C) (lambda' : call -> Q)
         (ss : list setting) (t : table) (k : kind) (st : W),
  let h := run C W solve lambda' (map Oset ss ++ [Odefine t; Oselect k]) in
  let r := fit C W solve lambda' st h in
  documented C W solve (fold_left put ss opts0) t k st (fst (fst r))
    (if is_success (fst (fst r)) then h_coef C (snd (fst r)) else None) (snd r).
Proof. intros. apply first_documented. Qed.
Print Assumptions first_fit.

(** The documented outcome leaves the solver call no freedom. *)
Theorem documented_call_unique :
  forall (o : opts) (t : table) (k : kind) (c c' : call),
  faithful o t k c -> fresh_marks c -> faithful o t k c' -> fresh_marks c' ->
  c_meth c = c_meth c' -> c_scal c = c_scal c' -> c = c'.
Proof. exact faithful_unique. Qed.
Print Assumptions documented_call_unique.

(** ** C134 *)

Definition works (c : call) (st : unit) : da_status * unit := (st_success, tt).
Definition code_lambda : call -> Q := rescale (fun _ => 1%Q).
Definition tall : table := mkTable 0 10 2 false.
Definition wide : table := mkTable 1 2 5 false.

(** After one fit with everything automatic, asking for a lasso fails; a new handle with the same
    options fits it. *)
Theorem method_sticks_refuted :
  let ops := [Odefine tall; Oselect Kmse; Ofit tt; Oset (set_alpha 1); Oset (set_lambda 1)] in
  let fresh := map Oset [set_alpha 1; set_lambda 1] ++ [Odefine tall; Oselect Kmse] in
  asked unit opts0 ops = asked unit opts0 fresh /\
  last_data unit None ops = last_data unit None fresh /\
  last_kind unit Kundef ops = last_kind unit Kundef fresh /\
  o_meth (asked unit opts0 ops) = Mauto /\
  fst (fst (fit unit unit works code_lambda tt (run unit unit works code_lambda ops)))
    = st_incompatible_options /\
  fst (fst (fit unit unit works code_lambda tt (run unit unit works code_lambda fresh)))
    = st_success.
Proof. repeat split; vm_compute; reflexivity. Qed.
Print Assumptions method_sticks_refuted.

(** With an intercept and everything else automatic: fitting ten samples of two features and then
    two samples of five fails; a new handle fits the second data. *)
Theorem scaling_sticks_refuted :
  let ops := [Oset (set_icept true); Odefine tall; Oselect Kmse; Ofit tt; Odefine wide] in
  let fresh := map Oset [set_icept true] ++ [Odefine wide; Oselect Kmse] in
  asked unit opts0 ops = asked unit opts0 fresh /\
  last_data unit None ops = last_data unit None fresh /\
  last_kind unit Kundef ops = last_kind unit Kundef fresh /\
  o_scal (asked unit opts0 ops) = Sauto /\
  fst (fst (fit unit unit works code_lambda tt (run unit unit works code_lambda ops)))
    = st_incompatible_options /\
  fst (fst (fit unit unit works code_lambda tt (run unit unit works code_lambda fresh)))
    = st_success.
Proof. repeat split; vm_compute; reflexivity. Qed.
Print Assumptions scaling_sticks_refuted.

(** Cholesky fails on the first table only. *)
Definition one_singular (c : call) (st : unit) : da_status * unit :=
  match c_meth c, t_id (c_data c) with
  | Mchol, O => (st_numerical_difficulties, tt)
  | _, _ => (st_success, tt)
  end.
Definition tall2 : table := mkTable 2 10 2 false.

(** After a retry the handle refuses data that the user's own options suit, even with solver and
    scaling spelt out. *)
Theorem retry_sticks_refuted :
  let ops := [Oset (set_meth Mchol); Oset (set_scal Snone); Oset (set_icept true);
              Odefine tall; Oselect Kmse; Ofit tt; Odefine tall2] in
  let fresh := map Oset [set_meth Mchol; set_scal Snone; set_icept true]
                 ++ [Odefine tall2; Oselect Kmse] in
  asked unit opts0 ops = asked unit opts0 fresh /\
  last_data unit None ops = last_data unit None fresh /\
  last_kind unit Kundef ops = last_kind unit Kundef fresh /\
  explicit (asked unit opts0 ops) /\
  fst (fst (fit unit unit one_singular code_lambda tt
              (run unit unit one_singular code_lambda ops))) = st_incompatible_options /\
  fst (fst (fit unit unit one_singular code_lambda tt
              (run unit unit one_singular code_lambda fresh))) = st_success.
Proof.
  assert (E : forall o, o_meth o = Mchol -> o_scal o = Snone -> explicit o).
  { intros o H1 H2. split; rewrite ?H1, ?H2; discriminate. }
  repeat split; try (vm_compute; reflexivity); vm_compute; discriminate.
Qed.
Print Assumptions retry_sticks_refuted.

(** With solver and scaling spelt out, no retry and no change of model on prepared data, what was
    done before does not matter: a fit gives what a first fit with these options would, or the model
    is trained already by such a fit. *)
Theorem history_independent_partial :
  forall (C W : Type) (solve : call -> W -> da_status * C) (lambda' : call -> Q)
         (ops : list (op W)) (st : W) (t : table),
  never_retries solve ->
  no_switch W false Kundef ops -> last_data W None ops = Some t ->
  explicit (asked W opts0 ops) ->
  let h := run C W solve lambda' ops in
  let u := asked W opts0 ops in
  let k := last_kind W Kundef ops in
  let r := fit C W solve lambda' st h in
  if h_trained C h
  then r = (st_success, h, []) /\
       exists w calls, In w (fits_of W ops) /\
         documented C W solve u t k w st_success (h_coef C h) calls
  else documented C W solve u t k st (fst (fst r))
         (if is_success (fst (fst r)) then h_coef C (snd (fst r)) else None) (snd r).
Proof. intros. apply history_explicit; assumption. Qed.
Print Assumptions history_independent_partial.

(** The hypotheses hold of a program that refits with new data, a new penalty and a new model. *)
Example history_hypotheses :
  let ops := [Oset (set_meth Mlbfgs); Oset (set_scal Sstd); Odefine tall; Oselect Kmse; Ofit tt;
              Odefine wide; Ofit tt; Oset (set_lambda 1); Oselect Klogistic; Ofit tt; Odefine tall] in
  never_retries works /\ no_switch unit false Kundef ops /\
  last_data unit None ops = Some tall /\ explicit (asked unit opts0 ops) /\
  fst (fst (fit unit unit works code_lambda tt (run unit unit works code_lambda ops)))
    = st_success.
Proof.
  split; [intros c st _; discriminate|].
  split; [simpl; repeat (split; try discriminate; try reflexivity)|].
  split; [reflexivity|]. split; [split; discriminate|]. vm_compute. reflexivity.
Qed.

(** ** C135 *)

(** Whatever the options and whether or not it retries, every solver call of a fit is made on the
    data defined last, with the alpha, lambda and intercept set last, X and y being scaled once and
    alike, unless the model was switched after a fit without new data or a new option. *)
Theorem solver_sees_the_data_partial :
  forall (C W : Type) (solve : call -> W -> da_status * C) (lambda' : call -> Q)
         (ops : list (op W)) (st : W) (t : table) (c : call),
  no_switch W false Kundef ops -> last_data W None ops = Some t ->
  In c (snd (fit C W solve lambda' st (run C W solve lambda' ops))) ->
  faithful (asked W opts0 ops) t (last_kind W Kundef ops) c.
Proof.
  intros C W solve lambda' ops st t c NS D Hc.
  destruct (h_trained C (run C W solve lambda' ops)) eqn:ET.
  - exfalso. revert Hc. unfold fit. destruct (h_data C _); [rewrite ET|]; simpl; tauto.
  - destruct (history_documented C W solve lambda' ops st t NS D ET) as (HD&A1&A2&A3).
    assert (FF := Hc). eapply (documented_calls C W solve lambda') in FF; [|exact HD]. destruct FF as (F1&F2&F3&F4&F5&F6).
    unfold faithful. rewrite <- A1, <- A2, <- A3. auto 10.
Qed.
Print Assumptions solver_sees_the_data_partial.

(** A retried fit, and a program that does it. *)
Example retried_calls :
  let ops := [Oset (set_icept true); Oset (set_lambda 3); Odefine tall; Oselect Kmse] in
  no_switch unit false Kundef ops /\
  map c_meth (snd (fit unit unit one_singular code_lambda tt
                     (run unit unit one_singular code_lambda ops))) = [Mchol; Msvd] /\
  map c_scal (snd (fit unit unit one_singular code_lambda tt
                     (run unit unit one_singular code_lambda ops))) = [Snone; Scentre] /\
  map c_lambda (snd (fit unit unit one_singular code_lambda tt
                     (run unit unit one_singular code_lambda ops))) = [3%Q; 3%Q].
Proof. split; [simpl; repeat (split; try discriminate; try reflexivity)|]. vm_compute. auto. Qed.

(** A linear regression with standardised data, then a logistic one on the same handle: the
    logistic solver is given the standardised copies of X and y (the class labels). *)
Theorem model_switch_refuted :
  let ops := [Oset (set_meth Mlbfgs); Oset (set_scal Sstd); Odefine tall; Oselect Kmse; Ofit tt;
              Oselect Klogistic] in
  exists c, snd (fit unit unit works code_lambda tt
                   (run unit unit works code_lambda ops)) = [c] /\
            c_kind c = Klogistic /\ v_x (c_view c) = Sstd /\ v_y (c_view c) = Sstd /\
            ~ prepared c.
Proof.
  intros ops. eexists. split; [vm_compute; reflexivity|].
  split; [reflexivity|]. split; [reflexivity|]. split; [reflexivity|].
  intros P. pose proof (p_x _ P) as X. simpl in X. discriminate X.
Qed.
Print Assumptions model_switch_refuted.

(** ** C136 *)

(** The weight of the penalty in the loss that da_linmod_evaluate_model reports. *)
Definition weights_after (ss : list setting) (t : table) : Q * Q :=
  loss_weights unit (snd (fst (fit unit unit works code_lambda tt
    (run unit unit works code_lambda (map Oset ss ++ [Odefine t; Oselect Kmse]))))).

(** Two ridge models of the same data that differ in the solver only: one loss weighs the penalty
    with lambda, the other with lambda over the number of samples. *)
Theorem reported_loss_refuted :
  ((snd (weights_after [set_meth Mchol; set_lambda 4] tall) == 2) /\
   (snd (weights_after [set_meth Mlbfgs; set_lambda 4] tall) == 2 # 10))%Q.
Proof. split; vm_compute; reflexivity. Qed.
Print Assumptions reported_loss_refuted.

(** Calling the solver leaves lambda as [rescale] does, which is lambda itself when it is zero, for
    logistic regression, and for the direct solvers on data that are not scaled. *)
Theorem lambda_kept_partial :
  forall (ysc : table -> Q) (c : call),
  (c_lambda c == 0)%Q \/ c_kind c <> Kmse \/
  ((c_scal c = Snone \/ c_scal c = Scentre) /\
   ((c_meth c <> Mcoord /\ c_meth c <> Mlbfgs) \/ ~ (c_alpha c == 0)%Q)) ->
  rescale ysc c = c_lambda c.
Proof.
  intros ysc c H. unfold rescale.
  destruct (c_kind c) eqn:Ek; try reflexivity.
  destruct (Qeq_bool (c_lambda c) 0) eqn:El; [reflexivity|].
  destruct H as [H|[H|[H1 H2]]]; [apply qzero_false in El; contradiction|congruence|].
  destruct (Qeq_bool (c_alpha c) 0) eqn:Ea.
  - destruct H2 as [[H2 H3]|H2]; [|apply Qeq_bool_iff in Ea; contradiction].
    destruct (c_meth c); try congruence; destruct H1 as [-> | ->]; reflexivity.
  - destruct H1 as [-> | ->]; reflexivity.
Qed.
Print Assumptions lambda_kept_partial.

Example lambda_kept_example :
  rescale (fun _ => 7%Q) (mkCall tall Kmse Mchol Scentre true 0 5 (raw tall false)) = 5%Q.
Proof. apply lambda_kept_partial. right. right. simpl. split; [auto|]. left. split; discriminate. Qed.
