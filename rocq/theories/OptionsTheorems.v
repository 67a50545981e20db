(** Properties C01-C05 and C45: the option registry. *)
From Coq Require Import ZArith List Bool Lia String.
From Flocq Require Import IEEE754.Binary IEEE754.Bits.
From Verif Require Import Base OptionsModel OptionsSpec OptionsProofs.
Import ListNotations.
Local Open Scope Z_scope.

(** A registry used in the examples: an integer in [0, 100), a double > 0, a categorical string. *)
Definition d_zero : binary64 := B754_zero 53 1024 false.
Definition d_one : binary64 := B754_finite 53 1024 false 4503599627370496 (-52) eq_refl.
Definition d_nan : binary64 := B754_nan 53 1024 false 2251799813685248 eq_refl.
Definition ex_labels : list (str * Z) := [(codes "auto", 0); (codes "brute force", 1)].
Definition ex_ops : list rop :=
  [ RRegister (codes "iteration limit") (OInt (mkNum 10 0 greaterequal 100 lessthan)) false;
    RRegister (codes "tolerance") (ODouble (mkNum d_one d_zero greaterthan d_zero p_inf)) false;
    RRegister (codes "method") (OStr (mkStr (codes "auto") ex_labels true)) false;
    RSet (codes "iteration limit") (VInt 42) ].
Definition ex_reg : registry :=
  match rrun empty_registry ex_ops with Some r => r | None => empty_registry end.

Example ex_reg_case :
  rrun empty_registry ex_ops = Some ex_reg /\ Forall wf_op ex_ops /\
  reg_get ex_reg (codes " Iteration   LIMIT ") TInt = (st_success, Some (VInt 42)).
Proof.
  split; [vm_compute; reflexivity|]. split; [|vm_compute; reflexivity].
  repeat constructor; vm_compute; reflexivity.
Qed.

(** C01: a successful set is read back, and keeps being read back until the option is set again
    or replaced. *)
Theorem set_option_is_read_back :
  forall r n v r1 ops r2,
    tidy_registry r -> reg_set r n v = (st_success, r1) ->
    Forall (unrelated n) ops -> rrun r1 ops = Some r2 ->
    exists v', stored_as v v' /\ reg_get r2 n (type_of_val v) = (st_success, Some v').
Proof. exact set_then_history_lemma. Qed.
Print Assumptions set_option_is_read_back.

(** C01: no other option is affected. *)
Theorem set_option_frame :
  forall r n v st r' n2 t,
    tidy_registry r -> reg_set r n v = (st, r') -> ~ same_name n2 n ->
    reg_get r' n2 t = reg_get r n2 t.
Proof. exact set_frame_lemma. Qed.
Print Assumptions set_option_frame.

(** C01: a refused set leaves the whole registry as it was. *)
Theorem refused_set_changes_nothing :
  forall r n v st r', reg_set r n v = (st, r') -> st <> st_success -> r' = r.
Proof. exact set_fail_lemma. Qed.
Print Assumptions refused_set_changes_nothing.

Example set_cases :
  fst (reg_set ex_reg (codes "Iteration Limit") (VInt 7)) = st_success /\
  fst (reg_set ex_reg (codes "Iteration Limit") (VInt 100)) = st_option_invalid_value /\
  fst (reg_set ex_reg (codes "Iteration Limit") (VBool true)) = st_option_wrong_type /\
  fst (reg_set ex_reg (codes "limit") (VInt 7)) = st_option_not_found /\
  reg_get_id (snd (reg_set ex_reg (codes "method") (VStr (codes "Brute  Force"))))
             (codes "METHOD") = GValue (codes "brute force") 1.
Proof. vm_compute. repeat split; reflexivity. Qed.

(** C02 (partial: the value passed to a floating point setter is assumed not to be NaN; see the
    refutation below): every option always holds a value of its declared domain. *)
Theorem option_values_in_domain_partial :
  forall ops r, Forall wf_op ops -> rrun empty_registry ops = Some r ->
    forall k o, In (k, o) (entries r) -> in_domain o.
Proof. exact domain_lemma. Qed.
Print Assumptions option_values_in_domain_partial.

(** C02 for integer options: a value outside the domain is refused. *)
Theorem out_of_domain_integer_refused :
  forall r n k o v, readonly r = false -> resolve r n = Some (k, OInt o) ->
    ~ within zcmp (n_lower o) (n_lbound o) (n_upper o) (n_ubound o) v ->
    reg_set r n (VInt v) = (st_option_invalid_value, r).
Proof. exact refused_int_lemma. Qed.
Print Assumptions out_of_domain_integer_refused.

(** C02 is false of the code for NaN: setting the bounded option "tolerance" to NaN succeeds, and
    the option then holds a value outside its domain. *)
Theorem nan_option_value_refuted :
  exists ops r n r', Forall wf_op ops /\ rrun empty_registry ops = Some r /\
    reg_set r n (VDouble d_nan) = (st_success, r') /\
    exists k o, In (k, o) (entries r') /\ ~ in_domain o.
Proof.
  exists ex_ops, ex_reg, (codes "tolerance"), (snd (reg_set ex_reg (codes "tolerance") (VDouble d_nan))).
  destruct ex_reg_case as (A & B & _). split; auto. split; auto.
  split; [vm_compute; reflexivity|].
  exists (codes "tolerance"), (ODouble (mkNum d_nan d_zero greaterthan d_zero p_inf)).
  split; [vm_compute; auto|]. intros [H _]. vm_compute in H. discriminate.
Qed.
Print Assumptions nan_option_value_refuted.

(** C03: normalisation identifies exactly the spellings of a name, and spellings of the same name
    designate the same option. *)
Theorem normalisation_identifies_spellings :
  forall a b, prep_str a = prep_str b <-> same_name a b.
Proof. exact prep_str_same. Qed.
Print Assumptions normalisation_identifies_spellings.

Theorem normalisation_idempotent : forall s, prep_str (prep_str s) = prep_str s.
Proof. exact prep_str_idem. Qed.
Print Assumptions normalisation_idempotent.

Theorem spelling_is_irrelevant :
  forall r a b, tidy_registry r -> same_name a b ->
    (forall v, reg_set r a v = reg_set r b v) /\
    (forall t, reg_get r a t = reg_get r b t) /\ reg_get_id r a = reg_get_id r b.
Proof. exact spelling_lemma. Qed.
Print Assumptions spelling_is_irrelevant.

Example spelling_case :
  same_name (codes "  Iteration LIMIT ") (codes "iteration    limit") /\
  prep_str (codes "  Iteration   LIMIT ") = codes "iteration limit" /\ tidy_registry ex_reg.
Proof.
  split; [reflexivity|]. split; [reflexivity|].
  unfold tidy_registry, tidy. repeat constructor.
Qed.

(** C04 *)
Theorem locked_registry_refuses :
  forall r op, readonly r = true -> is_unlock op = false ->
    exists st, rstep r op = Some (st, r) /\
      match op with RRegister _ _ _ | RSet _ _ => st = st_option_locked | _ => st = st_success end.
Proof. exact locked_step. Qed.
Print Assumptions locked_registry_refuses.

Theorem locked_registry_unchanged :
  forall ops r, readonly r = true -> existsb is_unlock ops = false -> rrun r ops = Some r.
Proof. exact locked_lemma. Qed.
Print Assumptions locked_registry_unchanged.

Example locked_case :
  exists r, rrun empty_registry (ex_ops ++ [RLock; RSet (codes "iteration limit") (VInt 1)]) = Some r
    /\ reg_get r (codes "iteration limit") TInt = (st_success, Some (VInt 42)) /\
    exists r2, rrun r [RUnlock; RSet (codes "iteration limit") (VInt 1)] = Some r2 /\
      reg_get r2 (codes "iteration limit") TInt = (st_success, Some (VInt 1)).
Proof.
  eexists. split; [vm_compute; reflexivity|]. split; [vm_compute; reflexivity|].
  eexists. split; vm_compute; reflexivity.
Qed.

(** C05: reading a string option together with its label id never fails on a value which is not a
    label, and returns the id declared for the value. *)
Theorem categorical_value_is_label :
  forall ops r n, Forall wf_op ops -> rrun empty_registry ops = Some r ->
    match reg_get_id r n with
    | GThrow => False
    | GValue s id => forall k o, resolve r n = Some (k, OStr o) -> s_value o = s /\
         ((s_labels o = [] /\ id = -1) \/ In (s, id) (s_labels o))
    | GStatus st => st = st_option_not_found \/ st = st_option_wrong_type
    end.
Proof. exact get_id_lemma. Qed.
Print Assumptions categorical_value_is_label.

(** C45: the caller's string buffer. *)
Theorem string_option_buffer_partial :
  forall r n lvalue, 0 <= lvalue < 2 ^ 63 ->
    match options_get_string r n lvalue with
    | BufWrite bytes =>
        Z.of_nat (List.length bytes) <= lvalue /\
        exists s, reg_get r n TString = (st_success, Some (VStr s)) /\ bytes = s ++ [0]
    | BufTooSmall needed =>
        lvalue < needed /\
        exists s, reg_get r n TString = (st_success, Some (VStr s)) /\
          needed = Z.of_nat (List.length s) + 1 /\
          (needed < 2 ^ 63 -> options_get_string r n needed = BufWrite (s ++ [0]))
    | BufStatus st => fst (reg_get r n TString) = st /\ st <> st_success
    end.
Proof. exact string_buffer_lemma. Qed.
Print Assumptions string_option_buffer_partial.

Example string_buffer_case :
  options_get_string ex_reg (codes "method") 4 = BufTooSmall 5 /\
  options_get_string ex_reg (codes "method") 5 = BufWrite (codes "auto" ++ [0]).
Proof. vm_compute. auto. Qed.

(** C45 is false for negative lengths: the length is converted to an unsigned type before the
    comparison, and the value is copied to a buffer declared to have no room. *)
Theorem string_buffer_negative_length_refuted :
  exists r n lvalue bytes, lvalue < 0 /\ options_get_string r n lvalue = BufWrite bytes.
Proof.
  exists ex_reg, (codes "method"), (-1), (codes "auto" ++ [0]). split; [lia|vm_compute; reflexivity].
Qed.
Print Assumptions string_buffer_negative_length_refuted.
