(** Shared vocabulary: status codes, character strings. *)
From Coq Require Import ZArith List Bool Ascii String.
Import ListNotations.
Local Open Scope Z_scope.

(** source/include/aoclda_error.h:38-107 ([enum da_status_]); only the codes the models use. *)
Inductive da_status :=
| st_success | st_internal_error | st_memory_error | st_invalid_pointer | st_invalid_input
| st_not_implemented | st_out_of_date | st_wrong_type | st_overflow | st_invalid_handle_type
| st_handle_not_initialized | st_store_not_initialized | st_invalid_option
| st_incompatible_options | st_operation_failed | st_invalid_leading_dimension
| st_negative_data | st_invalid_array_dimension | st_unknown_query | st_incorrect_output
| st_no_data | st_maxit | st_maxtime | st_numerical_difficulties | st_io_error
| st_file_reading_error | st_parsing_error | st_missing_data
| st_option_not_found | st_option_locked | st_option_wrong_type | st_option_invalid_bounds
| st_option_invalid_value | st_missing_block | st_full_extraction
| st_serialization_error | st_invalid_file_data | st_version_mismatch.

Definition status_eq_dec : forall a b : da_status, {a = b} + {a <> b}.
Proof. decide equality. Defined.

Definition is_success (s : da_status) : bool :=
  match s with st_success => true | _ => false end.

(** Characters are their codes, strings are lists of codes. *)
Definition str := list Z.

Definition codes (s : string) : str :=
  map (fun a => Z.of_nat (nat_of_ascii a)) (list_ascii_of_string s).

Fixpoint str_eqb (a b : str) : bool :=
  match a, b with
  | [], [] => true
  | x :: a', y :: b' => (x =? y) && str_eqb a' b'
  | _, _ => false
  end.

Lemma str_eqb_eq a b : str_eqb a b = true <-> a = b.
Proof.
  revert b. induction a as [|x a IH]; intros [|y b]; simpl; try (split; congruence).
  rewrite andb_true_iff, Z.eqb_eq, IH. split; [intros [-> ->]|intros H; inversion H]; auto.
Qed.

Lemma str_eqb_refl a : str_eqb a a = true.
Proof. apply str_eqb_eq; reflexivity. Qed.

Lemma str_eqb_neq a b : str_eqb a b = false <-> a <> b.
Proof. rewrite <- str_eqb_eq. destruct (str_eqb a b); split; congruence. Qed.

(** C locale classification. *)
Definition is_space (c : Z) : bool := (c =? 32) || ((9 <=? c) && (c <=? 13)).
Definition is_digit (c : Z) : bool := (48 <=? c) && (c <=? 57).
Definition to_lower (c : Z) : Z := if (65 <=? c) && (c <=? 90) then c + 32 else c.
Definition to_upper (c : Z) : Z := if (97 <=? c) && (c <=? 122) then c - 32 else c.
