(** Properties C06 and C07: the error trace. *)
From Coq Require Import ZArith List Bool String.
From Verif Require Import Base ErrorModel ErrorSpec ErrorProofs.
Import ListNotations.

(** C06: whatever the history, at most ten entries are kept; the caller reads the status, message
    and severity of the first error recorded since the last reset; the first nine entries are kept
    as recorded. *)
Theorem error_trace_keeps_first_cause :
  forall ops, let t := erun ops in let l := since_reset [] ops in
    (List.length (status t) <= 10)%nat /\
    (forall st m sv rest, l = (st, m, sv) :: rest ->
       get_status t = st /\ get_mesg t = m /\ get_severity t = sv) /\
    (l = [] -> get_status t = st_success /\ get_mesg t = [] /\ get_severity t = DA_NOTSET) /\
    (forall i, (i < 9)%nat -> nth_error (entries_of t) i = nth_error l i).
Proof. exact trace_lemma. Qed.
Print Assumptions error_trace_keeps_first_cause.

(** C06: recording returns the status it was given. *)
Theorem recording_returns_status :
  forall t st m d te sv k, fst (rec t st m d te sv k) = st.
Proof. exact rec_returns_lemma. Qed.
Print Assumptions recording_returns_status.

(** C06: printing the trace never indexes outside one of the parallel vectors and prints one line
    per kept entry. *)
Theorem printing_trace_in_bounds :
  forall ops, exists rows, print (erun ops) = Some rows /\
    List.length rows = Nat.min 10 (List.length (since_reset [] ops)).
Proof. exact print_lemma. Qed.
Print Assumptions printing_trace_in_bounds.

Definition ex_err (k : bool) (s : string) : eop :=
  ERec st_invalid_input (codes s) [] [] DA_ERROR k.

Example error_trace_case :
  let ops := ex_err false "old" :: ex_err false "cause" :: repeat (ex_err true "up") 14 in
  get_mesg (erun ops) = codes "cause" /\ List.length (status (erun ops)) = 10%nat.
Proof. vm_compute. auto. Qed.

(** C07 (partial): the message is well defined when an error was recorded since the last reset.
    Missing: the case where none was. *)
Theorem error_message_partial :
  forall ops,
    match since_reset [] ops with
    | (_, m, _) :: _ => get_mesg_char (erun ops) = Some (m ++ [0%Z])
    | [] => get_mesg_char (erun ops) = None
    end.
Proof. exact message_lemma. Qed.
Print Assumptions error_message_partial.

(** C07 is false: on a fresh handle, or after a call which cleared the trace and succeeded, the
    front of an empty vector is accessed. *)
Theorem error_message_without_error_refuted :
  exists ops, get_mesg_char (erun ops) = None.
Proof. exists [ex_err false "first"; EClear]. reflexivity. Qed.
Print Assumptions error_message_without_error_refuted.
