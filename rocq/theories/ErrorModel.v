(** Model of the error trace (source/core/utilities/da_error.hpp).
    The five parallel vectors of [da_error_t] are kept separate, as in the code.  The action is
    [DA_RECORD] (what da_handle_init and da_datastore_init use), so nothing is thrown. *)
From Coq Require Import ZArith List Bool String.
From Verif Require Import Base.
Import ListNotations.

Inductive severity := DA_NOTSET | DA_WARNING | DA_ERROR.

(** da_error.hpp:161-175 *)
Record trace := mkTrace {
  mesg : list str; details : list str; telem : list str;
  sev : list severity; status : list da_status }.

Definition empty_trace : trace := mkTrace [] [] [] [] [].

(** da_error.hpp:150 *)
Definition stack_size : nat := 10.

(** da_error.hpp:207-214 *)
Definition clear (t : trace) : trace := empty_trace.

(** Text of the overflow entry, da_error.hpp:286-288 (contents irrelevant). *)
Definition too_many : str := codes "Too many errors were registered, storing the first 10"%string.

(** da_error.hpp:266-303; [tel] stands for the telemetry text with the line number appended. *)
Definition rec (t : trace) (st : da_status) (msg det tel : str) (sv : severity) (stack : bool)
  : da_status * trace :=
  let t := if stack then t else mkTrace [] [] [] [] [] in
  let size := List.length (status t) in
  let t :=
    if Nat.ltb size (stack_size - 1) then
      mkTrace (mesg t ++ [msg]) (details t ++ [det]) (telem t ++ [tel]) (sev t ++ [sv])
              (status t ++ [st])
    else if Nat.eqb size (stack_size - 1) then
      mkTrace (mesg t ++ [too_many]) (details t ++ [[]]) (telem t ++ [[]]) (sev t ++ [DA_ERROR])
              (status t ++ [st_internal_error])
    else t in
  (st, t).

(** da_error.hpp:178-188 *)
Definition get_severity (t : trace) : severity := match sev t with [] => DA_NOTSET | x :: _ => x end.
Definition get_status (t : trace) : da_status := match status t with [] => st_success | x :: _ => x end.
Definition get_mesg (t : trace) : str := match mesg t with [] => [] | x :: _ => x end.

(** da_error.hpp:190-205: [mesg.front()] without a test; [None] is the undefined access to the
    front of an empty vector. *)
Definition get_mesg_char (t : trace) : option str :=
  match mesg t with [] => None | x :: _ => Some (x ++ [0%Z]) end.

(** da_error.hpp:226-252 ([print]): the loop runs over the messages and indexes the four other
    vectors; [None] marks an index outside a vector. *)
Fixpoint print_rows (n i : nat) (t : trace)
  : option (list (severity * da_status * str * str * str)) :=
  match n with
  | O => Some []
  | S n' =>
      match nth_error (sev t) i, nth_error (status t) i, nth_error (telem t) i,
            nth_error (mesg t) i, nth_error (details t) i with
      | Some a, Some b, Some c, Some d, Some e =>
          match print_rows n' (S i) t with
          | Some r => Some ((a, b, c, d, e) :: r)
          | None => None
          end
      | _, _, _, _, _ => None
      end
  end.
Definition print (t : trace) : option (list (severity * da_status * str * str * str)) :=
  match status t with [] => Some [] | _ => print_rows (List.length (mesg t)) 0 t end.

(** Recording calls: [da_error], [da_warn] (no stacking), [da_error_trace], [da_warn_trace]
    (stacking), da_error.hpp:321-336; and [clear]. *)
Inductive eop := ERec (st : da_status) (msg det tel : str) (sv : severity) (stack : bool) | EClear.

Definition estep (t : trace) (o : eop) : trace :=
  match o with
  | ERec st m d te sv k => snd (rec t st m d te sv k)
  | EClear => clear t
  end.
Definition erun (ops : list eop) : trace := fold_left estep ops empty_trace.
