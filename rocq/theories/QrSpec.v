(** What the blocked QR factorisation relies on. *)
From Coq Require Import ZArith List Bool.
From Verif Require Import Base Par UtilModel QrModel.
Import ListNotations.
Local Open Scope Z_scope.

(** Every row block is at least as tall as wide, its tau fits in the array and overlaps no other
    block's, and the triangle saved from the block consists of rows of that block. *)
Definition qr_sound (m n k bs final : Z) : Prop :=
  forall i, 0 <= i < k ->
    let len := if i =? k - 1 then final else bs in
    n <= len /\ i * bs + len <= m /\
    0 <= fst (qr_tau_range k bs final n i) /\
    snd (qr_tau_range k bs final n i) <= qr_tau_size k bs final n /\
    (forall i', 0 <= i' < k -> i' <> i ->
       snd (qr_tau_range k bs final n i) <= fst (qr_tau_range k bs final n i') \/
       snd (qr_tau_range k bs final n i') <= fst (qr_tau_range k bs final n i)) /\
    (forall r r' c, In (r, r', c) (qr_copies bs n i) ->
       i * bs <= r < i * bs + len /\ 0 <= r' < k * n /\ 0 <= c < n).
