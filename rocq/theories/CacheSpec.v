(** Reference least-recently-used cache: a list of (key, column), most recent first. *)
From Coq Require Import ZArith List Bool.
From Verif Require Import Base CacheModel.
Import ListNotations.

Section Spec.
  Variable C : Type.
  Definition lru := list (Z * C).

  Fixpoint lru_find (k : Z) (l : lru) : option C :=
    match l with
    | [] => None
    | (k', v) :: r => if Z.eqb k k' then Some v else lru_find k r
    end.
  (** Using a key makes it the most recent. *)
  Definition lru_use (k : Z) (l : lru) : lru :=
    match lru_find k l with
    | Some v => (k, v) :: filter (fun e => negb (Z.eqb (fst e) k)) l
    | None => l
    end.
  (** Storing columns: each becomes the most recent; only [n] are kept. *)
  Definition lru_store (n : nat) (kv : list (Z * C)) (l : lru) : lru :=
    firstn n (rev (firstn n kv) ++ l).

  Definition lru_step (n : nat) (l : lru) (o : cop C) : lru :=
    match o with
    | Get k => lru_use k l
    | Put ks (Some cols) => lru_store n (combine ks cols) l
    | Put _ None => l
    end.
  Definition lru_run (n : nat) (l : lru) (h : list (cop C)) : lru := fold_left (lru_step n) h l.

  (** A history that only stores columns for keys that are not cached, without repetition. *)
  Fixpoint fresh_puts (n : nat) (l : lru) (h : list (cop C)) : Prop :=
    match h with
    | [] => True
    | o :: r =>
        match o with
        | Get _ => True
        | Put ks (Some cols) =>
            length ks = length cols /\ NoDup ks /\ (forall k, In k ks -> lru_find k l = None)
        | Put _ None => False
        end /\ fresh_puts n (lru_step n l o) r
    end.

  (** The successful call of put that mentions [k] last, among calls listed oldest first. *)
  Fixpoint last_put (k : Z) (h : list (cop C)) : option (list (Z * C)) :=
    match h with
    | [] => None
    | o :: r =>
        match last_put k r with
        | Some x => Some x
        | None =>
            match o with
            | Put ks (Some cols) => if existsb (Z.eqb k) ks then Some (combine ks cols) else None
            | _ => None
            end
        end
    end.

  (** Every call of put passes one column per key. *)
  Definition sized (o : cop C) : Prop :=
    match o with Put ks (Some cols) => length ks = length cols | _ => True end.

  Definition succeeding (o : cop C) : Prop :=
    match o with Put _ None => False | _ => True end.
End Spec.
Arguments lru_find {C}. Arguments lru_use {C}. Arguments lru_store {C}. Arguments lru_step {C}.
Arguments lru_run {C}. Arguments fresh_puts {C}. Arguments last_put {C}. Arguments sized {C}.
Arguments succeeding {C}.

(** Caches the SVM solver can hold: created with capacity [n], then used by kernel computations on
    at most [ws] indices (base_svm.cpp:559-650, flags of base_svm.cpp:219-222 and
    da_cache.hpp:168) and by insertions of computed columns (nu_svm.cpp:473). *)
Definition is_active (n : nat) : bool := Nat.ltb 0 n.
Definition is_smaller (n ws : nat) : bool := Nat.ltb 0 n && Nat.ltb n ws.

Inductive svm_cache {C} (K : Z -> C) (N : Z) (n ws : nat) : cache C -> Prop :=
| sc_new : svm_cache K N n ws (set_size C n)
| sc_put c keys : svm_cache K N n ws c -> svm_cache K N n ws (snd (put keys (Some (map K keys)) c))
| sc_compute c idx temp c' temp' ptrs : svm_cache K N n ws c -> length idx <= ws ->
    kernel_compute K (is_active n) (is_smaller n ws) N idx c temp = Some (c', temp', ptrs) ->
    svm_cache K N n ws c'.
