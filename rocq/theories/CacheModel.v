(** Model of the kernel column cache (source/core/utilities/da_cache.hpp) and of its use by the SVM
    solver (source/core/svm/base_svm.cpp:559-650, svm/nu_svm.cpp:405-475).

    A column ([len_] values) is one value of an abstract type [C].  [data_] is a memory of columns
    indexed by slot: the pointer [&data_[s * len_]] is the slot [s].  A list iterator is the
    identity of its node ([nid]); nodes get fresh identities.  The unordered map is an association
    list with unique keys.  Allocation does not fail; [set_size] is called once, when the cache is
    created, as base_svm.cpp:140,252 does. *)
From Coq Require Import ZArith List Bool.
From Verif Require Import Base.
Import ListNotations.

Record node := mkNode { nid : nat; nkey : Z; nslot : nat }.

Section Cache.
  Variable C : Type.

  (** da_cache.hpp:47-69 *)
  Record cache := mkCache {
    cap : nat;
    items : list node;            (* front = most recently used *)
    index : list (Z * nat);       (* cache_: key -> iterator *)
    data : nat -> option C;       (* data_: contents of the slots *)
    nfree : nat; fidx : nat;
    nxt : nat }.                  (* next fresh node identity *)

  (** da_cache.hpp:165-180 *)
  Definition set_size (capacity : nat) : cache :=
    mkCache capacity [] [] (fun _ => None) capacity 0 0.

  Fixpoint zassoc {A} (k : Z) (l : list (Z * A)) : option A :=
    match l with
    | [] => None
    | (k', v) :: r => if Z.eqb k k' then Some v else zassoc k r
    end.
  Fixpoint zremove {A} (k : Z) (l : list (Z * A)) : list (Z * A) :=
    match l with
    | [] => []
    | (k', v) :: r => if Z.eqb k k' then zremove k r else (k', v) :: zremove k r
    end.

  Fixpoint find_node (id : nat) (l : list node) : option node :=
    match l with
    | [] => None
    | x :: r => if Nat.eqb (nid x) id then Some x else find_node id r
    end.
  Fixpoint unlink (id : nat) (l : list node) : list node :=
    match l with
    | [] => []
    | x :: r => if Nat.eqb (nid x) id then r else x :: unlink id r
    end.

  (** da_cache.hpp:89-98.  [Dangling]: the map holds an iterator to a node no longer in the list. *)
  Inductive lookup := Miss | Hit (slot : nat) (c : cache) | Dangling.
  Definition get (k : Z) (c : cache) : lookup :=
    match zassoc k (index c) with
    | None => Miss
    | Some id =>
        match find_node id (items c) with
        | None => Dangling
        | Some x => Hit (nslot x)
                        (mkCache (cap c) (x :: unlink id (items c)) (index c) (data c)
                                 (nfree c) (fidx c) (nxt c))
        end
    end.

  (** da_cache.hpp:106-127, part 1 of [put]: free slots first, then the slots of the least
      recently used items.  The two loops are one recursion: [nfree] only decreases. *)
  Fixpoint take (n : nat) (c : cache) : list nat * cache :=
    match n with
    | O => ([], c)
    | S n' =>
        match nfree c with
        | S f =>
            let '(l, c') := take n' (mkCache (cap c) (items c) (index c) (data c) f
                                             (S (fidx c)) (nxt c)) in
            (fidx c :: l, c')
        | O =>
            match rev (items c) with
            | [] => ([], c)
            | x :: r =>
                let '(l, c') := take n' (mkCache (cap c) (rev r) (zremove (nkey x) (index c))
                                                 (data c) (nfree c) (fidx c) (nxt c)) in
                (nslot x :: l, c')
            end
        end
    end.

  Definition upd (f : nat -> option C) (s : nat) (v : C) : nat -> option C :=
    fun s' => if Nat.eqb s' s then Some v else f s'.
  Definition write (s : nat) (v : C) (c : cache) : cache :=
    mkCache (cap c) (items c) (index c) (upd (data c) s v) (nfree c) (fidx c) (nxt c).

  (** da_cache.hpp:133-144, part 2: copy column [i] to the slot [i] *)
  Fixpoint copy_cols (slots : list nat) (cols : list C) (c : cache) : cache :=
    match slots, cols with
    | s :: sl, v :: vl => copy_cols sl vl (write s v c)
    | _, _ => c
    end.

  (** da_cache.hpp:151-155, part 3 *)
  Fixpoint link (keys : list Z) (slots : list nat) (c : cache) : cache :=
    match keys, slots with
    | k :: kl, s :: sl =>
        link kl sl (mkCache (cap c) (mkNode (nxt c) k s :: items c)
                            ((k, nxt c) :: zremove k (index c)) (data c)
                            (nfree c) (fidx c) (S (nxt c)))
    | _, _ => c
    end.

  (** da_cache.hpp:106-158; [cols] is [None] for a null data pointer *)
  Definition put (keys : list Z) (cols : option (list C)) (c : cache) : da_status * cache :=
    let '(slots, c) := take (Nat.min (length keys) (cap c)) c in
    match cols with
    | None => match slots with
              | [] => (st_success, c)
              | _ => (st_invalid_pointer, c)
              end
    | Some cols => (st_success, link keys slots (copy_cols slots cols c))
    end.

  (** Histories *)
  Inductive cop := Get (k : Z) | Put (keys : list Z) (cols : option (list C)).
  Definition step (c : cache) (o : cop) : option cache :=
    match o with
    | Get k => match get k c with Miss => Some c | Hit _ c' => Some c' | Dangling => None end
    | Put ks cols => Some (snd (put ks cols c))
    end.
  Fixpoint run (c : cache) (l : list cop) : option cache :=
    match l with
    | [] => Some c
    | o :: r => match step c o with Some c' => run c' r | None => None end
    end.

  (** What a program sees of a lookup: the column at the returned pointer *)
  Definition seen (k : Z) (c : cache) : option C :=
    match get k c with Hit s _ => data c s | _ => None end.

  (** Concurrent [put]s (nu_svm.cpp:405-475): parts 1 and 3 run under the lock, the copies of part
      2 without it.  [pending] lists the threads between part 1 and part 3 with their slots. *)
  Record cstate := mkCS { shared : cache; pending : list (nat * (list Z * list nat)) }.
  Inductive tstep := TTake (t : nat) (keys : list Z) | TWrite (t : nat) (i : nat) (v : C)
                   | TLink (t : nat).
  Fixpoint of_thread (t : nat) (l : list (nat * (list Z * list nat))) : option (list Z * list nat) :=
    match l with
    | [] => None
    | (t', x) :: r => if Nat.eqb t t' then Some x else of_thread t r
    end.
  Fixpoint drop_thread (t : nat) (l : list (nat * (list Z * list nat)))
    : list (nat * (list Z * list nat)) :=
    match l with
    | [] => []
    | (t', x) :: r => if Nat.eqb t t' then r else (t', x) :: drop_thread t r
    end.
  (** Steps that a thread cannot take (a second [put] before the first one ended, ...) do nothing *)
  Definition tnext (s : cstate) (o : tstep) : cstate :=
    match o with
    | TTake t keys =>
        match of_thread t (pending s) with
        | Some _ => s
        | None =>
            let '(slots, c) := take (Nat.min (length keys) (cap (shared s))) (shared s) in
            mkCS c ((t, (keys, slots)) :: pending s)
        end
    | TWrite t i v =>
        match of_thread t (pending s) with
        | Some (_, slots) => match nth_error slots i with
                             | Some sl => mkCS (write sl v (shared s)) (pending s)
                             | None => s
                             end
        | None => s
        end
    | TLink t =>
        match of_thread t (pending s) with
        | Some (keys, slots) => mkCS (link keys slots (shared s)) (drop_thread t (pending s))
        | None => s
        end
    end.
  Definition trun (s : cstate) (l : list tstep) : cstate := fold_left tnext l s.

  (** Kernel columns (base_svm.cpp:559-650).  [K k] is the column computed by the kernel function
      for sample [k]; [n] the number of samples.  A result pointer designates a column of the
      temporary matrix or a slot of the cache. *)
  Variable K : Z -> C.
  Inductive ptr := PTemp (col : nat) | PCache (slot : nat).
  Definition deref (temp : nat -> option C) (c : cache) (p : ptr) : option C :=
    match p with PTemp j => temp j | PCache s => data c s end.

  (** base_svm.cpp:573-599: [rhs] is [rhs_kernel_matrix], [i] the position; collects the pointers
      already known and the positions to compute.  [None] = dangling iterator. *)
  Record scan_state := mkScan {
    sc_cache : cache; sc_temp : nat -> option C; sc_rhs : nat;
    sc_known : list (nat * ptr); sc_todo : list nat }.
  Definition scan_step (active smaller : bool) (n : Z) (s : scan_state) (i : nat) (ix : Z)
    : option scan_state :=
    let todo := Some (mkScan (sc_cache s) (sc_temp s) (sc_rhs s) (sc_known s) (sc_todo s ++ [i])) in
    if negb active then todo
    else
      match get (ix mod n)%Z (sc_cache s) with
      | Dangling => None
      | Miss => todo
      | Hit slot c' =>
          if smaller then
            match data c' slot with
            | None => None          (* uninitialised column *)
            | Some v =>
                Some (mkScan c' (upd (sc_temp s) (sc_rhs s - 1) v) (sc_rhs s - 1)
                             (sc_known s ++ [(i, PTemp (sc_rhs s - 1))]) (sc_todo s))
            end
          else Some (mkScan c' (sc_temp s) (sc_rhs s) (sc_known s ++ [(i, PCache slot)]) (sc_todo s))
      end.
  Fixpoint scan (active smaller : bool) (n : Z) (s : scan_state) (i : nat) (idx : list Z)
    : option scan_state :=
    match idx with
    | [] => Some s
    | ix :: r => match scan_step active smaller n s i ix with
                 | Some s' => scan active smaller n s' (S i) r
                 | None => None
                 end
    end.

  (** base_svm.cpp:601-648 *)
  Fixpoint fill (keys : list Z) (j : nat) (temp : nat -> option C) : nat -> option C :=
    match keys with
    | [] => temp
    | k :: r => fill r (S j) (upd temp j (K k))
    end.
  Fixpoint pair_temp (todo : list nat) (j : nat) : list (nat * ptr) :=
    match todo with
    | [] => []
    | i :: r => (i, PTemp j) :: pair_temp r (S j)
    end.
  Definition kernel_compute (active smaller : bool) (n : Z) (idx : list Z) (c : cache)
             (temp : nat -> option C)
    : option (cache * (nat -> option C) * list (nat * ptr)) :=
    match scan active smaller n (mkScan c temp (length idx) [] []) 0 idx with
    | None => None
    | Some s =>
        let keys := map (fun i => (nth i idx 0 mod n)%Z) (sc_todo s) in
        let temp := fill keys 0 (sc_temp s) in
        let c := match keys with
                 | [] => sc_cache s
                 | _ => if active then snd (put keys (Some (map K keys)) (sc_cache s))
                        else sc_cache s
                 end in
        Some (c, temp, sc_known s ++ pair_temp (sc_todo s) 0)
    end.
End Cache.
Arguments mkCache {C}. Arguments cap {C}. Arguments items {C}. Arguments index {C}.
Arguments data {C}. Arguments nfree {C}. Arguments fidx {C}. Arguments nxt {C}.
Arguments Miss {C}. Arguments Hit {C}. Arguments Dangling {C}. Arguments get {C}.
Arguments take {C}. Arguments upd {C}. Arguments write {C}. Arguments copy_cols {C}.
Arguments link {C}. Arguments put {C}. Arguments Get {C}. Arguments Put {C}.
Arguments step {C}. Arguments run {C}. Arguments seen {C}.
Arguments mkCS {C}. Arguments shared {C}. Arguments pending {C}.
Arguments TTake {C}. Arguments TWrite {C}. Arguments TLink {C}. Arguments tnext {C}.
Arguments trun {C}. Arguments deref {C}.
Arguments mkScan {C}. Arguments sc_cache {C}. Arguments sc_temp {C}. Arguments sc_rhs {C}.
Arguments sc_known {C}. Arguments sc_todo {C}. Arguments scan_step {C}. Arguments scan {C}.
Arguments fill {C}. Arguments kernel_compute {C}.
