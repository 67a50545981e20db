(** Model of random shuffling (source/core/utilities/da_std.hpp:84-109 [shuffle], [sample];
    da_utils.cpp:278-532 [class_frequency_approximation], [stratified_shuffle],
    [get_shuffled_indices]).

    The random engine is an arbitrary function [draw]: [draw k b] is the value returned by the
    k-th call of a uniform distribution on 0..b.  Functions thread the number of calls made.
    [None] is an access outside an array.  Memory suffices.  The conversion of floating-point class
    labels to integers (da_utils.cpp:262-276) happens before: classes are integers here. *)
From Coq Require Import ZArith List Bool.
From Verif Require Import Base F64.
Import ListNotations.
Local Open Scope Z_scope.

Definition set_at {A} (l : list A) (i : nat) (x : A) : option (list A) :=
  if (i <? length l)%nat then Some (firstn i l ++ x :: skipn (S i) l) else None.

(** std::swap(first[i], first[j]) *)
Definition swap {A} (l : list A) (i j : nat) : option (list A) :=
  match nth_error l i, nth_error l j with
  | Some x, Some y =>
      match set_at l i y with
      | Some l' => set_at l' j x
      | None => None
      end
  | _, _ => None
  end.

Section Random.
  Variable draw : nat -> nat -> nat.

  (** da_std.hpp:84-90: for i = last - first - 1 down to 1 *)
  Fixpoint shuffle_loop {A} (i : nat) (l : list A) (k : nat) : option (list A * nat) :=
    match i with
    | O => Some (l, k)
    | S i' =>
        match swap l i (draw k i) with
        | Some l' => shuffle_loop i' l' (S k)
        | None => None
        end
    end.
  Definition shuffle {A} (l : list A) (k : nat) : option (list A * nat) :=
    shuffle_loop (length l - 1) l k.

  (** da_std.hpp:93-109: selection sampling *)
  Fixpoint sample_loop {A} (pop : list A) (n k : nat) : option (list A * nat) :=
    match n with
    | O => Some ([], k)
    | S n' =>
        match pop with
        | [] => None
        | x :: r =>
            if (draw k (length r) <? n)%nat
            then match sample_loop r n' (S k) with
                 | Some (out, k') => Some (x :: out, k')
                 | None => None
                 end
            else sample_loop r n (S k)
        end
    end.
  Definition sample {A} (pop : list A) (n k : nat) : option (list A * nat) :=
    sample_loop pop (Nat.min n (length pop)) k.

  (** da_utils.cpp:383-390: class_indices_map, a std::map ordered by class *)
  Fixpoint map_push (c i : Z) (cm : list (Z * list Z)) : list (Z * list Z) :=
    match cm with
    | [] => [(c, [i])]
    | (c', l) :: r =>
        if c =? c' then (c', l ++ [i]) :: r
        else if c <? c' then (c, [i]) :: cm
        else (c', l) :: map_push c i r
    end.
  Fixpoint class_map_from (i : Z) (classes : list Z) (cm : list (Z * list Z)) :=
    match classes with
    | [] => cm
    | c :: r => class_map_from (i + 1) r (map_push c i cm)
    end.
  Definition class_map (classes : list Z) : list (Z * list Z) := class_map_from 0 classes [].

  (** da_utils.cpp:298-304: expected number of draws of a class, in double precision *)
  Definition expected (c m n : Z) : f64 :=
    f64_mul (f64_div (f64_of_Z c) (f64_of_Z m)) (f64_of_Z n).
  Definition floored (c m n : Z) : Z := f64_trunc (expected c m n).
  Definition remainder (c m n : Z) : f64 :=
    f64_sub (expected c m n) (f64_of_Z (floored c m n)).

  (** *std::max_element *)
  Definition max_element (d : f64) (l : list f64) : f64 :=
    fold_left (fun b x => if f64_lt b x then x else b) l d.
  Fixpoint positions (p : f64 -> bool) (l : list f64) (i : nat) : list nat :=
    match l with
    | [] => []
    | x :: r => if p x then i :: positions p r (S i) else positions p r (S i)
    end.

  (** da_utils.cpp:309-354: the left-over draws go to the classes with the largest remainders,
      ties being broken at random *)
  Fixpoint distribute (left : nat) (freq : list Z) (rem : list f64) (k : nat)
    : option (list Z * nat) :=
    match left with
    | O => Some (freq, k)
    | S left' =>
        match rem with
        | [] => None
        | d :: r =>
            let biggest := max_element d r in
            let inds := positions (fun x => f64_eq x biggest) rem 0 in
            let '(sel, k') :=
              if (length inds =? 1)%nat then (nth_error inds 0, k)
              else (nth_error inds (draw k (length inds - 1)), S k) in
            match sel with
            | None => None
            | Some i =>
                match nth_error freq i with
                | None => None
                | Some f =>
                    match set_at freq i (f + 1), set_at rem i (f64_of_Z 0) with
                    | Some freq', Some rem' => distribute left' freq' rem' k'
                    | _, _ => None
                    end
                end
            end
        end
    end.

  (** da_utils.cpp:278-357 *)
  Definition zsum (l : list Z) : Z := fold_right Z.add 0 l.
  Definition class_frequency_approximation (n_draws m : Z) (counts : list Z) (k : nat)
    : option (list Z * nat) :=
    let freq := map (fun c => floored c m n_draws) counts in
    let rem := map (fun c => remainder c m n_draws) counts in
    distribute (Z.to_nat (n_draws - zsum freq)) freq rem k.

  (** da_utils.cpp:359-374 *)
  Definition validate_stratified (m train test : Z) (counts : list Z) : bool :=
    (2 <=? Z.of_nat (length counts)) && (train + test <=? m)
    && (Z.of_nat (length counts) <=? train) && (Z.of_nat (length counts) <=? test)
    && forallb (fun c => 2 <=? c) counts.

  (** da_utils.cpp:452-463: the copies into shuffled_indices; cells not yet written are None *)
  Fixpoint copy_to (arr : list (option Z)) (p : nat) (l : list Z) : option (list (option Z)) :=
    match l with
    | [] => Some arr
    | x :: r =>
        match set_at arr p (Some x) with
        | Some arr' => copy_to arr' (S p) r
        | None => None
        end
    end.
  Definition take_front (l : list Z) (n : nat) : option (list Z) :=
    if (n <=? length l)%nat then Some (firstn n l) else None.

  (** da_utils.cpp:441-464: one class after the other *)
  Fixpoint fill_classes (cm : list (Z * list Z)) (ftrain ftest : list Z) (ti te : nat)
    (arr : list (option Z)) (k : nat) : option (list (option Z) * nat) :=
    match cm, ftrain, ftest with
    | [], _, _ => Some (arr, k)
    | (_, l) :: cm', a :: ftrain', b :: ftest' =>
        match shuffle l k with
        | None => None
        | Some (s, k1) =>
            match take_front s (Z.to_nat a), take_front (rev s) (Z.to_nat b) with
            | Some xs, Some ys =>
                match copy_to arr ti xs with
                | None => None
                | Some arr1 =>
                    match copy_to arr1 te ys with
                    | None => None
                    | Some arr2 =>
                        fill_classes cm' ftrain' ftest' (ti + length xs) (te + length ys) arr2 k1
                    end
                end
            | _, _ => None
            end
        end
    | _, _, _ => None
    end.

  (** da_utils.cpp:376-472.  [arr] is the caller's array. *)
  Definition stratified_shuffle (m train test : Z) (classes : list Z) (arr : list (option Z))
    (k : nat) : option (da_status * list (option Z)) :=
    let cm := class_map classes in
    let counts := map (fun p => Z.of_nat (length (snd p))) cm in
    if negb (validate_stratified m train test counts) then Some (st_invalid_input, arr)
    else
      match class_frequency_approximation train m counts k with
      | None => None
      | Some (ftrain, k1) =>
          let left_counts := map (fun p => fst p - snd p) (combine counts ftrain) in
          match class_frequency_approximation test (m - train) left_counts k1 with
          | None => None
          | Some (ftest, k2) =>
              match fill_classes cm ftrain ftest 0 (Z.to_nat train) arr k2 with
              | None => None
              | Some (arr1, k3) =>
                  let a := Z.to_nat train in
                  let b := Z.to_nat test in
                  match shuffle (firstn a arr1) k3 with
                  | None => None
                  | Some (s1, k4) =>
                      match shuffle (firstn b (skipn a arr1)) k4 with
                      | None => None
                      | Some (s2, _) => Some (st_success, s1 ++ s2 ++ skipn (a + b) arr1)
                      end
                  end
              end
          end
      end.

  (** da_utils.cpp:487-532.  A seed of -1 means a random seed; either way the stream is
      arbitrary here. [None] for the array: null pointer. *)
  Definition get_shuffled_indices (m seed train test : Z) (classes : option (list Z))
    (arr : option (list (option Z))) : option (da_status * option (list (option Z))) :=
    match arr with
    | None => Some (st_invalid_pointer, None)
    | Some a =>
        if m <=? 1 then Some (st_invalid_array_dimension, arr)
        else if seed <? -1 then Some (st_invalid_input, arr)
        else
          match classes with
          | None =>
              match copy_to a 0 (map Z.of_nat (seq 0 (Z.to_nat m))) with
              | None => None
              | Some a1 =>
                  match shuffle (firstn (Z.to_nat m) a1) 0 with
                  | None => None
                  | Some (s, _) => Some (st_success, Some (s ++ skipn (Z.to_nat m) a1))
                  end
              end
          | Some cl =>
              match stratified_shuffle m train test cl a 0 with
              | None => None
              | Some (st, a') => Some (st, Some a')
              end
          end
    end.
End Random.
