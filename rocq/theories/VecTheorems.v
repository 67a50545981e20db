(** Theorems about the growable array (C13, C14, C51, C52). *)
From Coq Require Import List Arith Bool.
From Verif Require Import VecModel VecSpec VecProofs.
Import ListNotations.

(** C13.  For every program that keeps to the contract of [astep] (indices in range; a moved-from
    array is not grown before being given contents again; an array is not pushed one of its own
    elements) and for which memory suffices: the program never leaves an allocation nor loops, its
    reads return the values of the list program (where these are specified), and every array has
    the size and contents of its list, with [size <= capacity = allocated cells]. *)
Theorem array_behaves_as_list : forall (T : Type) (h : list (op T)) a outs,
  arun h astart = Some (a, outs) ->
  exists (e : env T) outs', run (map (pair true) h) start = (Running e None, outs') /\
    Forall2 cell_ok outs outs' /\
    forall i, sound (e i) /\ vsize (e i) = length (contents (a i)) /\
              Forall2 cell_ok (contents (a i)) (visible (e i)).
Proof. exact @behaves_as_list. Qed.
Print Assumptions array_behaves_as_list.

Definition ex_prog : list (op nat) :=
  [OpPush 0 7; OpPush 0 8; OpPush 0 9; OpAppend 0 0; OpResize 0 200; OpWrite 0 150 4;
   OpCopy 1 0; OpResize 0 2; OpAppendStd 0 (seq 20 100); OpMove 2 0; OpRead 2 101; OpRead 1 150;
   OpClear 0; OpPushElem 0 1 4; OpRead 0 0].
Example ex_prog_legal : option_map snd (arun ex_prog astart) = Some [Some 119; Some 4; Some 8].
Proof. vm_compute. reflexivity. Qed.
Example ex_prog_runs : snd (run (map (pair true) ex_prog) start) = [Some 119; Some 4; Some 8].
Proof. vm_compute. reflexivity. Qed.

(** C14 is false: whatever happened before, pushing onto an array that has just been moved from
    writes outside its (empty) allocation, and resizing it to any positive size never returns. *)
Theorem moved_from_array_refuted : forall (T : Type) (h : list (op T)) a outs i j (x : T) n,
  arun h astart = Some (a, outs) -> i <> j ->
  (exists o1, run (map (pair true) (h ++ [OpMove i j; OpPush j x])) start = (Undefined, o1)) /\
  (exists o2, run (map (pair true) (h ++ [OpMove i j; OpResize j (S n)])) start
              = (Looping, o2)).
Proof. exact @moved_fails. Qed.
Print Assumptions moved_from_array_refuted.

(** C14, what holds: an array that has been moved from is empty, may be copied or appended from,
    and works again after [clear] or after being assigned to, all of which [astep] allows.
    Missing from C14: growing it directly. *)
Theorem moved_from_array_partial : forall (T : Type) (h h' : list (op T)) a a' outs outs' i j,
  arun h astart = Some (a, outs) -> i <> j ->
  arun h' (aupd (aupd a i (a j)) j (Some [])) = Some (a', outs') ->
  exists (e : env T) out,
    run (map (pair true) (h ++ OpMove i j :: OpClear j :: h')) start = (Running e None, out) /\
    Forall2 cell_ok (outs ++ outs') out /\
    forall k, Forall2 cell_ok (contents (a' k)) (visible (e k)).
Proof. exact @moved_then_cleared. Qed.
Print Assumptions moved_from_array_partial.

Example moved_case :
  option_map snd (arun [OpPush 1 5; OpMove 0 1; OpClear 1; OpPush 1 6; OpRead 0 0; OpRead 1 0]
                       astart) = Some [Some 5; Some 6].
Proof. reflexivity. Qed.

(** C51, what holds: when [malloc] fails while an array grows, every array keeps its contents. *)
Theorem failed_growth_keeps_contents_partial :
  forall (T : Type) (h : list (op T)) a outs (e : env T) outs' o i (e' : env T),
  arun h astart = Some (a, outs) ->
  run (map (pair true) h) start = (Running e None, outs') ->
  a i <> None -> growing o = Some i -> step false o e = Thrown e' ->
  (forall j, visible (e' j) = visible (e j) /\ vsize (e' j) = vsize (e j)) /\
  (forall j, j <> i -> e' j = e j).
Proof. exact @failed_growth. Qed.
Print Assumptions failed_growth_keeps_contents_partial.

Definition fill64 : list (op nat) := map (OpPush 0) (seq 0 64).
Example failed_growth_case :
  match run (map (pair true) fill64) start with
  | (Running e _, _) =>
      match step false (OpPush 0 64) e with
      | Thrown e' => visible (e' 0) = map Some (seq 0 64)
      | _ => False
      end
  | _ => False
  end.
Proof. vm_compute. reflexivity. Qed.

(** C51 is false: the capacity has been raised before the allocation fails, so the next
    [push_back] (memory being available again) writes past the end of the old buffer. *)
Theorem failed_growth_refuted :
  run (map (pair true) fill64 ++ [(false, OpPush 0 64); (true, OpPush 0 64)]) start
  = (Undefined, []).
Proof. vm_compute. reflexivity. Qed.
Print Assumptions failed_growth_refuted.

(** C52, what holds: pushing an element of the array itself works while there is spare capacity. *)
Theorem pushing_own_element_partial :
  forall (T : Type) (h : list (op T)) a outs (e : env T) outs' i k l s,
  arun h astart = Some (a, outs) ->
  run (map (pair true) h) start = (Running e None, outs') ->
  a i = Some l -> nth_error l k = Some s -> vsize (e i) < vcap (e i) ->
  exists e', step true (OpPushElem i i k) e = Running e' None /\
    Forall2 cell_ok (l ++ [s]) (visible (e' i)) /\ (forall j, j <> i -> e' j = e j).
Proof. exact @own_element. Qed.
Print Assumptions pushing_own_element_partial.

(** C52 is false: when the array is full the old buffer is freed before the element is read. *)
Theorem pushing_own_element_refuted :
  run (map (pair true) (fill64 ++ [OpPushElem 0 0 3])) start = (Undefined, []) /\
  snd (run (map (pair true) (map (OpPush 0) (seq 0 63) ++ [OpPushElem 0 0 3; OpRead 0 63])) start)
  = [Some 3].
Proof. vm_compute. split; reflexivity. Qed.
Print Assumptions pushing_own_element_refuted.
