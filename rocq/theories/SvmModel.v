(** Training of the C-type support vector machines (SVC and SVR) in
    source/core/svm/c_svm.cpp and source/core/svm/base_svm.cpp.

    Numbers are exact rationals (every finite double is one).  The kernel
    matrix is a parameter: which column the solver is handed is the subject of
    the cache model (properties C11, C12, C49, C50).

    Vectors are functions of their index.  [tab] only makes the functions cheap
    to evaluate. *)
From Coq Require Import QArith Qabs List Bool Arith Lia.
Import ListNotations.
Local Open Scope Q_scope.

Definition Qlt_bool (a b : Q) : bool := negb (Qle_bool b a).
Definition Qmin (a b : Q) : Q := if Qle_bool a b then a else b.
Definition Qmax (a b : Q) : Q := if Qle_bool a b then b else a.

Definition vec := nat -> Q.
Definition tab (n : nat) (f : vec) : vec :=
  let l := map f (seq 0 n) in fun k => nth k l 0.

Fixpoint sum (f : vec) (l : list nat) : Q :=
  match l with [] => 0 | k :: l' => f k + sum f l' end.

(** The problem a classifier object holds: svm.hpp:120-195.
    [size] is actual_size (base_svm.cpp:151-154): the number of samples [rows]
    for classification, twice that for regression, where dual variable [a]
    belongs to sample [a mod rows]. *)
Record problem := Problem {
  rows : nat;
  size : nat;
  K : nat -> nat -> Q;
  y : vec;
  lin : vec;
  C : Q;
  tol : Q;
  tau : Q;
  max_iter : nat;
  max_ws : nat }.

(** Gradient and response as set by svc::initialisation, c_svm.cpp:263-284.
    Labels are 0 and 1; label 0 becomes response -1. *)
Definition svc_problem (n : nat) (k : nat -> nat -> Q) (label : vec) (c t ta : Q)
    (mi mw : nat) : problem :=
  let r := fun i => if Qeq_bool (label i) 0 then -(1) else label i in
  Problem n n k r (fun i => - r i) c t ta mi mw.

(** svr::initialisation, c_svm.cpp:286-311. *)
Definition svr_problem (n : nat) (k : nat -> nat -> Q) (target : vec)
    (c epsilon t ta : Q) (mi mw : nat) : problem :=
  Problem n (2 * n) k (fun a => if (a <? n)%nat then 1 else -(1))
    (fun a => if (a <? n)%nat then epsilon - target a else - epsilon - target (a - n)%nat)
    c t ta mi mw.

(** Entry of the kernel matrix between two dual variables: "idx % n" at
    base_svm.cpp:585, c_svm.cpp:177 and "i % nrow" at base_svm.cpp:691. *)
Definition kk (p : problem) (a b : nat) : Q := K p (a mod rows p) (b mod rows p).

(** is_upper and is_lower, c_svm.cpp:46-53. *)
Definition is_upper (p : problem) (a s : Q) : bool :=
  if Qlt_bool 0 s then Qlt_bool a (C p) else Qlt_bool 0 a.
Definition is_lower (p : problem) (a s : Q) : bool :=
  if Qlt_bool 0 s then Qlt_bool 0 a else Qlt_bool a (C p).

(** maxpowtwo and compute_ws_size, base_svm.cpp:774-780 and 566-571.  The loop
    doubles until it would pass [n], so [n] rounds are enough. *)
Fixpoint pow_loop (fuel power n : nat) : nat :=
  match fuel with
  | O => power
  | S f => if (power * 2 <=? n)%nat then pow_loop f (power * 2)%nat n else power
  end.
Definition maxpowtwo (n : nat) : nat := pow_loop n 1%nat n.
Definition ws_size (p : problem) : nat := Nat.min (maxpowtwo (size p)) (max_ws p).

(** ** Outer working set, csvm::outer_wss, c_svm.cpp:95-150.

    The positions pos_left and pos_right are the parts of the sorted order, and
    of its reverse, which are still to be looked at.  selected_ws_indicator is
    membership in the selection: it is cleared before every call and set for
    the indices kept from the last round (base_svm.cpp:305-318). *)
Definition chosen (sel : list nat) (k : nat) : bool := existsb (Nat.eqb k) sel.

(* The inner while loops, lines 118-126 and 136-144. *)
Fixpoint skip (take : nat -> bool) (l : list nat) : list nat :=
  match l with
  | [] => []
  | k :: l' => if take k then l else skip take l'
  end.

Definition pick (member : nat -> bool) (l sel : list nat) : list nat * list nat :=
  let l' := skip (fun k => negb (chosen sel k) && member k) l in
  match l' with
  | [] => ([], sel)
  | k :: _ => (l', sel ++ [k])
  end.

Fixpoint wss_loop (fuel w : nat) (up low : nat -> bool) (left right sel : list nat)
  : list nat :=
  match fuel with
  | O => sel
  | S f =>
    if (length sel <? w)%nat && negb (match left, right with [], [] => true | _, _ => false end)
    then
      let (left', sel1) := pick up left sel in
      if (w <=? length sel1)%nat then sel1 else
      let (right', sel2) := pick low right sel1 in
      wss_loop f w up low left' right' sel2
    else sel
  end.

(** parallel_argsort is a parameter: any function giving the indices in an
    order of non-decreasing gradient (see [sorts] in the specification). *)
Definition sorter := vec -> list nat.

Definition outer_wss (p : problem) (srt : sorter) (alpha g : vec) (kept : list nat)
  : list nat :=
  let order := srt g in
  wss_loop (S (ws_size p)) (ws_size p)
    (fun k => is_upper p (alpha k) (y p k)) (fun k => is_lower p (alpha k) (y p k))
    order (rev order) kept.

(** ** The local solver on the working set, csvm::local_smo, c_svm.cpp:152-252. *)

(* wssi_kernel_scalar, svm_kernels.cpp:40-49.  None stands for index -1, with
   the gradient still at the largest finite number.  The vector kernels compute
   the same (they are not modelled). *)
Fixpoint wssi (up : nat -> bool) (lg : vec) (l : list nat) (best : option nat)
  : option nat :=
  match l with
  | [] => best
  | q :: l' =>
    wssi up lg l'
      (if up q && match best with None => true | Some b => Qlt_bool (lg q) (lg b) end
       then Some q else best)
  end.

(* wssj_kernel_scalar, svm_kernels.cpp:509-540: the largest gradient among the
   low variables, and the low variable with the largest (b*b)/a. *)
Record scan := Scan { top : option Q; best : option (nat * Q * Q) }.
Fixpoint wssj (low : nat -> bool) (lg : vec) (curv : nat -> Q) (gmin ta : Q)
    (l : list nat) (s : scan) : scan :=
  match l with
  | [] => s
  | q :: l' =>
    wssj low lg curv gmin ta l'
      (if low q then
         let t := match top s with None => lg q | Some m => Qmax m (lg q) end in
         let b := lg q - gmin in
         if Qlt_bool b 0 then Scan (Some t) (best s) else
         let a := if Qle_bool (curv q) 0 then ta else curv q in
         let ratio := b / a in
         let f := ratio * b in
         if match best s with None => true | Some (_, f', _) => Qlt_bool f' f end
         then Scan (Some t) (Some (q, f, ratio)) else Scan (Some t) (best s)
       else s)
  end.

(* Local arrays, indexed by the position in the working set. *)
Record local := Local { la : vec; lg : vec }.

Section Smo.
Variable p : problem.
Variable idx : list nat.
Let w := length idx.
Definition at_ (q : nat) : nat := nth q idx 0%nat.
Definition ly (q : nat) : Q := y p (at_ q).
(* prepare_kernel_matrix, base_svm.cpp:930-954: row j, entry iter. *)
Definition row (j q : nat) : Q := kk p (at_ q) (at_ j).

(* The flag arrays I_up_p and I_low_p are recomputed for the two variables that
   move, lines 220-223; here they are recomputed for all. *)
Definition up_at (l : local) (q : nat) : bool := is_upper p (la l q) (ly q).
Definition low_at (l : local) (q : nat) : bool := is_lower p (la l q) (ly q).

Definition curvature (i q : nat) : Q := row i i + row q q - 2 * row i q.

(* Lines 193-199: the pair and diff = max_grad - min_grad.  A diff of None
   stands for minus infinity (no up or no low variable): it is below every
   tolerance. *)
Definition select (l : local) : option (nat * option (nat * Q) * option Q) :=
  match wssi (up_at l) (lg l) (seq 0 w) None with
  | None => None
  | Some i =>
    let s := wssj (low_at l) (lg l) (curvature i) (lg l i) (tau p) (seq 0 w) (Scan None None) in
    Some (i, option_map (fun r => (fst (fst r), snd r)) (best s),
          option_map (fun m => m - lg l i) (top s))
  end.
Definition diff_of (l : local) : option Q :=
  match select l with None => None | Some (_, _, d) => d end.

(* Lines 210-233. *)
Definition room_up (l : local) (q : nat) : Q := if Qlt_bool 0 (ly q) then C p - la l q else la l q.
Definition room_down (l : local) (q : nat) : Q := if Qlt_bool 0 (ly q) then la l q else C p - la l q.
Definition move (l : local) (i j : nat) (ratio : Q) : local :=
  let d := Qmin (room_up l i) (Qmin (room_down l j) ratio) in
  let a1 := fun q => if (q =? i)%nat then la l q + d * ly i else la l q in
  let a2 := fun q => if (q =? j)%nat then a1 q - d * ly j else a1 q in
  Local (tab w a2) (tab w (fun q => lg l q + d * (row i q - row j q))).

(* The loop of lines 191-234 once epsilon is fixed. *)
Fixpoint smo_loop (fuel : nat) (eps : Q) (l : local) : local :=
  match fuel with
  | O => l
  | S f =>
    match select l with
    | None => l
    | Some (i, oj, d) =>
      match d, oj with
      | Some d, Some (j, ratio) =>
        if Qlt_bool d eps then l else smo_loop f eps (move l i j ratio)
      | _, _ => l
      end
    end
  end.

(* Line 204: epsilon = max(tol, 0.1 * first diff). *)
Definition epsilon_of (d : option Q) : Q :=
  match d with None => tol p | Some d => Qmax (tol p) ((1 # 10) * d) end.

Definition gather (alpha g : vec) : local :=
  Local (tab w (fun q => alpha (at_ q))) (tab w (fun q => g (at_ q))).

(* max_iter_inner = 100 * ws_size, line 185. *)
Definition local_smo (alpha g : vec) : local * option Q :=
  let l := gather alpha g in
  let d := diff_of l in
  (smo_loop (100 * w) (epsilon_of d) l, d).

(* Lines 247-251.  The code subtracts the entry of alpha just before it is
   overwritten; the working set has no repeated index (theorem
   [working_set_full]), so that is the old value. *)
Definition alpha_diff (alpha : vec) (l : local) (q : nat) : Q :=
  (la l q - alpha (at_ q)) * ly q.
Fixpoint position (k : nat) (l : list nat) (q : nat) : option nat :=
  match l with
  | [] => None
  | x :: l' => if (x =? k)%nat then Some q else position k l' (S q)
  end.
Definition scatter (alpha : vec) (l : local) : vec :=
  tab (size p) (fun k => match position k idx 0 with Some q => la l q | None => alpha k end).

(* update_gradient_impl, base_svm.cpp:657-700.  The partial sums per thread are
   added in exact arithmetic. *)
Definition update_gradient (g : vec) (ad : vec) : vec :=
  tab (size p) (fun k => g k + sum (fun q => ad q * kk p k (at_ q)) (seq 0 w)).
End Smo.

(** ** The outer loop, compute_impl, base_svm.cpp:297-352. *)
Record state := State {
  alpha : vec; grad : vec; indices : list nat;
  previous : option Q; unchanged : nat }.

(* Why the loop ended.  The code does not report it: the status is success in
   all three cases. *)
Inductive reason := converged | stalled | limit.

Definition start (p : problem) : state :=
  State (tab (size p) (fun _ => 0)) (tab (size p) (lin p)) [] (Some 0) 0.

(* Lines 307-318: the second half of the last working set is kept. *)
Definition kept (p : problem) (it : nat) (s : state) : list nat :=
  match it with
  | O => []
  | S _ => let h := Nat.div2 (ws_size p) in firstn h (skipn h (indices s))
  end.

(* Lines 339-341. *)
Definition same_diff (p : problem) (a b : option Q) : bool :=
  match a, b with
  | Some a, Some b => Qlt_bool (Qabs (a - b)) (tol p * (1 # 1000))
  | _, _ => false
  end.
Definition small (p : problem) (d : option Q) : bool :=
  match d with None => true | Some d => Qlt_bool d (tol p) end.

Definition round (p : problem) (srt : sorter) (it : nat) (s : state) : state * option Q :=
  let idx := outer_wss p srt (alpha s) (grad s) (kept p it s) in
  let (l, d) := local_smo p idx (alpha s) (grad s) in
  let ad := alpha_diff p idx (alpha s) l in
  (State (scatter p idx (alpha s) l) (update_gradient p idx (grad s) ad) idx d
     (if same_diff p d (previous s) then S (unchanged s) else 0%nat), d).

Fixpoint compute_loop (fuel : nat) (p : problem) (srt : sorter) (it : nat) (s : state)
  : state * reason :=
  match fuel with
  | O => (s, limit)
  | S f =>
    let (s', d) := round p srt it s in
    if (4 <? it)%nat && small p d then (s', converged)
    else if (4 <? it)%nat && (4 <? unchanged s')%nat then (s', stalled)
    else compute_loop f p srt (S it) s'
  end.

Definition compute (p : problem) (srt : sorter) : state * reason :=
  compute_loop (max_iter p) p srt 0 (start p).

(** csvm::set_bias, c_svm.cpp:254-276.  None stands for the start value, the
    largest finite number of either sign. *)
Definition meet (f : Q -> Q -> Q) (o : option Q) (x : Q) : option Q :=
  Some (match o with None => x | Some v => f v x end).
Record tally := Tally { gsum : Q; nfree : nat; lowest : option Q; highest : option Q }.
Fixpoint tallied (p : problem) (al g : vec) (l : list nat) (t : tally) : tally :=
  match l with
  | [] => t
  | k :: l' =>
    let free := Qlt_bool 0 (al k) && Qlt_bool (al k) (C p) in
    tallied p al g l'
      (Tally (if free then gsum t + g k else gsum t)
         (if free then S (nfree t) else nfree t)
         (if is_upper p (al k) (y p k) then meet Qmin (lowest t) (g k) else lowest t)
         (if is_lower p (al k) (y p k) then meet Qmax (highest t) (g k) else highest t))
  end.
(* None when the start values reach the formula: the bias is then of the order
   of the largest finite number. *)
Definition set_bias (p : problem) (al g : vec) : option Q :=
  let t := tallied p al g (seq 0 (size p)) (Tally 0 0 None None) in
  match nfree t with
  | O => match lowest t, highest t with
         | Some a, Some b => Some (- (a + b) / 2)
         | _, _ => None
         end
  | S _ => Some (- gsum t / inject_Z (Z.of_nat (nfree t)))
  end.

(** svc::set_sv, c_svm.cpp:313-360, the binary case, and the decision function
    of base_svm.cpp:446-540 in exact arithmetic: variables with alpha at most
    [meps] are not support vectors. *)
Definition is_sv (meps : Q) (al : vec) (k : nat) : bool := Qlt_bool meps (Qabs (al k)).
Definition decision (p : problem) (meps : Q) (al : vec) (bias : Q) (kx : nat -> Q) : Q :=
  bias + sum (fun k => (al k * y p k) * kx k) (filter (is_sv meps al) (seq 0 (size p))).
