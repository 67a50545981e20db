(** What a search for nearest neighbours has to return. *)
From Coq Require Import ZArith List Bool Reals Permutation Sorted.
From Verif Require Import Base F64 NnModel.
Import ListNotations.

(** [key] orders the values of [T] that are numbers: comparisons of the arithmetic are comparisons of the keys. *)
Definition compares {T} (lt le : T -> T -> bool) (num : T -> Prop) (key : T -> R) : Prop :=
  (forall a b, num a -> num b -> (lt a b = true <-> (key a < key b)%R)) /\
  (forall a b, num a -> num b -> (le a b = true <-> (key a <= key b)%R)).

(** [c] are [k] entries of [all] with the smallest distances (all of them if there are fewer): no entry left out is
    smaller than one that was kept. *)
Definition k_smallest {T} (key : T -> R) (k : nat) (all c : list (Z * T)) : Prop :=
  length c = Nat.min k (length all) /\
  exists rest, Permutation (c ++ rest) all /\
    forall e r, In e c -> In r rest -> (key (snd e) <= key (snd r))%R.
Definition ascending {T} (key : T -> R) (c : list (Z * T)) : Prop :=
  StronglySorted (fun e f => (key (snd e) <= key (snd f))%R) c.

(** The contract of std::nth_element for a comparison that ranks the elements: the element in place [mid] has none above
    it before and none below it behind. *)
Definition nth_element_contract (nth_element : (Z -> Z -> bool) -> nat -> list Z -> list Z) : Prop :=
  forall less mid l (rank : Z -> R), (mid < length l)%nat ->
    (forall x y, In x l -> In y l -> (less x y = true <-> (rank x < rank y)%R)) ->
    let l' := nth_element less mid l in
    Permutation l' l /\
    (forall y, In y (firstn mid l') -> (rank y <= rank (nth mid l' 0%Z))%R) /\
    (forall y, In y (skipn (mid + 1) l') -> (rank (nth mid l' 0%Z) <= rank y)%R).

(** What the searches need of the arithmetic: [num] (not NaN), [fin] (finite), comparisons that agree with [key], and
    operations that do not turn the order round.  Exact arithmetic has these properties, IEEE arithmetic as well. *)
Record monotone {T} (N : arith T) (num fin : T -> Prop) (key : T -> R) : Prop := {
  m_order : compares (lt N) (le N) num key;
  m_fin : forall a, fin a -> num a;
  m_zero : fin (zero N) /\ key (zero N) = 0%R;
  m_highest : fin (highest N) /\ forall a, fin a -> (key a <= key (highest N))%R;
  m_lowest : fin (lowest N) /\ forall a, fin a -> (key (lowest N) <= key a)%R;
  m_opp : forall a, num a -> num (opp N a) /\ key (opp N a) = (- key a)%R;
  m_abs : forall a, num a -> num (abs N a) /\ key (abs N a) = Rabs (key a);
  m_sub : forall a b, fin a -> fin b -> num (sub N a b) /\ key (sub N b a) = (- key (sub N a b))%R;
  m_sub_mono : forall a b c, fin a -> fin b -> fin c -> (key a <= key b)%R ->
    (key (sub N a c) <= key (sub N b c))%R;
  m_add : forall a b, num a -> num b -> (0 <= key a)%R -> (0 <= key b)%R ->
    num (add N a b) /\ (key a <= key (add N a b))%R /\ (key b <= key (add N a b))%R;
  m_add_mono : forall a b c d, num a -> num b -> num c -> num d -> (0 <= key a <= key c)%R -> (0 <= key b <= key d)%R ->
    (key (add N a b) <= key (add N c d))%R;
  m_square : forall a, num a -> num (mul N a a) /\ (0 <= key (mul N a a))%R;
  m_square_mono : forall a b, num a -> num b -> (Rabs (key a) <= Rabs (key b))%R -> (key (mul N a a) <= key (mul N b b))%R;
  m_signed_square : forall a, num a -> num (mul N a (abs N a)) /\
    key (mul N a (abs N a)) = (if Rle_dec 0 (key a) then key (mul N a a) else - key (mul N a a))%R }.

(** The metrics for which the trees are meant.  The formula with the norms has to give the value of the sum of squares;
    [pow] with the exponents p and 1/p has to keep the order, and the root may not fall below a summand. *)
Definition metric_ok {T} (N : arith T) (num fin : T -> Prop) (key : T -> R) (m : metric) (p p_inv : T) : Prop :=
  match m with
  | Euclidean | Manhattan => True
  | EuclideanGemm => forall x y, length x = length y -> Forall fin x -> Forall fin y ->
      num (distance N EuclideanGemm p p_inv x y) /\
      key (distance N EuclideanGemm p p_inv x y) = key (distance N Euclidean p p_inv x y)
  | Minkowski =>
      (forall a q, q = p \/ q = p_inv -> num a -> (0 <= key a)%R -> num (pow N a q) /\ (0 <= key (pow N a q))%R) /\
      (forall a b q, q = p \/ q = p_inv -> num a -> num b -> (0 <= key a <= key b)%R ->
         (key (pow N a q) <= key (pow N b q))%R) /\
      (forall d s, num d -> num s -> (0 <= key d)%R -> (key (pow N d p) <= key s)%R -> (key d <= key (pow N s p_inv))%R)
  | SqeuclideanGemm | Cosine => False
  end.

(** The training samples: [n] rows of [nf] finite values. *)
Definition samples {T} (fin : T -> Prop) (row : Z -> list T) (n : Z) (nf : nat) : Prop :=
  forall i, (0 <= i < n)%Z -> length (row i) = nf /\ Forall fin (row i).
(** [i] is to be found: a sample other than the query itself *)
Definition candidate (n : Z) (self : option Z) (i : Z) : Prop := (0 <= i < n)%Z /\ self <> Some i.
(** Squares beyond the radius are beyond the square of the radius (no underflow). *)
Definition strict_square {T} (N : arith T) (num : T -> Prop) (key : T -> R) (eps : T) : Prop :=
  forall b, num b -> (key eps < key b)%R -> (key (mul N eps eps) < key (mul N b b))%R.
(** The query and sample [i] are within [eps] of each other in every feature. *)
Definition within {T} (N : arith T) (key : T -> R) (nf : nat) (x y : list T) (eps : T) : Prop :=
  forall j, (j < nf)%nat -> (Rabs (key (sub N (nth j x (zero N)) (nth j y (zero N)))) <= key eps)%R.
(** The distances of two answers are the same. *)
Definition same_distances {T} (key : T -> R) (a b : list (Z * T)) : Prop :=
  map (fun e => key (snd e)) a = map (fun e => key (snd e)) b.
(** One way to meet the contract of std::nth_element: sort everything. *)
Fixpoint place_in (less : Z -> Z -> bool) (x : Z) (l : list Z) : list Z :=
  match l with [] => [x] | y :: l' => if less y x then y :: place_in less x l' else x :: l end.
Definition nth_by_sorting (less : Z -> Z -> bool) (mid : nat) (l : list Z) : list Z := fold_right (place_in less) [] l.

(** ** Data of the examples *)
(** std::pow for the powers 2 and 1/2 *)
Definition pow_2 (x q : f64) : f64 := if f64_eq q (f64_of_Z 2) then f64_mul x x else f64_sqrt x.
Definition two64 : f64 := f64_of_Z 2.
Definition half64 : f64 := f64_div (f64_of_Z 1) two64.
Definition tenth64 : f64 := f64_div (f64_of_Z 1) (f64_of_Z 10).
(** rows (0), (1e200), (2e200) *)
Definition far_rows (i : Z) : list f64 := [f64_of_Z (i * 10 ^ 200)].
(** rows (0), (4) *)
Definition four_rows (i : Z) : list f64 := [f64_of_Z (i * 4)].
(** rows (0.1, 0) and (0, 0.1) *)
Definition cross_rows (i : Z) : list f64 := if (i =? 0)%Z then [tenth64; f64_of_Z 0] else [f64_of_Z 0; tenth64].
(** rows (189877886), (189878886) *)
Definition large_rows (i : Z) : list f64 := [f64_of_Z (189877886 + 1000 * i)].
(** five points of the plane with whole coordinates *)
Definition grid_rows (i : Z) : list Z := nth (Z.to_nat i) [[0; 0]; [3; 4]; [1; 1]; [-2; 5]; [6; -1]]%Z [].
