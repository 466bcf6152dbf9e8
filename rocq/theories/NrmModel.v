(** Model of the norms: src/math_tools/l_norm_tools.hpp and src/multipatch/utils/multipatch_math_tools.hpp.

    Simplifications: doubles are exact real numbers, infinities and NaN (no rounding); a field is a function
    of the number of the point for the infinity norms (its points are numbered), of the index for the others;
    the reductions of Kokkos combine the points in any order (a tree), with a reducer written with a comparison,
    as std::max is. *)
From Verif Require Export QuadModel.
Open Scope R_scope.

(** ** Doubles *)
Inductive dbl := Fin (r : R) | Inf (negative : bool) | NaN.
Definition dabs (x : dbl) : dbl := match x with Fin r => Fin (Rabs r) | Inf _ => Inf false | NaN => NaN end.
(** operator< *)
Definition dlt (x y : dbl) : bool :=
  match x, y with
  | Fin a, Fin b => if Rlt_dec a b then true else false
  | Fin _, Inf false => true
  | Inf true, Fin _ => true
  | Inf true, Inf false => true
  | _, _ => false
  end.
(** operator- *)
Definition dsub (x y : dbl) : dbl :=
  match x, y with
  | NaN, _ => NaN
  | _, NaN => NaN
  | Fin a, Fin b => Fin (a - b)
  | Fin _, Inf s => Inf (negb s)
  | Inf s, Fin _ => Inf s
  | Inf s, Inf t => if Bool.eqb s t then NaN else Inf s
  end.
(** std::max(a, b), Kokkos::max(a, b): (a < b) ? b : a *)
Definition dmax (a b : dbl) : dbl := if dlt a b then b else a.

(** ** l_norm_tools.hpp *)
(** norm_inf(Coord) 26-32 and norm_inf(DVector) 45-55: the components in the order of the tags *)
Definition norm_inf_components (xs : list dbl) : dbl := fold_left (fun result x => dmax result (dabs x)) xs (Fin 0).
(** an element of a field: a double or a vector *)
Inductive elem := Scalar (x : dbl) | Vector (xs : list dbl).
(** norm_inf(double) 68-71 *)
Definition norm_inf_elem (e : elem) : dbl :=
  match e with Scalar x => dabs x | Vector xs => norm_inf_components xs end.
(** the reduction: the order in which the points 0, ..., n-1 are combined; the neutral element is 0 *)
Inductive tree := Leaf (i : nat) | Node (l r : tree) | Neutral.
Fixpoint leaves (t : tree) : list nat := match t with Leaf i => [i] | Node l r => leaves l ++ leaves r | Neutral => [] end.
(** ddc::reducer::max: a > b ? a : b *)
Definition reducer_max (a b : dbl) : dbl := if dlt b a then a else b.
Fixpoint reduce (t : tree) (f : nat -> dbl) : dbl :=
  match t with
  | Leaf i => f i
  | Node l r => reducer_max (reduce l f) (reduce r f)
  | Neutral => Fin 0
  end.
(** detail::norm_inf 77-93 *)
Definition norm_inf (t : tree) (function : nat -> elem) : dbl :=
  reducer_max (Fin 0) (reduce t (fun idx => norm_inf_elem (function idx))).
(** the difference of two elements *)
Fixpoint sub_list (xs ys : list dbl) : list dbl :=
  match xs, ys with x :: xs', y :: ys' => dsub x y :: sub_list xs' ys' | _, _ => [] end.
Definition elem_sub (a b : elem) : elem :=
  match a, b with
  | Scalar x, Scalar y => Scalar (dsub x y)
  | Vector xs, Vector ys => Vector (sub_list xs ys)
  | _, _ => Scalar NaN
  end.
(** detail::error_norm_inf 97-115; the exact function is another field or a functor *)
Definition error_norm_inf (t : tree) (function exact : nat -> elem) : dbl :=
  reducer_max (Fin 0) (reduce t (fun idx => norm_inf_elem (elem_sub (function idx) (exact idx)))).

(** ** multipatch_math_tools.hpp 12-26 and 35-54 *)
Definition max_loop (on_patch : list dbl) : dbl := fold_left (fun result x => dmax result x) on_patch (Fin 0).
Definition multipatch_norm_inf (patches : list (tree * (nat -> elem))) : dbl :=
  max_loop (map (fun p => norm_inf (fst p) (snd p)) patches).
Definition multipatch_error_norm_inf (patches : list (tree * (nat -> elem) * (nat -> elem))) : dbl :=
  max_loop (map (fun p => error_norm_inf (fst (fst p)) (snd (fst p)) (snd p)) patches).

(** ** Norms by quadrature *)
Record field := Field { dom : nd_range; val : nd_idx -> R }.
Fixpoint contains (g : nd_range) (i : nd_idx) : bool :=
  match g, i with
  | [], [] => true
  | (fr, n) :: g', k :: i' => (fr <=? k)%Z && (k <? fr + Z.of_nat n)%Z && contains g' i'
  | _, _ => false
  end.
(** the points of an index range *)
Fixpoint points (g : nd_range) : list nd_idx :=
  match g with
  | [] => [[]]
  | (fr, n) :: g' => flat_map (fun k => map (cons (fr + Z.of_nat k)%Z) (points g')) (seq 0 n)
  end.
(** function(idx) for every index of the quadrature; what is passed to the quadrature is a lambda function: its
    sanity check on the index ranges (quadrature.hpp 72-77) is not compiled *)
Definition reads_inside (g : nd_range) (f : field) : bool := forallb (contains (dom f)) (points g).
(** norm_L1 238-248 *)
Definition norm_L1 (g : nd_range) (coeff : nd_idx -> R) (f : field) : res dbl :=
  if reads_inside g f then Ok (Fin (quadrature g coeff (fun i => Rabs (val f i)))) else Ub.
(** error_norm_L1 258-271 *)
Definition error_norm_L1 (g : nd_range) (coeff : nd_idx -> R) (f exact : field) : res dbl :=
  if reads_inside g f && reads_inside g exact
  then Ok (Fin (quadrature g coeff (fun i => Rabs (val f i - val exact i)))) else Ub.
(** std::sqrt *)
Definition dsqrt (r : R) : dbl := if Rlt_dec r 0 then NaN else Fin (sqrt r).
(** norm_L2 289-298 *)
Definition norm_L2 (g : nd_range) (coeff : nd_idx -> R) (f : field) : res dbl :=
  if reads_inside g f then Ok (dsqrt (quadrature g coeff (fun i => val f i * val f i))) else Ub.
(** error_norm_L2 309-322 *)
Definition error_norm_L2 (g : nd_range) (coeff : nd_idx -> R) (f exact : field) : res dbl :=
  if reads_inside g f && reads_inside g exact
  then Ok (dsqrt (quadrature g coeff (fun i => let err := val f i - val exact i in err * err))) else Ub.
