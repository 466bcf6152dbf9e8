(** Specification vocabulary for the quadratures: integrals are characterised by antiderivatives
    (the fundamental theorem of calculus), so no quadrature notion appears here. *)
From Verif Require Export QuadModel GLTables.
Open Scope R_scope.

(** [F] is an antiderivative of [f] on [a,b]: the integral of [f] over [a,b] is [F b - F a]. *)
Definition antiderivative_on (F f : R -> R) (a b : R) : Prop :=
  forall t, a <= t <= b -> derivable_pt_lim F t (f t).

(** strictly increasing list of mesh points *)
Definition increasing (pts : list R) : Prop :=
  forall i j, (i < j < length pts)%nat -> nth i pts 0 < nth j pts 0.

(** point number [i] of the index range starting at [fr] *)
Definition point (pts : list R) (fr : Z) (i : nat) : R := nth (Z.to_nat fr + i) pts 0.

(** [f] is affine on each of the [m] cells starting at [fr] *)
Definition affine_on_cells (pts : list R) (fr : Z) (m : nat) (f : R -> R) : Prop :=
  forall i, (i < m)%nat -> exists a b,
    forall t, point pts fr i <= t <= point pts fr (S i) -> f t = a + b * t.

(** [f] is a polynomial of degree at most 2 on each of the [m] consecutive pairs of cells *)
Definition quadratic_on_pairs (pts : list R) (fr : Z) (m : nat) (f : R -> R) : Prop :=
  forall i, (i < m)%nat -> exists a b c,
    forall t, point pts fr (2 * i) <= t <= point pts fr (2 * i + 2) -> f t = a + b * t + c * (t * t).

(** polynomials of degree at most 1 and 2 *)
Definition affine (f : R -> R) : Prop := exists a b, forall t, f t = a + b * t.
Definition quadratic (f : R -> R) : Prop := exists a b c, forall t, f t = a + b * t + c * (t * t).

(** value of the quadrature of [f] with coefficients [c] *)
Definition quad_value (pts : list R) (fr : Z) (n : nat) (c : list R) (f : R -> R) : R :=
  Rsum n (fun i => nth i c 0 * f (point pts fr i)).

(** ** Multi-dimensional sums *)
Fixpoint in_nd (g : nd_range) (i : nd_idx) : Prop :=
  match g, i with
  | [], [] => True
  | (fr, n) :: g', k :: i' => (fr <= k < fr + Z.of_nat n)%Z /\ in_nd g' i'
  | _, _ => False
  end.

Fixpoint nd_sum (g : nd_range) (f : nd_idx -> R) : R :=
  match g with
  | [] => f []
  | (fr, n) :: g' => Rsum n (fun k => nd_sum g' (fun t => f ((fr + Z.of_nat k)%Z :: t)))
  end.

(** product of one function per dimension *)
Fixpoint nd_prod (fs : list (Z -> R)) (i : nd_idx) : R :=
  match fs, i with
  | f :: fs', k :: i' => f k * nd_prod fs' i'
  | _, _ => 1
  end.

(** product over the dimensions of the 1-D quadratures *)
Fixpoint prod_of_sums (g : nd_range) (cs fs : list (Z -> R)) : R :=
  match g, cs, fs with
  | (fr, n) :: g', c :: cs', f :: fs' =>
      Rsum n (fun k => c (fr + Z.of_nat k)%Z * f (fr + Z.of_nat k)%Z) * prod_of_sums g' cs' fs'
  | _, _, _ => 1
  end.

(** ** Polynomials, by their list of coefficients (constant term first) *)
Fixpoint peval (p : list R) (t : R) : R :=
  match p with [] => 0 | a :: p' => a + t * peval p' t end.

Definition norm1 (p : list R) : R := fold_right (fun a s => Rabs a + s) 0 p.

(** A reference rule on [-1,1] integrates the polynomials of less than [d] coefficients with an
    error at most [eps] times the sum of the absolute values of the coefficients. *)
Definition rule_accuracy (weight pos : list R) (d : nat) (eps : R) : Prop :=
  forall p F, (length p <= d)%nat -> antiderivative_on F (peval p) (-1) 1 ->
    Rabs (Rsum (length pos) (fun j => nth j weight 0 * peval p (nth j pos 0)) - (F 1 - F (-1)))
    <= eps * norm1 p.

(** coefficients of the polynomial s |-> p(c + l s) *)
Fixpoint padd (p q : list R) : list R :=
  match p, q with
  | [], q => q
  | p, [] => p
  | a :: p', b :: q' => (a + b) :: padd p' q'
  end.
Fixpoint affine_comp (p : list R) (c l : R) : list R :=
  match p with
  | [] => []
  | a :: p' => let q := affine_comp p' c l in
               padd [a] (padd (map (Rmult c) q) (0 :: map (Rmult l) q))
  end.

(** a table of integers times 10^-25 read as reals *)
Definition gl_reals (t : list Z) : list R := map (fun z => IZR z / IZR gl_scale) t.

(** size of the polynomial on the mesh: sum over the cells of the half length times the sum of the
    absolute values of the coefficients in the local variable of the cell *)
Definition local_size (p edges : list R) : R :=
  Rsum (length edges - 1) (fun i =>
    let l := 0.5 * (nth (S i) edges 0 - nth i edges 0) in
    l * norm1 (affine_comp p (0.5 * (nth i edges 0 + nth (S i) edges 0)) l)).
