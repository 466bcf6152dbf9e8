(** What the spectral Poisson solver has to compute: fields that are sums of waves on a periodic box,
    their partial derivatives, and the equation. *)
From Verif Require Export Lib.
Open Scope R_scope.

(** amplitude * cos(sum_j 2 pi m_j (x_j - x0_j) / L_j + shift), m_j integer *)
Record wave := { amplitude : R; number : list Z; shift : R }.

Fixpoint angle (Ls x0 : list R) (m : list Z) (x : list R) : R :=
  match Ls, x0, m, x with
  | L :: Ls', o :: x0', a :: m', y :: x' => 2 * PI * IZR a / L * (y - o) + angle Ls' x0' m' x'
  | _, _, _, _ => 0
  end.
Definition wave_at (Ls x0 : list R) (w : wave) (x : list R) : R :=
  amplitude w * cos (angle Ls x0 (number w) x + shift w).
Definition field_at (Ls x0 : list R) (ws : list wave) (x : list R) : R :=
  fold_right (fun w acc => wave_at Ls x0 w x + acc) 0 ws.

(** the point whose j-th coordinate is replaced by t *)
Fixpoint set_coord (x : list R) (j : nat) (t : R) : list R :=
  match x, j with
  | [], _ => []
  | _ :: r, O => t :: r
  | y :: r, S j' => y :: set_coord r j' t
  end.
(** g is the partial derivative of f in the direction j *)
Definition partial_derivative (d j : nat) (f g : list R -> R) : Prop :=
  forall x, length x = d -> derivable_pt_lim (fun t => f (set_coord x j t)) (nth j x 0) (g x).

(** phi, with gradient grad and pure second derivatives hess, satisfies -Laplacian phi = rho - c *)
Definition poisson (d : nat) (rho : list R -> R) (c : R) (phi : list R -> R) (grad hess : nat -> list R -> R) : Prop :=
  (forall j, (j < d)%nat -> partial_derivative d j phi (grad j) /\ partial_derivative d j (grad j) (hess j)) /\
  (forall x, length x = d -> - Rsum d (fun j => hess j x) = rho x - c).

(** f has the periods Ls *)
Definition periodic (Ls : list R) (f : list R -> R) : Prop :=
  forall x j, length x = length Ls -> (j < length Ls)%nat -> f (set_coord x j (nth j x 0 + nth j Ls 0)) = f x.

(** coordinates of the grid point of index n *)
Fixpoint point (x0 dx : list R) (n : list Z) : list R :=
  match x0, dx, n with
  | o :: x0', h :: dx', i :: n' => (o + IZR i * h) :: point x0' dx' n'
  | _, _, _ => []
  end.
(** the waves are resolved by the grid: at least two points per wavelength in every direction *)
Definition resolved (Ns : list Z) (w : wave) : Prop :=
  Forall2 (fun N m => (2 * Z.abs m <= N)%Z) Ns (number w).
(** strictly resolved in the direction j *)
Definition resolved_strictly (j : nat) (Ns : list Z) (w : wave) : Prop :=
  (2 * Z.abs (nth j (number w) 0) < nth j Ns 0)%Z.

(** all the indices of the grid, and the mean of an array over the grid *)
Fixpoint all_indices (Ns : list Z) : list (list Z) :=
  match Ns with
  | [] => [[]]
  | N :: t => flat_map (fun i => map (cons (Z.of_nat i)) (all_indices t)) (seq 0 (Z.to_nat N))
  end.
Definition total (Ns : list Z) (f : list Z -> R) : R := fold_right (fun n acc => f n + acc) 0 (all_indices Ns).
Definition mean (Ns : list Z) (f : list Z -> R) : R := total Ns f / INR (length (all_indices Ns)).
