(** Vocabulary of properties C09-C11. *)
From Verif Require Import Lib.
Open Scope R_scope.

(** all n components of v are at most m in absolute value *)
Definition vle (n : nat) (v : vec) (m : R) : Prop := forall i, (i < n)%nat -> Rabs (v i) <= m.
Definition veq (n : nat) (u v : vec) : Prop := forall i, (i < n)%nat -> u i = v i.
Definition vadd (u v : vec) : vec := fun i => u i + v i.
Definition vscal (a : R) (u : vec) : vec := fun i => a * u i.

(** bounded linear / bilinear / trilinear maps on n components *)
Definition linear_map (n : nat) (A : vec -> vec) : Prop :=
  (forall a b u v i, (i < n)%nat -> A (vadd (vscal a u) (vscal b v)) i = a * A u i + b * A v i) /\
  (exists C, 0 <= C /\ forall u m, vle n u m -> vle n (A u) (C * m)).
Definition bilinear_map (n : nat) (B : vec -> vec -> vec) : Prop :=
  (forall a b u v w i, (i < n)%nat ->
     B (vadd (vscal a u) (vscal b v)) w i = a * B u w i + b * B v w i) /\
  (forall u v i, (i < n)%nat -> B u v i = B v u i) /\
  (exists C, 0 <= C /\ forall u v m m', 0 <= m -> 0 <= m' -> vle n u m -> vle n v m' -> vle n (B u v) (C * m * m')).
Definition trilinear_map (n : nat) (T : vec -> vec -> vec -> vec) : Prop :=
  (forall a b u v w x i, (i < n)%nat ->
     T (vadd (vscal a u) (vscal b v)) w x i = a * T u w x i + b * T v w x i) /\
  (forall u v w i, (i < n)%nat -> T u v w i = T v u w i /\ T u v w i = T u w v i) /\
  (exists C, 0 <= C /\ forall u v w m m' m'', 0 <= m -> 0 <= m' -> 0 <= m'' ->
     vle n u m -> vle n v m' -> vle n w m'' -> vle n (T u v w) (C * m * m' * m'')).

(** f : vec -> vec (n components) has a third-order Taylor expansion at y, with first,
    second/2 and third/6 derivatives A, B, T: what a C^4 function has *)
Definition taylor_expansion (n : nat) (f : vec -> vec) (y : vec)
  (A : vec -> vec) (B : vec -> vec -> vec) (T : vec -> vec -> vec -> vec) : Prop :=
  linear_map n A /\ bilinear_map n B /\ trilinear_map n T /\
  forall M, exists C, 0 <= C /\ forall u m, vle n u m -> 0 <= m <= M ->
    vle n (fun i => f (vadd y u) i - (f y i + A u i + B u u i + T u u u i)) (C * m ^ 4).
Definition smooth_at (n : nat) (f : vec -> vec) (y : vec) : Prop :=
  exists A B T, taylor_expansion n f y A B T.

(** [Y] solves y' = f(y), Y(0) = y for times |t| <= H *)
Definition solves_ode (n : nat) (f : vec -> vec) (y : vec) (H : R) (Y : R -> vec) : Prop :=
  veq n (Y 0) y /\
  forall t i, Rabs t <= H -> (i < n)%nat -> derivable_pt_lim (fun s => Y s i) t (f (Y t) i).

(** the k-th power of a linear map *)
Fixpoint iter_map (k : nat) (A : vec -> vec) (u : vec) : vec :=
  match k with O => u | S k' => A (iter_map k' A u) end.

(** the m-th Crank-Nicolson iterate: y_0 = y, y_{m+1} = y + dt/2 (f(y) + f(y_m)) *)
Fixpoint cn_iterate {J} (f : (J -> R) -> (J -> R)) (y : J -> R) (dt : R) (m : nat) : J -> R :=
  match m with
  | O => y
  | S m' => fun j => y j + dt / 2 * (f y j + f (cn_iterate f y dt m') j)
  end.
(** y1 solves the implicit midpoint/trapezoid equation *)
Definition cn_solution (n : nat) (f : vec -> vec) (y : vec) (dt : R) (y1 : vec) : Prop :=
  forall i, (i < n)%nat -> y1 i = y i + dt / 2 * (f y i + f y1 i).
(** f is L-Lipschitz in the maximum norm *)
Definition lipschitz (n : nat) (f : vec -> vec) (L : R) : Prop :=
  forall u v m, vle n (fun i => u i - v i) m -> vle n (fun i => f u i - f v i) (L * m).
(** m is the largest absolute value of the n components (0 if n = 0) *)
Definition is_max_abs (n : nat) (v : vec) (m : R) : Prop :=
  vle n v m /\ 0 <= m /\ ((0 < n)%nat -> exists i, (i < n)%nat /\ m = Rabs (v i)).
