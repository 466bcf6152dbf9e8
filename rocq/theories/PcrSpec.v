(** Vocabulary of the properties of the guiding-centre time solvers (C85 - C89).  The schemes are relations between
    densities, vector fields and feet; no buffers. *)
From Verif Require Import Lib DerivModel PcrModel.
Open Scope R_scope.

(** ** The ingredients *)
(** phi is the polar spline potential of the density rho: the right-hand side is the spline interpolant of rho *)
Definition potential_of (o : operators) (rho phi : list R) : Prop :=
  exists c, o_build o rho = Ok c /\ o_poisson_coef o (o_value o c) = Ok phi.
(** the same potential as values on the grid *)
Definition grid_potential (o : operators) (rho phi : list R) : Prop :=
  exists c, o_build o rho = Ok c /\ o_poisson_grid o (o_value o c) = Ok phi.
Definition field_of (o : operators) (rho : list R) (A : list (R * R)) : Prop :=
  exists phi, potential_of o rho phi /\ o_field o phi = Ok A.
(** the spline interpolant of the vector field A at the points X *)
Definition field_at (o : operators) (A X B : list (R * R)) : Prop :=
  exists cx cy bx by_, o_build o (map fst A) = Ok cx /\ o_build o (map snd A) = Ok cy /\
    o_eval o cx X = Ok bx /\ o_eval o cy X = Ok by_ /\ B = combine bx by_.
Definition plus (A B : list (R * R)) : list (R * R) := map (fun p => (fst (fst p) + fst (snd p), snd (fst p) + snd (snd p))) (combine A B).
Definition mean (A B : list (R * R)) : list (R * R) :=
  map (fun p => ((fst (fst p) + fst (snd p)) / 2, (snd (fst p) + snd (snd p)) / 2)) (combine A B).

(** ** One step of each scheme *)
(** midpoint (RK2): predict with A(rho) for dt / 2, advect rho with the field of the prediction for dt *)
Definition midpoint_step (o : operators) (dt : R) (rho rho' : list R) : Prop :=
  exists A rhoP AP, field_of o rho A /\ o_advect o rho A (dt / 2) = Ok rhoP /\ field_of o rhoP AP /\ o_advect o rho AP dt = Ok rho'.
(** prediction with A^n for dt, correction with a mean field; [which A AP]: the field that is evaluated at the feet X^P *)
Definition explicit_step (which : list (R * R) -> list (R * R) -> list (R * R)) (o : operators) (dt : R) (rho rho' : list R) : Prop :=
  exists A rhoP XP AP B, field_of o rho A /\ o_advect o rho A dt = Ok rhoP /\ o_feet o (o_grid o) A dt = Ok XP /\
    field_of o rhoP AP /\ field_at o (which A AP) XP B /\ o_advect o rho (mean B AP) dt = Ok rho'.
(** as implemented: A^P(X^P); as documented: A^n(X^P) *)
Definition explicit_code := explicit_step (fun A AP => AP).
Definition explicit_documented := explicit_step (fun A AP => A).

(** ** The fixed point iteration for the feet *)
(** X' = the feet of the field A(X^n) + A(X) over the time h *)
Definition picard (o : operators) (A : list (R * R)) (h : R) (X X' : list (R * R)) : Prop :=
  exists B, field_at o A X B /\ o_feet o (o_grid o) (plus A B) h = Ok X'.
(** the largest distance between two lists of points, in the physical plane, is at most d *)
Definition close_feet (o : operators) (X Y : list (R * R)) (d : R) : Prop :=
  forall p q, In (p, q) (combine X Y) ->
    sqrt ((fst (o_phys o p) - fst (o_phys o q)) ^ 2 + (snd (o_phys o p) - snd (o_phys o q)) ^ 2) <= d.
(** X_0 = the grid, X_1, ..., X_k: fixed point iterates; the last two are at distance at most tau, or k = 50; no earlier
    pair is *)
Definition feet_iteration (o : operators) (A : list (R * R)) (h tau : R) (k : nat) (Xs : nat -> list (R * R)) : Prop :=
  Xs 0%nat = o_grid o /\ (1 <= k <= 50)%nat /\ (forall i, (i < k)%nat -> picard o A h (Xs i) (Xs (S i))) /\
  (forall i, (S i < k)%nat -> ~ close_feet o (Xs (S i)) (Xs i) tau) /\
  (close_feet o (Xs k) (Xs (k - 1)%nat) tau \/ k = 50%nat).
Definition feet_solution (o : operators) (A : list (R * R)) (h tau : R) (X : list (R * R)) : Prop :=
  exists k Xs, feet_iteration o A h tau k Xs /\ X = Xs k.
(** prediction over dt / 2 with implicit feet over dt / 4, correction over dt with implicit feet over dt / 2;
    [which A AX]: the field the prediction is advected with *)
Definition implicit_step (which : list (R * R) -> list (R * R) -> list (R * R)) (tau : R) (o : operators) (dt : R) (rho rho' : list R) : Prop :=
  exists A X AX rhoP AP Y AY, field_of o rho A /\ feet_solution o A (dt / 4) tau X /\ field_at o A X AX /\
    o_advect o rho (which A AX) (dt / 2) = Ok rhoP /\ (exists Z, o_feet o (o_grid o) (mean A AX) (dt / 2) = Ok Z) /\
    field_of o rhoP AP /\ feet_solution o AP (dt / 2) tau Y /\ field_at o AP Y AY /\ o_advect o rho (mean AP AY) dt = Ok rho'.
(** as implemented: the prediction uses A^n(X^P) alone; as commented in the code: (A^n(X^n) + A^n(X^P)) / 2 *)
Definition implicit_code := implicit_step (fun A AX => AX) (/ 10 ^ 6).
Definition implicit_commented := implicit_step mean (/ 10 ^ 6).

(** ** Runs *)
(** ds 0, ..., ds n are the densities of n steps *)
Definition trajectory (step : list R -> list R -> Prop) (n : nat) (rho : list R) (ds : nat -> list R) : Prop :=
  ds 0%nat = rho /\ forall i, (i < n)%nat -> step (ds i) (ds (S i)).
(** the number of iterations of for (int iter(0); iter < steps; ++iter) *)
Definition count (steps : Z) : nat := Z.to_nat steps.
Definition is_event (e : event) (last : bool) (iter : Z) (time : R) (rho : list R) (P : list R -> Prop) : Prop :=
  ev_last e = last /\ ev_iter e = iter /\ ev_time e = time /\ ev_density e = rho /\ P (ev_potential e).
(** the memory before the call: the density is in density_host, every other buffer is arbitrary *)
Definition given (m : mem) (rho : list R) : Prop := m_s m DENSITY_HOST = rho /\ m_events m = [].
Definition polar_potential_of (o : operators) (rho phi : list R) : Prop := exists c, potential_of o rho c /\ o_polar o c = Ok phi.
(** every advection preserves P (the total mass, positivity, ...) *)
Definition advection_keeps (o : operators) (P : list R -> Prop) : Prop := forall rho A dt rho', P rho -> o_advect o rho A dt = Ok rho' -> P rho'.

(** ** Contractions *)
(** the feet finder returns one foot per point *)
Definition feet_lengths (o : operators) : Prop := forall A h X', o_feet o (o_grid o) A h = Ok X' -> length X' = length (o_grid o).
(** the fixed point map contracts distances by L *)
Definition contraction (o : operators) (A : list (R * R)) (h L : R) : Prop :=
  forall X Y X' Y' e, length X = length (o_grid o) -> length Y = length (o_grid o) -> picard o A h X X' -> picard o A h Y Y' ->
    0 <= e -> close_feet o X Y e -> close_feet o X' Y' (L * e).

(** ** The call of the fixed point loop *)
(** the spline coefficients in memory are those of the field in ADV *)
Definition built (o : operators) (al : alias) (m : mem) : Prop :=
  o_build o (map fst (gv al ADV m)) = Ok (gs al COEFS_X m) /\ o_build o (map snd (gv al ADV m)) = Ok (gs al COEFS_Y m).
(** the field is A, its spline representation has been built, and the feet are the points of the grid *)
Definition ready (o : operators) (shared : bool) (m : mem) (A : list (R * R)) : Prop :=
  built o (alias_im shared) m /\ gv (alias_im shared) ADV m = A /\ gv (alias_im shared) FEET m = o_grid o.
Definition feet_in (shared : bool) (m : mem) : list (R * R) := gv (alias_im shared) FEET m.
