(** Specification vocabulary for the species tables, split solvers and time loop. *)
From Verif Require Export SpeciesModel.
Open Scope R_scope.

(** The adiabatic species implied by the kinetic ones: electrons when no kinetic species has
    charge -1, ions when all have, none otherwise. *)
Definition adiabatic_charges (kin : list R) (adiab : list R) : Prop :=
  (kin <> [] /\ Forall (fun q => q <> -1) kin /\ adiab = [-1]) \/
  (kin <> [] /\ Forall (fun q => q = -1) kin /\ adiab = [1]) \/
  (Exists (fun q => q = -1) kin /\ Exists (fun q => q <> -1) kin /\ adiab = []).

(** A flow: evolving for t from any state *)
Definition reversible {St} (phi : St -> R -> St) : Prop := forall f t, phi (phi f t) (- t) = f.
Definition additive {St} (phi : St -> R -> St) : Prop :=
  forall f s t, phi (phi f s) t = phi f (s + t).
Definition commute {St} (phi psi : St -> R -> St) : Prop :=
  forall f s t, phi (psi f s) t = psi (phi f t) s.

(** The palindromic (Strang) composition: half steps of the sub-flows in order, a full step of
    the central flow, half steps in the opposite order. *)
Definition strang {St} (centre : St -> R -> St) (sub : list (St -> R -> St)) (f : St) (dt : R)
  : St :=
  fold_left (fun f s => s f (dt / 2)) (rev sub)
    (centre (fold_left (fun f s => s f (dt / 2)) sub f) dt).

(** The predictor-corrector sequence: f_(k+1) uses the field of the half-step prediction. *)
Fixpoint pc_state {St Phi E} (boltzmann : St -> E -> R -> St) (solve : St -> Phi * E) (dt : R)
  (f0 : St) (k : nat) : St :=
  match k with
  | O => f0
  | S m => let f := pc_state boltzmann solve dt f0 m in
           let f_half := boltzmann f (snd (solve f)) (dt / 2) in
           boltzmann f (snd (solve f_half)) dt
  end.

(** What is written: one "iteration" event per step with the state before the step, then
    "last_iteration" with the final one. *)
Definition pc_output {St Phi E} (boltzmann : St -> E -> R -> St) (solve : St -> Phi * E)
  (t0 dt : R) (f0 : St) (n : nat) : list (event St Phi) :=
  map (fun k => let f := pc_state boltzmann solve dt f0 k in
                Iteration St Phi k (t0 + INR k * dt) f (fst (solve f))) (seq 0 n)
  ++ [let f := pc_state boltzmann solve dt f0 n in
      LastIteration St Phi n (t0 + INR n * dt) f (fst (solve f))].
