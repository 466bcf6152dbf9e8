(** Specification vocabulary for the executables: the uninterrupted simulation and the histories of a directory. *)
From Verif Require Export RstModel SpeciesSpec GciSpec.
Open Scope R_scope.

(** What the uninterrupted 1d1v simulation is after m steps from [init]: the time, the distribution and its potential. *)
Definition reference {St Phi E} (boltzmann : St -> E -> R -> St) (solve : St -> Phi * E) (init : St) (dt : R) (m : nat)
  : R * St * Phi :=
  let f := pc_state boltzmann solve dt init m in (INR m * dt, f, fst (solve f)).

(** The disks a user can be left with: a fresh directory, then programs started with any --iter-restart which is accepted, any
    number of iterations, any initial content of the memory and a time_diag among the [allowed] ones, each stopped after any
    number of operations on the disk (or left to its end). *)
Inductive reachable {St Phi E} (boltzmann : St -> E -> R -> St) (solve : St -> Phi * E) (init : St) (dt : R)
  (allowed : R -> Prop) : disk (R * St * Phi) -> Prop :=
| Fresh : reachable boltzmann solve init dt allowed (fun _ => Absent)
| Started : forall d fields0 iter_start nbiter time_diag ops c, reachable boltzmann solve init dt allowed d ->
    allowed time_diag -> session boltzmann solve init dt d fields0 iter_start nbiter time_diag = Ok ops ->
    reachable boltzmann solve init dt allowed (crashed d ops c).

(** the programs can be started from [k]: 0, or the number of a complete file *)
Definition can_start {A} (d : disk A) (k : Z) : Prop := k = 0%Z \/ (0 < k < 2147483648)%Z /\ exists c, d k = File c.
(** number of files of a run *)
Definition files (nbiter nb : Z) : Z := (Z.max 0 nbiter / nb + 1)%Z.

(** the distribution after m applications of the collision operator *)
Definition collided {St} (collide : St -> R -> St) (dt : R) (f : St) (m : nat) : St := Nat.iter m (fun g => collide g dt) f.
