(** Model of the executables in simulations/: the output files they leave, the number of time steps they make and their
    restart.
      x1: simulations/geometryXVx/vlasovpoisson_xvx_fft.cpp (the same lines, but for the Poisson solver, in
          vlasovpoisson_xvx_fem_uniform.cpp) with pdi_out.yml.hpp of the same folder
      ri: src/geometryXVx/initialisation/restartinitialisation.cpp
      gc: simulations/geometryXY/guiding_centre/guiding_centre.cpp with its pdi_out.yml.hpp
      co: simulations/geometryVparMu/collisions/test_collSpVparMu.cpp with its pdi_out.yml.hpp
      di, vm: simulations/geometryRTheta/diocotron/diocotron.cpp and vortex_merger/vortex_merger.cpp
    The PDI library is not in the repository: its plugins set_value and decl_hdf5 are modelled from the configuration given to
    them.  A file is written by two operations, [Tear] (it is opened and its old content replaced: from here it is neither the
    old nor the new one) and [Write] (it is complete); a crash stops the program between two operations.  The file of the
    event initial_state (x1 135), which is never read, is left out. *)
From Verif Require Export LagrangeModel SpeciesModel GciModel EdgeModel.
From Flocq Require Import IEEE754.BinarySingleNaN.
Open Scope R_scope.

(** static_cast<int>(double) *)
Definition c_int (x : R) : res Z :=
  let n := trunc_int x in if ((- 2147483648 <=? n) && (n <=? 2147483647))%Z then Ok n else Ub.
(** PDI reads the exposed long iter_start as an int (pdi_out.yml.hpp:9): the low 32 bits *)
Definition to_int (z : Z) : Z := ((z + 2147483648) mod 4294967296 - 2147483648)%Z.
(** x1 103, gc 71: int(a / b); the quotient of a division by zero is not an int *)
Definition int_quotient (a b : R) : res Z := if Req_EM_T b 0 then Ub else c_int (a / b).
(** the same in IEEE binary64 *)
Definition int_quotient_b64 (a b : binary_float 53 1024) : Z := Btrunc (b64_div a b).

(** ** Files *)
Section Files.
Context {A : Type}.
Inductive entry := Absent | Torn | File (content : A).
Definition disk : Type := Z -> entry.
Inductive op := Tear (n : Z) | Write (n : Z) (content : A).
Definition put (d : disk) (n : Z) (e : entry) : disk := fun m => if (m =? n)%Z then e else d m.
Definition apply (d : disk) (o : op) : disk :=
  match o with Tear n => put d n Torn | Write n c => put d n (File c) end.
(** the disk when the program stops after the first [c] operations *)
Definition crashed (d : disk) (ops : list op) (c : nat) : disk := fold_left apply (firstn c ops) d.
Definition completed (d : disk) (ops : list op) : disk := fold_left apply ops d.
(** pdi_out.yml.hpp of x1, 57-60 (set_value, on the data iter) and 68-72 (decl_hdf5): file number
    iter_start + iter / nbstep_diag, when iter % nbstep_diag = 0 *)
Definition save_numbered (iter_start nb iter : Z) (content : A) : res (list op) :=
  if (nb =? 0)%Z then Ub
  else
    let iter_saved := (iter_start + Z.quot iter nb)%Z in
    if (Z.rem iter nb =? 0)%Z then Ok [Tear iter_saved; Write iter_saved content] else Ok [].
(** pdi_out.yml.hpp of gc, 82-86: the file is numbered by the iteration *)
Definition save_by_iteration (nb iter : Z) (content : A) : res (list op) :=
  if (nb =? 0)%Z then Ub else if (Z.rem iter nb =? 0)%Z then Ok [Tear iter; Write iter content] else Ok [].
(** the events of a run, in order *)
Fixpoint save_all {B} (save : B -> res (list op)) (evs : list B) : res (list op) :=
  match evs with
  | [] => Ok []
  | e :: evs => let* a := save e in let* b := save_all save evs in Ok (a ++ b)%list
  end.
End Files.
Arguments entry : clear implicits.
Arguments disk : clear implicits.
Arguments op : clear implicits.

(** ** The 1d1v executables *)
Section XVx.
Context {St Phi E : Type}.
Context (boltzmann : St -> E -> R -> St) (solve : St -> Phi * E) (init : St) (deltat : R).
(** pdi_out.yml.hpp of x1, 72: write [time_saved, fdistribu, electrostatic_potential] *)
Notation content := (R * St * Phi)%type.
(** x1 83-94 and ri 10-16 with pdi_out.yml.hpp 73-75: time_start and the initial distribution.  A file which is not there is
    an error of the library; what is read from an incomplete one is not specified. *)
Definition start (d : disk content) (iter_start : Z) : res (R * St) :=
  if (iter_start =? 0)%Z then Ok (0, init)
  else
    match d (to_int iter_start) with
    | Absent => Throw
    | Torn => Ub
    | File (time_saved, fdistribu, _) => Ok (time_saved, fdistribu)
    end.
(** the events iteration and last_iteration of predcorr.cpp 58-62, 91-95 *)
Definition save_event (iter_start nb : Z) (e : event St Phi) : res (list (op content)) :=
  match e with
  | Iteration _ _ iter time f phi => save_numbered iter_start nb (Z.of_nat iter) (time, f, phi)
  | LastIteration _ _ iter time f phi => save_numbered iter_start nb (Z.of_nat iter) (time, f, phi)
  end.
(** x1 43-153: what is written when the program is started with --iter-restart [iter_start] (0: a new simulation) on a disk
    [d]; [fields0]: the uninitialised potential and field of predcorr.cpp 28-32 *)
Definition session (d : disk content) (fields0 : Phi * E) (iter_start nbiter : Z) (time_diag : R) : res (list (op content)) :=
  let* (time_start, f) := start d iter_start in
  let* nbstep_diag := int_quotient time_diag deltat in
  let (_, evs) := predcorr St Phi E boltzmann (fun f _ => solve f) fields0 f time_start deltat nbiter in
  save_all (save_event (to_int iter_start) nbstep_diag) evs.
End XVx.

(** ** The guiding centre executable *)
(** gc 126-178: [f]: the initial density; the event of the initial state (161-172) then those of the time loop *)
Definition guiding_centre (o : xy_operators) (f : list R) (delta_t final_time : R) (nbstep_diag : Z)
  : res (list (op xy_event)) :=
  let* nbiter := int_quotient final_time delta_t in
  let* (phi, E, f) := x_poisson o f in
  let e0 := {| xe_iter := 0; xe_time := IZR 0 * delta_t; xe_f := f; xe_phi := phi; xe_E := E |} in
  let* (_, evs) := predcorr_xy o f delta_t nbiter in
  save_all (fun e => save_by_iteration nbstep_diag (xe_iter e) e) (e0 :: evs).

(** ** The collision executable *)
Section Collisions.
Context {St : Type} (collide : St -> R -> St).
(** co 135-149: iterations [iter], ..., iter + n - 1; (time_saved, fdistribu) *)
Fixpoint coll_loop (deltat : R) (nb : Z) (n : nat) (iter : Z) (f : St) : res (St * list (op (R * St))) :=
  match n with
  | O => Ok (f, [])
  | S n =>
    let time_iter := 0 + IZR iter * deltat in
    let* a := save_numbered 0 nb iter (time_iter, f) in
    let f := collide f deltat in
    let* (f, b) := coll_loop deltat nb n (iter + 1)%Z f in
    Ok (f, (a ++ b)%list)
  end.
(** co 110-123: nbstep_diag.  With deltat = 0, time_diag / nbiter is infinite or NaN for nbiter = 0, and then the quotient is 0
    or NaN: both end in undefined behaviour, here or at the first event. *)
Definition coll_nbstep (deltat : R) (nbiter : Z) (time_diag : R) : res Z :=
  if Req_EM_T deltat 0 then
    if (nbiter =? 0)%Z then Ub else int_quotient time_diag (time_diag / IZR nbiter)
  else int_quotient time_diag deltat.
(** co 110-149; nbiter + 1 overflows for the largest int *)
Definition coll_main (f : St) (deltat : R) (nbiter : Z) (time_diag : R) : res (St * list (op (R * St))) :=
  if Rlt_dec (1 / 100) deltat then Throw
  else
    let* nb := coll_nbstep deltat nbiter time_diag in
    if (nbiter <? int_max)%Z then coll_loop deltat nb (Z.to_nat (nbiter + 1)) 0 f else Ub.
End Collisions.

(** ** The number of time steps of the polar executables *)
(** di 238, vm 188: int const iter_nb = final_T * int(1 / dt); *)
Definition polar_steps (final_T dt : R) : res Z :=
  let* n := int_quotient 1 dt in c_int (final_T * IZR n).
