(** Model of the three time solvers of the guiding-centre equations, src/geometryRTheta/time_solver:
    BslPredCorrRTheta (bsl_predcorr.hpp, "pc"), BslExplicitPredCorrRTheta (bsl_predcorr_second_order_explicit.hpp,
    "ex") and BslImplicitPredCorrRTheta (bsl_predcorr_second_order_implicit.hpp, "im").
    A field is the list of its values in the order of the grid; the memory maps each buffer of the operators to its
    contents.  The buffers start with arbitrary contents.  Exact real arithmetic; the timings which are printed are
    not modelled. *)
From Verif Require Import Lib DerivModel.
Open Scope R_scope.

(** ** The operators the solvers are given (references held by the objects) *)
Record operators := {
  o_grid : list (R * R);                                            (* ddc::coordinate of the points of the grid *)
  o_build : list R -> res (list R);                                 (* m_builder(coefs, values) *)
  o_value : list R -> R -> R -> res R;                              (* m_evaluator(coord, coefs): PoissonLikeRHSFunction *)
  o_eval : list R -> list (R * R) -> res (list R);                  (* m_evaluator(values, coords, coefs) *)
  o_poisson_coef : (R -> R -> res R) -> res (list R);               (* m_poisson_solver(polar spline, rhs) *)
  o_poisson_grid : (R -> R -> res R) -> res (list R);               (* m_poisson_solver(values on the grid, rhs) *)
  o_polar : list R -> res (list R);                                 (* polar_spline_evaluator on the grid *)
  o_field : list R -> res (list (R * R));                           (* AdvectionFieldFinder(polar spline) -> (A_x, A_y), C82 *)
  o_advect : list R -> list (R * R) -> R -> res (list R);           (* m_advection_solver(density, A, dt), C59 *)
  o_feet : list (R * R) -> list (R * R) -> R -> res (list (R * R)); (* m_find_feet / m_foot_finder(feet, A, dt), C58 *)
  o_phys : R * R -> R * R                                           (* m_logical_to_physical *)
}.

(** ** The memory *)
Inductive sbuf := DENSITY | DENSITY_HOST | DENSITY_COEF | DENSITY_PRED | Y_PRIME
  | PHI | PHI_HOST | PHI_COEF | PHI_COEF_HOST | COEFS_X | COEFS_Y.
Inductive vbuf := ADV | ADV_HOST | ADV_PRED | ADV_EVAL | ADV_K | ADV_K_TOT | K_1 | K_2 | LOOP_K | LOOP_K_TOT | FEET | FEET_TMP.
(** equality of buffer names *)
Scheme Equality for sbuf.
Scheme Equality for vbuf.
(** ddc::PdiEvent: the event name is last_iteration iff [ev_last] *)
Record event := { ev_last : bool; ev_iter : Z; ev_time : R; ev_density : list R; ev_potential : list R }.
Record mem := { m_s : sbuf -> list R; m_v : vbuf -> list (R * R); m_events : list event }.
(** Which allocation a buffer name stands for.  create_mirror_view and create_mirror_view_and_copy return the field itself
    when the memory is accessible (vector_field.hpp:492-493), as on a host-only build *)
Record alias := { at_s : sbuf -> sbuf; at_v : vbuf -> vbuf }.
Definition separate : alias := {| at_s := fun b => b; at_v := fun b => b |}.
(** pc 132-134 (electrical_potential_alloc_host, density_alloc), 172-173 (the mirror inside the lambda) *)
Definition alias_pc (shared : bool) : alias :=
  if shared then {| at_s := fun b => match b with DENSITY => DENSITY_HOST | PHI_HOST => PHI | PHI_COEF_HOST => PHI_COEF | _ => b end; at_v := fun b => b |}
  else separate.
(** ex 162-163, 171, 187-189 *)
Definition alias_ex (shared : bool) : alias :=
  if shared then {| at_s := fun b => match b with DENSITY => DENSITY_HOST | PHI_COEF_HOST => PHI_COEF | _ => b end;
                    at_v := fun b => match b with ADV => ADV_HOST | _ => b end |}
  else separate.
(** im 189-195 *)
Definition alias_im (shared : bool) : alias :=
  if shared then {| at_s := fun b => match b with DENSITY => DENSITY_HOST | PHI_COEF_HOST => PHI_COEF | _ => b end;
                    at_v := fun b => match b with ADV_HOST => ADV | _ => b end |}
  else separate.
Section Mem.
Context (al : alias) (o : operators).
Definition gs (b : sbuf) (m : mem) : list R := m_s m (at_s al b).
Definition gv (b : vbuf) (m : mem) : list (R * R) := m_v m (at_v al b).
Definition ps (b : sbuf) (v : list R) (m : mem) : mem :=
  {| m_s := fun c => if sbuf_beq c (at_s al b) then v else m_s m c; m_v := m_v m; m_events := m_events m |}.
Definition pv (b : vbuf) (v : list (R * R)) (m : mem) : mem :=
  {| m_s := m_s m; m_v := fun c => if vbuf_beq c (at_v al b) then v else m_v m c; m_events := m_events m |}.
Definition publish (last : bool) (iter : Z) (time : R) (m : mem) : mem :=
  {| m_s := m_s m; m_v := m_v m;
     m_events := m_events m ++ [{| ev_last := last; ev_iter := iter; ev_time := time; ev_density := gs DENSITY_HOST m; ev_potential := gs PHI_HOST m |}] |}.
(** parallel_deepcopy *)
Definition copy_s (dst src : sbuf) (m : mem) : mem := ps dst (gs src m) m.
Definition copy_v (dst src : vbuf) (m : mem) : mem := pv dst (gv src m) m.
(** m_builder(dst, src) *)
Definition build (dst src : sbuf) (m : mem) : res mem := let* c := o_build o (gs src m) in Ok (ps dst c m).
(** PoissonLikeRHSFunction charge_density(density_coef, evaluator), poisson_like_rhs_function.hpp:34-63: it refers to
    the coefficient buffer, so it is evaluated with the contents of the buffer at the time of the call *)
Definition charge_density (m : mem) : R -> R -> res R := o_value o (gs DENSITY_COEF m).
Definition poisson_coef (m : mem) : res mem := let* c := o_poisson_coef o (charge_density m) in Ok (ps PHI_COEF c m).
Definition poisson_grid (m : mem) : res mem := let* v := o_poisson_grid o (charge_density m) in Ok (ps PHI v m).
Definition polar_values (m : mem) : res mem := let* v := o_polar o (gs PHI_COEF m) in Ok (ps PHI v m).
Definition field_finder (dst : vbuf) (m : mem) : res mem := let* a := o_field o (gs PHI_COEF_HOST m) in Ok (pv dst a m).
Definition advect (dens : sbuf) (adv : vbuf) (dt : R) (m : mem) : res mem :=
  let* d := o_advect o (gs dens m) (gv adv m) dt in Ok (ps dens d m).
Definition find_feet (adv : vbuf) (dt : R) (m : mem) : res mem :=
  let* x := o_feet o (gv FEET m) (gv adv m) dt in Ok (pv FEET x m).
(** m_builder on both components *)
Definition build_field (src : vbuf) (m : mem) : res mem :=
  let* cx := o_build o (map fst (gv src m)) in
  let m := ps COEFS_X cx m in
  let* cy := o_build o (map snd (gv src m)) in Ok (ps COEFS_Y cy m).
(** m_evaluator on both components, at the feet *)
Definition eval_field (dst : vbuf) (m : mem) : res mem :=
  let* vx := o_eval o (gs COEFS_X m) (gv FEET m) in
  let m := pv dst (combine vx (map snd (gv dst m))) m in
  let* vy := o_eval o (gs COEFS_Y m) (gv FEET m) in Ok (pv dst (combine vx vy) m).
(** the kernels feet_coords(irtheta) = ddc::coordinate(irtheta) *)
Definition reset_feet (m : mem) : mem := pv FEET (o_grid o) m.
Definition vadd (a b : list (R * R)) : list (R * R) := map (fun p => (fst (fst p) + fst (snd p), snd (fst p) + snd (snd p))) (combine a b).
Definition vhalf (a : list (R * R)) : list (R * R) := map (fun p => (fst p / 2, snd p / 2)) a.
(** for (int iter(0); iter < steps; ++iter) *)
Fixpoint loop_from (body : Z -> mem -> res mem) (n : nat) (iter : Z) (m : mem) : res mem :=
  match n with O => Ok m | S n => let* m := body iter m in loop_from body n (iter + 1)%Z m end.
Definition loop (body : Z -> mem -> res mem) (steps : Z) (m : mem) : res mem := loop_from body (Z.to_nat steps) 0%Z m.
End Mem.

(** ** BslPredCorrRTheta *)
Section PredCorr.
Context (o : operators) (shared : bool).
Let al := alias_pc shared.
(** the lambda define_advection_field, pc 161-182: the density buffer [dens], the result [dst], of which
    advection_field_alloc_host (168-170) is the mirror *)
Definition pc_field (dst : vbuf) (dens : sbuf) (m : mem) : res mem :=
  let* m := build al o DENSITY_COEF dens m in
  let* m := poisson_coef al o m in
  let host := if shared then dst else ADV_HOST in
  let m := copy_v al host dst m in
  let m := copy_s al PHI_COEF_HOST PHI_COEF m in
  let* m := field_finder al o host m in
  Ok (copy_v al dst host m).
(** RK2::update, rk2.hpp:169-201 *)
Definition pc_rk2 (dt : R) (m : mem) : res mem :=
  let m := copy_s al Y_PRIME DENSITY m in
  let* m := pc_field K_1 DENSITY m in
  let* m := advect al o Y_PRIME K_1 (1 / 2 * dt) m in
  let* m := pc_field K_2 Y_PRIME m in
  advect al o DENSITY K_2 dt m.
(** pc 189-208 *)
Definition pc_body (dt : R) (iter : Z) (m : mem) : res mem :=
  let* m := pc_rk2 dt m in
  let* m := build al o DENSITY_COEF DENSITY m in
  let* m := poisson_grid al o m in
  let m := copy_s al DENSITY_HOST DENSITY m in
  let m := copy_s al PHI_HOST PHI m in
  Ok (publish al false (iter + 1) (IZR iter * dt) m).
(** pc 108-216, from the copy at 149; the result is density_host *)
Definition predcorr (dt : R) (steps : Z) (m : mem) : res mem :=
  let m := copy_s al DENSITY DENSITY_HOST m in
  let* m := build al o DENSITY_COEF DENSITY m in
  let* m := poisson_grid al o m in
  let m := copy_s al PHI_HOST PHI m in
  let m := publish al false 0 0 m in
  loop (pc_body dt) steps m.
End PredCorr.

(** ** BslExplicitPredCorrRTheta *)
Section Explicit.
Context (o : operators) (shared : bool).
Let al := alias_ex shared.
(** ex 220-319 *)
Definition ex_body (dt : R) (iter : Z) (m : mem) : res mem :=
  let time := IZR iter * dt in
  let* m := build al o DENSITY_COEF DENSITY m in
  let* m := poisson_coef al o m in
  let* m := polar_values al o m in
  let m := copy_s al PHI_HOST PHI m in
  let m := copy_s al DENSITY_HOST DENSITY m in
  let m := publish al false iter time m in
  let m := copy_s al PHI_COEF_HOST PHI_COEF m in
  let* m := field_finder al o ADV_HOST m in
  let m := copy_v al ADV ADV_HOST m in
  let m := copy_s al DENSITY_PRED DENSITY m in
  let* m := advect al o DENSITY_PRED ADV dt m in
  let m := reset_feet al o m in
  let* m := find_feet al o ADV dt m in
  let* m := build al o DENSITY_COEF DENSITY_PRED m in
  let* m := poisson_coef al o m in
  let m := copy_s al PHI_COEF_HOST PHI_COEF m in
  let* m := field_finder al o ADV_HOST m in
  let m := copy_v al ADV_PRED ADV_HOST m in
  let* m := build_field al o ADV_PRED m in
  let* m := eval_field al o ADV_EVAL m in
  let m := pv al ADV (vhalf (vadd (gv al ADV_EVAL m) (gv al ADV_PRED m))) m in
  advect al o DENSITY ADV dt m.
(** ex 143-340, from the copy at 215 *)
Definition explicit_predcorr (dt : R) (steps : Z) (m : mem) : res mem :=
  let m := copy_s al DENSITY DENSITY_HOST m in
  let* m := loop (ex_body dt) steps m in
  let* m := build al o DENSITY_COEF DENSITY m in
  let* m := poisson_grid al o m in
  let m := copy_s al PHI_HOST PHI m in
  let m := copy_s al DENSITY_HOST DENSITY m in
  Ok (publish al true steps (IZR steps * dt) m).
End Explicit.

(** ** BslImplicitPredCorrRTheta *)
Section Implicit.
Context (o : operators) (shared : bool).
Let al := alias_im shared.
(** scalar_product of the difference of the two physical points, im 486-497 *)
Definition square_distance (p q : R * R) : R :=
  let (a, b) := o_phys o p in let (c, d) := o_phys o q in (a - c) * (a - c) + (b - d) * (b - d).
(** parallel_transform_reduce with the maximum, starting from 0 *)
Definition reduce_max (l : list R) : R := fold_left Rmax l 0.
(** the body of the do loop, im 444-497; the result is square_difference_feet *)
Definition im_picard (dt : R) (m : mem) : res (mem * R) :=
  let* m := eval_field al o LOOP_K m in
  let m := pv al LOOP_K_TOT (vadd (gv al ADV m) (gv al LOOP_K m)) m in
  let m := copy_v al FEET_TMP FEET m in
  let m := reset_feet al o m in
  let* m := find_feet al o LOOP_K_TOT dt m in
  Ok (m, reduce_max (map (fun p => square_distance (fst p) (snd p)) (combine (gv al FEET m) (gv al FEET_TMP m)))).
(** do { count++; ... } while (square_difference_feet > tau * tau and count < max_count), im 441-499; [left]: the number of
    iterations which are left, max_count - count *)
Fixpoint im_do (left_ : nat) (dt tau : R) (m : mem) : res mem :=
  let* (m, sq) := im_picard dt m in
  match left_ with
  | O => Ok m
  | S l => if Rlt_dec (tau * tau) sq then im_do l dt tau m else Ok m
  end.
Definition max_count : nat := 50.
Definition implicit_loop (dt tau : R) (m : mem) : res mem := im_do (max_count - 1) dt tau m.
(** im 274: tau = 1e-6 *)
Definition im_tau : R := / 10 ^ 6.
(** im 227-383 *)
Definition im_body (dt : R) (iter : Z) (m : mem) : res mem :=
  let* m := build al o DENSITY_COEF DENSITY m in
  let* m := poisson_coef al o m in
  let* m := polar_values al o m in
  let m := copy_s al PHI_HOST PHI m in
  let m := copy_s al DENSITY_HOST DENSITY m in
  let m := publish al false iter (IZR iter * dt) m in
  let m := copy_s al PHI_COEF_HOST PHI_COEF m in
  let* m := field_finder al o ADV_HOST m in
  let m := copy_v al ADV ADV_HOST m in
  let* m := build_field al o ADV m in
  let m := reset_feet al o m in
  let* m := implicit_loop (dt / 4) im_tau m in
  let* m := eval_field al o ADV_K m in
  let m := pv al ADV_K_TOT (vhalf (vadd (gv al ADV m) (gv al ADV_K m))) m in
  let m := copy_s al DENSITY_PRED DENSITY m in
  let* m := advect al o DENSITY_PRED ADV_K (dt / 2) m in
  let m := reset_feet al o m in
  let* m := find_feet al o ADV_K_TOT (dt / 2) m in
  let* m := build al o DENSITY_COEF DENSITY_PRED m in
  let* m := poisson_coef al o m in
  let m := copy_s al PHI_COEF_HOST PHI_COEF m in
  let* m := field_finder al o ADV_HOST m in
  let m := copy_v al ADV ADV_HOST m in
  let* m := build_field al o ADV m in
  let m := reset_feet al o m in
  let* m := implicit_loop (dt / 2) im_tau m in
  let* m := eval_field al o ADV_K m in
  let m := pv al ADV_K_TOT (vhalf (vadd (gv al ADV m) (gv al ADV_K m))) m in
  advect al o DENSITY ADV_K_TOT dt m.
(** im 145-403, from the copy at 224; the last copy (401) is after the event (392-396) *)
Definition implicit_predcorr (dt : R) (steps : Z) (m : mem) : res mem :=
  let m := copy_s al DENSITY DENSITY_HOST m in
  let* m := loop (im_body dt) steps m in
  let* m := build al o DENSITY_COEF DENSITY m in
  let* m := poisson_grid al o m in
  let m := copy_s al PHI_HOST PHI m in
  let m := publish al true steps (IZR steps * dt) m in
  Ok (copy_s al DENSITY_HOST DENSITY m).
End Implicit.
