(** Properties C102-C104: discrete mappings built from analytical ones. *)
From Verif Require Import Lib LagDerivSpec MappingModel PspModel PspSpec PspExamples DmbModel DmbSpec DmbProofs DmbCirc DmbRefined.
Open Scope R_scope.

(** C102: the builder succeeds in whatever order the parallel loop visits the grid; the mapping is one polar splines
    can be built on, goes through the image of every point of the grid, and its singular points are the first
    circle of the grid. *)
Theorem C102_fits : forall br bt tr tt bu ev A order uninit, builder_setup br bt tr tt bu ev -> grid_loop bu order uninit ->
  exists m, build_mapping A bu ev order uninit = Ok m /\ polar_mapping br bt (bd_map m) /\ fits (bd_map m) bu A /\
    dm_ev (bd_map m) = ev /\
    bd_singular m = {| r2_r0 := 0; r2_t0 := 0; r2_nr := 1; r2_nt := length (bu_t bu) |}.
Proof. exact builder_fits. Qed.
Print Assumptions C102_fits.

(** An analytical mapping with a pole gives a discrete mapping with the same pole: all the control points of the first
    row are this point, and the mapping is there for every theta, not only those of the grid. *)
Theorem C102_pole : forall br bt tr tt bu ev A x0 y0 m, builder_setup br bt tr tt bu ev -> b_rmin br = 0 ->
  has_pole br bu A x0 y0 -> polar_mapping br bt m -> fits m bu A ->
  row0_is bt m x0 y0 /\ forall th, b_rmin bt <= th <= b_rmax bt -> dm_apply m 0 th = Ok (x0, y0).
Proof. exact builder_pole. Qed.
Print Assumptions C102_pole.

(** The O-point of the mapping is the pole, whether it is computed on the host or on the device. *)
Theorem C102_o_point : forall br bt tr tt bu ev A x0 y0 order uninit m host, builder_setup br bt tr tt bu ev -> b_rmin br = 0 ->
  b_rmin bt <= 0 <= b_rmax bt -> bu_t bu <> [] -> has_pole br bu A x0 y0 -> grid_loop bu order uninit ->
  build_mapping A bu ev order uninit = Ok m -> mapping_o_point host m (bu_r bu) (bu_t bu) = Ok (x0, y0).
Proof. exact builder_o_point. Qed.
Print Assumptions C102_o_point.

Example C102_case : builder_setup (disc_r 3) disc_t (knots_r 3) knots_t ex_builder ex_eval /\
  grid_loop ex_builder (rev (list_prod (seq 0 5) (seq 0 4))) (repeat 0 20, repeat 0 20) /\
  b_rmin (disc_r 3) = 0 /\ b_rmin disc_t <= 0 <= b_rmax disc_t /\ bu_t ex_builder <> [] /\
  has_pole (disc_r 3) ex_builder (circ_apply 1 2) 1 2.
Proof.
  split; [exact ex_builder_setup|]. split; [exact ex_grid_loop|]. split; [reflexivity|]. split; [apply disc_contains_0|].
  split; [discriminate|]. intros th _. unfold image, circ_apply, c2. replace (b_rmin (disc_r 3)) with 0 by reflexivity. f_equal; ring.
Qed.

(** C103: a spline mapping is determined by its points on the grid, so building the discrete mapping of a mapping which
    is itself a spline gives it back. *)
Theorem C103_unique : forall br bt tr tt bu ev A m m', builder_setup br bt tr tt bu ev ->
  polar_mapping br bt m -> polar_mapping br bt m' -> fits m bu A -> fits m' bu A -> same_control_points br bt m m'.
Proof. exact fits_unique. Qed.
Print Assumptions C103_unique.

(** Moving, turning or stretching the analytical mapping does the same to the control points. *)
Theorem C103_affine : forall br bt tr tt bu ev A a11 a12 a21 a22 bx by_ m m', builder_setup br bt tr tt bu ev ->
  polar_mapping br bt m -> polar_mapping br bt m' -> fits m bu A ->
  fits m' bu (fun p => affine_map a11 a12 a21 a22 bx by_ (A p)) ->
  forall i j, (i < nbasis_r br)%nat -> (j < b_size bt)%nat ->
    ctrl bt m' i j = (affine bx a11 a12 (ctrl_x bt m i j) (ctrl_y bt m i j), affine by_ a21 a22 (ctrl_x bt m i j) (ctrl_y bt m i j)).
Proof. exact builder_affine. Qed.
Print Assumptions C103_affine.

(** From the circular mapping: linear in r for every theta, with the periodic splines through cos and sin. *)
Theorem C103_circular : forall br bt tr tt bu ev ox oy m, builder_setup br bt tr tt bu ev -> b_rmin br = 0 -> (1 <= b_deg br)%nat ->
  polar_mapping br bt m -> fits m bu (circ_apply ox oy) ->
  exists C S, spline_through bt C (bu_t bu) cos /\ spline_through bt S (bu_t bu) sin /\ circular_form br bt m ox oy C S.
Proof. exact circular_linear. Qed.
Print Assumptions C103_circular.

(** It meets every condition of the polar splines (C70 - C76), for each continuity. *)
Theorem C103_circular_polar : forall c1 br bt tr tt bu ev ox oy m, builder_setup br bt tr tt bu ev -> polar_domain c1 br bt -> (c1 <= 2)%nat ->
  (b_deg bt <= b_cells bt)%nat -> polar_mapping br bt m -> fits m bu (circ_apply ox oy) -> polar_setup c1 br bt tr tt m ox oy.
Proof. exact circular_setup. Qed.
Print Assumptions C103_circular_polar.

Example C103_case : polar_domain 2 (disc_r 3) disc_t /\ (1 <= b_deg (disc_r 3))%nat /\ (b_deg disc_t <= b_cells disc_t)%nat /\
  exists m, build_mapping (circ_apply 1 2) ex_builder ex_eval (rev (list_prod (seq 0 5) (seq 0 4))) (repeat 0 20, repeat 0 20) = Ok m /\
    polar_mapping (disc_r 3) disc_t (bd_map m) /\ fits (bd_map m) ex_builder (circ_apply 1 2).
Proof.
  split; [exact ex_polar_domain|]. split; [cbn; lia|]. split; [cbn; lia|].
  destruct (builder_fits _ _ _ _ _ _ (circ_apply 1 2) _ _ ex_builder_setup ex_grid_loop) as [m [E [M [F _]]]]. exists m. auto.
Qed.

(** C104: the break points of the refined mapping cut the domain into equal cells. *)
Theorem C104_break_points : forall a b n, (1 <= n)%nat -> a < b -> exists l, refined_break_points a b n = Ok l /\ equal_cells a b n l /\
  forall i j, (i < j <= n)%nat -> nth i l 0 < nth j l 0.
Proof. exact refined_points. Qed.
Print Assumptions C104_break_points.

(** The refined mapping has the domain of the original splines, the requested numbers of cells, and goes through the
    images of the points of the refined grid. *)
Theorem C104_refined : forall fa (uniform : bool) nr nt A br bt order uninit, (1 <= nr)%nat -> (1 <= nt)%nat ->
  b_rmin br < b_rmax br -> b_rmin bt < b_rmax bt ->
  exists (lr lt : list R), equal_cells (b_rmin br) (b_rmax br) nr lr /\ equal_cells (b_rmin bt) (b_rmax bt) nt lt /\
    let sr := if uniform then fa_uniform_r fa (b_rmin br) (b_rmax br) nr else fa_breaks_r fa lr in
    let st := if uniform then fa_uniform_t fa (b_rmin bt) (b_rmax bt) nt else fa_breaks_t fa lt in
    let bu := fa_builder fa sr st in
    forall (tr tt : nat -> R), builder_setup sr st tr tt bu (fa_evaluator fa sr st) -> has_breaks sr tr lr -> has_breaks st tt lt ->
      grid_loop bu order uninit ->
      exists m, build_refined fa uniform nr nt A br bt order uninit = Ok (sr, st, m) /\
        b_rmin sr = b_rmin br /\ b_rmax sr = b_rmax br /\ b_cells sr = nr /\
        b_rmin st = b_rmin bt /\ b_rmax st = b_rmax bt /\ b_cells st = nt /\
        polar_mapping sr st (bd_map m) /\ fits (bd_map m) bu A /\
        bd_singular m = {| r2_r0 := 0; r2_t0 := 0; r2_nr := 1; r2_nt := length (bu_t bu) |}.
Proof. exact refined_mapping. Qed.
Print Assumptions C104_refined.

Example C104_case : forall lr lt, equal_cells 0 3 3 lr -> equal_cells 0 (2 * PI) 4 lt ->
  let sr := fa_breaks_r ex_factory lr in let st := fa_breaks_t ex_factory lt in
  builder_setup sr st (knots_r 3) knots_t (fa_builder ex_factory sr st) (fa_evaluator ex_factory sr st) /\
  has_breaks sr (knots_r 3) lr /\ has_breaks st knots_t lt /\
  grid_loop (fa_builder ex_factory sr st) (rev (list_prod (seq 0 5) (seq 0 4))) (repeat 0 20, repeat 0 20).
Proof.
  intros lr lt H1 H2. split; [exact ex_builder_setup|]. destruct (ex_breaks lr lt H1 H2) as [A B]. split; [exact A|]. split; [exact B|exact ex_grid_loop].
Qed.
