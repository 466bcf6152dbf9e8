(** Model of src/coord_transformations/discrete_poloidal_cs_spline_mapping_builder.hpp (the two builders of
    discrete mappings) and of the constructor of the mapping they return
    (discrete_poloidal_cs_spline_mapping.hpp).  double is R; the spaces of B-splines, their
    interpolation points, the 2D builder and the 2D evaluator are DDC's and are inputs. *)
From Verif Require Import Lib DerivModel QuadModel MappingModel PspModel.
Open Scope R_scope.

(** A ddc::SplineBuilder2D: the coordinates of the points of its interpolation_domain() in r and theta, and
    operator() without derivatives: coefficients from values (both stored row by row) *)
Record builder2 : Type := { bu_r : list R; bu_t : list R; bu_build : list R -> res (list R) }.

(** set_curvilinear_to_cartesian_values, 144-166 and 457-479: [order] is the order in which the parallel loop
    visits the points of the grid.  curvilinear_to_x_vals(el) and curvilinear_to_y_vals(el) are written. *)
Definition set_values (analytical : crd -> crd) (gr gt : list R) (order : list (nat * nat))
    (vals : list R * list R) : res (list R * list R) :=
  fold_left (fun acc el =>
    let* (xs, ys) := acc in
    let (i, j) := (el : nat * nat) in
    let* r := rd gr (Z.of_nat i) in
    let* th := rd gt (Z.of_nat j) in
    let cart_coord := analytical (c2 r th) in
    let el := (Z.of_nat i * Z.of_nat (length gt) + Z.of_nat j)%Z in
    let* xs := wr xs el (cart_coord 0%nat) in
    let* ys := wr ys el (cart_coord 1%nat) in
    Ok (xs, ys)) order (Ok vals).

(** an index range: first indices and extents in r and theta *)
Record range2 : Type := { r2_r0 : nat; r2_t0 : nat; r2_nr : nat; r2_nt : nat }.
(** IdxRange::take_first; DDC asserts that the range is large enough *)
Definition take_first (d : range2) (nr nt : nat) : res range2 :=
  let* _ := check ((nr <=? r2_nr d) && (nt <=? r2_nt d))%nat in
  Ok {| r2_r0 := r2_r0 d; r2_t0 := r2_t0 d; r2_nr := nr; r2_nt := nt |}.

(** The state of the builders, 61-64 and 321-324, and of the mapping they return *)
Record built : Type := { bd_map : dmap; bd_singular : range2 }.

(** DiscretePoloidalCSSplineMappingBuilder, 75-115, then operator(), 122-129.  [uninit]: contents of the two
    fields of values before the loop *)
Definition build_mapping (analytical : crd -> crd) (bu : builder2) (ev : nat -> nat -> list R -> R -> R -> res R)
    (order : list (nat * nat)) (uninit : list R * list R) : res built :=
  let* (xv, yv) := set_values analytical (bu_r bu) (bu_t bu) order uninit in
  let* x_spline := bu_build bu xv in
  let* y_spline := bu_build bu yv in
  let interp_domain := {| r2_r0 := 0; r2_t0 := 0; r2_nr := length (bu_r bu); r2_nt := length (bu_t bu) |} in
  let* sing := take_first interp_domain 1 (r2_nt interp_domain) in
  Ok {| bd_map := {| dm_x := x_spline; dm_y := y_spline; dm_ev := ev |}; bd_singular := sing |}.

(** m_o_point of the mapping, discrete_poloidal_cs_spline_mapping.hpp 132-148: when the memory cannot be accessed
    from the host the mapping is evaluated on the grid at the front of the singular range *)
Definition mapping_o_point (on_host : bool) (m : built) (gr gt : list R) : res (R * R) :=
  if on_host then dm_o_point (bd_map m)
  else
    let* o := take_first (bd_singular m) 1 1 in
    let* r := rd gr (Z.of_nat (r2_r0 o)) in
    let* th := rd gt (Z.of_nat (r2_t0 o)) in
    dm_apply (bd_map m) r th.

(** 364-375: the break points of one direction of the refined mapping (the std::vector is filled by a loop over
    an int from 0 to ncells) *)
Definition refined_break_points (xmin xmax : R) (ncells : nat) : res (list R) :=
  let dx := (xmax - xmin) / INR ncells in
  for_res (ncells + 1) (fun i l => wr l (Z.of_nat i) (xmin + INR i * dx)) (repeat 0 (ncells + 1)).

(** What DDC makes from the break points (init_discrete_space of the B-splines and of the Greville points,
    SplineBuilder2D, SplineEvaluator2D with the extrapolation rules of the original evaluator) *)
Record ddc_factory : Type := {
  fa_uniform_r : R -> R -> nat -> bspace;
  fa_uniform_t : R -> R -> nat -> bspace;
  fa_breaks_r : list R -> bspace;
  fa_breaks_t : list R -> bspace;
  fa_builder : bspace -> bspace -> builder2;
  fa_evaluator : bspace -> bspace -> nat -> nat -> list R -> R -> R -> res R
}.
(** RefinedDiscretePoloidalCSSplineMappingBuilder, 335-428, then operator(), 435-442.  [br], [bt]: the original
    spaces; [uniform]: is_uniform() of the radial B-splines, which selects the branch for both
    directions (359).  The singular range is taken before the builder is made (393-399): no difference. *)
Definition build_refined (fa : ddc_factory) (uniform : bool) (ncells_r ncells_t : nat) (analytical : crd -> crd)
    (br bt : bspace) (order : list (nat * nat)) (uninit : list R * list R) : res (bspace * bspace * built) :=
  let r_min := b_rmin br in let r_max := b_rmax br in
  let theta_min := b_rmin bt in let theta_max := b_rmax bt in
  let* (sr, st) :=
    if uniform then Ok (fa_uniform_r fa r_min r_max ncells_r, fa_uniform_t fa theta_min theta_max ncells_t)
    else
      let* r_break_points := refined_break_points r_min r_max ncells_r in
      let* theta_break_points := refined_break_points theta_min theta_max ncells_t in
      Ok (fa_breaks_r fa r_break_points, fa_breaks_t fa theta_break_points) in
  let* m := build_mapping analytical (fa_builder fa sr st) (fa_evaluator fa sr st) order uninit in
  Ok (sr, st, m).
