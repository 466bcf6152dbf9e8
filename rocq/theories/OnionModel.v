(** Model of src/multipatch/connectivity/onion_patch_locator.hpp, of
    src/multipatch/spline/multipatch_spline_evaluator_2d.hpp, constant_extrapolation_rules_onion.hpp,
    null_extrapolation_rules.hpp and of src/multipatch/utils/multipatch_math_tools.hpp.
    Exact reals.  Kokkos::abort is [Throw].  The B-spline basis (DDC) is an oracle. *)
From Verif Require Export Lib MathModel.
Open Scope R_scope.

(** The B-splines of one dimension of a patch (DDC's discrete_space): periodicity, domain, degree,
    number of coefficients, eval_basis ([false]) and eval_deriv ([true]): the first non-zero basis
    function and the values of the degree + 1 non-zero ones; [None]: the assertion of DDC that the
    coordinate is in the domain fails; integrals of the basis functions (ddc::integrals) *)
Record basis := Basis {
  b_per : bool; b_rmin : R; b_len : R; b_deg : nat; b_n : nat;
  b_eval : bool -> R -> option (nat * (nat -> R));
  b_int : nat -> R
}.

(** one patch: coordinates along r of the first and of the last grid point, and its B-splines *)
Record opatch := OPatch { o_rmin : R; o_rmax : R; o_b1 : basis; o_b2 : basis }.

(** onion_patch_locator.hpp 92, 96 *)
Definition outside_rmax_domain : Z := (-1)%Z.
Definition outside_rmin_domain : Z := (-2)%Z.

(** onion_patch_locator.hpp 234-253: set_and_check_radii.  Without any patch r_min[0] is out of
    bounds. *)
Definition set_and_check_radii (ps : list opatch) : res (list R) :=
  let n := length ps in
  let r_min := map o_rmin ps in
  let r_max := map o_rmax ps in
  let radii_host := repeat 0 (n + 1) in
  let* r0 := rd r_min 0 in
  let* radii_host := wr radii_host 0 r0 in
  let* radii_host := for_res (n - 1) (fun i h =>
    let* a := rd r_min (Z.of_nat i + 1) in
    let* b := rd r_max (Z.of_nat i) in
    if Rlt_dec (/ 10 ^ 14) (Rabs (a - b)) then Throw else wr h (Z.of_nat i + 1) b) radii_host in
  let* b := rd r_max (Z.of_nat n - 1) in
  wr radii_host (Z.of_nat n) b.

(** onion_patch_locator.hpp 174-186: the while loop, at most [fuel] turns ([None]: still running);
    [Some None]: the loop ended without a return *)
Fixpoint locate_loop (fuel : nat) (radii : list R) (r : R) (lo hi : Z) : res (option (option Z)) :=
  match fuel with
  | O => Ok None
  | S fuel =>
    if (hi >=? lo)%Z then
      let mid := Z.quot (lo + hi) 2 in
      let* r_min := rd radii mid in
      let* r_max := rd radii (mid + 1) in
      if (Rleb r_min r && Rltb r r_max)%bool then Ok (Some (Some mid))
      else if Rltb r r_min then locate_loop fuel radii r lo (mid - 1)
      else if Rleb r_max r then locate_loop fuel radii r (mid + 1) hi
      else locate_loop fuel radii r lo hi
    else Ok (Some None)
  end.

(** onion_patch_locator.hpp 157-192: operator(), from the radius of the point ([n] patches).  A loop
    that never ends is undefined behaviour. *)
Definition locate (fuel : nat) (radii : list R) (n : nat) (r : R) : res Z :=
  let* r_min := rd radii 0 in
  let* r_max := rd radii (Z.of_nat n - 1 + 1) in
  if Rltb r_max r then Ok outside_rmax_domain else
  if Rltb r r_min then Ok outside_rmin_domain else
  let* l := locate_loop fuel radii r 0 (Z.of_nat n - 1) in
  match l with
  | None => Ub
  | Some (Some k) => Ok k
  | Some None =>
      let* last := rd radii (Z.of_nat n) in
      if Req_EM_T r last then Ok (Z.of_nat n - 1)%Z else Throw
  end.

(** ddc_helper.hpp 127-140 for a B-spline that may not be periodic *)
Definition restrict_coord (b : basis) (x : R) : R :=
  if b_per b then restrict_to_bspline_domain (b_rmin b) (b_len b) x else x.

(** multipatch_spline_evaluator_2d.hpp 702-717: replace_periodic_coord_inside *)
Definition replace_periodic_coord_inside (p : opatch) (c : R * R) : R * R :=
  (restrict_coord (o_b1 p) (fst c), restrict_coord (o_b2 p) (snd c)).

(** reading a spline coefficient *)
Definition coef_at (p : opatch) (s : nat -> nat -> R) (i j : nat) : res R :=
  if ((i <? b_n (o_b1 p)) && (j <? b_n (o_b2 p)))%nat%bool then Ok (s i j) else Ub.

(** multipatch_spline_evaluator_2d.hpp 725-770: eval_no_bc; [d1], [d2]: eval_deriv_type *)
Definition eval_no_bc (d1 d2 : bool) (p : opatch) (c : R * R) (s : nat -> nat -> R) : res R :=
  match b_eval (o_b1 p) d1 (fst c), b_eval (o_b2 p) d2 (snd c) with
  | Some (jmin1, vals1), Some (jmin2, vals2) =>
      for_res (b_deg (o_b1 p) + 1) (fun i y =>
        for_res (b_deg (o_b2 p) + 1) (fun j y =>
          let* a := coef_at p s (jmin1 + i) (jmin2 + j) in
          Ok (y + a * vals1 i * vals2 j)) y) 0
  | _, _ => AssertFail
  end.

(** An extrapolation rule: coordinate, splines of all the patches, locator's answer *)
Definition rule := R * R -> list (opatch * (nat -> nat -> R)) -> Z -> res R.

(** null_extrapolation_rules.hpp 27-34 *)
Definition null_rule : rule := fun _ _ k =>
  let* _ := check (k <? 0)%Z in Ok 0.

(** constant_extrapolation_rules_onion.hpp 70-87.  ddc::ConstantExtrapolationRule (DDC): the spline at
    the given radius and at the angle of the coordinate. *)
Definition constant_rule (r_min r_max : R) : rule := fun c ps k =>
  let* _ := check ((k =? outside_rmin_domain) || (k =? outside_rmax_domain))%Z%bool in
  if (k =? outside_rmin_domain)%Z then
    let* ps0 := rd ps 0 in eval_no_bc false false (fst ps0) (r_min, snd c) (snd ps0)
  else
    let* ps0 := rd ps (Z.of_nat (length ps) - 1) in eval_no_bc false false (fst ps0) (r_max, snd c) (snd ps0).

(** multipatch_spline_evaluator_2d.hpp 599-648: recursive_dispatch_patch_function; [todo]: the patches
    from TestPatchIdx on.  All the patches have the same continuous dimensions, so
    get_equivalent_coord (665-698) returns its argument. *)
Fixpoint dispatch (d1 d2 : bool) (ext : rule) (all todo : list (opatch * (nat -> nat -> R))) (test : Z)
    (c : R * R) (k : Z) : res R :=
  match todo with
  | [] =>
      if (k >=? 0)%Z then Throw else
      if (d1 || d2)%bool then Throw else
      let* any := rd all 0 in
      ext (replace_periodic_coord_inside (fst any) c) all k
  | (p, s) :: rest =>
      if (k =? test)%Z then eval_no_bc d1 d2 p (replace_periodic_coord_inside p c) s
      else dispatch d1 d2 ext all rest (test + 1) c k
  end.

Section Evaluator.
(** the mapping of the locator: radius of the physical point of a logical coordinate,
    onion_patch_locator.hpp 164 after multipatch_spline_evaluator_2d.hpp 656-661 *)
Variable to_physical : R * R -> R * R.
Variable to_logical : R * R -> R * R.

(** multipatch_spline_evaluator_2d.hpp 656-661: get_patch_idx *)
Definition get_patch_idx (fuel : nat) (radii : list R) (n : nat) (c : R * R) : res Z :=
  locate fuel radii n (fst (to_logical (to_physical c))).

(** multipatch_spline_evaluator_2d.hpp 253-261 (no derivative), 304-316, 334-346, 363-376 *)
Definition evaluate (fuel : nat) (d1 d2 : bool) (ext : rule) (ps : list (opatch * (nat -> nat -> R)))
    (c : R * R) : res R :=
  let* radii := set_and_check_radii (map fst ps) in
  let* k := get_patch_idx fuel radii (length ps) c in
  if ((k <? 0)%Z && (d1 || d2))%bool then Throw else dispatch d1 d2 ext ps ps 0 c k.

(** multipatch_spline_evaluator_2d.hpp 518-547: apply_evaluator on the field of coordinates of one
    storing patch ([m] points; the index ranges of the values and of the coordinates are the same) *)
Definition apply_evaluator (fuel : nat) (d1 d2 : bool) (ext : rule) (ps : list (opatch * (nat -> nat -> R)))
    (m : nat) (coords : nat -> R * R) (values : list R) : res (list R) :=
  let* _ := check (length values =? m)%nat in
  for_res m (fun i v => let* y := evaluate fuel d1 d2 ext ps (coords i) in wr v (Z.of_nat i) y) values.
End Evaluator.

(** multipatch_spline_evaluator_2d.hpp 555-590: apply_integrate *)
Definition apply_integrate (p : opatch) (s : nat -> nat -> R) : R :=
  Rsum (b_n (o_b1 p)) (fun i => Rsum (b_n (o_b2 p)) (fun j => s i j * b_int (o_b1 p) i * b_int (o_b2 p) j)).
(** multipatch_spline_evaluator_2d.hpp 490-498: integrate; the output has one element per patch *)
Fixpoint integrate_from (idx : Z) (ps : list (opatch * (nat -> nat -> R))) (out : list R) : res (list R) :=
  match ps with
  | [] => Ok out
  | (p, s) :: rest => let* out := wr out idx (apply_integrate p s) in integrate_from (idx + 1) rest out
  end.

(** l_norm_tools.hpp 75-91, 95-112: max reduction from 0 of |f| (Kokkos reduction: sequential here) *)
Definition norm_inf_field (f : list R) : R := fold_left (fun acc x => Rmax acc (Rabs x)) f 0.
Definition error_norm_inf_field (f g : list R) : R :=
  fold_left (fun acc xy => Rmax acc (Rabs (fst xy - snd xy))) (combine f g) 0.
(** multipatch_math_tools.hpp 13-26 and 36-54 *)
Definition norm_inf_multipatch (fs : list (list R)) : R :=
  fold_left Rmax (map norm_inf_field fs) 0.
Definition error_norm_inf_multipatch (fs gs : list (list R)) : R :=
  fold_left Rmax (map (fun fg => error_norm_inf_field (fst fg) (snd fg)) (combine fs gs)) 0.
