(** Model of src/multipatch/interface_derivatives/single_interface_derivatives_calculator.hpp: the coefficients of
    the relation between the derivatives of a spline at three consecutive interfaces.  Real arithmetic is exact.
    Indices of the two one-dimensional index ranges start at 0; reading a coordinate or a weight outside of its
    range is [Ub] (the coordinate of a point of the grid outside of a reduced range is not modelled). *)
From Verif Require Export QuadModel.
Open Scope R_scope.

(** The data of one patch, perpendicularly to the interface: coordinates of the interpolation points of the index
    range, extremity of the edge, Bound == GREVILLE, ddc::is_uniform_point_sampling_v, break points of the B-splines *)
Record side := { sd_x : list R; sd_ext : extremity; sd_greville : bool; sd_uniform : bool; sd_breaks : list R }.
Definition sd_n (p : side) : Z := Z.of_nat (length (sd_x p)).
(** 1147-1153: get_extremity_idx *)
Definition interface_idx (p : side) : Z := match sd_ext p with FRONT => 0 | BACK => sd_n p - 1 end.
(** 559-562, 752, 850, 973-976: the index increment to move away from the interface *)
Definition idx_step (p : side) : Z := match sd_ext p with FRONT => 1 | BACK => -1 end.
Definition is_front (p : side) : bool := match sd_ext p with FRONT => true | BACK => false end.

(** 1051-1114: get_cell_lengths; [on1]: the index [idx] is one of patch 1 *)
Definition get_cell_lengths (p1 p2 : side) (on1 : bool) (idx : Z) : res (R * R) :=
  let p := if on1 then p1 else p2 in
  let o := if on1 then p2 else p1 in
  let* _ := check (negb ((idx =? 0)%Z && negb (is_front p))) in
  let* _ := check (negb ((idx =? sd_n p - 1)%Z && is_front p)) in
  let same_orientation := if on1 then negb (is_front p1) else is_front p2 in
  let* lr :=
    (if (idx =? interface_idx p)%Z then
       let* xo := rd (sd_x o) (interface_idx o + idx_step o) in
       let* xo0 := rd (sd_x o) (interface_idx o) in
       let* x := rd (sd_x p) (idx + idx_step p) in
       let* x0 := rd (sd_x p) idx in
       Ok (Rabs (xo - xo0), Rabs (x - x0))
     else
       let* xm := rd (sd_x p) (idx - 1) in
       let* x0 := rd (sd_x p) idx in
       let* xp := rd (sd_x p) (idx + 1) in
       if same_orientation then Ok (Rabs (x0 - xm), Rabs (xp - x0))
       else Ok (Rabs (xp - x0), Rabs (x0 - xm))) in
  if Req_EM_T (fst lr) 0 then Throw else if Req_EM_T (snd lr) 0 then Throw else Ok lr.

(** 1117-1143: get_gammas, get_alpha, get_beta *)
Definition get_gammas (l r : R) : R * R * R :=
  let factor := 3 / 2 / (l + r) in (- factor * (r / l), factor * (r / l - l / r), factor * (l / r)).
Definition get_alpha (l r : R) : R := - (1 / 2) * l / (r + l).
Definition get_beta (l r : R) : R := - (1 / 2) * r / (r + l).

(** one slot of the arrays coeff_deriv_patch1/2 and weights_patch1/2 *)
Record slot := { s1 : R; s2 : R; w1 : list R; w2 : list R }.
Definition own (on1 : bool) (s : slot) : R := if on1 then s1 s else s2 s.
Definition other (on1 : bool) (s : slot) : R := if on1 then s2 s else s1 s.
Definition mk_slot (on1 : bool) (own other : R) (v1 v2 : list R) : slot :=
  if on1 then {| s1 := own; s2 := other; w1 := v1; w2 := v2 |}
  else {| s1 := other; s2 := own; w1 := v1; w2 := v2 |}.
(** 784-795, 929-938: a linear combination of two weight fields *)
Definition combine_weights (denom c : R) (v1 v0 : list R) : list R :=
  map (fun ab => 1 / denom * (fst ab - c * snd ab)) (combine v1 v0).
Definition scale_weights (f : R) (v : list R) : list R := map (fun a => f * a) v.

(** 754-818: one iteration of the loop of recursion (slots n-2, n-1 and n) *)
Definition recursion_step (p1 p2 : side) (on1 : bool) (n : Z) (t : slot * slot * slot) : res (slot * slot * slot) :=
  let '(t0, t1, _) := t in
  let p := if on1 then p1 else p2 in
  let iface := interface_idx p in
  let idx_minus := (iface + (n - 1) * idx_step p)%Z in
  let idx := (iface + n * idx_step p)%Z in
  let idx_plus := (iface + (n + 1) * idx_step p)%Z in
  let* lr := get_cell_lengths p1 p2 on1 idx in
  let '(l, r) := lr in
  let coeff_furthest := if on1 then get_beta l r else get_alpha l r in
  let coeff_closest := if on1 then get_alpha l r else get_beta l r in
  let '(g0, g1, g2) := get_gammas l r in
  let denom := 1 - coeff_closest * own on1 t1 / own on1 t0 in
  let own2 := coeff_furthest * own on1 t1 / denom in
  let other2 := (other on1 t1 - coeff_closest * own on1 t1 / own on1 t0 * other on1 t0) / denom in
  let coeff_closer_deriv := coeff_closest * own on1 t1 / own on1 t0 in
  let v1 := combine_weights denom coeff_closer_deriv (w1 t1) (w1 t0) in
  let v2 := combine_weights denom coeff_closer_deriv (w2 t1) (w2 t0) in
  let factor := 1 / denom * own on1 t1 in
  let* vv :=
    (if on1 then
       let* v1 := add_at v1 idx_plus (factor * g0) in
       let* v1 := add_at v1 idx (factor * g1) in
       let* v1 := add_at v1 idx_minus (factor * g2) in
       Ok (v1, v2)
     else
       let* v2 := add_at v2 idx_plus (factor * g2) in
       let* v2 := add_at v2 idx (factor * g1) in
       let* v2 := add_at v2 idx_minus (factor * g0) in
       Ok (v1, v2)) in
  let t2 := mk_slot on1 own2 other2 (fst vv) (snd vv) in
  Ok (t1, t2, t2).
(** 739-819: recursion *)
Definition recursion (p1 p2 : side) (on1 : bool) (n_cells : Z) (t : slot * slot * slot) : res (slot * slot * slot) :=
  for_res (Z.to_nat (n_cells - 2)) (fun k t => recursion_step p1 p2 on1 (Z.of_nat k + 2) t) t.

(** 837-951: correction_boundary *)
Definition correction_boundary (p1 p2 : side) (on1 : bool) (t : slot * slot * slot) : res (slot * slot * slot) :=
  let '(t0, t1, _) := t in
  let p := if on1 then p1 else p2 in
  let iface := interface_idx p in
  let n := (sd_n p - 3)%Z in
  let idx_minus := (iface + (n - 1) * idx_step p)%Z in
  let idx := (iface + n * idx_step p)%Z in
  let idx_plus := (iface + (n + 2) * idx_step p)%Z in
  let idx_star := (iface + (n + 1) * idx_step p)%Z in
  let* lr := get_cell_lengths p1 p2 on1 idx in
  let* lr_star := get_cell_lengths p1 p2 on1 idx_star in
  let l := if on1 then fst lr + fst lr_star else fst lr in
  let r := if on1 then snd lr else snd lr + snd lr_star in
  let coeff_furthest := if on1 then get_beta l r else get_alpha l r in
  let coeff_closest := if on1 then get_alpha l r else get_beta l r in
  let '(g0, g1, g2) := get_gammas l r in
  let x := if on1 then fst lr_star / l else fst lr_star / r in
  let H0 := (1 - x) * (1 - x) * (1 + 2 * x) in
  let H1 := x * x * (3 - 2 * x) in
  let K0 := (1 - x) * (1 - x) * x in
  let K1 := x * x * (x - 1) in
  let denom_gamma := if on1 then 1 / (1 + coeff_furthest * K1 / K0) else 1 / (1 + coeff_furthest * K0 / K1) in
  let coeff_closest := denom_gamma * coeff_closest in
  let gamma_plus := if on1 then denom_gamma * (g0 - coeff_furthest * H0 / K0 / l)
                    else denom_gamma * (g2 - coeff_furthest * H1 / K1 / r) in
  let gamma_star := if on1 then denom_gamma * coeff_furthest / K0 / l else denom_gamma * coeff_furthest / K1 / r in
  let gamma_idx := if on1 then denom_gamma * (g1 - coeff_furthest * H1 / K0 / l)
                   else denom_gamma * (g1 - coeff_furthest * H0 / K1 / r) in
  let gamma_minus := if on1 then denom_gamma * g2 else denom_gamma * g0 in
  let coeff_furthest := 0 in
  let denom := 1 - coeff_closest * own on1 t1 / own on1 t0 in
  let own2 := coeff_furthest * own on1 t1 / denom in
  let other2 := (other on1 t1 - coeff_closest * own on1 t1 / own on1 t0 * other on1 t0) / denom in
  let coeff_closer_deriv := coeff_closest * own on1 t1 / own on1 t0 in
  let v1 := combine_weights denom coeff_closer_deriv (w1 t1) (w1 t0) in
  let v2 := combine_weights denom coeff_closer_deriv (w2 t1) (w2 t0) in
  let factor := 1 / denom * own on1 t1 in
  let v := if on1 then v1 else v2 in
  let* v := add_at v idx_plus (factor * gamma_plus) in
  let* v := add_at v idx_star (factor * gamma_star) in
  let* v := add_at v idx (factor * gamma_idx) in
  let* v := add_at v idx_minus (factor * gamma_minus) in
  Ok (t0, t1, mk_slot on1 own2 other2 (if on1 then v else v1) (if on1 then v2 else v)).

(** 575-589: the relation of one cell on each side (slot n-2) *)
Definition first_slot (p1 p2 : side) : res slot :=
  let i1 := interface_idx p1 in let i2 := interface_idx p2 in
  let* lr := get_cell_lengths p1 p2 false i2 in
  let '(l, r) := lr in
  let '(g0, g1, g2) := get_gammas l r in
  let* v1 := wr (repeat 0 (length (sd_x p1))) (i1 + idx_step p1) g0 in
  let* v1 := wr v1 i1 g1 in
  let* v2 := wr (repeat 0 (length (sd_x p2))) i2 g1 in
  let* v2 := wr v2 (i2 + idx_step p2) g2 in
  Ok {| s1 := get_beta l r; s2 := get_alpha l r; w1 := v1; w2 := v2 |}.
(** 591-621: the second cell of patch 2 (slot n-1) *)
Definition second_slot_2 (p1 p2 : side) (t0 : slot) : res slot :=
  let i1 := interface_idx p1 in let i2 := interface_idx p2 in
  let* lr := get_cell_lengths p1 p2 false (i2 + idx_step p2) in
  let '(l, r) := lr in
  let alpha := get_alpha l r in let beta := get_beta l r in
  let '(g0, g1, g2) := get_gammas l r in
  let d := 1 - s2 t0 * beta in
  let v1 := scale_weights (1 / d) (w1 t0) in
  let v2 := scale_weights (1 / d) (w2 t0) in
  let factor := 1 / d * s2 t0 in
  let* v2 := add_at v2 (i2 + 2 * idx_step p2) (factor * g2) in
  let* v2 := add_at v2 (i2 + idx_step p2) (factor * g1) in
  let* v2 := add_at v2 i2 (factor * g0) in
  let* v1 := add_at v1 i1 (factor * g0) in
  Ok {| s1 := s1 t0 / d; s2 := alpha * s2 t0 / d; w1 := v1; w2 := v2 |}.
(** 654-692: the second cell of patch 1 *)
Definition second_slot_1 (p1 p2 : side) (t0 : slot) : res slot :=
  let i1 := interface_idx p1 in let i2 := interface_idx p2 in
  let* lr := get_cell_lengths p1 p2 true (i1 + idx_step p1) in
  let '(l, r) := lr in
  let alpha := get_alpha l r in let beta := get_beta l r in
  let '(g0, g1, g2) := get_gammas l r in
  let d := 1 - s1 t0 * alpha in
  let v1 := scale_weights (1 / d) (w1 t0) in
  let v2 := scale_weights (1 / d) (w2 t0) in
  let factor := 1 / d * s1 t0 in
  let* v1 := add_at v1 (i1 + 2 * idx_step p1) (factor * g0) in
  let* v1 := add_at v1 (i1 + idx_step p1) (factor * g1) in
  let* v1 := add_at v1 i1 (factor * g2) in
  let* v2 := add_at v2 i2 (factor * g2) in
  Ok {| s1 := s1 t0 * beta / d; s2 := s2 t0 / d; w1 := v1; w2 := v2 |}.
(** 630-652 and 694-715: the rest of a patch *)
Definition rest_of_patch (p1 p2 : side) (on1 : bool) (t : slot * slot * slot) : res (slot * slot * slot) :=
  let p := if on1 then p1 else p2 in
  let* t := recursion p1 p2 on1 (if sd_greville p then sd_n p - 3 else sd_n p - 1) t in
  if sd_greville p then correction_boundary p1 p2 on1 t else Ok t.
(** 506-721: set_coefficients_non_uniform_case *)
Definition non_uniform_case (p1 p2 : side) : res slot :=
  if (sd_n p1 <? 2)%Z then Throw else
  if (sd_n p2 <? 2)%Z then Throw else
  let* t0 := first_slot p1 p2 in
  let* t1 := second_slot_2 p1 p2 t0 in
  let* t := rest_of_patch p1 p2 false (t0, t1, t1) in
  let t0 := snd t in
  let* t1 := second_slot_1 p1 p2 t0 in
  let* t := rest_of_patch p1 p2 true (t0, t1, t0) in
  Ok (snd t).

(** 961-1045: set_coefficients_uniform_per_patch_case; Kokkos::pow with an integer exponent is the power *)
Definition u_seq (k : nat) : R := (2 + sqrt 3) ^ k - (2 - sqrt 3) ^ k.
Definition uniform_case (p1 p2 : side) : res slot :=
  let n1 := (length (sd_x p1) - 1)%nat in
  let n2 := (length (sd_x p2) - 1)%nat in
  let i1 := interface_idx p1 in let i2 := interface_idx p2 in
  let* lr := get_cell_lengths p1 p2 true i1 in
  let '(l, r) := lr in
  let a11 := - (1 / 2) * l / (l + r) in
  let b11 := - (1 / 2) * r / (l + r) in
  let u1 := 2 * sqrt 3 in
  let un1 := u_seq n1 in let un1_minus := u_seq (n1 - 1) in
  let un2 := u_seq n2 in let un2_minus := u_seq (n2 - 1) in
  let denominator := un1 * un2 + un1 * un2_minus * a11 + un1_minus * un2 * b11 in
  let factor_a := 3 * a11 / r / denominator in
  let factor_b := 3 * b11 / l / denominator in
  let weight0 := factor_a * un1 * (un2 - un2_minus) - factor_b * un2 * (un1 - un1_minus) in
  let* v1 := wr (repeat 0 (length (sd_x p1))) i1 weight0 in
  let* v2 := wr (repeat 0 (length (sd_x p2))) i2 weight0 in
  let* v2 := for_res (n2 - 1) (fun j v2 =>
      let k := (j + 1)%nat in
      wr v2 (i2 + Z.of_nat k * idx_step p2)
         ((-1) ^ (k mod 2) * factor_a * un1 * (u_seq (n2 - k + 1) - u_seq (n2 - k - 1)))) v2 in
  let* v2 := wr v2 (i2 + Z.of_nat n2 * idx_step p2) ((-1) ^ (n2 mod 2) * factor_a * un1 * u1) in
  let* v1 := for_res (n1 - 1) (fun j v1 =>
      let k := (j + 1)%nat in
      wr v1 (i1 + Z.of_nat k * idx_step p1)
         ((-1) ^ ((k + 1) mod 2) * factor_b * un2 * (u_seq (n1 - k + 1) - u_seq (n1 - k - 1)))) v1 in
  let* v1 := wr v1 (i1 + Z.of_nat n1 * idx_step p1) ((-1) ^ ((n1 + 1) mod 2) * factor_b * un2 * u1) in
  Ok {| s1 := (-1) ^ ((n1 - 1) mod 2) * u1 * b11 * un2 / denominator;
        s2 := (-1) ^ ((n2 - 1) mod 2) * u1 * a11 * un1 / denominator; w1 := v1; w2 := v2 |}.

(** 421-458: check_break_points_are_interpolation_points *)
Definition check_break_points (p : side) : res unit :=
  let selected := if sd_greville p then sd_breaks p
                  else if is_front p then firstn (length (sd_x p)) (sd_breaks p)
                  else skipn (length (sd_breaks p) - length (sd_x p)) (sd_breaks p) in
  if forallb (fun b => existsb (fun x => if Rlt_dec (Rabs (b - x)) (/ 10 ^ 15) then true else false) (sd_x p)) selected
  then Ok tt else Throw.
(** 460-496: check_additional_interpolation_points_location *)
Definition check_additional (p : side) : res unit :=
  let nb := Z.of_nat (length (sd_breaks p)) in
  let* added := rd (sd_x p) (if is_front p then sd_n p - 2 else 1) in
  let* lo := rd (sd_breaks p) (if is_front p then nb - 2 else 0) in
  let* hi := rd (sd_breaks p) (if is_front p then nb - 1 else 1) in
  if Rlt_dec lo added then if Rlt_dec added hi then Ok tt else Throw else Throw.
(** 190-200: the size of the index range *)
Definition check_size (p : side) : res unit :=
  let ncells := (Z.of_nat (length (sd_breaks p)) - 1)%Z in
  check (if sd_greville p then sd_n p =? ncells + 2 else sd_n p <=? ncells + 1)%Z.
(** 167-231: the constructor *)
Definition calculator (p1 p2 : side) : res slot :=
  let* _ := check_size p1 in
  let* _ := check_size p2 in
  let* _ := check_break_points p1 in
  let* _ := check_break_points p2 in
  let* _ := (if sd_greville p1 then check_additional p1 else Ok tt) in
  let* _ := (if sd_greville p2 then check_additional p2 else Ok tt) in
  if sd_uniform p1 && sd_uniform p2 then uniform_case p1 p2 else non_uniform_case p1 p2.
(** 273-291: the constructor with a number of cells *)
Definition chosen (number_chosen_cells : nat) (p : side) : side :=
  let n := Nat.min (number_chosen_cells + 1) (length (sd_x p)) in
  {| sd_x := if is_front p then firstn n (sd_x p) else skipn (length (sd_x p) - n) (sd_x p);
     sd_ext := sd_ext p; sd_greville := false; sd_uniform := sd_uniform p; sd_breaks := sd_breaks p |}.
Definition calculator_cells (p1 p2 : side) (number_chosen_cells : nat) : res slot :=
  calculator (chosen number_chosen_cells p1) (chosen number_chosen_cells p2).

(** 322-352: get_coeff_deriv_patch_1, get_coeff_deriv_patch_2 *)
Definition get_coeff_deriv_patch_1 (c : slot) : R := s1 c.
Definition get_coeff_deriv_patch_2 (c : slot) : R := s2 c.
(** 375-402: get_function_coefficients; [f1], [f2]: the function values on the two index ranges *)
Definition weighted_sum (n : nat) (first : Z) (f v : list R) : res R :=
  for_res n (fun k acc =>
    let* a := rd f (first + Z.of_nat k) in
    let* b := rd v (first + Z.of_nat k) in
    Ok (acc + a * b)) 0.
Definition get_function_coefficients (p1 p2 : side) (c : slot) (f1 f2 : list R) : res R :=
  let* y1 := rd f1 (interface_idx p1) in
  let* y2 := rd f2 (interface_idx p2) in
  let* _ := check (if Rlt_dec (Rabs (y1 - y2)) (/ 10 ^ 13) then true else false) in
  let* a := weighted_sum (length (sd_x p1)) 0 f1 (w1 c) in
  let* b := weighted_sum (length (sd_x p2) - 1) (if is_front p2 then 1 else 0) f2 (w2 c) in
  Ok (a + b).
