(** Model of the intra-species collision operator: src/geometryXVx/rhs/collisions_intra.cpp and the
    coefficients of collisions_utils.hpp.  One (species, x) pair: the program runs the same code for
    every pair.  Exact reals; Kokkos::erf is the mathematical error function. *)
From Verif Require Export XVxModel BatchModel.
From Coquelicot Require Import Coquelicot.
Open Scope R_scope.

Definition erf (x : R) : R := 2 / sqrt PI * RInt (fun t => exp (- t * t)) 0 x.

(** bounds-checked read of a field of [n] values *)
Definition rdz (n : nat) (f : nat -> R) (i : Z) : res R :=
  if ((0 <=? i) && (i <? Z.of_nat n))%Z then Ok (f (Z.to_nat i)) else Ub.

(** parallel_for_each over n indices, each iteration writing its own element *)
Definition tab {A} (n : nat) (d : A) (F : nat -> res A) : res (nat -> A) :=
  for_res n (fun i u => let* x := F i in Ok (upd u i x)) (fun _ => d).

(** collisions_intra.cpp 11-22: to_index *)
Definition to_index (uid : Z) : Z := (uid + 1)%Z.

(** collisions_intra.cpp 37-52: the ghosted points (non-uniform grid).  [fr]: uid of the front. *)
Definition ghosted_points (pts : list R) (fr : Z) (n : nat) : res (list R) :=
  let* v0 := rd pts fr in
  let* v1 := rd pts (fr + 1) in
  let* vN := rd pts (fr + Z.of_nat n - 1) in
  let* vNm1 := rd pts (fr + Z.of_nat n - 1 - 1) in
  let npoints := (Z.of_nat n - 1 + 3)%Z in
  let breaks := repeat 0 (Z.to_nat npoints) in
  let* breaks := wr breaks 0 (v0 - (v1 - v0)) in
  let* breaks := wr breaks (npoints - 1) (vN + (vN - vNm1)) in
  for_res n (fun i b => let* v := rd pts (fr + Z.of_nat i) in wr b (to_index (fr + Z.of_nat i)) v) breaks.

(** collisions_intra.cpp 54-63: the ghosted staggered points *)
Definition staggered_points (pts : list R) (fr : Z) (n : nat) : res (list R) :=
  let* v0 := rd pts fr in
  let* v1 := rd pts (fr + 1) in
  let* vN := rd pts (fr + Z.of_nat n - 1) in
  let* vNm1 := rd pts (fr + Z.of_nat n - 1 - 1) in
  let npoints_stag := (Z.of_nat n - 1 + 2)%Z in
  let breaks := repeat 0 (Z.to_nat npoints_stag) in
  let* breaks := wr breaks 0 (v0 - (v1 - v0) / 2) in
  let* breaks := wr breaks (npoints_stag - 1) (vN + (vN - vNm1) / 2) in
  for_res (n - 1) (fun i b =>
    let* v := rd pts (fr + Z.of_nat i) in
    let* w := rd pts (fr + Z.of_nat i + 1) in
    wr b (fr + Z.of_nat i + 1) ((v + w) / 2)) breaks.

(** collisions_intra.cpp 70-93: uniform grids; DDC's UniformPointSampling::init(a, b, m) places m
    points from a to b *)
Definition uniform_init (a b : R) (m : nat) (i : nat) : R := a + INR i * ((b - a) / INR (m - 1)).
Definition ghosted_uniform (v0 vN step : R) (n : nat) : nat -> R :=
  uniform_init (v0 - step) (vN + step) (n - 1 + 3).
Definition staggered_uniform (v0 vN step : R) (n : nat) : nat -> R :=
  uniform_init (v0 - step / 2) (vN + step / 2) (n - 1 + 2).

(** collisions_utils.hpp 39-78: compute_Dcoll at velocity v *)
Definition tol : R := / 10 ^ 15.
Definition Dcoll (temperature collfreq v : R) : R :=
  let vT := sqrt (2 * temperature) in
  let v_norm := Rabs v / vT in
  if Rlt_dec tol v_norm then
    let coeff := 2 / sqrt PI in
    let AD := 3 * sqrt (2 * PI) / 4 * temperature * collfreq in
    let inv_v_norm := 1 / v_norm in
    let phi := erf v_norm in
    let phi_prime := coeff * exp (- v_norm * v_norm) in
    let psi := (phi - v_norm * phi_prime) * 0.5 * inv_v_norm * inv_v_norm in
    AD * (phi - psi) * inv_v_norm
  else sqrt 2 * temperature * collfreq.

(** collisions_utils.hpp 87-130: compute_dvDcoll *)
Definition dvDcoll (temperature collfreq v : R) : R :=
  let vT := sqrt (2 * temperature) in
  let v_norm := Rabs v / vT in
  if Rlt_dec tol v_norm then
    let coeff := 2 / sqrt PI in
    let AD := 3 * sqrt (2 * PI) / 4 * temperature * collfreq in
    let inv_v_norm := 1 / v_norm in
    let phi := erf v_norm in
    let phi_prime := coeff * exp (- v_norm * v_norm) in
    let psi := (phi - v_norm * phi_prime) * 0.5 * inv_v_norm * inv_v_norm in
    let sign := v / Rabs v in
    sign * AD / sqrt (2 * temperature) * inv_v_norm * inv_v_norm * (3 * psi - phi)
  else 0.

(** collisions_utils.hpp 157-247: compute_Vcoll_Tcoll; [Dg], [dDg]: values on the n + 2 ghosted
    points *)
Definition vcoll_tcoll (n : nat) (q v f : nat -> R) (Dg dDg : nat -> R) : res (R * R) :=
  let* sums := for_res n (fun i st =>
    let '(I0, I1, I2, I3, I4) := st in
    let* D := rdz (n + 2) Dg (Z.of_nat i + 1) in
    let* dD := rdz (n + 2) dDg (Z.of_nat i + 1) in
    let i0 := D * f i in
    let i1 := i0 * v i in
    let i2 := i1 * v i in
    let i3 := dD * f i in
    let i4 := i0 + i3 * v i in
    Ok (I0 + q i * i0, I1 + q i * i1, I2 + q i * i2, I3 + q i * i3, I4 + q i * i4)) (0, 0, 0, 0, 0) in
  let '(I0, I1, I2, I3, I4) := sums in
  let inv_Pcoll := 1 / (I0 * I4 - I1 * I3) in
  Ok (inv_Pcoll * (I1 * I4 - I2 * I3), inv_Pcoll * (I0 * I2 - I1 * I1)).

(** collisions_utils.hpp 256-276: compute_Nucoll *)
Definition Nucoll (D coordv Vcoll Tcoll : R) : R := - D * (coordv - Vcoll) / Tcoll.

(** collisions_intra.cpp 149-204: compute_matrix_coeff, the three coefficients of row [i].
    [g], [Dg], [Ng]: coordinates, diffusion and advection on the n + 2 ghosted points; [Ds]: diffusion
    on the n + 1 staggered points. *)
Definition matrix_row (n : nat) (g Dg Ng Ds : nat -> R) (deltat : R) (i : nat) : res (R * R * R) :=
  let ig := to_index (Z.of_nat i) in
  let is := to_index (Z.of_nat i) in
  let* x := rdz (n + 2) g ig in
  let* xn := rdz (n + 2) g (ig + 1) in
  let* xp := rdz (n + 2) g (ig - 1) in
  let dv_i := xn - x in
  let delta_i := dv_i / (x - xp) in
  let alpha_i := deltat / (dv_i * dv_i * (1 + delta_i)) in
  let beta_i := deltat / (2 * dv_i * (1 + delta_i)) in
  let* Dsp := rdz (n + 1) Ds (is - 1) in
  let* Dsc := rdz (n + 1) Ds is in
  let* D := rdz (n + 2) Dg ig in
  let* Np := rdz (n + 2) Ng (ig - 1) in
  let* N := rdz (n + 2) Ng ig in
  let* Nn := rdz (n + 2) Ng (ig + 1) in
  let coeffa := alpha_i * (Dsp * delta_i * delta_i * delta_i - D * delta_i * delta_i * (delta_i - 1))
                + beta_i * Np * delta_i * delta_i in
  let coeffb := - alpha_i * (- Dsc - Dsp * delta_i * delta_i * delta_i
                             + D * (delta_i - 1) * (delta_i * delta_i - 1))
                + beta_i * N * (delta_i * delta_i - 1) in
  let coeffc := alpha_i * (Dsc + D * (delta_i - 1)) - beta_i * Nn in
  Ok (- coeffa, 1 + coeffb, - coeffc).

(** collisions_intra.cpp 233-273: compute_rhs_vector, row [i] *)
Definition rhs_row (n : nat) (AA BB CC f : nat -> R) (fthresh : R) (i : nat) : res R :=
  let* A := rdz n AA (Z.of_nat i) in
  let* B := rdz n BB (Z.of_nat i) in
  let* C := rdz n CC (Z.of_nat i) in
  let* fi := rdz n f (Z.of_nat i) in
  if (i =? 0)%nat then
    let* fn := rdz n f (Z.of_nat i + 1) in
    Ok ((2 - B) * fi + (- C) * fn - 2 * A * fthresh)
  else if (i =? n - 1)%nat then
    let* fp := rdz n f (Z.of_nat i - 1) in
    Ok ((2 - B) * fi + (- A) * fp - 2 * C * fthresh)
  else
    let* fp := rdz n f (Z.of_nat i - 1) in
    let* fn := rdz n f (Z.of_nat i + 1) in
    Ok (- A * fp + (2 - B) * fi - C * fn).

(** collisions_intra.cpp 96: m_fthresh *)
Definition fthresh : R := / 10 ^ 30.

(** collisions_intra.cpp 277-403: operator() at one (species, x); the grid is the list of its points
    (front at uid 0), [q] the trapezoid coefficients, [f] the distribution.  The tridiagonal solver is
    BatchModel.tridiag_solve with the subdiagonal AA, the diagonal BB and the superdiagonal CC. *)
Definition intra_step (pts : list R) (n : nat) (q f : nat -> R) (nustar dt : R) : res (nat -> R) :=
  let v := fun i => nth i pts 0 in
  let '(density, fluid_velocity, temperature) := coll_moments n q v f in
  let nu := collfreq nustar density temperature in
  let* gl := ghosted_points pts 0 n in
  let* sl := staggered_points pts 0 n in
  let g := fun k => nth k gl 0 in
  let Dg := fun k => Dcoll temperature nu (g k) in
  let dDg := fun k => dvDcoll temperature nu (g k) in
  let Ds := fun k => Dcoll temperature nu (nth k sl 0) in
  let* (Vc, Tc) := vcoll_tcoll n q v f Dg dDg in
  let Ng := fun k => Nucoll (Dg k) (g k) Vc Tc in
  let* rows := tab n (0, 0, 0) (matrix_row n g Dg Ng Ds dt) in
  let AA := fun i => fst (fst (rows i)) in
  let BB := fun i => snd (fst (rows i)) in
  let CC := fun i => snd (rows i) in
  let* RR := tab n 0 (rhs_row n AA BB CC f fthresh) in
  let* X := tridiag_solve 1 n (fun _ => AA) (fun _ => BB) (fun _ => CC) (fun _ => RR) in
  Ok (X 0%nat).
