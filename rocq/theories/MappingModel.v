(** Model of src/coord_transformations: analytic coordinate changes, their Jacobians, the inverse
    Jacobian helper, metric tensors, changes of vector space and combined mappings.
    A coordinate is a function from the position of its dimension in the coordinate type to the reals;
    tensors get<Row_i, Col_j> are functions of the positions i and j.  tensor_mul (whose semantics is the
    subject of C20) is written as the sum it denotes.  Real arithmetic is exact. *)
From Verif Require Export Lib MathModel.
Open Scope R_scope.

Notation crd := (nat -> R) (only parsing).
Definition c2 (a b : R) : nat -> R := fun i => match i with O => a | 1%nat => b | _ => 0 end.
Definition c3 (a b c : R) : nat -> R := fun i => match i with O => a | 1%nat => b | 2%nat => c | _ => 0 end.
Definition m2 (a b c d : R) : nat -> nat -> R :=
  fun i => match i with O => c2 a b | 1%nat => c2 c d | _ => fun _ => 0 end.
Definition m3 (a b c d e f g h k : R) : nat -> nat -> R :=
  fun i => match i with O => c3 a b c | 1%nat => c3 d e f | 2%nat => c3 g h k | _ => fun _ => 0 end.

(** C's atan2 (the sign of zero is not modelled: atan2(0, x<0) = pi, atan2(0, 0) = 0) *)
Definition atan2 (y x : R) : R :=
  if Rlt_dec 0 x then atan (y / x)
  else if Rlt_dec x 0 then (if Rle_dec 0 y then atan (y / x) + PI else atan (y / x) - PI)
  else if Rlt_dec 0 y then PI / 2 else if Rlt_dec y 0 then - (PI / 2) else 0.
(** the literal 1e-15 *)
Definition tiny : R := / 10 ^ 15.

(** What a mapping class offers.  [m_Jc], [m_invJc]: the component accessors, [AssertFail] when the
    tags are refused at compile time or an assertion fails. *)
Record mapping := {
  m_apply : crd -> crd;
  m_jac : crd -> R;
  m_J : crd -> nat -> nat -> R;
  m_Jc : nat -> nat -> crd -> res R;
  m_has_inv : bool;
  m_invJ : crd -> res (nat -> nat -> R);
  m_invJc : nat -> nat -> crd -> res R }.

(** ** Circular mapping: (R, Theta) -> (X, Y) *)
(** circular_to_cartesian.hpp 143-150 *)
Definition circ_apply (ox oy : R) (p : crd) : crd :=
  let r := p 0%nat in let theta := p 1%nat in
  c2 (r * cos theta + ox) (r * sin theta + oy).
(** 160-164 and 175-178 *)
Definition circ_jac (p : crd) : R := p 0%nat.
(** 191-202 *)
Definition circ_J (p : crd) : nat -> nat -> R :=
  let r := p 0%nat in let theta := p 1%nat in
  m2 (cos theta) (- r * sin theta) (sin theta) (r * cos theta).
(** 212-235 *)
Definition circ_Jc (i j : nat) (p : crd) : res R :=
  let theta := p 1%nat in
  if ((i <? 2) && (j <? 2))%nat then
    if ((i =? 0) && (j =? 0))%nat then Ok (cos theta)
    else if ((i =? 0) && (j =? 1))%nat then let r := p 0%nat in Ok (- r * sin theta)
    else if ((i =? 1) && (j =? 0))%nat then Ok (sin theta)
    else let r := p 0%nat in Ok (r * cos theta)
  else AssertFail.
(** 249-262 *)
Definition circ_invJ (p : crd) : res (nat -> nat -> R) :=
  let r := p 0%nat in let theta := p 1%nat in
  if Rle_dec tiny (Rabs r) then
    Ok (m2 (cos theta) (sin theta) (-1 / r * sin theta) (1 / r * cos theta))
  else AssertFail.
(** 275-300 *)
Definition circ_invJc (i j : nat) (p : crd) : res R :=
  let theta := p 1%nat in
  if ((i <? 2) && (j <? 2))%nat then
    if ((i =? 0) && (j =? 0))%nat then Ok (cos theta)
    else if ((i =? 0) && (j =? 1))%nat then Ok (sin theta)
    else
      let r := p 0%nat in
      if Rle_dec tiny (Rabs r) then
        if (j =? 0)%nat then Ok (-1 / r * sin theta) else Ok (1 / r * cos theta)
      else AssertFail
  else AssertFail.
Definition circular (ox oy : R) : mapping :=
  {| m_apply := circ_apply ox oy; m_jac := circ_jac; m_J := circ_J; m_Jc := circ_Jc;
     m_has_inv := true; m_invJ := circ_invJ; m_invJc := circ_invJc |}.

(** cartesian_to_circular.hpp 127-136 *)
Definition cart_circ_apply (ox oy : R) (p : crd) : crd :=
  let x := p 0%nat - ox in let y := p 1%nat - oy in
  let r := sqrt (x * x + y * y) in
  let t := atan2 y x in
  c2 r (t * (if Rle_dec 0 t then 1 else 0) + (t + 2 * PI) * (if Rlt_dec t 0 then 1 else 0)).
(** 146-151 *)
Definition cart_circ_jac (ox oy : R) (p : crd) : R :=
  let x := p 0%nat - ox in let y := p 1%nat - oy in 1 / sqrt (x * x + y * y).
(** 164-178 *)
Definition cart_circ_J (ox oy : R) (p : crd) : nat -> nat -> R :=
  let x := p 0%nat - ox in let y := p 1%nat - oy in
  let r2 := x * x + y * y in let r := sqrt r2 in
  m2 (x / r) (y / r) (- y / r2) (x / r2).
(** 188-209; Kokkos::pow(., 0.5) *)
Definition cart_circ_Jc (ox oy : R) (i j : nat) (p : crd) : res R :=
  let x := p 0%nat - ox in let y := p 1%nat - oy in
  if ((i <? 2) && (j <? 2))%nat then
    if ((i =? 0) && (j =? 0))%nat then Ok (x / Rpower (x * x + y * y) (1 / 2))
    else if ((i =? 0) && (j =? 1))%nat then Ok (y / Rpower (x * x + y * y) (1 / 2))
    else if ((i =? 1) && (j =? 0))%nat then Ok (- y / (x * x + y * y))
    else Ok (x / (x * x + y * y))
  else AssertFail.
Definition cart_circ (ox oy : R) : mapping :=
  {| m_apply := cart_circ_apply ox oy; m_jac := cart_circ_jac ox oy; m_J := cart_circ_J ox oy;
     m_Jc := cart_circ_Jc ox oy; m_has_inv := false;
     m_invJ := fun _ => AssertFail; m_invJc := fun _ _ _ => AssertFail |}.

(** ** Czarny mapping *)
Record czarny_par := { cz_eps : R; cz_e : R; cz_ox : R; cz_oy : R }.
(** czarny_to_cartesian.hpp 179-186: o_point *)
Definition cz_o_point (c : czarny_par) : crd :=
  c2 ((1 - sqrt (cz_eps c * cz_eps c + 1)) / cz_eps c + cz_ox c) (cz_oy c).
(** 195-208 *)
Definition cz_apply (c : czarny_par) (p : crd) : crd :=
  let eps := cz_eps c in
  let r := p 0%nat in let theta := p 1%nat in
  let tmp1 := sqrt (eps * (eps + 2 * r * cos theta) + 1) in
  let x := (1 - tmp1) / eps + cz_ox c in
  let y := cz_e c * r * sin theta / (sqrt (1 - 1 / 4 * eps * eps) * (2 - tmp1)) + cz_oy c in
  c2 x y.
(** 218-226 *)
Definition cz_jac (c : czarny_par) (p : crd) : R :=
  let eps := cz_eps c in
  let r := p 0%nat in let theta := p 1%nat in
  let xi := sqrt (1 / (1 - eps * eps * (1 / 4))) in
  - r / sqrt (1 + eps * (eps + 2 * r * cos theta)) * cz_e c * xi
  / (2 - sqrt (1 + eps * (eps + 2 * r * cos theta))).
(** 240-265 *)
Definition cz_J (c : czarny_par) (p : crd) : nat -> nat -> R :=
  let eps := cz_eps c in let e := cz_e c in
  let r := p 0%nat in let theta := p 1%nat in
  let sin_theta := sin theta in let cos_theta := cos theta in
  let xi2 := 1 / (1 - eps * eps * (1 / 4)) in let xi := sqrt xi2 in
  let sqrt_eps := sqrt (eps * (eps + 2 * r * cos_theta) + 1) in
  let sqrt_eps_2 := 2 - sqrt_eps in
  m2 (- cos_theta / sqrt_eps) (r * sin_theta / sqrt_eps)
     (e * eps * r * sin_theta * cos_theta * xi / (sqrt_eps_2 * sqrt_eps_2 * sqrt_eps)
      + e * sin_theta * xi / sqrt_eps_2)
     (r * (- e * eps * r * sin_theta * sin_theta * xi / (sqrt_eps_2 * sqrt_eps_2 * sqrt_eps)
           + e * cos_theta * xi / sqrt_eps_2)).
(** 277-312 (no check of the tags: other tags fall off the end of the function) *)
Definition cz_Jc (c : czarny_par) (i j : nat) (p : crd) : res R :=
  let eps := cz_eps c in let e := cz_e c in
  let r := p 0%nat in let theta := p 1%nat in
  if ((i =? 0) && (j =? 0))%nat then
    Ok (- cos theta / sqrt (eps * (eps + 2 * r * cos theta) + 1))
  else if ((i =? 0) && (j =? 1))%nat then
    Ok (r * sin theta / sqrt (eps * (eps + 2 * r * cos theta) + 1))
  else if ((i =? 1) && (j =? 0))%nat then
    let sin_theta := sin theta in let cos_theta := cos theta in
    let xi2 := 1 / (1 - eps * eps * (1 / 4)) in let xi := sqrt xi2 in
    let tmp1 := sqrt (eps * (eps + 2 * r * cos_theta) + 1) in
    let tmp2 := 2 - tmp1 in
    Ok (e * eps * r * sin_theta * cos_theta * xi / (tmp2 * tmp2 * tmp1) + e * sin_theta * xi / tmp2)
  else if ((i =? 1) && (j =? 1))%nat then
    let sin_theta := sin theta in let cos_theta := cos theta in
    let xi2 := 1 / (1 - eps * eps * (1 / 4)) in let xi := sqrt xi2 in
    let tmp1 := sqrt (eps * (eps + 2 * r * cos_theta) + 1) in
    let tmp2 := 2 - tmp1 in
    Ok (r * (- e * eps * r * sin_theta * sin_theta * xi / (tmp2 * tmp2 * tmp1) + e * cos_theta * xi / tmp2))
  else Ub.
(** 326-351 *)
Definition cz_invJ (c : czarny_par) (p : crd) : res (nat -> nat -> R) :=
  let eps := cz_eps c in let e := cz_e c in
  let r := p 0%nat in let theta := p 1%nat in
  if Rle_dec tiny r then
    let sin_theta := sin theta in let cos_theta := cos theta in
    let xi := sqrt (1 / (1 - eps * eps * (1 / 4))) in
    let divisor := 2 - sqrt (1 + eps * (eps + 2 * r * cos_theta)) in
    let fact_1 := 1 / sqrt (1 + eps * (eps + 2 * r * cos_theta)) in
    let fact_2 := e * eps * xi * r * sin_theta * fact_1 / divisor / divisor in
    let fact_3 := e * xi / divisor in
    Ok (m2 (-1 / fact_1 * (- sin_theta * fact_2 + cos_theta * fact_3) / fact_3) (sin_theta / fact_3)
           (1 / r / fact_1 * (cos_theta * fact_2 + sin_theta * fact_3) / fact_3) (1 / r * cos_theta / fact_3))
  else AssertFail.
(** 363-409 *)
Definition cz_invJc (c : czarny_par) (i j : nat) (p : crd) : res R :=
  let eps := cz_eps c in let e := cz_e c in
  let r := p 0%nat in let theta := p 1%nat in
  let cos_theta := cos theta in
  let xi := sqrt (1 / (1 - eps * eps * (1 / 4))) in
  let divisor := 2 - sqrt (1 + eps * (eps + 2 * r * cos_theta)) in
  if ((i <? 2) && (j <? 2))%nat then
    if ((i =? 0) && (j =? 0))%nat then
      let sin_theta := sin theta in
      let fact_1 := 1 / sqrt (1 + eps * (eps + 2 * r * cos_theta)) in
      let fact_2 := e * eps * xi * r * sin_theta * fact_1 / divisor / divisor in
      let fact_3 := e * xi / divisor in
      Ok (-1 / fact_1 * (- sin_theta * fact_2 + cos_theta * fact_3) / fact_3)
    else if ((i =? 0) && (j =? 1))%nat then
      let sin_theta := sin theta in
      let fact_3 := e * xi / divisor in
      Ok (sin_theta / fact_3)
    else if ((i =? 1) && (j =? 0))%nat then
      if Rle_dec tiny r then
        let sin_theta := sin theta in
        let fact_1 := 1 / sqrt (1 + eps * (eps + 2 * r * cos_theta)) in
        let fact_2 := e * eps * xi * r * sin_theta * fact_1 / divisor / divisor in
        let fact_3 := e * xi / divisor in
        Ok (1 / r / fact_1 * (cos_theta * fact_2 + sin_theta * fact_3) / fact_3)
      else AssertFail
    else
      if Rle_dec tiny r then
        let fact_3 := e * xi / divisor in
        Ok (1 / r * cos_theta / fact_3)
      else AssertFail
  else AssertFail.
Definition czarny (c : czarny_par) : mapping :=
  {| m_apply := cz_apply c; m_jac := cz_jac c; m_J := cz_J c; m_Jc := cz_Jc c;
     m_has_inv := true; m_invJ := cz_invJ c; m_invJc := cz_invJc c |}.
(** cartesian_to_czarny.hpp 142-157 *)
Definition cart_cz_apply (c : czarny_par) (p : crd) : crd :=
  let eps := cz_eps c in let e := cz_e c in
  let x := p 0%nat - cz_ox c in let y := p 1%nat - cz_oy c in
  let ex := 1 + eps * x in
  let ex2 := eps * x * x - 2 * x - eps in
  let xi2 := 1 / (1 - eps * eps * (1 / 4)) in let xi := sqrt xi2 in
  let r := sqrt (y * y * ex * ex / (e * e * xi2) + ex2 * ex2 * (1 / 4)) in
  let theta := atan2 (2 * y * ex) (e * xi * ex2) in
  c2 r (if Rlt_dec theta 0 then 2 * PI + theta else theta).

(** ** Cylindrical mapping: (R, Z, Zeta) -> (X, Y, Z) *)
(** cylindrical_to_cartesian.hpp 150-157 *)
Definition cyl_apply (p : crd) : crd :=
  let r := p 0%nat in let zeta := p 2%nat in
  c3 (r * cos zeta) (r * sin zeta) (p 1%nat).
(** 167-171 *)
Definition cyl_jac (p : crd) : R := - p 0%nat.
(** 184-200 *)
Definition cyl_J (p : crd) : nat -> nat -> R :=
  let r := p 0%nat in let zeta := p 2%nat in
  m3 (cos zeta) 0 (- r * sin zeta) (sin zeta) 0 (r * cos zeta) 0 1 0.
(** 210-237 *)
Definition cyl_Jc (i j : nat) (p : crd) : res R :=
  let zeta := p 2%nat in
  if ((i <? 3) && (j <? 3))%nat then
    if ((i =? 0) && (j =? 0))%nat then Ok (cos zeta)
    else if ((i =? 0) && (j =? 2))%nat then let r := p 0%nat in Ok (- r * sin zeta)
    else if ((i =? 1) && (j =? 0))%nat then Ok (sin zeta)
    else if ((i =? 1) && (j =? 2))%nat then let r := p 0%nat in Ok (r * cos zeta)
    else if ((i =? 2) && (j =? 1))%nat then Ok 1
    else Ok 0
  else AssertFail.
(** 251-265 *)
Definition cyl_invJ (p : crd) : res (nat -> nat -> R) :=
  let r := p 0%nat in let zeta := p 2%nat in
  if Rle_dec tiny (Rabs r) then
    Ok (m3 (cos zeta) (sin zeta) 0 0 0 1 (-1 / r * sin zeta) (1 / r * cos zeta) 0)
  else AssertFail.
(** 278-307 *)
Definition cyl_invJc (i j : nat) (p : crd) : res R :=
  let zeta := p 2%nat in
  if ((i <? 3) && (j <? 3))%nat then
    if ((i =? 0) && (j =? 0))%nat then Ok (cos zeta)
    else if ((i =? 0) && (j =? 1))%nat then Ok (sin zeta)
    else if ((i =? 1) && (j =? 2))%nat then Ok 1
    else if ((i =? 1) || (j =? 2))%nat then Ok 0
    else
      let r := p 0%nat in
      if Rle_dec tiny (Rabs r) then
        if (j =? 0)%nat then Ok (-1 / r * sin zeta) else Ok (1 / r * cos zeta)
      else AssertFail
  else AssertFail.
Definition cylindrical : mapping :=
  {| m_apply := cyl_apply; m_jac := cyl_jac; m_J := cyl_J; m_Jc := cyl_Jc;
     m_has_inv := true; m_invJ := cyl_invJ; m_invJc := cyl_invJc |}.
(** cartesian_to_cylindrical.hpp 137-146 *)
Definition cart_cyl_apply (p : crd) : crd :=
  let x := p 0%nat in let y := p 1%nat in
  let t := atan2 y x in
  c3 (sqrt (x * x + y * y)) (p 2%nat) (t + 2 * PI * (if Rlt_dec t 0 then 1 else 0)).
(** 156-161 *)
Definition cart_cyl_jac (p : crd) : R :=
  let x := p 0%nat in let y := p 1%nat in -1 / sqrt (x * x + y * y).
(** 174-192 *)
Definition cart_cyl_J (p : crd) : nat -> nat -> R :=
  let x := p 0%nat in let y := p 1%nat in
  m3 (x / sqrt (x * x + y * y)) (y / sqrt (x * x + y * y)) 0
     0 0 1
     (- y / (x * x + y * y)) (x / (x * x + y * y)) 0.
(** 205-232: the compile time conditions on the first tag, a dimension of {X, Y, Z, R, Zeta} *)
Inductive dim5 := DX | DY | DZ | DR | DZeta.
Definition cart_cyl_Jc_tag1_accepted (t : dim5) : bool :=
  (match t with DX | DY => true | _ => false end) && (match t with DR | DZ | DZeta => true | _ => false end).

(** ** InverseJacobianMatrix (inverse_jacobian_matrix.hpp 49-60); determinant and inverse of
    math_tools.hpp exist for two and three dimensions *)
Definition det_n (n : nat) (M : nat -> nat -> R) : R :=
  match n with 2%nat => determinant2 M | 3%nat => determinant3 M | _ => 0 end.
Definition inverse_n (n : nat) (M : nat -> nat -> R) : nat -> nat -> R :=
  match n with 2%nat => inverse2 M | 3%nat => inverse3 M | _ => fun _ _ => 0 end.
Definition inverse_jacobian_matrix (n : nat) (m : mapping) (p : crd) : res (nat -> nat -> R) :=
  if m_has_inv m then m_invJ m p
  else
    let J := m_J m p in
    if Rlt_dec tiny (Rabs (det_n n J)) then Ok (inverse_n n J) else AssertFail.
(** 73-117: inv_jacobian_component *)
Definition inverse_jacobian_component (n : nat) (m : mapping) (i j : nat) (p : crd) : res R :=
  if ((i <? n) && (j <? n))%nat then
    if m_has_inv m then m_invJc m i j p
    else if (n =? 2)%nat then
      let jacob := m_jac m p in
      if Rlt_dec tiny (Rabs jacob) then
        if ((i =? 0) && (j =? 0))%nat then let* c := m_Jc m 1 1 p in Ok (c / jacob)
        else if ((i =? 0) && (j =? 1))%nat then let* c := m_Jc m 0 1 p in Ok (- c / jacob)
        else if ((i =? 1) && (j =? 0))%nat then let* c := m_Jc m 1 0 p in Ok (- c / jacob)
        else let* c := m_Jc m 0 0 p in Ok (c / jacob)
      else AssertFail
    else AssertFail
  else AssertFail.

(** ** Toroidal mapping (toroidal_to_cylindrical.hpp): (Rho, Theta, Phi) -> (R, Z, Zeta) from a 2D mapping *)
(** 86-89 *)
Definition tor_apply (m : mapping) (p : crd) : crd :=
  let q := m_apply m (c2 (p 0%nat) (p 1%nat)) in c3 (q 0%nat) (q 1%nat) (- p 2%nat).
(** 99-102 *)
Definition tor_jac (m : mapping) (p : crd) : R := - m_jac m (c2 (p 0%nat) (p 1%nat)).
(** 115-131 *)
Definition tor_J (m : mapping) (p : crd) : nat -> nat -> R :=
  let J := m_J m (c2 (p 0%nat) (p 1%nat)) in
  m3 (J 0%nat 0%nat) (J 0%nat 1%nat) 0 (J 1%nat 0%nat) (J 1%nat 1%nat) 0 0 0 (-1).
(** 144-159 *)
Definition tor_Jc (m : mapping) (i j : nat) (p : crd) : res R :=
  if ((i <? 3) && (j <? 3))%nat then
    if ((i =? 2) && (j =? 2))%nat then Ok (-1)
    else if ((i =? 2) || (j =? 2))%nat then Ok 0
    else m_Jc m i j (c2 (p 0%nat) (p 1%nat))
  else AssertFail.
(** 172-189 *)
Definition tor_invJ (m : mapping) (p : crd) : res (nat -> nat -> R) :=
  let* K := inverse_jacobian_matrix 2 m (c2 (p 0%nat) (p 1%nat)) in
  Ok (m3 (K 0%nat 0%nat) (K 0%nat 1%nat) 0 (K 1%nat 0%nat) (K 1%nat 1%nat) 0 0 0 (-1)).
(** 202-218 *)
Definition tor_invJc (m : mapping) (i j : nat) (p : crd) : res R :=
  if m_has_inv m then
    if ((i <? 3) && (j <? 3))%nat then
      if ((i =? 2) && (j =? 2))%nat then Ok (-1)
      else if ((i =? 2) || (j =? 2))%nat then Ok 0
      else m_invJc m i j (c2 (p 0%nat) (p 1%nat))
    else AssertFail
  else AssertFail.
Definition toroidal (m : mapping) : mapping :=
  {| m_apply := tor_apply m; m_jac := tor_jac m; m_J := tor_J m; m_Jc := tor_Jc m;
     m_has_inv := true; m_invJ := tor_invJ m; m_invJc := tor_invJc m |}.

(** ** Barycentric coordinates *)
(** barycentric_to_cartesian.hpp 97-114 *)
Record bary_triangle := { bx1 : R; by1 : R; bx2 : R; by2 : R; bx3 : R; by3 : R }.
Definition bary_to_cart (t : bary_triangle) (p : crd) : crd :=
  let l1 := p 0%nat in let l2 := p 1%nat in let l3 := p 2%nat in
  c2 (bx1 t * l1 + bx2 t * l2 + bx3 t * l3) (by1 t * l1 + by2 t * l2 + by3 t * l3).
(** cartesian_to_barycentric.hpp 98-114 *)
Definition cart_to_bary (t : bary_triangle) (p : crd) : crd :=
  let x := p 0%nat in let y := p 1%nat in
  let div := (by2 t - by3 t) * (bx1 t - bx3 t) + (bx3 t - bx2 t) * (by1 t - by3 t) in
  let lam1 := ((by2 t - by3 t) * (x - bx3 t) + (bx3 t - bx2 t) * (y - by3 t)) / div in
  let lam2 := ((y - by3 t) * (bx1 t - bx3 t) + (bx3 t - x) * (by1 t - by3 t)) / div in
  let lam3 := 1 - lam1 - lam2 in
  c3 lam1 lam2 lam3.

(** ** Metric tensor (metric_tensor_evaluator.hpp 71-75, 85-90) *)
Definition metric (n : nat) (m : mapping) (p : crd) : nat -> nat -> R :=
  let J := m_J m p in fun i k => Rsum n (fun j => J j i * J j k).
Definition metric_inverse (n : nat) (m : mapping) (p : crd) : res (nat -> nat -> R) :=
  let* K := inverse_jacobian_matrix n m p in Ok (fun i k => Rsum n (fun j => K i j * K k j)).

(** ** Change of vector space (vector_mapper.hpp 26-98).  The spaces are the contravariant and
    covariant bases of the argument of the mapping and of its result; [cart]: the result dimensions are
    their own duals, so that the two bases of the result are the same type. *)
Inductive space := ArgContra | ArgCov | ResContra | ResCov.
Definition is_arg (s : space) : bool := match s with ArgContra | ArgCov => true | _ => false end.
Definition space_contra (cart : bool) (s : space) : bool :=
  match s with ArgContra | ResContra => true | ResCov => cart | ArgCov => false end.
Definition space_cov (cart : bool) (s : space) : bool :=
  match s with ArgCov | ResCov => true | ResContra => cart | ArgContra => false end.
(** std::is_same_v *)
Definition same_space (cart : bool) (a b : space) : bool :=
  match a, b with
  | ArgContra, ArgContra | ArgCov, ArgCov | ResContra, ResContra | ResCov, ResCov => true
  | ResContra, ResCov | ResCov, ResContra => cart
  | _, _ => false
  end.
(** vector_index_set_dual_t *)
Definition space_dual (s : space) : space :=
  match s with ArgContra => ArgCov | ArgCov => ArgContra | ResContra => ResCov | ResCov => ResContra end.
(** vector_index_tools.hpp 189-194 *)
Definition same_variance (cart : bool) (a b : space) : bool :=
  Bool.eqb (space_cov cart a) (space_cov cart b) || Bool.eqb (space_contra cart a) (space_contra cart b).
(** matrix times vector: tensor_mul(index<'i','j'>(M), index<'j'>(v)), and with <'j','i'> *)
Definition mat_vec (n : nat) (M : nat -> nat -> R) (v : nat -> R) : nat -> R :=
  fun i => Rsum n (fun j => M i j * v j).
Definition tmat_vec (n : nat) (M : nat -> nat -> R) (v : nat -> R) : nat -> R :=
  fun i => Rsum n (fun j => M j i * v j).
(** 41-49: between dual bases.  The metric is that of the argument and its product contracts two
    contravariant result indices, accepted only when they are Cartesian. *)
Definition to_dual (cart : bool) (n : nat) (m : mapping) (p : crd) (inS : space) (v : nat -> R)
  : res (nat -> R) :=
  if (cart && is_arg inS)%bool then
    if space_contra cart inS then Ok (mat_vec n (metric n m p) v)
    else let* g := metric_inverse n m p in Ok (mat_vec n g v)
  else AssertFail.
(** 58-97: between the bases of the argument and of the result *)
Definition to_other_basis (cart : bool) (n : nat) (m : mapping) (p : crd) (inS outS : space) (v : nat -> R)
  : res (nat -> R) :=
  if (is_arg inS && negb (is_arg outS))%bool then
    if (space_contra cart inS && space_contra cart outS)%bool then Ok (mat_vec n (m_J m p) v)
    else let* K := inverse_jacobian_matrix n m p in Ok (tmat_vec n K v)
  else if (negb (is_arg inS) && is_arg outS)%bool then
    if (space_contra cart inS && space_contra cart outS)%bool then
      let* K := inverse_jacobian_matrix n m p in Ok (mat_vec n K v)
    else Ok (tmat_vec n (m_J m p) v)
  else AssertFail.
Definition to_vector_space (cart : bool) (n : nat) (m : mapping) (p : crd) (inS outS : space) (v : nat -> R)
  : res (nat -> R) :=
  if same_space cart inS outS then Ok v
  else if same_space cart outS (space_dual inS) then to_dual cart n m p inS v
  else if negb (same_variance cart inS outS) then
    (* 51-56: through the dual of the output space *)
    let* d := to_other_basis cart n m p inS (space_dual outS) v in
    to_dual cart n m p (space_dual outS) d
  else to_other_basis cart n m p inS outS v.

(** ** CombinedMapping (combined_mapping.hpp), with the Jacobian coordinate in the intermediate space
    (CoordJacobian = Mapping2::CoordResult); [inv2] = m_mapping_2.get_inverse_mapping() *)
Definition mat_mul (n : nat) (A B : nat -> nat -> R) : nat -> nat -> R :=
  fun i k => Rsum n (fun j => A i j * B j k).
(** 121-131: jacobian_matrix *)
Definition comb_J (n : nat) (m1 inv2 : mapping) (c : crd) : res (nat -> nat -> R) :=
  let* K := inverse_jacobian_matrix n inv2 c in Ok (mat_mul n (m_J m1 c) K).
(** 159-162: jacobian *)
Definition comb_jac (n : nat) (m1 inv2 : mapping) (c : crd) : res R :=
  let* J := comb_J n m1 inv2 c in Ok (det_n n J).
(** 261-283: non_singular_inverse_jacobian_matrix *)
Definition comb_nonsing (n : nat) (m1 inv2 : mapping) (c : crd) : res (nat -> nat -> R) :=
  let* K := inverse_jacobian_matrix n m1 c in Ok (mat_mul n (m_J inv2 c) K).
(** 179-201: inv_jacobian_matrix of a combination with a singular O-point; [J0]: InvJacobianOPoint *)
Definition comb_invJ (n : nat) (eps : R) (J0 : nat -> nat -> R) (m1 inv2 : mapping) (c : crd)
  : res (nat -> nat -> R) :=
  let r := c 0%nat in
  if Rlt_dec r eps then
    let* J_eps := comb_nonsing n m1 inv2 (c2 eps (c 1%nat)) in
    Ok (fun i j => (1 - r / eps) * J0 i j + r / eps * J_eps i j)
  else comb_nonsing n m1 inv2 c.
(** inv_jacobian_o_point.hpp 90-99 and 155-169: circular and Czarny mappings *)
Definition o_point_circ : nat -> nat -> R := m2 1 0 0 1.
Definition o_point_cz (c : czarny_par) : nat -> nat -> R :=
  let eps := cz_eps c in
  let xi := sqrt (1 / (1 - eps * eps * (1 / 4))) in
  let sqrt_eps_2 := sqrt (1 + eps * eps) in
  m2 (- sqrt_eps_2) 0 0 ((2 - sqrt_eps_2) / cz_e c / xi).
(** 97-100: operator(), mapping from the argument of the second mapping *)
Definition comb_apply (m1 m2 : mapping) (p : crd) : crd := m_apply m1 (m_apply m2 p).
(** 132-137: jacobian_matrix when the Jacobian coordinate is the argument *)
Definition comb_J_arg (n : nat) (m1 m2 : mapping) (p : crd) : nat -> nat -> R :=
  mat_mul n (m_J m1 (m_apply m2 p)) (m_J m2 p).
(** 275-282 *)
Definition comb_invJ_arg (n : nat) (m1 m2 : mapping) (p : crd) : res (nat -> nat -> R) :=
  let* K2 := inverse_jacobian_matrix n m2 p in
  let* K1 := inverse_jacobian_matrix n m1 (m_apply m2 p) in
  Ok (mat_mul n K2 K1).

(** ** One dimensional transformations and their products *)
(** linear_coord_transform.hpp 79-84 *)
Record linear_transform := { lt_in : R; lt_out : R; lt_scale : R }.
Definition linear_apply (l : linear_transform) (x : R) : R := lt_out l + (x - lt_in l) * lt_scale l.
(** 94-97 and 176-182 *)
Definition linear_jac (l : linear_transform) : R := lt_scale l.
Definition linear_inverse (l : linear_transform) : linear_transform :=
  {| lt_in := lt_out l; lt_out := lt_in l; lt_scale := 1 / lt_scale l |}.

(** ** OrthogonalCoordTransforms (orthogonal_coord_transforms.hpp) of two linear transformations.
    [rs], [as_]: the result (argument) type lists the dimensions of the second transformation first. *)
Record orthogonal := { ot_0 : linear_transform; ot_1 : linear_transform; ot_rs : bool; ot_as : bool }.
Definition ot_get (o : orthogonal) (k : nat) : linear_transform := if (k =? 0)%nat then ot_0 o else ot_1 o.
(** the transformation that owns position [i] of the result (argument) type, and back *)
Definition ot_pos (swapped : bool) (i : nat) : nat := if swapped then (1 - i)%nat else i.
(** 93-97: each transformation reads its own dimension and writes its own dimension *)
Definition ot_apply (o : orthogonal) (p : crd) : crd :=
  fun i => let k := ot_pos (ot_rs o) i in linear_apply (ot_get o k) (p (ot_pos (ot_as o) k)).
(** 132-148 *)
Definition ot_J (o : orthogonal) (p : crd) : nat -> nat -> R :=
  fun i j => if (ot_pos (ot_rs o) i =? ot_pos (ot_as o) j)%nat then linear_jac (ot_get o (ot_pos (ot_rs o) i)) else 0.
(** 157-175 *)
Definition ot_Jc (o : orthogonal) (i j : nat) (p : crd) : res R :=
  if ((i <? 2) && (j <? 2))%nat then
    let k := ot_pos (ot_as o) j in
    if (ot_pos (ot_rs o) i =? k)%nat then Ok (linear_jac (ot_get o k)) else Ok 0
  else AssertFail.
(** 184-194: the product of the Jacobians times the parity of the order of the result dimensions *)
Definition ot_jac (o : orthogonal) (p : crd) : R :=
  linear_jac (ot_0 o) * linear_jac (ot_1 o) * (if ot_rs o then -1 else 1).
(** 201-211: the inverse goes from the result type to the argument type *)
Definition ot_inverse (o : orthogonal) : orthogonal :=
  {| ot_0 := linear_inverse (ot_0 o); ot_1 := linear_inverse (ot_1 o); ot_rs := ot_as o; ot_as := ot_rs o |}.
Definition orthogonal_map (o : orthogonal) : mapping :=
  {| m_apply := ot_apply o; m_jac := ot_jac o; m_J := ot_J o; m_Jc := ot_Jc o;
     m_has_inv := false; m_invJ := fun _ => AssertFail; m_invJc := fun _ _ _ => AssertFail |}.
