(** Model of src/timestepper: Euler, RK2, RK3, RK4, CrankNicolson.
    A field is a function from its indices to reals; J is the index type of the derivative
    field (for vector or multipatch fields: pairs of component/patch and index), Y the type
    of the evolved values.  [dy] models dy_calculator (it overwrites its output), and
    [y_update] the in-place update callback.  The scalar versions (ValType not a field) are
    the same sequences of calls, hence the same model with J a finite set of components.
    assemble_k_total and the default update are pointwise (itimestepper.hpp:157-194, 394-409). *)
From Verif Require Import Lib.
Open Scope R_scope.

Section Steppers.
Variables (Y J : Type).
Variable dy : Y -> (J -> R).
Variable y_update : Y -> (J -> R) -> R -> Y.

(** Euler::update, euler.hpp:66-83 and 150-167 *)
Definition euler (y : Y) (dt : R) : Y :=
  let k1 := dy y in
  y_update y k1 dt.

(** RK2::update, rk2.hpp:66-99 and 169-201 *)
Definition rk2 (y : Y) (dt : R) : Y :=
  let y_prime := y in
  let k1 := dy y in
  let y_prime := y_update y_prime k1 (1 / 2 * dt) in
  let k2 := dy y_prime in
  y_update y k2 dt.

(** RK3::update, rk3.hpp:66-117 and 188-255 *)
Definition rk3 (y : Y) (dt : R) : Y :=
  let y_prime := y in
  let k1 := dy y in
  let y_prime := y_update y_prime k1 (1 / 2 * dt) in
  let k2 := dy y_prime in
  let k_total := fun j => 2 * k2 j - k1 j in
  let y_prime := y in
  let y_prime := y_update y_prime k_total dt in
  let k3 := dy y_prime in
  let k_total := fun j => k1 j + 4 * k2 j + k3 j in
  y_update y k_total (dt / 6).

(** RK4::update, rk4.hpp:66-125 and 196-269 *)
Definition rk4 (y : Y) (dt : R) : Y :=
  let y_prime := y in
  let k1 := dy y in
  let y_prime := y_update y_prime k1 (1 / 2 * dt) in
  let k2 := dy y_prime in
  let y_prime := y in
  let y_prime := y_update y_prime k2 (1 / 2 * dt) in
  let k3 := dy y_prime in
  let y_prime := y in
  let y_prime := y_update y_prime k3 dt in
  let k4 := dy y_prime in
  let k_total := fun j => k1 j + 2 * k2 j + 2 * k3 j + k4 j in
  y_update y k_total (dt / 6).

(** CrankNicolson::update, crank_nicolson.hpp:80-130 and 216-279.
    The loop body: (y_old, y) after one iteration. *)
Definition cn_body (y_init : Y) (k1 : J -> R) (dt : R) (y : Y) : Y * Y :=
  let k_new := dy y in
  let k_total := fun j => k1 j + k_new j in
  let y_old := y in
  let y := y_init in
  (y_old, y_update y k_total (1 / 2 * dt)).

(** (a / b >= eps) in IEEE arithmetic for a, b >= 0: a / 0 is +inf if a > 0 and 0 / 0 is
    NaN, for which the comparison is false.  crank_nicolson.hpp:127, 273-275 *)
Definition quot_ge (a b eps : R) : bool :=
  if Req_EM_T b 0 then (if Rlt_dec 0 a then true else false)
  else if Rle_dec eps (a / b) then true else false.

Variables (err : Y -> Y -> R) (nrm : Y -> R).   (* error_norm_inf and norm_inf *)

(** The do-while loop, crank_nicolson.hpp:108-129 / 247-278: [left] bounds the iterations
    that may still follow this one (max_counter - counter when counter < max_counter).
    Returns the number of iterations done, the last y_old and y. *)
Fixpoint cn_loop (left : nat) (y_init : Y) (k1 : J -> R) (dt eps : R) (y : Y) : nat * Y * Y :=
  let '(y_old, y') := cn_body y_init k1 dt y in
  let not_converged := quot_ge (err y_old y') (nrm y_old) eps in
  match left with
  | O => (1%nat, y_old, y')
  | S left' =>
      if not_converged then
        let '(c, a, b) := cn_loop left' y_init k1 dt eps y' in (S c, a, b)
      else (1%nat, y_old, y')
  end.

(** max_counter is an int: values <= 1 allow exactly one iteration. *)
Definition crank_nicolson (max_counter : Z) (eps : R) (y : Y) (dt : R) : nat * Y * Y :=
  cn_loop (Z.to_nat (max_counter - 1)) y (dy y) dt eps y.
End Steppers.

(** Default update of a field, itimestepper.hpp:394-409, and serial_y_update, 291-299 *)
Definition default_update {J} (y dy : J -> R) (dt : R) : J -> R := fun j => y j + dy j * dt.

(** norm_inf and error_norm_inf of a scalar field over n points, l_norm_tools.hpp:68-71,
    78-93, 98-115: max reduction starting at 0 *)
Definition norm_inf (n : nat) (f : vec) : R := for_loop n (fun i m => Rmax m (Rabs (f i))) 0.
Definition error_norm_inf (n : nat) (f g : vec) : R := norm_inf n (fun i => f i - g i).
