(** Model in IEEE binary64 of build_uniform_break_points of src/utils/mesh_builder.hpp. *)
From Flocq Require Import Core IEEE754.BinarySingleNaN.
From Verif Require Import QuadModel.
From Verif Require Export FltModel.
Open Scope Z_scope.

(** mesh_builder.hpp 9-25; the std::vector is value-initialised, [n_cells] is not negative *)
Definition build_uniform_f64 (mn mx : F64) (n_cells : nat) : res (list F64) :=
  let break_points := repeat (b64 0) (n_cells + 1) in
  let delta := b64_div (f_sub mx mn) (b64 (Z.of_nat n_cells)) in
  let* break_points := wr break_points 0 mn in
  let* break_points := for_res (n_cells - 1) (fun j v =>
    let i := Z.of_nat j + 1 in wr v i (f_add mn (f_mul (b64 i) delta))) break_points in
  wr break_points (Z.of_nat n_cells) mx.
