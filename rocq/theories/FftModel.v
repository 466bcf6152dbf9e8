(** Model of the spectral Poisson solver (src/pde_solvers/fft_poisson_solver.hpp).
    Fields are functions of a multi-index (one integer per dimension of the Laplacian); the DDC
    library functions (fft, ifft, fourier_mesh, init_fourier_space, PeriodicSampling) are given by
    their documented meaning (trusted, see DESIGN.md).  Reals stand for floating point. *)
From Verif Require Export Lib.
Open Scope R_scope.

Definition midx := list Z.
(** one periodic uniform dimension: number of points and step *)
Record dim := { d_n : Z; d_dx : R }.
(** Kokkos::complex<DataType> *)
Definition cplx := (R * R)%type.
Notation re := fst.
Notation im := snd.

(** ** Library vocabulary (DDC, not in /repo) *)

(** sum over all the multi-indices of a mesh *)
Fixpoint gsum (Ns : list Z) (f : midx -> R) : R :=
  match Ns with
  | [] => f []
  | N :: t => Rsum (Z.to_nat N) (fun i => gsum t (fun l => f (Z.of_nat i :: l)))
  end.
(** 2 pi (k_1 n_1/N_1 + ... + k_d n_d/N_d) *)
Fixpoint phase (Ns : list Z) (k n : midx) : R :=
  match Ns, k, n with
  | N :: Ns', a :: k', b :: n' => 2 * PI * IZR (a * b) / IZR N + phase Ns' k' n'
  | _, _, _ => 0
  end.
Definition sizes (ds : list dim) : list Z := map d_n ds.
Definition vol (Ns : list Z) : R := fold_right (fun N acc => IZR N * acc) 1 Ns.
(** ddc::fourier_mesh(x_mesh, C2C = false): the last dimension has N/2 + 1 frequencies
    (fft_poisson_solver.hpp:282-283, 325-326) *)
Fixpoint half (Ns : list Z) : list Z :=
  match Ns with
  | [] => []
  | [N] => [(N / 2 + 1)%Z]
  | N :: t => N :: half t
  end.
Fixpoint in_mesh (Ns : list Z) (k : midx) : bool :=
  match Ns, k with
  | [], [] => true
  | N :: Ns', a :: k' => ((0 <=? a) && (a <? N))%Z && in_mesh Ns' k'
  | _, _ => false
  end.
(** multiplicity of a frequency of the half mesh in a real-to-complex transform *)
Fixpoint weight (Ns : list Z) (k : midx) : R :=
  match Ns, k with
  | [N], [a] => if ((a =? 0) || (2 * a =? N))%Z then 1 else 2
  | _ :: t, _ :: k' => weight t k'
  | _, _ => 1
  end.
(** ddc::fft, real to complex, BACKWARD normalisation: no factor *)
Definition fft (Ns : list Z) (rho : midx -> R) (k : midx) : cplx :=
  (gsum Ns (fun n => rho n * cos (phase Ns k n)), - gsum Ns (fun n => rho n * sin (phase Ns k n))).
(** ddc::ifft, complex to real, BACKWARD normalisation: divided by the number of points.  The half
    spectrum stands for its Hermitian extension. *)
Definition ifft (Ns : list Z) (c : midx -> cplx) (n : midx) : R :=
  gsum (half Ns) (fun k => weight Ns k * (re (c k) * cos (phase Ns k n) - im (c k) * sin (phase Ns k n))) / vol Ns.

(** ** The solver *)

(** init_fourier_space, :186-191 (ddc::init_fourier_space: N frequencies from 0 to
    2 (N-1)/N pi/dx) and ddc::coordinate of the PeriodicSampling: index brought to [-N/2, N/2) *)
Definition fourier_step (d : dim) : R :=
  (2 * IZR (d_n d - 1) / IZR (d_n d) * PI / d_dx d - 0) / IZR (d_n d - 1).
Definition coordinate (d : dim) (ik : Z) : R :=
  IZR ((ik + d_n d / 2) mod d_n d - d_n d / 2) * fourier_step d.
(** get_laplace_operator, :111-117 *)
Fixpoint get_laplace_operator (ds : list dim) (k : midx) : R :=
  match ds, k with
  | d :: ds', a :: k' => coordinate d a * coordinate d a + get_laplace_operator ds' k'
  | _, _ => 0
  end.
Definition midx_eqb (a b : midx) : bool := if list_eq_dec Z.eq_dec a b then true else false.
Definition front (ds : list dim) : midx := map (fun _ => 0%Z) ds.
(** a parallel_for_each on the Fourier mesh: each iteration writes its own element *)
Definition on_mesh (ds : list dim) (f old : midx -> cplx) : midx -> cplx :=
  fun k => if in_mesh (half (sizes ds)) k then f k else old k.

(** solve_poisson_equation, :202-225 *)
Definition solve_poisson_equation (ds : list dim) (chunk : midx -> cplx) (rho : midx -> R) : midx -> cplx :=
  let chunk := on_mesh ds (fft (sizes ds) rho) chunk in
  on_mesh ds (fun ik =>
    if negb (midx_eqb ik (front ds))
    then (re (chunk ik) / get_laplace_operator ds ik, im (chunk ik) / get_laplace_operator ds ik)
    else (0, 0)) chunk.

Definition cmul (a b : cplx) : cplx := (re a * re b - im a * im b, re a * im b + im a * re b).
(** negative_differentiate_equation<Dim>, :237-250 ([j]: number of the dimension Dim) *)
Definition negative_differentiate_equation (ds : list dim) (j : nat) (derivative values : midx -> cplx) : midx -> cplx :=
  on_mesh ds (fun ik =>
    match nth_error ds j, nth_error ik j with
    | Some d, Some ikx =>
      let minus_i := (-0, -1) in
      let ik_ := (re minus_i * coordinate d ikx, im minus_i * coordinate d ikx) in
      cmul ik_ (values ik)
    | _, _ => derivative ik
    end) derivative.

(** The arrays of the caller: location -> batch index -> multi-index -> value.  The operators get the
    locations of phi, of the components of E and of rho, which may be the same array. *)
Definition memory := nat -> nat -> midx -> R.
Definition put (m : memory) (loc b : nat) (f : midx -> R) (Ns : list Z) : memory :=
  fun l b' n => if (Nat.eqb l loc && Nat.eqb b' b && in_mesh Ns n)%bool then f n else m l b' n.

Section Solver.
(** a complex-to-real ifft is allowed to destroy its input *)
Variable clobber : (midx -> cplx) -> midx -> cplx.
Variable ds : list dim.

(** differentiate_and_invert_fourier_values, :130-142, one component; the fold is get_gradient,
    :151-184 ([comps]: dimension and location of each component, in the order of the vector field) *)
Definition differentiate_and_invert (b : nat) (values : midx -> cplx)
  (s : memory * (midx -> cplx)) (comp : nat * nat) : memory * (midx -> cplx) :=
  let '(m, fourier_derivative) := s in
  let '(j, loc) := comp in
  let fd := negative_differentiate_equation ds j fourier_derivative values in
  (put m loc b (ifft (sizes ds) fd) (sizes ds), clobber fd).
Definition get_gradient (b : nat) (comps : list (nat * nat)) (m : memory)
  (fourier_derivative values : midx -> cplx) : memory * (midx -> cplx) :=
  fold_left (differentiate_and_invert b values) comps (m, fourier_derivative).

(** operator()(phi, rho), :274-303: loop on the batch *)
Definition solve_phi (nb : nat) (phi rho : nat) (s : memory * (midx -> cplx)) : memory * (midx -> cplx) :=
  for_loop nb (fun ib s =>
    let '(m, chunk) := s in
    let chunk := solve_poisson_equation ds chunk (m rho ib) in
    (put m phi ib (ifft (sizes ds) chunk) (sizes ds), clobber chunk)) s.
(** operator()(phi, E, rho), :317-350 *)
Definition solve_phi_E (nb : nat) (phi : nat) (E : list (nat * nat)) (rho : nat)
  (s : memory * (midx -> cplx) * (midx -> cplx)) : memory * (midx -> cplx) * (midx -> cplx) :=
  for_loop nb (fun ib s =>
    let '(m, chunk, fe) := s in
    let chunk := solve_poisson_equation ds chunk (m rho ib) in
    let '(m, fe) := get_gradient ib E m fe chunk in
    (put m phi ib (ifft (sizes ds) chunk) (sizes ds), clobber chunk, fe)) s.
End Solver.
