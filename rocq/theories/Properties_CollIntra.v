(** C51: the intra-species collision operator of the (x, v) geometry. *)
From Verif Require Import CollIntraModel CollIntraSpec ErfProofs CollIntraProofs MatrixSpec.
Open Scope R_scope.

(** the vocabulary: [d3] is the derivative of a parabola through three points *)
Theorem C51_d3_exact : forall a b c xm x0 xp, xm < x0 < xp ->
  let P := fun x => a * x * x + b * x + c in
  d3 xm x0 xp (P xm) (P x0) (P xp) = 2 * a * x0 + b.
Proof. exact d3_exact. Qed.
Print Assumptions C51_d3_exact.

(** the points of the ghosted grid: no out of bounds access, the grid with its end cells repeated *)
Theorem C51_ghosted_grid : forall pts n, n = length pts -> (2 <= n)%nat ->
  exists g, ghosted_points pts 0 n = Ok g /\ length g = (n + 2)%nat /\
    forall k, (k < n + 2)%nat -> nth k g 0 = ghosted_grid pts k.
Proof. exact ghosted_points_ok. Qed.
Print Assumptions C51_ghosted_grid.

(** the staggered points: the middles of the ghosted cells *)
Theorem C51_staggered_grid : forall pts n, n = length pts -> (2 <= n)%nat ->
  exists g, staggered_points pts 0 n = Ok g /\ length g = (n + 1)%nat /\
    forall k, (k < n + 1)%nat -> nth k g 0 = (ghosted_grid pts k + ghosted_grid pts (k + 1)) / 2.
Proof. exact staggered_points_ok. Qed.
Print Assumptions C51_staggered_grid.

(** the uniform constructors build the same grids *)
Theorem C51_uniform_grids : forall v0 h n, (2 <= n)%nat ->
  let pts := map (fun i => v0 + INR i * h) (seq 0 n) in
  let vN := v0 + INR (n - 1) * h in
  (forall k, (k < n + 2)%nat -> ghosted_uniform v0 vN h n k = ghosted_grid pts k) /\
  (forall k, (k < n + 1)%nat -> staggered_uniform v0 vN h n k = (ghosted_grid pts k + ghosted_grid pts (k + 1)) / 2).
Proof. exact uniform_grids_agree. Qed.
Print Assumptions C51_uniform_grids.

(** refuted: "the index range may start anywhere in the grid": with a front of index 2 or more the
    ghosted points are written out of bounds *)
Theorem C51_front_refuted : forall pts fr n, (2 <= fr)%Z -> (2 <= n)%nat -> (Z.to_nat fr + n <= length pts)%nat ->
  ghosted_points pts fr n = Ub.
Proof. exact ghosted_front. Qed.
Print Assumptions C51_front_refuted.

(** the tridiagonal system of a row-wise Ok matrix and right-hand side is exactly the Crank-Nicolson
    scheme for the discretised operator, with the threshold value at the two ghost points *)
Theorem C51_system_is_crank_nicolson : forall n (g Dg Ng Ds : nat -> R) dt, (2 <= n)%nat ->
  (forall k, (k <= n)%nat -> g k < g (k + 1)%nat) ->
  forall AA BB CC RR f t x,
  (forall i, (i < n)%nat -> matrix_row n g Dg Ng Ds dt i = Ok (AA i, BB i, CC i)) ->
  (forall i, (i < n)%nat -> rhs_row n AA BB CC f t i = Ok (RR i)) ->
  (is_solution n (tridiag AA BB CC) x RR <-> crank_nicolson_step n (coll_op g Dg Ng Ds) t dt f x).
Proof. exact system_is_cn. Qed.
Print Assumptions C51_system_is_crank_nicolson.

(** the whole step on an increasing grid: no error, no out of bounds access, and the result satisfies
    the Crank-Nicolson scheme whenever the elimination meets no zero pivot *)
Theorem C51_step : forall pts n q f nustar dt, n = length pts -> (2 <= n)%nat -> increasing pts ->
  let v := fun i => nth i pts 0 in
  let '(dens0, _, T) := coll_moments n q v f in
  let nu := collfreq nustar dens0 T in
  let g := ghosted_grid pts in
  let Dg := fun k => Dcoll T nu (g k) in
  let Ds := fun k => Dcoll T nu ((g k + g (k + 1)%nat) / 2) in
  exists Vc Tc, vcoll_tcoll n q v f Dg (fun k => dvDcoll T nu (g k)) = Ok (Vc, Tc) /\
  let Ng := fun k => Nucoll (Dg k) (g k) Vc Tc in
  exists AA BB CC, (forall i, (i < n)%nat -> matrix_row n g Dg Ng Ds dt i = Ok (AA i, BB i, CC i)) /\
  ((forall i, (i < n)%nat -> pivot AA BB CC i <> 0) ->
   exists x, intra_step pts n q f nustar dt = Ok x /\
     crank_nicolson_step n (coll_op g Dg Ng Ds) (/ 10 ^ 30) dt f x).
Proof. exact intra_step_cn. Qed.
Print Assumptions C51_step.

(** the pivots are non zero when the coefficients have the sign of a diffusion and dt resolves the
    divergence of the drift ... *)
Theorem C51_dominance : forall n (g Dg Ng Ds : nat -> R) dt, (2 <= n)%nat ->
  (forall k, (k <= n)%nat -> g k < g (k + 1)%nat) ->
  forall AA BB CC,
  (forall i, (i < n)%nat -> matrix_row n g Dg Ng Ds dt i = Ok (AA i, BB i, CC i)) ->
  (forall i, (i < n)%nat -> AA i <= 0 /\ CC i <= 0 /\
     - (2) < dt * d3 (g i) (g (i + 1)%nat) (g (i + 2)%nat) (Ng i) (Ng (i + 1)%nat) (Ng (i + 2)%nat)) ->
  forall i, (i < n)%nat -> pivot AA BB CC i <> 0.
Proof. exact dominance. Qed.
Print Assumptions C51_dominance.

(** ... and always for a small enough time step *)
Theorem C51_small_dt : forall n g Dg Ng Ds, exists dt0, 0 < dt0 /\ forall dt AA BB CC, Rabs dt < dt0 ->
  (forall i, (i < n)%nat -> matrix_row n g Dg Ng Ds dt i = Ok (AA i, BB i, CC i)) ->
  forall i, (i < n)%nat -> pivot AA BB CC i <> 0.
Proof. exact small_dt_solvable. Qed.
Print Assumptions C51_small_dt.

(** on a uniform grid the number of particles only changes through the two ends *)
Theorem C51_mass_balance : forall n g D Nu Dm t dt f x h, h <> 0 ->
  (forall j, (j <= n)%nat -> g (j + 1)%nat - g j = h) ->
  crank_nicolson_step n (coll_op g D Nu Dm) t dt f x ->
  Rsum n x - Rsum n f =
  dt / 2 * (boundary_flux n Nu Dm (ghosted n t f) h + boundary_flux n Nu Dm (ghosted n t x) h).
Proof. exact mass_balance. Qed.
Print Assumptions C51_mass_balance.

(** Vcoll and Tcoll are those of the conservative operator: the momentum and the energy of
    d/dv (D df/dv - Nu f), integrated by parts, vanish under the quadrature *)
Theorem C51_conservation : forall n q v f Dg dDg Vc Tc,
  let D := fun i => Dg (i + 1)%nat in
  let dD := fun i => dDg (i + 1)%nat in
  let I0 := Rsum n (fun i => q i * (D i * f i)) in
  let I1 := Rsum n (fun i => q i * (v i * D i * f i)) in
  let I2 := Rsum n (fun i => q i * (v i * v i * D i * f i)) in
  let I3 := Rsum n (fun i => q i * (dD i * f i)) in
  let I4 := Rsum n (fun i => q i * ((D i + v i * dD i) * f i)) in
  vcoll_tcoll n q v f Dg dDg = Ok (Vc, Tc) ->
  I0 * I4 - I1 * I3 <> 0 -> I0 * I2 - I1 * I1 <> 0 ->
  let Nu := fun i => Nucoll (D i) (v i) Vc Tc in
  Rsum n (fun i => q i * ((dD i + Nu i) * f i)) = 0 /\
  Rsum n (fun i => q i * ((D i + v i * dD i + v i * Nu i) * f i)) = 0.
Proof. exact vt_conservation. Qed.
Print Assumptions C51_conservation.

(** the second hypothesis holds for every non negative distribution that charges two velocities *)
Theorem C51_tcoll_numerator : forall n q v f (Dg : nat -> R) a b,
  let D := fun i => Dg (i + 1)%nat in
  (a < n)%nat -> (b < n)%nat -> v a <> v b ->
  (forall i, (i < n)%nat -> 0 <= q i * (D i * f i)) ->
  0 < q a * (D a * f a) -> 0 < q b * (D b * f b) ->
  0 < Rsum n (fun i => q i * (D i * f i)) * Rsum n (fun i => q i * (v i * v i * D i * f i))
      - Rsum n (fun i => q i * (v i * D i * f i)) * Rsum n (fun i => q i * (v i * D i * f i)).
Proof. exact tcoll_numerator. Qed.
Print Assumptions C51_tcoll_numerator.

(** the Maxwellian of mean velocity Vcoll and temperature Tcoll carries no collisional flux *)
Theorem C51_maxwellian_no_flux : forall D n V T v, T <> 0 ->
  exists f', derivable_pt_lim (maxwellian n T V) v f' /\
    D * f' - Nucoll D v V T * maxwellian n T V v = 0.
Proof. exact maxwellian_no_flux. Qed.
Print Assumptions C51_maxwellian_no_flux.

(** the diffusion coefficient: positive, at most its value at rest *)
Theorem C51_diffusion_bounds : forall T nu v, 0 < T -> 0 <= nu ->
  sqrt 2 * T * nu * exp (- (v * v) / (2 * T)) <= Dcoll T nu v <= sqrt 2 * T * nu.
Proof. exact Dcoll_bounds. Qed.
Print Assumptions C51_diffusion_bounds.

Theorem C51_diffusion_positive : forall T nu v, 0 < T -> 0 < nu -> 0 < Dcoll T nu v.
Proof. exact Dcoll_pos. Qed.
Print Assumptions C51_diffusion_positive.

(** its derivative, away from the two points where the program switches to the limit formula *)
Theorem C51_diffusion_derivative : forall T nu v, 0 < T -> Rabs v / sqrt (2 * T) <> tol ->
  derivable_pt_lim (Dcoll T nu) v (dvDcoll T nu v).
Proof. exact dvDcoll_derivative. Qed.
Print Assumptions C51_diffusion_derivative.

Theorem C51_diffusion_decreases : forall T nu v, 0 < T -> 0 <= nu -> v * dvDcoll T nu v <= 0.
Proof. exact dvDcoll_sign. Qed.
Print Assumptions C51_diffusion_decreases.

(** the hypotheses are met by a non uniform grid and a decaying distribution *)
Example C51_nonvacuous :
  increasing [-1; 0; 2] /\
  exists dt0, 0 < dt0 /\ forall dt, Rabs dt < dt0 ->
    exists x, intra_step [-1; 0; 2] 3 (fun _ => 1) (fun i => / INR (i + 1)) 1 dt = Ok x.
Proof.
  assert (IN : increasing [-1; 0; 2]).
  { intros i j H. simpl in H. destruct i as [|[|[|i]]]; destruct j as [|[|[|j]]]; simpl; lra || lia. }
  split; [exact IN|].
  set (v := fun i => nth i [-1; 0; 2] 0). set (f := fun i => / INR (i + 1)). set (q := fun _ : nat => 1).
  destruct (coll_moments 3 q v f) as [[d V] T] eqn:EM.
  set (nu := collfreq 1 d T). set (g := ghosted_grid [-1; 0; 2]). set (Dg := fun k => Dcoll T nu (g k)).
  destruct (vcoll_tcoll 3 q v f Dg (fun k => dvDcoll T nu (g k))) as [[Vc Tc]| | |] eqn:EV;
    try (rewrite vcoll_tcoll_eq in EV; discriminate).
  destruct (small_dt_solvable 3 g Dg (fun k => Nucoll (Dg k) (g k) Vc Tc) (fun k => Dcoll T nu ((g k + g (k + 1)%nat) / 2)))
    as [dt0 [P H]].
  exists dt0. split; [exact P|]. intros dt Hdt.
  pose proof (intra_step_cn [-1; 0; 2] 3 q f 1 dt eq_refl ltac:(lia) IN) as S. cbv zeta in S. fold v in S.
  rewrite EM in S. fold nu g Dg in S. rewrite EV in S.
  destruct S as [Vc' [Tc' [E [AA [BB [CC [HM HX]]]]]]]. injection E as <- <-.
  destruct HX as [x [EX _]]; [exact (H dt AA BB CC Hdt HM)|]. exists x. exact EX.
Qed.

Example C51_dominance_nonvacuous : exists AA BB CC : nat -> R,
  (forall i, (i < 2)%nat -> matrix_row 2 (fun k => INR k) (fun _ => 1) (fun _ => 0) (fun _ => 1) 1 i = Ok (AA i, BB i, CC i)) /\
  (forall i, (i < 2)%nat -> AA i <= 0 /\ CC i <= 0 /\
    - (2) < 1 * d3 (INR i) (INR (i + 1)) (INR (i + 2)) 0 0 0).
Proof.
  exists (fun _ => - / 2), (fun _ => 2), (fun _ => - / 2). split.
  - intros [|[|i]] H; [| |lia]; unfold matrix_row, rdz, to_index; cbn [Z.of_nat Z.add Pos.of_succ_nat Pos.add bind];
      simpl; repeat match goal with |- context [INR ?k] => change (INR k) with (INR k) end; simpl;
      match goal with |- Ok (?a, ?b, ?c) = Ok (?a', ?b', ?c') =>
        replace a with a' by (field); replace b with b' by (field); replace c with c' by (field) end; reflexivity.
  - intros i H. unfold d3. rewrite !plus_INR. simpl. split; [lra|split; [lra|]].
    replace (1 * _) with 0; [lra|]. field. pose proof (pos_INR i). lra.
Qed.

Example C51_conservation_nonvacuous : let f := fun _ : nat => 1 in let v := fun i : nat => INR i - 1 in
  exists Vc Tc, vcoll_tcoll 3 (fun _ => 1) v f (fun _ => 1) (fun _ => 0) = Ok (Vc, Tc) /\ Tc = 2 / 3 /\ Vc = 0.
Proof.
  intros f v. rewrite vcoll_tcoll_eq. do 2 eexists. split; [reflexivity|]. unfold f, v. simpl. split; field.
Qed.
