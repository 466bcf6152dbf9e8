From Verif Require Import AdvSpec AdvProofs AdvLagrangeModel LagrangeSpec LagrangeProofs LagrangeStencilProofs LagrangeEvalProofs AdvLagrange RestrictProofs.
From Coq Require Import Lia Lra ZifyBool.
Open Scope R_scope.
Local Opaque Nat.div Nat.modulo.

(** ** Functions which the interpolation represents exactly *)
Section Exact.
  Context {C : Type} (itp : interpolator C) (n : nat) (x : nat -> R).
  Lemma exact_values f g y : (forall i, (i < n)%nat -> f i = g (x i)) -> exact_at itp n x g y ->
    interpolant itp n f y = g y.
  Proof. intros H E. rewrite (interpolant_ext itp n f (fun i => g (x i))) by exact H. exact E. Qed.
End Exact.

Lemma spatial_exact {C} (itp : interpolator C) mass ielec n nb x ns vel dt order feet0 coefs0 f isp ib ix g :
  (forall s, (s < ns)%nat -> all_lines nb (order s)) -> (isp < ns)%nat -> (ib < nb)%nat -> (ix < n)%nat ->
  (forall i, (i < n)%nat -> f isp ib i = g (x i)) ->
  exact_at itp n x g (x ix - spatial_displacement mass ielec isp (vel ib) dt) ->
  spatial_advection itp mass ielec n nb x ns vel dt order feet0 coefs0 f isp ib ix =
  g (x ix - spatial_displacement mass ielec isp (vel ib) dt).
Proof.
  intros Ho Hs Hb Hx Hf He. rewrite spatial_result by exact Ho.
  replace ((isp <? ns) && (ib <? nb) && (ix <? n))%nat with true by lia.
  now apply (exact_values itp n x).
Qed.
Lemma spatial_zero {C} (itp : interpolator C) mass ielec n nb x ns vel order feet0 coefs0 f isp ib ix :
  (forall s, (s < ns)%nat -> all_lines nb (order s)) -> interpolates itp n x ->
  spatial_advection itp mass ielec n nb x ns vel 0 order feet0 coefs0 f isp ib ix = f isp ib ix.
Proof.
  intros Ho Hi. rewrite spatial_result by exact Ho.
  destruct (Nat.ltb_spec isp ns), (Nat.ltb_spec ib nb), (Nat.ltb_spec ix n); cbn [andb]; try reflexivity.
  replace (x ix - _) with (x ix) by (unfold spatial_displacement; ring). now apply Hi.
Qed.
Lemma velocity_zero {C} (itp : interpolator C) mass charge ielec n nb x ns efield spatial order feet0 coefs0 f isp ib ix :
  (forall s, (s < ns)%nat -> all_lines nb (order s)) -> interpolates itp n x ->
  velocity_advection itp mass charge ielec n nb x ns efield spatial 0 order feet0 coefs0 f isp ib ix = f isp ib ix.
Proof.
  intros Ho Hi. rewrite velocity_result by exact Ho.
  destruct (Nat.ltb_spec isp ns), (Nat.ltb_spec ib nb), (Nat.ltb_spec ix n); cbn [andb]; try reflexivity.
  replace (x ix - _) with (x ix) by (unfold velocity_displacement; ring). now apply Hi.
Qed.
(** two steps are one step of the sum of the durations *)
Lemma spatial_compose {C} (itp : interpolator C) mass ielec n nb x ns vel dt dt' o1 o2 o3 u1 u2 u3 c1 c2 c3 f isp ib ix g :
  (forall s, (s < ns)%nat -> all_lines nb (o1 s)) -> (forall s, (s < ns)%nat -> all_lines nb (o2 s)) ->
  (forall s, (s < ns)%nat -> all_lines nb (o3 s)) -> (isp < ns)%nat -> (ib < nb)%nat -> (ix < n)%nat ->
  (forall i, (i < n)%nat -> f isp ib i = g (x i)) ->
  let d := spatial_displacement mass ielec isp (vel ib) in
  (forall i, (i < n)%nat -> exact_at itp n x g (x i - d dt)) ->
  exact_at itp n x g (x ix - d (dt + dt')) ->
  exact_at itp n x (fun y => g (y - d dt)) (x ix - d dt') ->
  spatial_advection itp mass ielec n nb x ns vel dt' o2 u2 c2
    (spatial_advection itp mass ielec n nb x ns vel dt o1 u1 c1 f) isp ib ix =
  spatial_advection itp mass ielec n nb x ns vel (dt + dt') o3 u3 c3 f isp ib ix.
Proof.
  intros H1 H2 H3 Hs Hb Hx Hf d E1 E3 E2.
  rewrite (spatial_exact itp mass ielec n nb x ns vel (dt + dt') o3 u3 c3 f isp ib ix g) by auto.
  rewrite (spatial_exact itp mass ielec n nb x ns vel dt' o2 u2 c2 _ isp ib ix (fun y => g (y - d dt))); auto.
  - f_equal. unfold d, spatial_displacement. ring.
  - intros i Hi. apply spatial_exact; auto.
Qed.

(** ** Lagrange interpolation *)
Section Lagrange.
  Variables (b : basis) (lo up : extrapolation).
  Notation itp := (lagrange_interpolator b lo up).
  Definition npts : nat := if b_periodic b then (b_bp b - 1)%nat else b_bp b.

  Lemma line_length n (f : nat -> R) : length (line n f) = n.
  Proof. unfold line. now rewrite map_length, seq_length. Qed.
  Lemma line_nth n (f : nat -> R) i : (i < n)%nat -> nth i (line n f) 0 = f i.
  Proof. apply map_seq_nth. Qed.

  (** the builder and the evaluator never fail *)
  Lemma lagrange_total vals : initialised b -> separated b -> length vals = npts ->
    (b_periodic b = true -> (b_degree b + 2 <= b_bp b)%nat) ->
    exists coef, identity_builder b vals = Ok coef /\ forall x, exists y, lagrange_eval b lo up coef x = Ok y.
  Proof.
    intros HI HS HL HB. unfold npts in HL. pose proof (initialised_good b HI) as G.
    destruct (b_periodic b) eqn:EP.
    - destruct (builder_ok b G vals) as (coef & EB & _); [rewrite EP; exact HL|auto|].
      exists coef. split; [exact EB|]. intros x.
      destruct (build_eval_periodic b lo up vals x 0 HI HS EP HL (HB eq_refl)) as (c & y & E1 & E2 & _).
      assert (c = coef) by congruence. subst c. exists y. exact E2.
    - destruct (builder_ok b G vals) as (coef & EB & LC & _); [rewrite EP; exact HL|congruence|].
      exists coef. split; [exact EB|]. intros x.
      destruct (build_extrapolation b lo up vals x HI EP HL) as (c & E1 & E2 & E3).
      assert (c = coef) by congruence. subst c.
      destruct (Rlt_dec x (kn b 0)) as [H|H]; [eexists; apply E2; exact H|].
      destruct (Rlt_dec (kn b (b_bp b - 1)) x) as [H'|H']; [eexists; apply E3; exact H'|].
      destruct (evaluation b lo up coef x HI LC) as (s & x1 & x2 & _ & _ & _ & _ & E).
      + split; lra.
      + eexists. exact E.
  Qed.
  Lemma lagrange_interpolates : initialised b -> separated b ->
    (b_periodic b = true -> (b_degree b + 2 <= b_bp b)%nat) -> interpolates itp npts (kn b).
  Proof.
    intros HI HS HB f i Hi. unfold interpolant. cbn [i_build i_eval lagrange_interpolator].
    destruct (build_eval_knots b lo up (line npts f) HI HS) as (coef & E & H & _).
    - rewrite line_length. reflexivity.
    - exact HB.
    - rewrite E, H by (rewrite line_length; exact Hi). now apply line_nth.
  Qed.

  Section Periodic.
    Hypothesis HI : initialised b.
    Hypothesis HS : separated b.
    Hypothesis HU : b_uniform b = true.
    Hypothesis HP : b_periodic b = true.
    Hypothesis HB : (b_degree b + 2 <= b_bp b)%nat.
    Notation N := (b_bp b - 1)%nat.

    Lemma interpolant_stencil d : exists m ws, length ws = S (b_degree b) /\
      Rsum (S (b_degree b)) (fun k => nth k ws 0) = 1 /\
      forall f i, (i < N)%nat -> interpolant itp N f (kn b i - d) =
        Rsum (S (b_degree b)) (fun k => nth k ws 0 * f (Z.to_nat ((Z.of_nat i + (m + Z.of_nat k)) mod Z.of_nat N))).
    Proof.
      destruct (uniform_stencil b HI HS HU HP HB d) as (m & ws & L & S1 & H).
      exists m, ws. split; [exact L|]. split; [exact S1|]. intros f i Hi.
      destruct (H lo up (line N f)) as (coef & E & H'); [apply line_length|].
      unfold interpolant. cbn [i_build i_eval lagrange_interpolator]. rewrite E, H' by exact Hi.
      apply Rsum_ext. intros k Hk. f_equal. apply line_nth.
      pose proof (Z.mod_pos_bound (Z.of_nat i + (m + Z.of_nat k)) (Z.of_nat N) ltac:(lia)). lia.
    Qed.
    (** the sum of the values is the same after any displacement *)
    Lemma interpolant_sum f d : Rsum N (fun i => interpolant itp N f (kn b i - d)) = Rsum N f.
    Proof.
      destruct (interpolant_stencil d) as (m & ws & L & S1 & H).
      rewrite (Rsum_ext N _ (fun i => Rsum (S (b_degree b)) (fun k => nth k ws 0 *
        f (Z.to_nat ((Z.of_nat i + (m + Z.of_nat k)) mod Z.of_nat N))))) by (intros; now apply H).
      rewrite Rsum_swap.
      rewrite (Rsum_ext _ _ (fun k => nth k ws 0 * Rsum N f)).
      - rewrite Rsum_scal_r, S1. ring.
      - intros k Hk. rewrite Rsum_scal. f_equal. apply (cyclic_sum N f (m + Z.of_nat k)). lia.
    Qed.
    Lemma interpolant_constant c y : interpolant itp N (fun _ => c) y = c.
    Proof.
      destruct (interpolant_stencil (kn b 0 - y)) as (m & ws & L & S1 & H).
      replace y with (kn b 0 - (kn b 0 - y)) by ring. rewrite H by lia.
      rewrite Rsum_scal_r, S1. ring.
    Qed.
    (** a displacement by a whole number of cells is a cyclic permutation of the values *)
    Lemma interpolant_cells f q i : (i < N)%nat ->
      interpolant itp N f (kn b i - IZR q * b_step b) = f (Z.to_nat ((Z.of_nat i - q) mod Z.of_nat N)).
    Proof.
      intros Hi. pose proof (initialised_good b HI) as G.
      pose proof (Z.mod_pos_bound (Z.of_nat i - q) (Z.of_nat N) ltac:(lia)) as Hz.
      pose proof (Z.div_mod (Z.of_nat i - q) (Z.of_nat N) ltac:(lia)) as Ez.
      set (j := Z.to_nat ((Z.of_nat i - q) mod Z.of_nat N)).
      replace (kn b i - IZR q * b_step b) with (kn b j + IZR ((Z.of_nat i - q) / Z.of_nat N) * period b).
      2:{ rewrite (period_uni b HI HU HP HB), (kn_uni b HI HU HP HB i), (kn_uni b HI HU HP HB j) by lia.
          rewrite (INR_IZR_INZ j), (INR_IZR_INZ i), (INR_IZR_INZ N). unfold j. rewrite Z2Nat.id by lia.
          set (k := ((Z.of_nat i - q) / Z.of_nat N)%Z) in *.
          replace ((Z.of_nat i - q) mod Z.of_nat N)%Z with (Z.of_nat i - q - Z.of_nat N * k)%Z by lia.
          rewrite !minus_IZR, mult_IZR. ring. }
      unfold interpolant. cbn [i_build i_eval lagrange_interpolator].
      destruct (build_eval_knots b lo up (line N f) HI HS) as (coef & E & H & _).
      - rewrite HP. apply line_length.
      - auto.
      - destruct (build_eval_periodic b lo up (line N f) (kn b j) ((Z.of_nat i - q) / Z.of_nat N) HI HS HP) as (c & y & E1 & E2 & E3);
          [apply line_length|exact HB|].
        assert (c = coef) by congruence. subst c. rewrite E, E3.
        rewrite H in E2 by (rewrite line_length; unfold j; lia). rewrite line_nth in E2 by (unfold j; lia).
        congruence.
    Qed.
  End Periodic.
End Lagrange.

(** the assumptions on the basis of a periodic uniform grid *)
Definition periodic_uniform (b : basis) : Prop :=
  initialised b /\ separated b /\ b_uniform b = true /\ b_periodic b = true /\ (b_degree b + 2 <= b_bp b)%nat.

Lemma spatial_mass b lo up mass ielec nb ns vel dt order feet0 coefs0 f isp ib : periodic_uniform b ->
  (forall s, (s < ns)%nat -> all_lines nb (order s)) ->
  Rsum (b_bp b - 1) (fun ix => spatial_advection (lagrange_interpolator b lo up) mass ielec (b_bp b - 1) nb (kn b)
                                 ns vel dt order feet0 coefs0 f isp ib ix)
  = Rsum (b_bp b - 1) (f isp ib).
Proof.
  intros (HI & HS & HU & HP & HB) Ho.
  destruct (le_lt_dec ns isp) as [Hs|Hs]; [|destruct (le_lt_dec nb ib) as [Hb|Hb]].
  - apply Rsum_ext. intros ix Hx. rewrite spatial_result by exact Ho. now replace (isp <? ns)%nat with false by lia.
  - apply Rsum_ext. intros ix Hx. rewrite spatial_result by exact Ho. replace (ib <? nb)%nat with false by lia.
    now rewrite andb_false_r.
  - rewrite <- (interpolant_sum b lo up HI HS HU HP HB (f isp ib) (spatial_displacement mass ielec isp (vel ib) dt)).
    apply Rsum_ext. intros ix Hx. rewrite spatial_result by exact Ho.
    now replace ((isp <? ns) && (ib <? nb) && (ix <? b_bp b - 1))%nat with true by lia.
Qed.
Lemma velocity_mass b lo up mass charge ielec nb ns efield spatial dt order feet0 coefs0 f isp ib : periodic_uniform b ->
  (forall s, (s < ns)%nat -> all_lines nb (order s)) ->
  Rsum (b_bp b - 1) (fun ix => velocity_advection (lagrange_interpolator b lo up) mass charge ielec (b_bp b - 1) nb (kn b)
                                 ns efield spatial dt order feet0 coefs0 f isp ib ix)
  = Rsum (b_bp b - 1) (f isp ib).
Proof.
  intros (HI & HS & HU & HP & HB) Ho.
  destruct (le_lt_dec ns isp) as [Hs|Hs]; [|destruct (le_lt_dec nb ib) as [Hb|Hb]].
  - apply Rsum_ext. intros ix Hx. rewrite velocity_result by exact Ho. now replace (isp <? ns)%nat with false by lia.
  - apply Rsum_ext. intros ix Hx. rewrite velocity_result by exact Ho. replace (ib <? nb)%nat with false by lia.
    now rewrite andb_false_r.
  - rewrite <- (interpolant_sum b lo up HI HS HU HP HB (f isp ib) (velocity_displacement mass charge ielec isp (efield (spatial ib)) dt)).
    apply Rsum_ext. intros ix Hx. rewrite velocity_result by exact Ho.
    now replace ((isp <? ns) && (ib <? nb) && (ix <? b_bp b - 1))%nat with true by lia.
Qed.
Lemma advection_1d_mass b lo up lo' up' m nb proj adv dt order f ib k : periodic_uniform b ->
  all_points nb (b_bp b - 1) order -> (forall i, (i < b_bp b - 1)%nat -> adv (proj ib) i = k) ->
  Rsum (b_bp b - 1) (fun ix => advection_1d (lagrange_interpolator b lo up) (lagrange_interpolator b lo' up') m
                                 (b_bp b - 1) (kn b) proj adv dt None None None None order f ib ix)
  = Rsum (b_bp b - 1) (f ib).
Proof.
  intros (HI & HS & HU & HP & HB) Ho Hk. destruct (le_lt_dec nb ib) as [Hb|Hb].
  - apply Rsum_ext. intros ix Hx. rewrite (advection_1d_result _ _ m _ nb) by exact Ho.
    now replace (ib <? nb)%nat with false by lia.
  - rewrite <- (interpolant_sum b lo up HI HS HU HP HB (f ib) (k * dt)). apply Rsum_ext. intros ix Hx.
    apply (advection_1d_constant _ _ m _ nb); auto. intros t _. unfold exact_at.
    now apply interpolant_constant.
Qed.
Lemma spatial_cells b lo up mass ielec nb ns vel dt order feet0 coefs0 f isp ib ix q : periodic_uniform b ->
  (forall s, (s < ns)%nat -> all_lines nb (order s)) -> (isp < ns)%nat -> (ib < nb)%nat -> (ix < b_bp b - 1)%nat ->
  spatial_displacement mass ielec isp (vel ib) dt = IZR q * b_step b ->
  spatial_advection (lagrange_interpolator b lo up) mass ielec (b_bp b - 1) nb (kn b) ns vel dt order feet0 coefs0 f isp ib ix
  = f isp ib (Z.to_nat ((Z.of_nat ix - q) mod Z.of_nat (b_bp b - 1))).
Proof.
  intros (HI & HS & HU & HP & HB) Ho Hs Hb Hx E. rewrite spatial_result by exact Ho.
  replace ((isp <? ns) && (ib <? nb) && (ix <? b_bp b - 1))%nat with true by lia.
  rewrite E. now apply interpolant_cells.
Qed.
(** polynomials of degree at most D on a bounded domain *)
Lemma spatial_polynomial b lo up mass ielec nb ns vel dt order feet0 coefs0 f isp ib ix p :
  initialised b -> b_periodic b = false -> (length p <= S (b_degree b))%nat ->
  (forall s, (s < ns)%nat -> all_lines nb (order s)) -> (isp < ns)%nat -> (ib < nb)%nat -> (ix < b_bp b)%nat ->
  (forall i, (i < b_bp b)%nat -> f isp ib i = peval p (kn b i)) ->
  let y := kn b ix - spatial_displacement mass ielec isp (vel ib) dt in
  in_domain b y -> (forall i, (i < b_bp b)%nat -> tolerance b < Rabs (y - kn b i)) ->
  spatial_advection (lagrange_interpolator b lo up) mass ielec (b_bp b) nb (kn b) ns vel dt order feet0 coefs0 f isp ib ix
  = peval p y.
Proof.
  intros HI HP Hp Ho Hs Hb Hx Hf y Hy Ht. rewrite spatial_result by exact Ho.
  replace ((isp <? ns) && (ib <? nb) && (ix <? b_bp b))%nat with true by lia. fold y.
  unfold interpolant. cbn [i_build i_eval lagrange_interpolator].
  destruct (build_eval_poly b lo up (line (b_bp b) (f isp ib)) p y HI HP) as (coef & x2 & E1 & E2 & _ & E3); auto.
  - apply line_length.
  - intros i Hi. rewrite line_nth by exact Hi. now apply Hf.
  - rewrite E1, E2. now rewrite E3.
Qed.
Lemma ex_basis : exists b, uniform_basis true 3 0 1 6 = Ok b /\ periodic_uniform b.
Proof.
  destruct example_uniform as (b & E & H1 & H2). exists b. split; [exact E|].
  split; [exact H1|]. split; [exact H2|]. unfold uniform_basis in E. cbn [Nat.leb Nat.add] in E.
  injection E as <-. cbn [b_uniform b_periodic b_degree b_bp]. split; [reflexivity|]. split; [reflexivity|]. lia.
Qed.
