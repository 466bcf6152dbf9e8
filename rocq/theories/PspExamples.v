(** A B-spline space for every increasing sequence of breakpoints, and a disc with its polar splines:
    the hypotheses of C72 - C76 are met. *)
From Coquelicot Require Import Coquelicot.
From Verif Require Import Lib LagDerivSpec DerivModel QuadModel QuadProofs FemModel FemSolve FemMain FemAsm MathModel RestrictProofs MappingModel MappingCyl
  OnionEval PspModel PspSpec PspIntSpec PspBernstein PspProofs PspBasis PspMain PspCor PspTheorems PspPole PspEval PspInt.
From Coq Require Import ZifyBool.
Open Scope R_scope.

(** ** Derivatives of the Cox - de Boor pieces *)
Definition cdb_slope (t : nat -> R) (m p j : nat) : R := / (t (m + j)%nat - t (m + j - p)%nat).
Fixpoint dcdb (t : nat -> R) (m p j n : nat) (x : R) : R :=
  match p with
  | O => if (n =? 0)%nat then (if (j =? 0)%nat then 1 else 0) else 0
  | S q => (match j with O => 0 | S j' => cdb_weight t m p j x * dcdb t m q j' n x + INR n * cdb_slope t m p j * dcdb t m q j' (n - 1) x end)
           + ((1 - cdb_weight t m p (S j) x) * dcdb t m q j n x - INR n * cdb_slope t m p (S j) * dcdb t m q j (n - 1) x)
  end.
Lemma dcdb_0 t m p : forall j x, dcdb t m p j 0 x = cdb t m p j x.
Proof.
  induction p as [|q IH]; intros j x; [reflexivity|]. cbn [dcdb cdb]. rewrite !IH. destruct j as [|j]; rewrite ?IH; cbn [INR]; ring.
Qed.
Lemma dcdb_step t m p : forall j n x, derivable_pt_lim (dcdb t m p j n) x (dcdb t m p j (S n) x).
Proof.
  induction p as [|q IH]; intros j n x.
  - cbn [dcdb]. destruct (n =? 0)%nat; apply derivable_pt_lim_const.
  - assert (W : forall k, derivable_pt_lim (fun x => cdb_weight t m (S q) k x) x (cdb_slope t m (S q) k)).
    { intros k. unfold cdb_weight, cdb_slope. apply is_derive_Reals. unfold Rdiv. auto_derive; auto. ring. }
    assert (P : forall n, derivable_pt_lim (fun x => INR n * dcdb t m q j (n - 1) x) x (INR n * dcdb t m q j n x)).
    { intros k. destruct k as [|k]; [cbn [INR]; apply (derivable_pt_lim_ext' (fun _ => 0)); [intros; ring|]; rewrite Rmult_0_l; apply derivable_pt_lim_const|].
      apply derivable_pt_lim_scal. cbn [Nat.sub]. rewrite Nat.sub_0_r. apply IH. }
    assert (G : forall k j, derivable_pt_lim (fun x => cdb_weight t m (S q) k x * dcdb t m q j n x + INR n * cdb_slope t m (S q) k * dcdb t m q j (n - 1) x) x
        (cdb_weight t m (S q) k x * dcdb t m q j (S n) x + INR (S n) * cdb_slope t m (S q) k * dcdb t m q j n x)).
    { intros k i.
      replace (cdb_weight t m (S q) k x * dcdb t m q i (S n) x + INR (S n) * cdb_slope t m (S q) k * dcdb t m q i n x)
        with ((cdb_slope t m (S q) k * dcdb t m q i n x + cdb_weight t m (S q) k x * dcdb t m q i (S n) x) + cdb_slope t m (S q) k * (INR n * dcdb t m q i n x))
        by (rewrite S_INR; ring).
      apply (derivable_pt_lim_ext' (fun x => cdb_weight t m (S q) k x * dcdb t m q i n x + cdb_slope t m (S q) k * (INR n * dcdb t m q i (n - 1) x))); [intros; ring|].
      apply (derivable_pt_lim_plus (fun x => cdb_weight t m (S q) k x * dcdb t m q i n x) (fun x => cdb_slope t m (S q) k * (INR n * dcdb t m q i (n - 1) x))).
      - apply (derivable_pt_lim_mult (fun x => cdb_weight t m (S q) k x) (dcdb t m q i n)); auto.
      - apply (derivable_pt_lim_scal (fun x => INR n * dcdb t m q i (n - 1) x)).
        destruct n as [|n']; [cbn [INR]; apply (derivable_pt_lim_ext' (fun _ => 0)); [intros; ring|]; rewrite Rmult_0_l; apply derivable_pt_lim_const|].
        apply derivable_pt_lim_scal. cbn [Nat.sub]. rewrite Nat.sub_0_r. apply IH. }
    cbn [dcdb]. change (S n - 1)%nat with (n - 0)%nat. rewrite Nat.sub_0_r.
    apply (derivable_pt_lim_plus
      (fun x => match j with O => 0 | S j' => cdb_weight t m (S q) j x * dcdb t m q j' n x + INR n * cdb_slope t m (S q) j * dcdb t m q j' (n - 1) x end)
      (fun x => (1 - cdb_weight t m (S q) (S j) x) * dcdb t m q j n x - INR n * cdb_slope t m (S q) (S j) * dcdb t m q j (n - 1) x)).
    + destruct j as [|j']; [apply derivable_pt_lim_const|apply G].
    + apply (derivable_pt_lim_ext' (fun x => dcdb t m q j n x - (cdb_weight t m (S q) (S j) x * dcdb t m q j n x + INR n * cdb_slope t m (S q) (S j) * dcdb t m q j (n - 1) x))); [intros; ring|].
      replace ((1 - cdb_weight t m (S q) (S j) x) * dcdb t m q j (S n) x - INR (S n) * cdb_slope t m (S q) (S j) * dcdb t m q j n x)
        with (dcdb t m q j (S n) x - (cdb_weight t m (S q) (S j) x * dcdb t m q j (S n) x + INR (S n) * cdb_slope t m (S q) (S j) * dcdb t m q j n x)) by ring.
      apply (derivable_pt_lim_minus (dcdb t m q j n)); [apply IH|apply G].
Qed.
Lemma dcdb_nth t m p j n : nth_derivative n (cdb t m p j) (dcdb t m p j n).
Proof.
  exists (fun k => dcdb t m p j k). split; [intros; apply dcdb_0|]. split; [intros; apply dcdb_step|reflexivity].
Qed.

(** ** The space *)
Fixpoint find_cell (t : nat -> R) (d n : nat) (x : R) : nat :=
  match n with O => 0%nat | S k => if Rle_dec (t (d + n)%nat) x then n else find_cell t d k x end.
Lemma find_cell_spec t d n x : t d <= x -> let c := find_cell t d n x in (c <= n)%nat /\ t (d + c)%nat <= x /\ ((c < n)%nat -> x < t (d + c + 1)%nat).
Proof.
  intros Hx. induction n as [|n IH]; cbn [find_cell].
  - rewrite Nat.add_0_r. split; [lia|]. split; [exact Hx|lia].
  - destruct (Rle_dec (t (d + S n)%nat) x) as [H|H].
    + split; [lia|]. split; [exact H|lia].
    + destruct IH as [A [B C]]. split; [lia|]. split; [exact B|]. intros _.
      destruct (Nat.eq_dec (find_cell t d n x) n) as [E|E]; [rewrite E; replace (d + n + 1)%nat with (d + S n)%nat by lia; lra|apply C; lia].
Qed.
Definition cdb_space (d N : nat) (t : nat -> R) : bspace :=
  {| b_deg := d; b_cells := N; b_rmin := t d; b_rmax := t (d + N)%nat;
     b_eval := fun n x => let c := find_cell t d (N - 1) x in Ok (c, fun j => dcdb t (d + c) d j n x) |}.
Lemma cdb_space_ok d N t : (1 <= N)%nat -> (forall i, (i < N)%nat -> t (d + i)%nat < t (d + i + 1)%nat) ->
  (forall i j, (i <= j <= N + 2 * d)%nat -> t i <= t j) -> bspline_space (cdb_space d N t) t.
Proof.
  intros HN HB HM. constructor; auto; try (intros; reflexivity).
  intros n x Hx. cbn [cdb_space b_rmin b_rmax] in Hx. cbn [cdb_space b_eval]. eexists. eexists. split; [reflexivity|].
  destruct (find_cell_spec t d (N - 1) x ltac:(lra)) as [A [B C]]. cbv zeta in *. set (c := find_cell t d (N - 1) x) in *.
  unfold basis_values. cbn [cdb_space b_cells b_deg]. split; [lia|]. split.
  - split; [exact B|]. destruct (Nat.eq_dec c (N - 1)) as [E|E].
    + rewrite E. replace (d + (N - 1) + 1)%nat with (d + N)%nat by lia. lra.
    + left. apply C. lia.
  - intros j Hj. exists (dcdb t (d + c) d j n). split; [apply dcdb_nth|reflexivity].
Qed.

(** ** A disc: quadratic splines, 4 radial and 4 poloidal cells; the control points are
    i (1,0), i (0,1), i (-1,0), i (0,-1) in row i *)
Definition knots_r (N : nat) (i : nat) : R := INR (Nat.min (i - 2) N).
Definition knots_t (i : nat) : R := (INR i - 2) * (PI / 2).
Definition disc_r (N : nat) : bspace := cdb_space 2 N (knots_r N).
Definition disc_t : bspace := cdb_space 2 4 knots_t.
Definition cx (j : nat) : R := match (j mod 4)%nat with O => 1 | 2%nat => -1 | _ => 0 end.
Definition cy (j : nat) : R := match (j mod 4)%nat with 1%nat => 1 | 3%nat => -1 | _ => 0 end.
Definition field_of (N : nat) (f : nat -> R) : list R := map (fun p => INR (p / 6) * f (p mod 6)%nat) (seq 0 ((N + 2) * 6)).
Definition disc (N : nat) : dmap :=
  {| dm_x := field_of N cx; dm_y := field_of N cy;
     dm_ev := fun n m c r th => let* pr := b_eval (disc_r N) n r in let* pt := b_eval disc_t m th in
       Ok (tensor_spline (disc_r N) disc_t (field2 disc_t c) pr pt) |}.
Lemma disc_r_ok N : (1 <= N)%nat -> bspline_space (disc_r N) (knots_r N).
Proof.
  intros HN. apply cdb_space_ok; auto.
  - intros i Hi. unfold knots_r. apply lt_INR. lia.
  - intros i j Hij. unfold knots_r. apply le_INR. lia.
Qed.
Lemma disc_r_clamped N : clamped (disc_r N) (knots_r N).
Proof. intros i Hi. cbn [disc_r cdb_space b_deg b_rmin] in *. unfold knots_r. replace (i - 2)%nat with (2 - 2)%nat by lia. reflexivity. Qed.
Lemma disc_t_ok : bspline_space disc_t knots_t.
Proof.
  pose proof PI_RGT_0. apply cdb_space_ok; [lia| |].
  - intros i Hi. unfold knots_t. replace (INR (2 + i + 1)) with (INR (2 + i) + 1) by (rewrite !plus_INR; cbn; ring).
    apply Rmult_lt_compat_r; lra.
  - intros i j Hij. unfold knots_t. apply Rmult_le_compat_r; [lra|]. pose proof (le_INR i j ltac:(lia)). lra.
Qed.
Lemma knots_t_periodic : periodic_knots disc_t knots_t.
Proof.
  intros i Hi. unfold b_length. cbn [disc_t cdb_space b_cells b_deg b_rmin b_rmax]. unfold knots_t. rewrite !plus_INR. cbn [INR Nat.add]. field.
Qed.
Lemma field_value N f i j : (i < N + 2)%nat -> (j < 6)%nat -> field2 disc_t (field_of N f) i j = INR i * f j.
Proof.
  intros Hi Hj. unfold field2, field_of. change (b_size disc_t) with 6%nat.
  set (F := fun p => INR (p / 6) * f (p mod 6)%nat).
  rewrite (nth_indep (map F _) 0 (F 0%nat)) by (rewrite map_length, seq_length; lia). rewrite map_nth, seq_nth by lia. unfold F. rewrite Nat.add_0_l.
  replace ((i * 6 + j) / 6)%nat with i by (rewrite Nat.div_add_l by lia; rewrite Nat.div_small by lia; lia).
  replace ((i * 6 + j) mod 6)%nat with j by (rewrite Nat.add_comm, Nat.mod_add by lia; rewrite Nat.mod_small by lia; reflexivity). reflexivity.
Qed.
Lemma disc_mapping N : polar_mapping (disc_r N) disc_t (disc N).
Proof.
  constructor.
  - cbn [disc dm_x]. unfold field_of. rewrite map_length, seq_length. reflexivity.
  - cbn [disc dm_y]. unfold field_of. rewrite map_length, seq_length. reflexivity.
  - intros i j Hi Hj. unfold ctrl_x. cbn [disc dm_x]. change (b_cells disc_t) with 4%nat. change (b_deg disc_t) with 2%nat in Hj. change (nbasis_r (disc_r N)) with (N + 2)%nat in Hi.
    rewrite !field_value by lia. unfold cx. replace (j + 4)%nat with (j + 1 * 4)%nat by lia. rewrite Nat.mod_add by lia. reflexivity.
  - intros i j Hi Hj. unfold ctrl_y. cbn [disc dm_y]. change (b_cells disc_t) with 4%nat. change (b_deg disc_t) with 2%nat in Hj. change (nbasis_r (disc_r N)) with (N + 2)%nat in Hi.
    rewrite !field_value by lia. unfold cy. replace (j + 4)%nat with (j + 1 * 4)%nat by lia. rewrite Nat.mod_add by lia. reflexivity.
  - intros n q c r th pr pt _ _ _ E1 E2. cbn [disc dm_ev]. rewrite E1. cbn [bind]. rewrite E2. reflexivity.
Qed.
Lemma disc_row0 N : row0_is disc_t (disc N) 0 0.
Proof.
  intros j Hj. change (b_size disc_t) with 6%nat in Hj. unfold ctrl_x, ctrl_y. cbn [disc dm_x dm_y]. rewrite !field_value by lia. cbn [INR]. lra.
Qed.
Lemma disc_period : b_rmax disc_t - b_rmin disc_t = 2 * PI.
Proof. cbn [disc_t cdb_space b_rmin b_rmax]. unfold knots_t. cbn [INR Nat.add]. field. Qed.
Lemma disc_contains_0 : b_rmin disc_t <= 0 <= b_rmax disc_t.
Proof. pose proof PI_RGT_0. pose proof disc_period. assert (b_rmin disc_t = 0) by (cbn [disc_t cdb_space b_rmin]; unfold knots_t; cbn; lra). lra. Qed.
Lemma disc_setup c1 : (c1 <= 2)%nat -> polar_setup c1 (disc_r 4) disc_t (knots_r 4) knots_t (disc 4) 0 0.
Proof.
  intros Hc. constructor; auto using disc_r_ok, disc_r_clamped, disc_t_ok, disc_mapping, disc_row0.
  - cbn. lia.
  - split; [reflexivity|]. split; [apply disc_period|]. split; [apply disc_contains_0|]. cbn [disc_r cdb_space b_cells b_deg]. lia.
  - intros _. exists 0%nat. split; [cbn; lia|]. unfold ctrl, ctrl_x, ctrl_y. cbn [disc dm_x dm_y]. rewrite !field_value by lia. unfold cx. cbn. intros E. injection E. lra.
Qed.
(** the integrals ddc::integrals returns exist *)
Lemma disc_integrals N : exists rint tint, radial_integrals (disc_r N) (knots_r N) rint /\ periodic_integrals disc_t knots_t tint.
Proof.
  exists (map (bspline_integral (disc_r N) (knots_r N)) (seq 0 (nbasis_r (disc_r N)))).
  set (F := fun j => if (j <? 4)%nat then bspline_integral disc_t knots_t j + (if (j <? 2)%nat then bspline_integral disc_t knots_t (j + 4) else 0) else 0).
  exists (map F (seq 0 6)). split; split.
  - rewrite map_length, seq_length. reflexivity.
  - intros i Hi. rewrite (nth_indep (map _ _) 0 (bspline_integral (disc_r N) (knots_r N) 0)) by (rewrite map_length, seq_length; lia). rewrite map_nth, seq_nth by lia. reflexivity.
  - reflexivity.
  - change (b_cells disc_t) with 4%nat. change (b_size disc_t) with 6%nat. change (b_deg disc_t) with 2%nat. split; intros j Hj.
    + rewrite (nth_indep (map F (seq 0 6)) 0 (F 0%nat)) by (rewrite map_length, seq_length; lia). rewrite map_nth, seq_nth by lia. unfold F. replace (0 + j)%nat with j by lia. replace (j <? 4)%nat with true by lia. reflexivity.
    + rewrite (nth_indep (map F (seq 0 6)) 0 (F 0%nat)) by (rewrite map_length, seq_length; lia). rewrite map_nth, seq_nth by lia. unfold F. replace (0 + j)%nat with j by lia. replace (j <? 4)%nat with false by lia. reflexivity.
Qed.

(** ** The disc is regular at its pole: the point is at least r / 2 away from it *)
Lemma quad_t c x : let u := (x - knots_t (2 + c)) / (PI / 2) in
  cdb knots_t (2 + c) 2 0 x = (1 - u) * (1 - u) / 2 /\ cdb knots_t (2 + c) 2 1 x = / 2 + u - u * u /\ cdb knots_t (2 + c) 2 2 x = u * u / 2.
Proof.
  intros u. pose proof PI_RGT_0. cbn [cdb Nat.eqb]. unfold cdb_weight.
  assert (K : forall i, knots_t (2 + c + i) = knots_t (2 + c) + INR i * (PI / 2)) by (intros i; unfold knots_t; rewrite (plus_INR (2 + c) i); ring).
  assert (KM : forall k, (k <= 2)%nat -> knots_t (2 + c - k) = knots_t (2 + c) - INR k * (PI / 2)) by (intros k Hk; unfold knots_t; rewrite minus_INR by lia; ring).
  replace (2 + c + 1 - 2)%nat with (2 + c - 1)%nat by lia. replace (2 + c + 2 - 2)%nat with (2 + c)%nat by lia. replace (2 + c + 1 - 1)%nat with (2 + c)%nat by lia.
  replace (2 + c + 2 - 1)%nat with (2 + c + 1)%nat by lia. replace (2 + c + 3 - 2)%nat with (2 + c + 1)%nat by lia.
  replace (2 + c + 3 - 1)%nat with (2 + c + 2)%nat by lia. rewrite !K, !KM by lia. replace (INR 1) with 1 by reflexivity. replace (INR 2) with 2 by reflexivity. replace (INR 3) with 3 by (cbn; ring).
  assert (EX : x = knots_t (2 + c) + u * (PI / 2)) by (unfold u; field; lra). rewrite EX. generalize (knots_t (2 + c)). intros k.
  split; [field; lra|]. split; field; repeat split; lra.
Qed.
Lemma quad_r r : cdb (knots_r 4) 2 2 1 r = 2 * r - 3 / 2 * (r * r) /\ cdb (knots_r 4) 2 2 2 r = r * r / 2.
Proof.
  cbn [cdb Nat.eqb]. unfold cdb_weight. cbn [Nat.add Nat.sub].
  change (knots_r 4 0) with 0. change (knots_r 4 1) with 0. change (knots_r 4 2) with 0. 
  replace (knots_r 4 3) with 1 by reflexivity. replace (knots_r 4 4) with 2 by reflexivity. replace (knots_r 4 5) with 3 by (unfold knots_r; cbn; ring).
  split; field.
Qed.
Lemma disc_regular r th x y : 0 <= r < 1 -> b_rmin disc_t <= th <= b_rmax disc_t -> dm_apply (disc 4) r th = Ok (x, y) ->
  / 2 * r <= sqrt ((x - 0) ^ 2 + (y - 0) ^ 2).
Proof.
  intros Hr Hth E. pose proof PI_RGT_0 as PP.
  assert (Hr' : b_rmin (disc_r 4) <= r <= b_rmax (disc_r 4)).
  { replace (b_rmin (disc_r 4)) with 0 by reflexivity. replace (b_rmax (disc_r 4)) with 4 by (cbn [disc_r cdb_space b_rmax]; unfold knots_r; cbn; ring). lra. }
  destruct (basis_at (disc_r 4) (knots_r 4) 0 r (disc_r_ok 4 ltac:(lia)) Hr') as [cr [vr [Er [Vr _]]]].
  destruct (basis_at disc_t knots_t 0 th disc_t_ok Hth) as [ct [vt [Et [Vt Hct]]]].
  assert (cr = 0%nat).
  { apply (first_cell (disc_r 4) (knots_r 4) 0 r cr vr (disc_r_ok 4 ltac:(lia)) Vr). replace (knots_r 4 (b_deg (disc_r 4) + 1)) with 1 by reflexivity. lra. }
  subst cr. unfold dm_apply in E. cbn [disc dm_ev dm_x dm_y] in E. rewrite Er, Et in E. cbn [bind] in E.
  change (b_cells disc_t) with 4%nat in Hct.
  destruct (quad_t ct th) as [Q0 [Q1 Q2]]. cbv zeta in *. set (u := (th - knots_t (2 + ct)) / (PI / 2)) in *.
  assert (Hu : 0 <= u <= 1).
  { destruct Vt as [_ [Vt _]]. change (b_deg disc_t) with 2%nat in Vt. unfold u, Rdiv. split.
    - apply Rmult_le_pos; [lra|]. left. apply Rinv_0_lt_compat. lra.
    - apply Rmult_le_reg_r with (PI / 2); [lra|]. replace ((th - knots_t (2 + ct)) * / (PI * / 2) * (PI / 2)) with (th - knots_t (2 + ct)) by (field; lra).
      replace (knots_t (2 + ct + 1)) with (knots_t (2 + ct) + PI / 2) in Vt by (unfold knots_t; rewrite (plus_INR (2 + ct) 1); cbn [INR]; ring). lra. }
  destruct (quad_r r) as [P1 P2].
  assert (GT : forall j, (j <= 2)%nat -> vt j = cdb knots_t (2 + ct) 2 j th) by (intros j Hj; exact (basis_value_0 disc_t knots_t th ct vt j Vt Hj)).
  assert (GR : forall j, (j <= 2)%nat -> vr j = cdb (knots_r 4) 2 2 j r) by (intros j Hj; exact (basis_value_0 (disc_r 4) (knots_r 4) r 0 vr j Vr Hj)).
  assert (TS : forall f, tensor_spline (disc_r 4) disc_t (field2 disc_t (field_of 4 f)) (0%nat, vr) (ct, vt)
     = (2 * r - r * r / 2) * (f ct * ((1 - u) * (1 - u) / 2) + f (ct + 1)%nat * (/ 2 + u - u * u) + f (ct + 2)%nat * (u * u / 2))).
  { intros f. unfold tensor_spline. change (b_deg (disc_r 4)) with 2%nat. change (b_deg disc_t) with 2%nat. cbn [Rsum Nat.add fst snd].
    rewrite !field_value by lia. rewrite !Nat.add_0_r. rewrite !GT, !GR, Q0, Q1, Q2, P1, P2 by lia. cbn [INR]. field. }
  rewrite !TS in E.
  assert (EX : x = (2 * r - r * r / 2) * (cx ct * ((1 - u) * (1 - u) / 2) + cx (ct + 1)%nat * (/ 2 + u - u * u) + cx (ct + 2)%nat * (u * u / 2))) by congruence.
  assert (EY : y = (2 * r - r * r / 2) * (cy ct * ((1 - u) * (1 - u) / 2) + cy (ct + 1)%nat * (/ 2 + u - u * u) + cy (ct + 2)%nat * (u * u / 2))) by congruence.
  clear E TS. set (rho := 2 * r - r * r / 2) in *. assert (HR : r <= rho) by (unfold rho; nra).
  assert (S2 : rho * rho * (/ 2) <= x ^ 2 + y ^ 2).
  { assert (V : 0 <= u - u * u) by nra. set (v := u - u * u) in *. assert (Nv : v = u - u * u) by reflexivity.
    assert (H2 : x ^ 2 + y ^ 2 = rho * rho * (/ 2 + v * v)).
    { rewrite EX, EY. assert (ct = 0 \/ ct = 1 \/ ct = 2 \/ ct = 3)%nat as [->| [->| [->| ->]]] by lia; unfold cx, cy; cbn [Nat.add Nat.modulo Nat.divmod Nat.sub fst snd]; rewrite Nv; field. }
    rewrite H2. apply Rmult_le_compat_l; nra. }
  rewrite !Rminus_0_r. rewrite <- (sqrt_Rsqr (/ 2 * r)) by lra. apply sqrt_le_1_alt. unfold Rsqr. nra.
Qed.

(** ** A basis which refuses coordinates outside of its domain *)
Definition guarded (b : bspace) : bspace :=
  {| b_deg := b_deg b; b_cells := b_cells b; b_rmin := b_rmin b; b_rmax := b_rmax b;
     b_eval := fun n x => if Rlt_dec x (b_rmin b) then AssertFail else if Rlt_dec (b_rmax b) x then AssertFail else b_eval b n x |}.
Lemma guarded_in b n x : b_rmin b <= x <= b_rmax b -> b_eval (guarded b) n x = b_eval b n x.
Proof. intros H. cbn [guarded b_eval]. destruct (Rlt_dec x (b_rmin b)); [lra|]. destruct (Rlt_dec (b_rmax b) x); [lra|reflexivity]. Qed.
Lemma guarded_space b t : bspline_space b t -> bspline_space (guarded b) t.
Proof.
  intros SB. constructor; try apply SB. intros n x Hx. rewrite guarded_in by exact Hx. destruct (bs_eval b t SB n x Hx) as [c [v [E V]]].
  exists c, v. split; [exact E|exact V].
Qed.
Lemma guarded_setup c1 br bt tr tt m x0 y0 : polar_setup c1 br bt tr tt m x0 y0 -> polar_setup c1 br (guarded bt) tr tt m x0 y0.
Proof.
  intros [SR CL ST Hdt M D R0 HC1 R1]. constructor; auto using guarded_space. destruct M as [M1 M2 M3 M4 M5]. constructor; auto.
  intros n q c r th pr pt HL Hr Hth E1 E2. rewrite guarded_in in E2 by exact Hth. exact (M5 n q c r th pr pt HL Hr Hth E1 E2).
Qed.
Lemma disc_unwrapped : exists e coef, polar_make 2 (disc_r 4) (guarded disc_t) (disc 4) = Ok e /\ length coef = polar_nbasis 2 (disc_r 4) (guarded disc_t) /\
  forall outer, (exists v, evaluate 2 (disc_r 4) (guarded disc_t) e outer coef 1 (-1) = Ok v) /\
  derivative 2 (disc_r 4) (guarded disc_t) e coef 0 1 1 (-1) = AssertFail.
Proof.
  pose proof (guarded_setup _ _ _ _ _ _ _ _ (disc_setup 2 (le_n 2))) as PS.
  destruct (setup_make _ _ _ _ _ _ _ _ PS) as [e He].
  exists e, (repeat 0 (polar_nbasis 2 (disc_r 4) (guarded disc_t))). split; [exact He|]. split; [apply repeat_length|]. intros outer. split.
  - destruct (evaluate_everywhere 2 (disc_r 4) (guarded disc_t) (knots_r 4) knots_t (disc 4) 0 0 PS e He outer (repeat 0 (polar_nbasis 2 (disc_r 4) (guarded disc_t))) 0 0 1 (-1)) as [v [E _]].
    + apply repeat_length.
    + intros k Hk. rewrite repeat_length in Hk. rewrite nth_repeat. lra.
    + cbn [disc_r cdb_space b_rmin b_rmax]. unfold knots_r. cbn. lra.
    + eauto.
  - assert (B : b_rmin disc_t = 0) by (cbn [disc_t cdb_space b_rmin]; unfold knots_t; cbn; ring).
    unfold derivative, eval_no_bc, polar_eval. cbn [disc_r cdb_space b_eval bind]. cbn [guarded b_eval]. rewrite B.
    destruct (Rlt_dec (-1) 0) as [_|N]; [reflexivity|lra].
Qed.
