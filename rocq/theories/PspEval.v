(** Evaluation outside of the poloidal period, behind the outer boundary and on too small radial grids (C74). *)
From Verif Require Import Lib LagDerivSpec DerivModel QuadModel QuadProofs FemModel FemSolve FemMain FemAsm MathModel RestrictProofs MappingModel MappingCyl
  OnionEval PspModel PspSpec PspBernstein PspProofs PspBasis PspMain PspCor PspTheorems.
From Coq Require Import ZifyBool.
Open Scope R_scope.

(** ** The B-splines of two neighbouring cells at their common break point *)
Lemma cdb_right_0 t m q : t (m - q)%nat < t (m + 1)%nat -> cdb t m (S q) 0 (t (m + 1)%nat) = 0.
Proof.
  intros H. cbn [cdb]. unfold cdb_weight. replace (m + 1 - S q)%nat with (m - q)%nat by lia. field. lra.
Qed.
Lemma cdb_right t m q : forall j, (q <= m)%nat -> (forall a b, (a <= b <= m + 1)%nat -> t a <= t b) -> t m < t (m + 1)%nat -> t (m + 1)%nat < t (m + 2)%nat ->
  cdb t m (S q) (S j) (t (m + 1)%nat) = cdb t (m + 1) (S q) j (t (m + 1)%nat).
Proof.
  induction q as [|q IH]; intros j Hm HM H1 H2.
  - cbn [cdb Nat.eqb]. unfold cdb_weight. rewrite Rmult_0_r, Rplus_0_r. destruct j as [|j].
    + cbn [Nat.eqb]. replace (m + 1 - 1)%nat with m by lia. replace (m + 1 + 1 - 1)%nat with (m + 1)%nat by lia.
      replace (m + 1 + 1)%nat with (m + 2)%nat by lia. field. lra.
    + cbn [Nat.eqb]. rewrite !Rmult_0_r, Rplus_0_r. destruct j as [|j]; cbn [Nat.eqb]; [|rewrite Rmult_0_r; reflexivity].
      replace (m + 1 + 1 - 1)%nat with (m + 1)%nat by lia. unfold Rminus, Rdiv. rewrite Rplus_opp_r. ring.
  - assert (IH' : forall j, cdb t m (S q) (S j) (t (m + 1)%nat) = cdb t (m + 1) (S q) j (t (m + 1)%nat)) by (intros; apply IH; auto; lia).
    assert (E : forall k x, cdb_weight t m (S (S q)) (S k) x = cdb_weight t (m + 1) (S (S q)) k x).
    { intros k x. unfold cdb_weight. replace (m + 1 + k)%nat with (m + S k)%nat by lia. reflexivity. }
    change (cdb t m (S (S q)) (S j) (t (m + 1)%nat)) with
      (cdb_weight t m (S (S q)) (S j) (t (m + 1)%nat) * cdb t m (S q) j (t (m + 1)%nat)
        + (1 - cdb_weight t m (S (S q)) (S (S j)) (t (m + 1)%nat)) * cdb t m (S q) (S j) (t (m + 1)%nat)).
    change (cdb t (m + 1) (S (S q)) j (t (m + 1)%nat)) with
      ((match j with O => 0 | S j' => cdb_weight t (m + 1) (S (S q)) j (t (m + 1)%nat) * cdb t (m + 1) (S q) j' (t (m + 1)%nat) end)
        + (1 - cdb_weight t (m + 1) (S (S q)) (S j) (t (m + 1)%nat)) * cdb t (m + 1) (S q) j (t (m + 1)%nat)).
    rewrite (E (S j)), (E j), IH'. destruct j as [|j].
    + rewrite cdb_right_0; [ring|]. apply Rle_lt_trans with (t m); [apply HM; lia|lra].
    + rewrite IH'. reflexivity.
Qed.
(** the last one vanishes at the left end of the cell *)
Lemma cdb_left_last t m q : cdb t m (S q) (S q) (t m) = 0.
Proof.
  cbn [cdb]. rewrite (cdb_out t m q (S q)) by lia. unfold cdb_weight. replace (m + S q - S q)%nat with m by lia. replace (t m - t m) with 0 by ring. unfold Rdiv. ring.
Qed.
(** translation of the knots *)
Lemma cdb_shift t m N L p : forall j x, (j <= p)%nat -> (p <= m)%nat -> (forall i, (m - p <= i <= m + p)%nat -> t (i + N)%nat = t i + L) ->
  cdb t (m + N) p j (x + L) = cdb t m p j x.
Proof.
  induction p as [|q IH]; intros j x Hj Hp HT; [reflexivity|]. cbn [cdb].
  assert (W : forall k, (k <= S q)%nat -> cdb_weight t (m + N) (S q) k (x + L) = cdb_weight t m (S q) k x).
  { intros k Hk. unfold cdb_weight. replace (m + N + k - S q)%nat with (m + k - S q + N)%nat by lia.
    replace (m + N + k)%nat with (m + k + N)%nat by lia. rewrite !HT by lia. f_equal; try ring; f_equal; ring. }
  assert (IH' : forall j, (j <= q)%nat -> cdb t (m + N) q j (x + L) = cdb t m q j x) by (intros k Hk; apply IH; [lia|lia|intros; apply HT; lia]).
  f_equal.
  - destruct j as [|j]; [reflexivity|]. rewrite W, IH' by lia. reflexivity.
  - destruct (le_lt_dec (S j) (S q)) as [A|A].
    + rewrite W, IH' by lia. reflexivity.
    + rewrite !(cdb_out t _ q j) by lia. ring.
Qed.

(** ** The two ends of the period *)
Lemma cell_first b t n c v : bspline_space b t -> basis_values b t n (b_rmin b) c v -> c = 0%nat.
Proof.
  intros SB [Hc [Hx _]]. destruct c as [|c]; [reflexivity|]. exfalso.
  pose proof (bs_breaks b t SB 0%nat ltac:(pose proof (bs_cells b t SB); lia)) as B. rewrite Nat.add_0_r, (bs_first b t SB) in B.
  pose proof (bs_mono b t SB (b_deg b + 1)%nat (b_deg b + S c)%nat ltac:(lia)). lra.
Qed.
Lemma cell_last b t n c v : bspline_space b t -> basis_values b t n (b_rmax b) c v -> (c + 1 = b_cells b)%nat.
Proof.
  intros SB [Hc [Hx _]]. destruct (Nat.eq_dec (c + 1) (b_cells b)) as [E|E]; [exact E|]. exfalso.
  pose proof (bs_breaks b t SB (b_cells b - 1)%nat ltac:(lia)) as B.
  replace (b_deg b + (b_cells b - 1) + 1)%nat with (b_deg b + b_cells b)%nat in B by lia. rewrite (bs_last b t SB) in B.
  pose proof (bs_mono b t SB (b_deg b + c + 1)%nat (b_deg b + (b_cells b - 1))%nat ltac:(lia)). lra.
Qed.
Lemma ends_meet b t (w : nat -> R) c0 v0 c1 v1 : bspline_space b t -> periodic_knots b t -> (1 <= b_deg b)%nat ->
  basis_values b t 0 (b_rmin b) c0 v0 -> basis_values b t 0 (b_rmax b) c1 v1 ->
  (forall j, (j < b_deg b)%nat -> w (j + b_cells b)%nat = w j) ->
  Rsum (b_deg b + 1) (fun j => w (c0 + j)%nat * v0 j) = Rsum (b_deg b + 1) (fun j => w (c1 + j)%nat * v1 j).
Proof.
  intros SB PK Hd V0 V1 HW. pose proof (cell_first b t 0 c0 v0 SB V0) as E0. pose proof (cell_last b t 0 c1 v1 SB V1) as E1. subst c0.
  pose proof (bs_cells b t SB) as HC. pose proof (bs_first b t SB) as HF. pose proof (bs_last b t SB) as HL.
  destruct (b_deg b) as [|q] eqn:ED; [lia|]. unfold periodic_knots in PK. rewrite ED in PK.
  set (d := S q) in *. assert (Nd : d = S q) by reflexivity.
  assert (T : t (d + c1 + 1)%nat = b_rmax b) by (rewrite <- HL; f_equal; lia).
  assert (G0 : forall j, (j <= d)%nat -> v0 j = cdb t d d j (b_rmin b)).
  { intros j Hj. rewrite (basis_value_0 b t (b_rmin b) 0 v0 j V0) by lia. rewrite ED, Nat.add_0_r. reflexivity. }
  assert (G1 : forall j, (j <= d)%nat -> v1 j = cdb t (d + c1) d j (b_rmax b)).
  { intros j Hj. rewrite (basis_value_0 b t (b_rmax b) c1 v1 j V1) by lia. rewrite ED. reflexivity. }
  assert (BR : forall i, (i < b_cells b)%nat -> t (d + i)%nat < t (d + i + 1)%nat) by (intros i Hi; pose proof (bs_breaks b t SB i Hi) as B; now rewrite ED in B).
  assert (MO : forall i j, (i <= j <= b_cells b + 2 * d)%nat -> t i <= t j) by (intros i j Hi; apply (bs_mono b t SB); lia).
  assert (B0 : t (d + c1)%nat < t (d + c1 + 1)%nat) by (apply BR; lia).
  assert (B1 : t (d + c1 + 1)%nat < t (d + c1 + 2)%nat).
  { replace (d + c1 + 1)%nat with (d + b_cells b)%nat by lia. replace (d + c1 + 2)%nat with (d + 1 + b_cells b)%nat by lia.
    rewrite !PK by lia. pose proof (BR 0%nat ltac:(lia)) as B. rewrite Nat.add_0_r in B. lra. }
  assert (Z1 : v1 0%nat = 0).
  { rewrite G1 by lia. rewrite <- T, Nd. apply cdb_right_0. rewrite <- Nd. apply Rle_lt_trans with (t (d + c1)%nat); [apply MO; lia|exact B0]. }
  assert (Z0 : v0 d = 0) by (rewrite G0 by lia; rewrite <- HF; rewrite Nd at 2 3; apply cdb_left_last).
  assert (SH : forall j, (j < d)%nat -> v1 (S j) = v0 j).
  { intros j Hj. rewrite G1, G0 by lia. rewrite <- T. rewrite Nd at 2. rewrite cdb_right; try assumption; [|lia|intros; apply MO; lia].
    rewrite <- Nd. replace (d + c1 + 1)%nat with (d + b_cells b)%nat by lia. rewrite HL.
    replace (b_rmax b) with (b_rmin b + b_length b) by (unfold b_length; ring).
    apply cdb_shift; [lia|lia|]. intros i Hi. apply PK. lia. }
  rewrite Nat.add_1_r. cbn [Rsum]. rewrite Z0, Rmult_0_r, Rplus_0_r.
  change (Rsum d (fun j => w (c1 + j)%nat * v1 j) + w (c1 + d)%nat * v1 d) with (Rsum (S d) (fun j => w (c1 + j)%nat * v1 j)).
  rewrite Rsum_first, Z1, Rmult_0_r, Rplus_0_l. apply Rsum_ext. intros j Hj. rewrite SH by lia. f_equal.
  rewrite Nat.add_0_l. rewrite <- HW by lia. f_equal. lia.
Qed.

(** ** Wrapping *)
Lemma wrap_theta_spec bt th : 0 < b_length bt ->
  b_rmin bt <= wrap_theta bt th <= b_rmax bt /\ exists k, wrap_theta bt th = th + IZR k * b_length bt.
Proof.
  intros HL. unfold wrap_theta. unfold b_length in *.
  assert (W : b_rmin bt <= th - IZR (Int_part ((th - b_rmin bt) / (b_rmax bt - b_rmin bt))) * (b_rmax bt - b_rmin bt) <= b_rmax bt).
  { set (L := b_rmax bt - b_rmin bt) in *. destruct (base_Int_part ((th - b_rmin bt) / L)) as [A B]. set (n := IZR (Int_part ((th - b_rmin bt) / L))) in *.
    assert (E : (th - b_rmin bt) = (th - b_rmin bt) / L * L) by (field; lra).
    assert (n * L <= (th - b_rmin bt) / L * L) by (apply Rmult_le_compat_r; lra).
    assert ((th - b_rmin bt) / L * L < (n + 1) * L) by (apply Rmult_lt_compat_r; lra).
    assert (NL : L = b_rmax bt - b_rmin bt) by reflexivity. lra. }
  destruct (Rlt_dec th (b_rmin bt)); [|destruct (Rlt_dec (b_rmax bt) th)].
  - split; [exact W|]. exists (- Int_part ((th - b_rmin bt) / (b_rmax bt - b_rmin bt)))%Z. rewrite opp_IZR. ring.
  - split; [exact W|]. exists (- Int_part ((th - b_rmin bt) / (b_rmax bt - b_rmin bt)))%Z. rewrite opp_IZR. ring.
  - split; [lra|]. exists 0%Z. lra.
Qed.

Section Setup.
  Context (c1 : nat) (br bt : bspace) (tr tt : nat -> R) (m : dmap) (x0 y0 : R) (PS : polar_setup c1 br bt tr tt m x0 y0).
  Context (PK : periodic_knots bt tt) (Hd : (1 <= b_deg bt)%nat).
  Context (e : elements) (He : polar_make c1 br bt m = Ok e).

  Lemma period_ends coef r : length coef = polar_nbasis c1 br bt -> b_rmin br <= r <= b_rmax br ->
    eval_no_bc c1 br bt e coef 0 0 r (b_rmin bt) = eval_no_bc c1 br bt e coef 0 0 r (b_rmax bt).
  Proof.
    intros HL Hr. destruct PS as [SR CL ST Hdt M D R0 HC1 R1].
    assert (HBT : b_rmin bt <= b_rmax bt) by (destruct D as [_ [D1 _]]; pose proof PI_RGT_0; lra).
    destruct (polar_general c1 br bt tr tt m x0 y0 SR CL ST Hdt M D R0 HC1 R1) as [e' [He' HG]].
    assert (e' = e) by congruence. subst e'. destruct (HG coef HL) as [L [_ [_ [_ HE]]]].
    destruct (HE 0%nat 0%nat r (b_rmin bt) Hr ltac:(lra)) as [pr [pt [Er [Et [Vr [Vt ->]]]]]].
    destruct (HE 0%nat 0%nat r (b_rmax bt) Hr ltac:(lra)) as [pr' [pt' [Er' [Et' [Vr' [Vt' ->]]]]]].
    assert (pr' = pr) by congruence. subst pr'. f_equal. rewrite !tensor_factor.
    apply Rsum_ext. intros i Hi. f_equal.
    apply (ends_meet bt tt (fun j => polar_coefficient c1 (b_cells bt) L (ctrl_x bt m) (ctrl_y bt m) coef (fst pr + i)%nat j)
      (fst pt) (snd pt) (fst pt') (snd pt') ST PK Hd Vt Vt').
    intros j Hj. unfold polar_coefficient. destruct (fst pr + i <? c1)%nat eqn:Q.
    - assert (fst pr + i < nbasis_r br)%nat by (unfold nbasis_r; destruct D as [_ [_ [_ [D3 _]]]]; lia).
      f_equal; apply M; auto.
    - f_equal. f_equal. replace (j + b_cells bt)%nat with (j + 1 * b_cells bt)%nat by lia. apply Nat.mod_add. pose proof (bs_cells bt tt ST). lia.
  Qed.
  Lemma evaluate_period outer coef r th k : length coef = polar_nbasis c1 br bt -> b_rmin br <= r ->
    (r <= b_rmax br \/ forall z, outer r (th + IZR z * b_length bt) coef = outer r th coef) ->
    evaluate c1 br bt e outer coef r (th + IZR k * b_length bt) = evaluate c1 br bt e outer coef r th.
  Proof.
    intros HL Hr HO. unfold evaluate. destruct (Rlt_dec (b_rmax br) r) as [G|G].
    { destruct HO as [HO|HO]; [lra|apply HO]. }
    assert (LP : 0 < b_length bt) by (destruct PS as [_ _ _ _ _ [_ [D1 _]] _ _ _]; unfold b_length; pose proof PI_RGT_0; lra).
    destruct (wrap_theta_spec bt th LP) as [A [ka Ea]]. destruct (wrap_theta_spec bt (th + IZR k * b_length bt) LP) as [B [kb Eb]].
    set (a := wrap_theta bt th) in *. set (b := wrap_theta bt (th + IZR k * b_length bt)) in *.
    assert (E : b - a = IZR (k + kb - ka) * b_length bt) by (rewrite Eb, Ea, minus_IZR, plus_IZR; ring).
    set (z := (k + kb - ka)%Z) in *.
    assert (BD : - b_length bt <= b - a <= b_length bt) by (unfold b_length; lra).
    assert (Z : (-1 <= z <= 1)%Z).
    { split; apply le_IZR; apply Rmult_le_reg_r with (b_length bt); auto; rewrite <- E; lra. }
    assert (z = -1 \/ z = 0 \/ z = 1)%Z as [->| [->| ->]] by lia.
    - assert (Na : a = b_rmax bt) by (unfold b_length in *; lra). assert (Nb : b = b_rmin bt) by (unfold b_length in *; lra).
      rewrite Na, Nb. apply period_ends; auto. lra.
    - f_equal. lra.
    - assert (Na : a = b_rmin bt) by (unfold b_length in *; lra). assert (Nb : b = b_rmax bt) by (unfold b_length in *; lra).
      rewrite Na, Nb. symmetry. apply period_ends; auto. lra.
  Qed.
  Lemma evaluate_everywhere outer coef lo hi r th : length coef = polar_nbasis c1 br bt ->
    (forall k, (k < length coef)%nat -> lo <= nth k coef 0 <= hi) -> b_rmin br <= r <= b_rmax br ->
    exists v, evaluate c1 br bt e outer coef r th = Ok v /\ lo <= v <= hi.
  Proof.
    intros HL HB Hr. unfold evaluate. destruct (Rlt_dec (b_rmax br) r) as [G|G]; [lra|].
    assert (LP : 0 < b_length bt) by (destruct PS as [_ _ _ _ _ [_ [D1 _]] _ _ _]; unfold b_length; pose proof PI_RGT_0; lra).
    apply (setup_values c1 br bt tr tt m x0 y0 PS e coef lo hi r _ He HL HB Hr). apply wrap_theta_spec; auto.
  Qed.
End Setup.
Lemma evaluate_inside c1 br bt e outer coef r th : r <= b_rmax br -> b_rmin bt <= th <= b_rmax bt ->
  evaluate c1 br bt e outer coef r th = eval_no_bc c1 br bt e coef 0 0 r th.
Proof.
  intros H1 H2. unfold evaluate, wrap_theta. destruct (Rlt_dec (b_rmax br) r); [lra|].
  destruct (Rlt_dec th (b_rmin bt)); [lra|]. destruct (Rlt_dec (b_rmax bt) th); [lra|reflexivity].
Qed.
Lemma evaluate_outside c1 br bt e outer coef r th : b_rmax br < r -> evaluate c1 br bt e outer coef r th = outer r th coef.
Proof. intros H. unfold evaluate. destruct (Rlt_dec (b_rmax br) r); [reflexivity|lra]. Qed.

(** ** Too few radial cells *)
Lemma for_res_okub {S} n (f : nat -> S -> res S) : (forall i s, (i < n)%nat -> f i s = Ub \/ exists s', f i s = Ok s') ->
  forall s, for_res n f s = Ub \/ exists s', for_res n f s = Ok s'.
Proof.
  intros Hf s. induction n as [|n IH]; cbn [for_res]; [eauto|]. destruct IH as [->|[s' ->]]; [intros; apply Hf; lia|now left|]. cbn [bind]. apply Hf. lia.
Qed.
Lemma for_res_ub {S} n (f : nat -> S -> res S) i0 : (i0 < n)%nat -> (forall s, f i0 s = Ub) ->
  (forall i s, (i < n)%nat -> f i s = Ub \/ exists s', f i s = Ok s') -> forall s, for_res n f s = Ub.
Proof.
  intros Hi Hu Hf s. induction n as [|n IH]; [lia|]. cbn [for_res].
  assert (O : forall k, (k <= n)%nat -> for_res k f s = Ub \/ exists s', for_res k f s = Ok s').
  { induction k as [|k IHk]; intros Hk; cbn [for_res]; [eauto|]. destruct IHk as [->|[s' ->]]; [lia|now left|]. cbn [bind]. apply Hf. lia. }
  destruct (Nat.eq_dec i0 n) as [->|N].
  - destruct (O n (le_n n)) as [->|[s' ->]]; [reflexivity|]. cbn [bind]. apply Hu.
  - rewrite IH; [reflexivity|lia|]. intros; apply Hf; lia.
Qed.
Theorem few_cells c1 br bt tr tt m x0 y0 : bspline_space br tr -> clamped br tr -> bspline_space bt tt -> polar_mapping br bt m ->
  b_rmin br = 0 -> b_rmax bt - b_rmin bt = 2 * PI -> b_rmin bt <= 0 <= b_rmax bt -> row0_is bt m x0 y0 ->
  (1 <= c1 <= 2)%nat -> (b_cells br <= c1 < nbasis_r br)%nat -> (1 <= b_deg br)%nat ->
  exists e, polar_make c1 br bt m = Ok e /\
    forall coef n q r th, length coef = polar_nbasis c1 br bt -> b_rmin br <= r <= b_rmax br -> b_rmin bt <= th <= b_rmax bt ->
      eval_no_bc c1 br bt e coef n q r th = Ub.
Proof.
  intros SR CL ST M D0 D1 D2 R0 Hc Hn Hd.
  pose proof (o_point_row0 br bt tr tt m x0 y0 SR CL ST M D0 D2 R0) as HO. pose proof (bs_cells br tr SR) as NR.
  destruct (polar_make_gen c1 br bt m x0 y0 M D0 D1 ltac:(unfold nbasis_r; lia) ltac:(lia) Hc (bs_cells bt tt ST) HO) as [e [He Hh]].
  exists e. split; [exact He|]. intros coef n q r th HL Hr Hth.
  destruct (basis_at br tr n r SR Hr) as [jr [vr [E1 [_ Hjr]]]]. destruct (basis_at bt tt q th ST Hth) as [jt [vt [E2 [_ Hjt]]]].
  unfold eval_no_bc. rewrite (polar_eval_ok _ _ _ _ _ _ _ _ _ _ _ _ _ Hh E1 E2 Hjt ltac:(lia)). cbn [bind].
  pose proof HL as HL'. unfold polar_nbasis, nbasis_t in HL.
  match goal with |- bind (for_res ?n ?b ?s) _ = _ => destruct (for_res_inv (fun _ _ => True) n b s) as [y [-> _]] end.
  - exact (Logic.I).
  - intros i s Hi _. rewrite (rd_nth _ _ 0) by (rewrite HL; apply Nat.lt_le_trans with (1 := Hi); apply Nat.le_add_r). cbn [bind].
    rewrite (rd_nth _ _ 0) by (rewrite map_length, seq_length; lia). cbn [bind]. eauto.
  - cbn [bind]. unfold nbasis_t. rewrite (subset_ok c1 (b_cells bt) (nbasis_r br - c1) coef ltac:(lia) ltac:(lia) HL). cbn [bind v_t0 v_nt].
    assert (RV : forall v a b, rd_view v a b = Ub \/ exists x, rd_view v a b = Ok x).
    { intros v a b. unfold rd_view. destruct (_ && _)%bool; [|now left]. unfold rd. destruct (_ <? 0)%Z; [now left|]. destruct (nth_error _ _); eauto. }
    apply (for_res_ub _ _ (b_deg br)); [lia| |].
    + intros s. apply (for_res_ub _ _ 0%nat); [lia| |].
      * intros s'. rewrite view_out; [reflexivity|]. unfold nbasis_r. lia.
      * intros i s' Hi. match goal with |- context [rd_view ?v ?a ?b] => destruct (RV v a b) as [->|[x ->]] end; [now left|]. right. cbn [bind]. eauto.
    + intros i s Hi. apply for_res_okub. intros j s' Hj.
      match goal with |- context [rd_view ?v ?a ?b] => destruct (RV v a b) as [->|[x ->]] end; [now left|]. right. cbn [bind]. eauto.
Qed.
