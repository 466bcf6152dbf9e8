(** Integrals of polar splines (C75). *)
From Coquelicot Require Import Coquelicot.
From Verif Require Import Lib LagDerivSpec DerivModel QuadModel QuadProofs FemModel FemSolve FemMain FemAsm MathModel RestrictProofs MappingModel MappingCyl
  OnionEval PspModel PspSpec PspIntSpec PspBernstein PspProofs PspBasis PspMain PspCor PspTheorems PspEval.
From Coq Require Import ZifyBool.
Open Scope R_scope.

Lemma cdb_continuous t m p : forall j x, continuous (cdb t m p j) x.
Proof.
  induction p as [|q IH]; intros j x; cbn [cdb].
  - apply continuous_const.
  - assert (W : forall k, continuous (fun x => cdb_weight t m (S q) k x) x).
    { intros k. unfold cdb_weight, Rdiv. apply (continuous_mult (fun x => x - t (m + k - S q)%nat) (fun _ => / (t (m + k)%nat - t (m + k - S q)%nat))); [|apply continuous_const].
      apply (continuous_minus (fun x => x) (fun _ => t (m + k - S q)%nat)); [apply continuous_id|apply continuous_const]. }
    apply (continuous_plus (fun x => match j with O => 0 | S j' => cdb_weight t m (S q) j x * cdb t m q j' x end)
       (fun x => (1 - cdb_weight t m (S q) (S j) x) * cdb t m q j x)).
    + destruct j as [|j]; [apply continuous_const|]. apply (continuous_mult (fun x => cdb_weight t m (S q) (S j) x) (cdb t m q j)); auto.
    + apply (continuous_mult (fun x => 1 - cdb_weight t m (S q) (S j) x) (cdb t m q j)); auto.
      apply (continuous_minus (fun _ => 1) (fun x => cdb_weight t m (S q) (S j) x)); [apply continuous_const|apply W].
Qed.
Lemma is_RInt_Rsum n (f : nat -> R -> R) (l : nat -> R) a b : (forall j, (j < n)%nat -> is_RInt (V := R_CompleteNormedModule) (f j) a b (l j)) ->
  is_RInt (V := R_CompleteNormedModule) (fun x => Rsum n (fun j => f j x)) a b (Rsum n l).
Proof.
  induction n as [|n IH]; intros H; cbn [Rsum].
  - pose proof (is_RInt_const (V := R_CompleteNormedModule) a b 0) as E. change (scal (b - a) 0) with ((b - a) * 0) in E. rewrite Rmult_0_r in E. exact E.
  - apply (is_RInt_plus (V := R_CompleteNormedModule) (fun x => Rsum n (fun j => f j x)) (f n)); auto.
Qed.
(** the integral over the domain of a function which is given by its B-spline coefficients w *)
Lemma spline_integral b t (w : nat -> R) (f : R -> R) : bspline_space b t ->
  (forall x c v, b_rmin b <= x <= b_rmax b -> b_eval b 0 x = Ok (c, v) -> f x = Rsum (b_deg b + 1) (fun j => w (c + j)%nat * v j)) ->
  is_RInt (V := R_CompleteNormedModule) f (b_rmin b) (b_rmax b) (Rsum (b_size b) (fun j => w j * bspline_integral b t j)).
Proof.
  intros SB Hf. set (d := b_deg b). set (I := fun c j => RInt (V := R_CompleteNormedModule) (cdb t (d + c) d j) (t (d + c)%nat) (t (d + c + 1)%nat)).
  assert (MO : forall i j, (i <= j <= b_cells b + 2 * d)%nat -> t i <= t j) by (intros; apply (bs_mono b t SB); auto).
  assert (C : forall c, (c < b_cells b)%nat -> is_RInt (V := R_CompleteNormedModule) f (t (d + c)%nat) (t (d + c + 1)%nat) (Rsum (d + 1) (fun j => w (c + j)%nat * I c j))).
  { intros c Hc. pose proof (bs_breaks b t SB c Hc) as B. fold d in B.
    apply (is_RInt_ext (V := R_CompleteNormedModule) (fun x => Rsum (d + 1) (fun j => w (c + j)%nat * cdb t (d + c) d j x))).
    - intros x Hx. rewrite Rmin_left, Rmax_right in Hx by lra.
      assert (Hx' : b_rmin b <= x <= b_rmax b).
      { rewrite <- (bs_first b t SB), <- (bs_last b t SB). fold d.
        pose proof (MO d (d + c)%nat ltac:(lia)). pose proof (MO (d + c + 1)%nat (d + b_cells b)%nat ltac:(lia)). lra. }
      destruct (basis_at b t 0 x SB Hx') as [c' [v [E [V Hc']]]]. rewrite (Hf x c' v Hx' E).
      assert (c' = c).
      { destruct V as [_ [V _]]. fold d in V. destruct (lt_eq_lt_dec c' c) as [[L|L]|L]; [|exact L|]; exfalso.
        - pose proof (MO (d + c' + 1)%nat (d + c)%nat ltac:(lia)). lra.
        - pose proof (MO (d + c + 1)%nat (d + c')%nat ltac:(lia)). lra. }
      subst c'. apply Rsum_ext. intros j Hj. f_equal. symmetry. apply (basis_value_0 b t x c v j V). unfold d in Hj. lia.
    - apply is_RInt_Rsum. intros j Hj.
      apply (is_RInt_scal (V := R_CompleteNormedModule) (cdb t (d + c) d j) _ _ (w (c + j)%nat)).
      apply (RInt_correct (V := R_CompleteNormedModule)). apply (ex_RInt_continuous (V := R_CompleteNormedModule)). intros z _. apply cdb_continuous. }
  assert (P : forall n, (n <= b_cells b)%nat -> is_RInt (V := R_CompleteNormedModule) f (t d) (t (d + n)%nat) (Rsum n (fun c => Rsum (d + 1) (fun j => w (c + j)%nat * I c j)))).
  { induction n as [|n IH]; intros Hn; cbn [Rsum].
    - rewrite Nat.add_0_r. apply (is_RInt_point (V := R_CompleteNormedModule)).
    - apply (is_RInt_Chasles (V := R_CompleteNormedModule) f (t d) (t (d + n)%nat)); [apply IH; lia|].
      replace (d + S n)%nat with (d + n + 1)%nat by lia. apply C. lia. }
  specialize (P (b_cells b) (le_n _)). unfold d in P at 1 2. rewrite (bs_first b t SB), (bs_last b t SB) in P.
  replace (Rsum (b_size b) (fun j => w j * bspline_integral b t j)) with (Rsum (b_cells b) (fun c => Rsum (d + 1) (fun j => w (c + j)%nat * I c j))); [exact P|].
  unfold bspline_integral. fold d.
  rewrite (Rsum_ext (b_size b) _ (fun j => Rsum (b_cells b) (fun c => if ((c <=? j) && (j <=? c + d))%nat then w j * I c (j - c)%nat else 0))).
  2:{ intros j Hj. rewrite <- Rsum_scal. apply Rsum_ext. intros c Hc. destruct (_ && _)%bool; [reflexivity|ring]. }
  rewrite (Rsum_swap (b_size b) (b_cells b)). apply Rsum_ext. intros c Hc. unfold b_size. fold d.
  rewrite (Rsum_split (b_cells b + d) c) by lia. rewrite (Rsum_zero c) by (intros j Hj; replace (c <=? j)%nat with false by lia; reflexivity).
  rewrite Rplus_0_l. rewrite (Rsum_cut (b_cells b + d - c) (d + 1)).
  - apply Rsum_ext. intros j Hj. replace ((c <=? c + j) && (c + j <=? c + d))%nat with true by lia. do 2 f_equal. lia.
  - lia.
  - intros j Hj. replace ((c <=? c + j) && (c + j <=? c + d))%nat with false by lia. reflexivity.
Qed.

(** ** The integrals of the polar basis *)
Lemma rd_el_ok c1 np e V k i j : holds c1 np e V -> (k < n_singular c1)%nat -> (i < c1)%nat -> (j < np)%nat -> rd_el e c1 np k i j = Ok (V k i j).
Proof. intros H Hk Hi Hj. exact (H k i j Hk Hi Hj). Qed.
Lemma polar_integrals_ok c1 br bt e V rint tint : holds c1 (b_size bt) e V -> (c1 <= nbasis_r br)%nat -> (1 <= b_cells bt)%nat ->
  length rint = nbasis_r br -> length tint = b_size bt ->
  polar_integrals c1 br bt e rint tint = Ok (
    map (fun k => Rsum c1 (fun i => Rsum (b_size bt) (fun j => V k i j * nth i rint 0 * nth j tint 0))) (seq 0 (n_singular c1)) ++
    map (fun a => nth (c1 + a / b_cells bt) rint 0 * nth (a mod b_cells bt) tint 0) (seq 0 ((nbasis_r br - c1) * b_cells bt))).
Proof.
  intros HV Hc Ht HR HT. unfold polar_integrals, singular_integral.
  assert (E1 : forall l, (forall k, In k l -> (k < n_singular c1)%nat) -> map_res (fun k => for_res c1 (fun i s => for_res (b_size bt) (fun j s =>
      let* a := rd_el e c1 (b_size bt) k i j in let* x := rd rint (Z.of_nat i) in let* y := rd tint (Z.of_nat j) in Ok (s + a * x * y)) s) 0) l
    = Ok (map (fun k => Rsum c1 (fun i => Rsum (b_size bt) (fun j => V k i j * nth i rint 0 * nth j tint 0))) l)).
  { induction l as [|k l IH]; intros Hl; [reflexivity|]. cbn [map_res map].
    rewrite (for_res_ext c1 _ (fun i s => let* a := Ok (Rsum (b_size bt) (fun j => V k i j * nth i rint 0 * nth j tint 0)) in Ok (s + a))).
    2:{ intros i s Hi. cbn [bind].
        rewrite (for_res_ext (b_size bt) _ (fun j s => let* a := Ok (V k i j * nth i rint 0 * nth j tint 0) in Ok (s + a))).
        - apply (for_res_sum (b_size bt) (fun j => Ok (V k i j * nth i rint 0 * nth j tint 0))). reflexivity.
        - intros j s' Hj. rewrite (rd_el_ok c1 _ e V k i j HV) by (auto; apply Hl; now left). cbn [bind].
          rewrite (rd_nth _ _ 0) by lia. cbn [bind]. rewrite (rd_nth _ _ 0) by lia. reflexivity. }
    rewrite (for_res_sum c1 (fun i => Ok (Rsum (b_size bt) (fun j => V k i j * nth i rint 0 * nth j tint 0))) (fun i => Rsum (b_size bt) (fun j => V k i j * nth i rint 0 * nth j tint 0))) by reflexivity.
    cbn [bind]. rewrite IH by (intros; apply Hl; now right). cbn [bind]. rewrite Rplus_0_l. reflexivity. }
  rewrite E1 by (intros k Hk; apply in_seq in Hk; lia). cbn [bind].
  assert (E2 : forall n a, (a + n <= (nbasis_r br - c1) * b_cells bt)%nat -> map_res (tensor_integral c1 (b_cells bt) rint tint) (seq (n_singular c1 + a) n)
    = Ok (map (fun a => nth (c1 + a / b_cells bt) rint 0 * nth (a mod b_cells bt) tint 0) (seq a n))).
  { induction n as [|n IH]; intros a Ha; [reflexivity|]. cbn [seq map_res map]. unfold tensor_integral at 1.
    pose proof (Nat.mod_upper_bound a (b_cells bt) ltac:(lia)) as U.
    pose proof (Nat.div_mod a (b_cells bt) ltac:(lia)) as DM.
    replace (n_singular c1 + a)%nat with (n_singular c1 + a / b_cells bt * b_cells bt + a mod b_cells bt)%nat at 1
      by (rewrite (Nat.mul_comm (a / b_cells bt)); rewrite DM at 3; rewrite Nat.add_assoc; reflexivity).
    rewrite index_2d_ok by auto. cbn [bind].
    assert (a / b_cells bt < nbasis_r br - c1)%nat by (apply Nat.div_lt_upper_bound; lia).
    rewrite (rd_nth _ _ 0) by lia. cbn [bind]. rewrite (rd_nth _ _ 0) by (unfold b_size in HT; lia). cbn [bind].
    replace (S (n_singular c1 + a)) with (n_singular c1 + S a)%nat by (generalize (n_singular c1); lia). rewrite IH by lia. reflexivity. }
  unfold polar_nbasis, nbasis_t. 
  replace (n_singular c1 + (nbasis_r br - c1) * b_cells bt - n_singular c1)%nat with ((nbasis_r br - c1) * b_cells bt)%nat
    by (generalize ((nbasis_r br - c1) * b_cells bt)%nat (n_singular c1); lia).
  pose proof (E2 ((nbasis_r br - c1) * b_cells bt)%nat 0%nat ltac:(lia)) as E3. rewrite Nat.add_0_r in E3. rewrite E3. reflexivity.
Qed.

Lemma periodic_sum b t (w : nat -> R) tint : periodic_integrals b t tint -> (b_deg b <= b_cells b)%nat ->
  (forall j, (j < b_deg b)%nat -> w (j + b_cells b)%nat = w j) ->
  Rsum (b_size b) (fun j => w j * bspline_integral b t j) = Rsum (b_size b) (fun j => w j * nth j tint 0) /\
  Rsum (b_size b) (fun j => w j * nth j tint 0) = Rsum (b_cells b) (fun j => w j * nth j tint 0).
Proof.
  intros [HL [H1 H2]] Hd HW.
  assert (C : Rsum (b_size b) (fun j => w j * nth j tint 0) = Rsum (b_cells b) (fun j => w j * nth j tint 0)).
  { apply Rsum_cut; [unfold b_size; lia|]. intros j Hj. rewrite H2 by lia. ring. }
  split; [|exact C]. rewrite C.
  rewrite (Rsum_ext (b_cells b) _ (fun j => w j * bspline_integral b t j + (if (j <? b_deg b)%nat then w j * bspline_integral b t (j + b_cells b) else 0))).
  2:{ intros j Hj. rewrite H1 by lia. destruct (j <? b_deg b)%nat; ring. }
  rewrite Rsum_plus. unfold b_size. rewrite (Rsum_split (b_cells b + b_deg b) (b_cells b)) by lia. f_equal.
  replace (b_cells b + b_deg b - b_cells b)%nat with (b_deg b) by lia.
  rewrite (Rsum_cut (b_cells b) (b_deg b)); [|lia|intros j Hj; replace (j <? b_deg b)%nat with false by lia; reflexivity].
  apply Rsum_ext. intros j Hj. replace (j <? b_deg b)%nat with true by lia. rewrite (Nat.add_comm (b_cells b) j). rewrite HW by lia. reflexivity.
Qed.
Lemma Rsum_blocks n k f : Rsum (n * k) f = Rsum n (fun i => Rsum k (fun j => f (i * k + j)%nat)).
Proof.
  induction n as [|n IH]; [reflexivity|]. cbn [Rsum]. rewrite <- IH. replace (S n * k)%nat with (n * k + k)%nat by lia. rewrite Rsum_app. reflexivity.
Qed.

Theorem integrals_correct c1 br bt tr tt m x0 y0 e rint tint : polar_setup c1 br bt tr tt m x0 y0 -> polar_make c1 br bt m = Ok e ->
  radial_integrals br tr rint -> periodic_integrals bt tt tint ->
  exists ints, polar_integrals c1 br bt e rint tint = Ok ints /\ length ints = polar_nbasis c1 br bt /\
    forall coef outer s, length coef = polar_nbasis c1 br bt ->
      (forall r th, b_rmin br <= r <= b_rmax br -> b_rmin bt <= th <= b_rmax bt -> evaluate c1 br bt e outer coef r th = Ok (s r th)) ->
      exists g, (forall r, b_rmin br <= r <= b_rmax br -> is_RInt (V := R_CompleteNormedModule) (s r) (b_rmin bt) (b_rmax bt) (g r)) /\
        is_RInt (V := R_CompleteNormedModule) g (b_rmin br) (b_rmax br) (Rsum (polar_nbasis c1 br bt) (fun k => nth k coef 0 * nth k ints 0)).
Proof.
  intros PS He [RL RI] TI. pose proof PS as [SR CL ST Hdt M D R0 HC1 R1]. pose proof D as [D0 [D1 [D2 [D3 D4]]]].
  pose proof (bs_cells bt tt ST) as NT.
  assert (HV : exists V, holds c1 (b_size bt) e V /\ forall k i j, (k < n_singular c1)%nat -> (i < c1)%nat -> (j < b_deg bt)%nat -> V k i (j + b_cells bt)%nat = V k i j).
  { assert (c1 = 0 \/ 1 <= c1)%nat as [Z|P] by lia.
    - exists (fun _ _ _ => 0). split; [|reflexivity]. intros k i j Hk. exfalso. revert Hk. rewrite Z. exact (Nat.nlt_0_r k).
    - destruct (polar_make_ok c1 br bt m x0 y0 M D ltac:(lia) NT (setup_o_point c1 br bt tr tt m x0 y0 PS)) as [e' [He' Hh]].
      assert (e' = e) by congruence. subst e'. eexists. split; [exact Hh|]. intros k i j Hk Hi Hj. cbv beta. f_equal.
      unfold ctrl. f_equal; apply M; auto; unfold nbasis_r; lia. }
  destruct HV as [V [HV PV]]. pose proof TI as [TL _].
  rewrite (polar_integrals_ok c1 br bt e V rint tint HV ltac:(unfold nbasis_r; lia) NT RL TL).
  eexists. split; [reflexivity|]. split.
  { rewrite app_length, !map_length, !seq_length. reflexivity. }
  intros coef outer s HL HS. set (E := expand c1 (b_cells bt) V coef).
  assert (PE : forall i j, (j < b_deg bt)%nat -> E i (j + b_cells bt)%nat = E i j).
  { intros i j Hj. unfold E, expand. destruct (i <? c1)%nat eqn:Q.
    - apply Rsum_ext. intros k Hk. rewrite PV by lia. reflexivity.
    - f_equal. f_equal. replace (j + b_cells bt)%nat with (j + 1 * b_cells bt)%nat by lia. apply Nat.mod_add. lia. }
  set (wr := fun i => Rsum (b_size bt) (fun j => E i j * bspline_integral bt tt j)).
  exists (fun r => match b_eval br 0 r with Ok (cr, vr) => Rsum (b_deg br + 1) (fun i => wr (cr + i)%nat * vr i) | _ => 0 end).
  split.
  - intros r Hr. destruct (basis_at br tr 0 r SR Hr) as [cr [vr [Er [Vr Hcr]]]]. rewrite Er.
    replace (Rsum (b_deg br + 1) (fun i => wr (cr + i)%nat * vr i))
      with (Rsum (b_size bt) (fun j => Rsum (b_deg br + 1) (fun i => E (cr + i)%nat j * vr i) * bspline_integral bt tt j)).
    + apply (spline_integral bt tt (fun j => Rsum (b_deg br + 1) (fun i => E (cr + i)%nat j * vr i)) (s r) ST).
      intros th ct vt Hth Et. pose proof (HS r th Hr Hth) as H. rewrite evaluate_inside in H by (auto; lra).
      assert (Hct : (ct < b_cells bt)%nat) by (destruct (basis_at bt tt 0 th ST Hth) as [c [v [Et' [_ Q]]]]; congruence).
      rewrite (eval_no_bc_ok c1 br bt e V coef 0 0 r th cr vr ct vt HV Er Et Hcr Hct ltac:(lia) Hdt D3 HL) in H.
      assert (s r th = tensor_spline br bt E (cr, vr) (ct, vt)) as -> by (unfold E; congruence).
      unfold tensor_spline. cbn [fst snd]. rewrite Rsum_swap. apply Rsum_ext. intros j Hj. rewrite <- Rsum_scal_r. reflexivity.
    + unfold wr. rewrite (Rsum_ext (b_deg br + 1) _ (fun i => Rsum (b_size bt) (fun j => E (cr + i)%nat j * vr i * bspline_integral bt tt j))).
      * rewrite Rsum_swap. apply Rsum_ext. intros j Hj. rewrite <- Rsum_scal_r. reflexivity.
      * intros i Hi. rewrite <- Rsum_scal_r. apply Rsum_ext. intros j Hj. ring.
  - match goal with |- is_RInt ?g _ _ ?l => replace l with (Rsum (b_size br) (fun i => wr i * bspline_integral br tr i)) end.
    + apply (spline_integral br tr wr _ SR). intros r cr vr Hr Er. rewrite Er. reflexivity.
    + set (nt := b_cells bt) in *. set (ns := n_singular c1) in *.
      set (f1 := fun k => Rsum c1 (fun i => Rsum (b_size bt) (fun j => V k i j * nth i rint 0 * nth j tint 0))).
      set (f2 := fun a => nth (c1 + a / nt) rint 0 * nth (a mod nt) tint 0).
      change (b_size br) with (nbasis_r br).
      rewrite (Rsum_ext (nbasis_r br) _ (fun i => Rsum (b_size bt) (fun j => E i j * nth j tint 0) * nth i rint 0)).
      2:{ intros i Hi. rewrite RI by auto. f_equal. unfold wr. apply (periodic_sum bt tt (E i) tint TI Hdt). intros j Hj. apply PE; auto. }
      unfold polar_nbasis, nbasis_t. fold ns nt. rewrite Rsum_app. rewrite (Rsum_split (nbasis_r br) c1) by (unfold nbasis_r; lia). f_equal.
      * rewrite (Rsum_ext ns _ (fun k => Rsum c1 (fun i => Rsum (b_size bt) (fun j => nth k coef 0 * (V k i j * nth i rint 0 * nth j tint 0))))).
        2:{ intros k Hk. rewrite app_nth1 by (rewrite map_length, seq_length; lia).
            rewrite (nth_indep (map f1 (seq 0 ns)) 0 (f1 0%nat)) by (rewrite map_length, seq_length; lia). rewrite map_nth, seq_nth by lia.
            unfold f1. rewrite Nat.add_0_l, <- Rsum_scal. apply Rsum_ext. intros i _. rewrite <- Rsum_scal. reflexivity. }
        rewrite Rsum3_swap. apply Rsum_ext. intros i Hi. rewrite <- Rsum_scal_r. apply Rsum_ext. intros j Hj.
        unfold E, expand. replace (i <? c1)%nat with true by lia. fold ns. rewrite Rmult_assoc, <- Rsum_scal_r. apply Rsum_ext. intros; ring.
      * rewrite Rsum_blocks. apply Rsum_ext. intros i Hi.
        rewrite (proj2 (periodic_sum bt tt (fun j => E (c1 + i)%nat j) tint TI Hdt ltac:(intros j Hj; apply PE; auto))).
        rewrite <- Rsum_scal_r.
        apply Rsum_ext. intros j Hj. cbv beta. fold nt in Hj.
        assert (B : (i * nt + j < (nbasis_r br - c1) * nt)%nat).
        { assert ((i + 1) * nt <= (nbasis_r br - c1) * nt)%nat by (apply Nat.mul_le_mono_r; lia). lia. }
        rewrite app_nth2 by (rewrite map_length, seq_length; apply Nat.le_add_r). rewrite map_length, seq_length.
        replace (ns + (i * nt + j) - ns)%nat with (i * nt + j)%nat by (generalize ns (i * nt)%nat; lia).
        rewrite (nth_indep (map f2 (seq 0 ((nbasis_r br - c1) * nt))) 0 (f2 0%nat)) by (rewrite map_length, seq_length; lia). rewrite map_nth, seq_nth by lia.
        unfold f2. rewrite Nat.add_0_l.
        replace ((i * nt + j) / nt)%nat with i by (rewrite Nat.div_add_l by lia; rewrite Nat.div_small by lia; lia).
        replace ((i * nt + j) mod nt)%nat with j by (rewrite Nat.add_comm, Nat.mod_add by lia; rewrite Nat.mod_small by lia; reflexivity).
        unfold E, expand. replace (c1 + i <? c1)%nat with false by lia. fold ns nt. rewrite (Nat.mod_small j nt) by lia.
        replace (ns + (c1 + i - c1) * nt + j)%nat with (ns + (i * nt + j))%nat by (replace (c1 + i - c1)%nat with i by lia; lia).
        generalize (nth (ns + (i * nt + j)) coef 0) (nth (c1 + i) rint 0) (nth j tint 0). intros; ring.
Qed.
