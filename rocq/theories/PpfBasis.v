(** The basis functions at the quadrature points. *)
From Coq Require Import ZifyBool.
From Verif Require Import Lib LagDerivSpec DerivModel QuadModel FemModel FemSolve QuadProofs MappingModel PspModel PspSpec PspProofs PspMain PspTheorems PspJac PpfModel PpfSpec PpfRows PpfPattern PpfCsr.
Open Scope R_scope.

(** the values returned by DDC, when there are any *)
Definition bvals (b : bspace) (n : nat) (x : R) : nat -> R := match b_eval b n x with Ok (_, v) => v | _ => fun _ => 0 end.

Lemma div_mod_at n q i : (i < n -> (q * n + i) / n = q /\ (q * n + i) mod n = i)%nat.
Proof.
  intros H. split; [rewrite Nat.div_add_l by lia; rewrite (Nat.div_small i n) by exact H; lia|].
  rewrite Nat.add_comm, Nat.mod_add by lia. apply Nat.mod_small; exact H.
Qed.

Section Basis.
  Variables (p : pfem) (tr tt : nat -> R) (m : dmap) (x0 y0 : R).
  Hypothesis FS : fem_setup p tr tt m x0 y0.
  Notation ns := (pf_ns p).
  Notation d := (pf_d p).
  Notation nt := (pf_nt p).
  Notation N := (pf_nr p).
  Notation c1 := (pf_c1 p).
  Notation z := Z.of_nat.
  Notation br := (pf_r p).
  Notation bt := (pf_t p).
  Notation qr a := (nth a (pf_qr p) 0).
  Notation qt b := (nth b (pf_qt p) 0).
  Notation g := (d + 1)%nat.
  Let HS := fe_sizes p tr tt m x0 y0 FS.
  Let PS := fe_polar p tr tt m x0 y0 FS.
  Lemma hdt : b_deg bt = d.
  Proof. exact (H_dt p HS). Qed.
  Lemma nqr_eq : pf_nqr p = (b_cells br * g)%nat.
  Proof. unfold pf_nqr. lia. Qed.
  Lemma nqt_eq : pf_nqt p = (nt * g)%nat.
  Proof. unfold pf_nqt, pf_dt. rewrite hdt. unfold pf_nt, nbasis_t. lia. Qed.
  Lemma eval_r n a : (a < b_cells br * g)%nat -> b_eval br n (qr a) = Ok ((a / g)%nat, bvals br n (qr a)).
  Proof.
    intros Ha. destruct (div_lt a (b_cells br) g Ha) as [H1 [H2 H3]].
    pose proof (fe_in_r p tr tt m x0 y0 FS (a / g) (a mod g) H1 ltac:(fold d; lia)) as IN. fold d in IN. rewrite <- H3 in IN.
    pose proof (ps_r _ _ _ _ _ _ _ _ PS) as SR.
    assert (HR : b_rmin br <= qr a <= b_rmax br).
    { rewrite <- (bs_first _ _ SR), <- (bs_last _ _ SR). fold d.
      pose proof (bs_mono _ _ SR d (d + a / g)%nat ltac:(fold d; lia)). pose proof (bs_mono _ _ SR (d + a / g + 1)%nat (d + b_cells br)%nat ltac:(fold d; lia)). lra. }
    destruct (basis_at br tr n (qr a) SR HR) as [c [v [E [V Hc]]]].
    assert (c = a / g)%nat as -> by exact (cell_unique br tr n (qr a) (a / g) c v SR H1 IN V).
    unfold bvals. rewrite E. reflexivity.
  Qed.
  Lemma eval_t n b : (b < nt * g)%nat -> b_eval bt n (qt b) = Ok ((b / g)%nat, bvals bt n (qt b)).
  Proof.
    intros Ha. destruct (div_lt b nt g Ha) as [H1 [H2 H3]].
    pose proof (fe_in_t p tr tt m x0 y0 FS (b / g) (b mod g) H1 ltac:(rewrite hdt; lia)) as IN. rewrite hdt in IN. rewrite <- H3 in IN.
    pose proof (ps_t _ _ _ _ _ _ _ _ PS) as SR. change (b_cells bt) with nt in *.
    assert (HR : b_rmin bt <= qt b <= b_rmax bt).
    { rewrite <- (bs_first _ _ SR), <- (bs_last _ _ SR). rewrite hdt. change (b_cells bt) with nt.
      pose proof (bs_mono _ _ SR d (d + b / g)%nat ltac:(rewrite hdt; change (b_cells bt) with nt; lia)). pose proof (bs_mono _ _ SR (d + b / g + 1)%nat (d + nt)%nat ltac:(rewrite hdt; change (b_cells bt) with nt; lia)). lra. }
    destruct (basis_at bt tt n (qt b) SR HR) as [c [v [E [V Hc]]]].
    assert (c = b / g)%nat as -> by (apply (cell_unique bt tt n (qt b) (b / g) c v SR H1); [rewrite hdt; exact IN|exact V]).
    unfold bvals. rewrite E. reflexivity.
  Qed.
  Lemma elements_hold : exists V, holds c1 (b_size bt) (pf_el p) V.
  Proof.
    assert (c1 = 0 \/ 1 <= c1)%nat as [Z|P] by lia.
    - exists (fun _ _ _ => 0). intros k i j Hk. exfalso. revert Hk. rewrite Z. exact (Nat.nlt_0_r k).
    - pose proof PS as [SR CL ST Hd M D R0 HC1 R1].
      destruct (polar_make_ok c1 br bt m x0 y0 M D ltac:(lia) (bs_cells bt tt ST) (setup_o_point c1 br bt tr tt m x0 y0 PS)) as [e' [He' Hh]].
      pose proof (fe_elements p tr tt m x0 y0 FS). assert (e' = pf_el p) as -> by congruence. eexists. exact Hh.
  Qed.
  Variable V : nat -> nat -> nat -> R.
  Hypothesis HV : holds c1 (b_size bt) (pf_el p) V.
  (** function idx, derivative of orders (n, k), at the point (a, b) *)
  Definition nearb (it b : nat) : bool := ((b <=? it) && (it <=? b + d) || (b <=? it + nt) && (it + nt <=? b + d))%nat.
  Definition toff (it b : nat) : nat := if (b <=? it)%nat then (it - b)%nat else (it + nt - b)%nat.
  Definition Bv (idx n k a b : nat) : R :=
    let vr := bvals br n (qr a) in
    let vt := bvals bt k (qt b) in
    let ca := (a / g)%nat in
    let cb := (b / g)%nat in
    if (idx <? ns)%nat then Rsum (c1 - ca) (fun i => Rsum g (fun j => V idx (ca + i)%nat (cb + j)%nat * vr i * vt j))
    else let q := ((idx - ns) / nt)%nat in let it := ((idx - ns) mod nt)%nat in
      if ((ca <=? c1 + q) && (c1 + q <=? ca + d))%nat%bool && nearb it cb then vr (c1 + q - ca)%nat * vt (toff it cb) else 0.
  Lemma nearb_iff it b : nearb it b = true <-> near d nt it b.
  Proof. unfold nearb, near. lia. Qed.
  Lemma c1_le : (c1 <= d + 1)%nat.
  Proof. pose proof (ps_c1 _ _ _ _ _ _ _ _ PS) as HC. pose proof (ps_dom _ _ _ _ _ _ _ _ PS) as [_ [_ [_ [_ HD]]]]. unfold pf_d. lia. Qed.
  Lemma bv_off idx n k a b : (idx < ns + N * nt)%nat -> (a / g < b_cells br)%nat -> (b / g < nt)%nat -> ~ touches p idx (a / g) (b / g) -> Bv idx n k a b = 0.
  Proof.
    intros Hi Ha Hb HT. unfold Bv. cbv zeta. destruct (idx <? ns)%nat eqn:E.
    - rewrite (touches_sing p HS idx) in HT by (apply Nat.ltb_lt; exact E). replace (c1 - a / g)%nat with 0%nat by lia. reflexivity.
    - destruct (split_index p HS idx ltac:(lia) Hi) as [q [it [Hq [Hit ->]]]]. rewrite (touches_tensor p HS) in HT by assumption.
      replace (ns + q * nt + it - ns)%nat with (q * nt + it)%nat by lia.
      destruct (div_mod_at nt q it Hit) as [-> ->].
      rewrite <- nearb_iff in HT. destruct (nearb it (b / g)); [|rewrite Bool.andb_false_r; reflexivity].
      rewrite Bool.andb_true_r. destruct (_ && _)%bool eqn:E2; [exfalso; apply HT; split; [lia|reflexivity]|reflexivity].
  Qed.
  (** what the code computes on the support *)
  Lemma span_ok n k a b : (a < b_cells br * g)%nat -> (b < nt * g)%nat ->
    span_eval p n k (qr a) (qt b) =
    Ok (map (fun idx => Bv idx n k a b) (seq 0 ns),
        (fun i j => if (i <? g - (c1 - a / g))%nat then bvals br n (qr a) (i + (c1 - a / g))%nat * bvals bt k (qt b) j else 0),
        (Nat.max c1 (a / g), (b / g)%nat)).
  Proof.
    intros Ha Hb. unfold span_eval. change (pf_dt p) with (b_deg bt). rewrite hdt. rewrite Nat.eqb_refl. cbn [check bind].
    destruct (div_lt b nt g Hb) as [H1 [H2 H3]].
    rewrite (polar_eval_ok c1 br bt (pf_el p) V n k (qr a) (qt b) (a / g) (bvals br n (qr a)) (b / g) (bvals bt k (qt b)) HV (eval_r n a Ha) (eval_t k b Hb) H1 c1_le).
    rewrite hdt. change (b_deg br) with d. f_equal. f_equal. f_equal. apply map_ext_in. intros idx Hi. apply in_seq in Hi. unfold Bv. cbv zeta.
    replace (idx <? ns)%nat with true by (symmetry; apply Nat.ltb_lt; lia). reflexivity.
  Qed.
  Lemma theta_mod_small n x : (0 <= x < n)%Z -> theta_mod n x = x.
  Proof.
    intros H. unfold theta_mod. replace (add_while (Z.to_nat (- x)) n x) with x.
    - destruct (Z.to_nat x); cbn [wrap_index]; [reflexivity|]. replace (n - 1 <? x)%Z with false by lia. reflexivity.
    - destruct (Z.to_nat (- x)); cbn [add_while]; [reflexivity|]. replace (x <? 0)%Z with false by lia. reflexivity.
  Qed.
  Lemma theta_mod_neg n x : (- n <= x < 0)%Z -> theta_mod n x = (x + n)%Z.
  Proof.
    intros H. unfold theta_mod. replace (add_while (Z.to_nat (- x)) n x) with (x + n)%Z.
    - assert (x + n < n)%Z by lia. destruct (Z.to_nat (x + n)); cbn [wrap_index]; [reflexivity|]. replace (n - 1 <? x + n)%Z with false by lia. reflexivity.
    - destruct (Z.to_nat (- x)) eqn:E; [lia|]. cbn [add_while]. replace (x <? 0)%Z with true by lia. destruct n0; cbn [add_while]; [reflexivity|]. replace (x + n <? 0)%Z with false by lia. reflexivity.
  Qed.
  Lemma offset_ok q it a b : (it < nt)%nat -> (b / g < nt)%nat -> (a / g <= c1 + q <= a / g + d)%nat -> near d nt it (b / g) ->
    table_offset p (z (ns + q * nt + it)) (Nat.max c1 (a / g), (b / g)%nat) = Ok ((c1 + q - Nat.max c1 (a / g))%nat, toff it (b / g)).
  Proof.
    intros Hit Hb Hq HNr. unfold table_offset. rewrite two_d_at by assumption. cbn [bind fst snd]. set (ca := (a / g)%nat) in *. set (cb := (b / g)%nat) in *.
    pose proof (H_nt p HS) as HT. unfold near in HNr.
    assert (ET : theta_mod (z nt) (z it - z cb) = z (toff it cb)).
    { unfold toff. destruct (cb <=? it)%nat eqn:E; [rewrite theta_mod_small by lia|rewrite theta_mod_neg by lia]; lia. }
    rewrite ET. assert (HB : (toff it cb < d + 1)%nat) by (unfold toff; destruct (cb <=? it)%nat eqn:E; lia).
    replace (0 <=? z (c1 + q) - z (Nat.max c1 ca))%Z with true by lia. replace (z (c1 + q) - z (Nat.max c1 ca) <? z (d + 1))%Z with true by lia.
    replace (0 <=? z (toff it cb))%Z with true by lia. replace (z (toff it cb) <? z (d + 1))%Z with true by lia. cbn [check bind].
    f_equal. f_equal; lia.
  Qed.
  Lemma tensor_val q it n k a b : (it < nt)%nat -> (a / g <= c1 + q <= a / g + d)%nat -> near d nt it (b / g) ->
    (if (c1 + q - Nat.max c1 (a / g) <? g - (c1 - a / g))%nat then bvals br n (qr a) (c1 + q - Nat.max c1 (a / g) + (c1 - a / g))%nat * bvals bt k (qt b) (toff it (b / g)) else 0)
    = Bv (ns + q * nt + it) n k a b.
  Proof.
    intros Hit Hq HNr. unfold Bv. cbv zeta. replace (_ <? ns)%nat with false by lia. replace (ns + q * nt + it - ns)%nat with (q * nt + it)%nat by lia.
    destruct (div_mod_at nt q it Hit) as [-> ->].
    apply nearb_iff in HNr. rewrite HNr. rewrite Bool.andb_true_r. replace ((a / g <=? c1 + q) && (c1 + q <=? a / g + d))%nat%bool with true by lia.
    replace (_ <? _)%nat with true by lia. replace (c1 + q - Nat.max c1 (a / g) + (c1 - a / g))%nat with (c1 + q - a / g)%nat by lia. reflexivity.
  Qed.
  Lemma derivs_ok idx a b : (idx < ns + N * nt)%nat -> (a < b_cells br * g)%nat -> (b < nt * g)%nat -> touches p idx (a / g) (b / g) ->
    bspline_derivs p (z idx) (qr a) (qt b) = Ok (Bv idx 0 0 a b, Bv idx 1 0 a b, Bv idx 0 1 a b) /\
    bspline_val p (z idx) (qr a) (qt b) = Ok (Bv idx 0 0 a b).
  Proof.
    intros Hi Ha Hb HT. unfold bspline_derivs, bspline_val. rewrite !span_ok by assumption. cbn [bind fst snd].
    destruct (lt_dec idx ns) as [L|L].
    - replace (z idx <? z ns)%Z with true by lia.
      assert (R : forall n k, rd (map (fun idx => Bv idx n k a b) (seq 0 ns)) (z idx) = Ok (Bv idx n k a b)).
      { intros n k. rewrite (rd_nth _ idx (Bv 0 n k a b)) by (rewrite map_length, seq_length; exact L). rewrite (map_nth (fun idx => Bv idx n k a b)), seq_nth by exact L. reflexivity. }
      rewrite !R. cbn [bind]. split; reflexivity.
    - replace (z idx <? z ns)%Z with false by lia. destruct (split_index p HS idx ltac:(lia) Hi) as [q [it [Hq [Hit ->]]]].
      destruct (div_lt b nt g Hb) as [HB _]. apply (touches_tensor p HS) in HT; [|assumption|assumption]. destruct HT as [T1 T2].
      rewrite offset_ok by assumption. cbn [bind]. rewrite !tensor_val by assumption. split; reflexivity.
  Qed.
  (** a spline is the sum of its basis functions *)
  Lemma Bv_spline coef n k a b : (a < b_cells br * g)%nat -> (b < nt * g)%nat -> length coef = polar_nbasis c1 br bt ->
    (forall i, (ns + N * nt <= i < length coef)%nat -> nth i coef 0 = 0) ->
    derivative c1 br bt (pf_el p) coef n k (qr a) (qt b) = Ok (Rsum (ns + N * nt) (fun i => nth i coef 0 * Bv i n k a b)).
  Proof.
    intros Ha Hb HL HZ. pose proof (H_nt p HS) as HT. pose proof (H_N p HS) as HN. destruct (div_lt a (b_cells br) g Ha) as [HA _]. destruct (div_lt b nt g Hb) as [HB _].
    pose proof (fs_radial p HS) as HR. fold d in HR.
    unfold derivative. rewrite (eval_no_bc_ok c1 br bt (pf_el p) V coef n k (qr a) (qt b) (a / g) (bvals br n (qr a)) (b / g) (bvals bt k (qt b)) HV (eval_r n a Ha) (eval_t k b Hb) HA HB c1_le);
      [|rewrite hdt; change (b_cells bt) with nt; lia|lia|exact HL].
    f_equal. unfold tensor_spline. cbn [fst snd]. rewrite hdt. change (b_deg br) with d. change (b_cells bt) with nt.
    set (vr := bvals br n (qr a)). set (vt := bvals bt k (qt b)). set (ca := (a / g)%nat) in *. set (cb := (b / g)%nat) in *.
    set (E := fun (x i j : nat) => if (i <? c1)%nat then (if (x <? ns)%nat then V x i j else 0) else if (x =? ns + (i - c1) * nt + j mod nt)%nat then 1 else 0).
    assert (W : forall x, (x < ns + N * nt)%nat -> Bv x n k a b = Rsum g (fun i => Rsum g (fun j => E x (ca + i)%nat (cb + j)%nat * vr i * vt j))).
    { intros x Hx. unfold Bv. cbv zeta. fold vr vt ca cb. destruct (x <? ns)%nat eqn:X.
      - symmetry. rewrite (Rsum_cut g (c1 - ca)).
        + apply Rsum_ext. intros i Hi. apply Rsum_ext. intros j _. unfold E. rewrite X. replace (ca + i <? c1)%nat with true by lia. reflexivity.
        + pose proof c1_le. lia.
        + intros i Hi. apply Rsum_zero. intros j _. unfold E. replace (ca + i <? c1)%nat with false by lia. replace (x =? _)%nat with false by (symmetry; apply Nat.eqb_neq; apply Nat.ltb_lt in X; generalize ((ca + i - c1) * nt)%nat; generalize ((cb + j) mod nt)%nat; intros u1 u2; lia). ring.
      - destruct (split_index p HS x ltac:(lia) Hx) as [q [it [Hq [Hit ->]]]].
        replace (ns + q * nt + it - ns)%nat with (q * nt + it)%nat by lia.
        destruct (div_mod_at nt q it Hit) as [-> ->].
        assert (EX : forall i j, (i < g)%nat -> (j < g)%nat -> E (ns + q * nt + it)%nat (ca + i)%nat (cb + j)%nat = if ((ca + i =? c1 + q) && (((cb + j) mod nt) =? it))%nat%bool then 1 else 0).
        { intros i j Hi Hj. unfold E. rewrite X. pose proof (Nat.mod_upper_bound (cb + j) nt ltac:(lia)) as MB. destruct (ca + i <? c1)%nat eqn:Y; [replace (ca + i =? c1 + q)%nat with false by lia; reflexivity|].
          destruct (ca + i =? c1 + q)%nat eqn:Y2.
          - replace (ca + i - c1)%nat with q by lia. destruct ((cb + j) mod nt =? it)%nat eqn:Y3; [replace (_ =? _)%nat with true by lia|replace (_ =? _)%nat with false by lia]; reflexivity.
          - replace (_ =? _)%nat with false; [reflexivity|]. symmetry. apply Nat.eqb_neq. intros EQ. assert (E2 : (q * nt + it = (ca + i - c1) * nt + (cb + j) mod nt)%nat) by lia.
            apply (f_equal (fun x => x / nt)%nat) in E2. rewrite !Nat.div_add_l, !Nat.div_small in E2 by lia. lia. }
        assert (MJ : forall j, (j < g)%nat -> ((cb + j) mod nt = if cb + j <? nt then cb + j else cb + j - nt)%nat).
        { intros j Hj. destruct (cb + j <? nt)%nat eqn:Y; [apply Nat.mod_small; lia|]. replace (cb + j)%nat with (cb + j - nt + 1 * nt)%nat at 1 by lia. rewrite Nat.mod_add, Nat.mod_small by lia. reflexivity. }
        destruct (((ca <=? c1 + q) && (c1 + q <=? ca + d))%nat && nearb it cb)%bool eqn:C.
        + apply andb_prop in C. destruct C as [C1 C2]. apply nearb_iff in C2. unfold near in C2.
          rewrite (Rsum_single g _ (c1 + q - ca)%nat); [|lia|].
          * assert (TO : (toff it cb < g)%nat) by (unfold toff; destruct (cb <=? it)%nat eqn:Y; lia).
            rewrite (Rsum_single g _ (toff it cb)); [|exact TO|].
            -- rewrite EX by lia. rewrite MJ by exact TO. replace (_ && _)%bool with true; [ring|]. unfold toff in *. destruct (cb <=? it)%nat eqn:Y; [destruct (cb + (it - cb) <? nt)%nat eqn:Y3|destruct (cb + (it + nt - cb) <? nt)%nat eqn:Y3]; lia.
            -- intros j Hj NE. rewrite EX by lia. rewrite MJ by exact Hj. replace (_ && _)%bool with false; [ring|]. unfold toff in *. destruct (cb <=? it)%nat eqn:Y; destruct (cb + j <? nt)%nat eqn:Y3; lia.
          * intros i Hi NE. apply Rsum_zero. intros j Hj. rewrite EX by lia. replace (ca + i =? c1 + q)%nat with false by lia. cbn [andb]. ring.
        + symmetry. apply Rsum_zero. intros i Hi. apply Rsum_zero. intros j Hj. rewrite EX by lia. rewrite MJ by exact Hj.
          assert (~ (((ca <=? c1 + q) && (c1 + q <=? ca + d))%nat = true /\ near d nt it cb)) as C' by (intros [C1 C2]; apply nearb_iff in C2; rewrite C1, C2 in C; discriminate).
          unfold near in C'. replace (_ && _)%bool with false; [ring|]. destruct (cb + j <? nt)%nat eqn:Y3; lia. }
    rewrite (Rsum_ext (ns + N * nt) _ (fun x => Rsum g (fun i => Rsum g (fun j => nth x coef 0 * (E x (ca + i)%nat (cb + j)%nat * vr i * vt j))))).
    2:{ intros x Hx. rewrite W by exact Hx. rewrite <- Rsum_scal. apply Rsum_ext. intros i _. rewrite <- Rsum_scal. reflexivity. }
    rewrite Rsum3_swap. apply Rsum_ext. intros i Hi. apply Rsum_ext. intros j Hj. unfold expand. pose proof (Nat.mod_upper_bound (cb + j) nt ltac:(lia)) as MB.
    fold ns.
    destruct (ca + i <? c1)%nat eqn:Q.
    - rewrite (Rsum_cut (ns + N * nt) ns).
      + rewrite Rmult_assoc, <- Rsum_scal_r. apply Rsum_ext. intros x Hx. unfold E. rewrite Q. replace (x <? ns)%nat with true by lia. ring.
      + apply Nat.le_add_r.
      + intros x Hx. unfold E. rewrite Q. replace (x <? ns)%nat with false by lia. ring.
    - set (idx := (ns + (ca + i - c1) * nt + (cb + j) mod nt)%nat).
      destruct (lt_dec idx (ns + N * nt)) as [L|L].
      + rewrite (Rsum_single (ns + N * nt) _ idx); [|exact L|].
        * unfold E. rewrite Q. fold idx. rewrite Nat.eqb_refl. ring.
        * intros x Hx NE. unfold E. rewrite Q. fold idx. replace (x =? idx)%nat with false by lia. ring.
      + rewrite (Rsum_zero (ns + N * nt)) by (intros x Hx; unfold E; rewrite Q; fold idx; replace (x =? idx)%nat with false by lia; ring).
        rewrite HZ; [ring|]. split; [lia|]. rewrite HL. unfold polar_nbasis. fold ns. change (nbasis_t bt) with nt.
        assert (((ca + i - c1) + 1) * nt <= (nbasis_r br - c1) * nt)%nat by (apply Nat.mul_le_mono_r; unfold nbasis_r; fold d; lia). unfold idx. lia.
  Qed.
End Basis.
