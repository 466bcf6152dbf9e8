(** The elements of the matrix computed by the code are sums over all the quadrature points. *)
From Coq Require Import ZifyBool.
From Verif Require Import Lib DerivModel QuadModel FemModel FemSolve QuadProofs OnionEval MappingModel PspModel PspSpec PspProofs PspMain PpfModel PpfSpec PpfRows PpfPattern PpfCsr PpfBasis PpfWin.
Open Scope R_scope.

Section Form.
  Variables (p : pfem) (tr tt : nat -> R) (m : dmap) (x0 y0 : R).
  Hypothesis FS : fem_setup p tr tt m x0 y0.
  Notation ns := (pf_ns p).
  Notation d := (pf_d p).
  Notation nt := (pf_nt p).
  Notation N := (pf_nr p).
  Notation c1 := (pf_c1 p).
  Notation z := Z.of_nat.
  Notation qr a := (nth a (pf_qr p) 0).
  Notation qt b := (nth b (pf_qt p) 0).
  Notation g := (d + 1)%nat.
  Notation cells := (b_cells (pf_r p)).
  Notation n := (ns + N * nt)%nat.
  Let HS := fe_sizes p tr tt m x0 y0 FS.
  Variable V : nat -> nat -> nat -> R.
  Hypothesis HV : holds c1 (b_size (pf_t p)) (pf_el p) V.
  Notation B := (Bv p V).
  Variables (q : equation) (AL BE : R -> R -> R) (G : R -> R -> nat -> nat -> R).
  Hypothesis HAL : forall a b, (a < cells * g)%nat -> (b < nt * g)%nat -> eq_alpha q (qr a) (qt b) = Ok (AL (qr a) (qt b)).
  Hypothesis HBE : forall a b, (a < cells * g)%nat -> (b < nt * g)%nat -> eq_beta q (qr a) (qt b) = Ok (BE (qr a) (qt b)).
  Hypothesis HG : forall a b, (a < cells * g)%nat -> (b < nt * g)%nat -> metric_inverse 2 (eq_map q) (c2 (qr a) (qt b)) = Ok (G (qr a) (qt b)).
  Definition vol (a b : nat) : R := nth (a * (nt * g) + b) (pf_vol p) 0.
  Definition W (i j a b : nat) : R :=
    vol a b * (AL (qr a) (qt b) * Rsum 2 (fun x => Rsum 2 (fun y => c2 (B i 1%nat 0%nat a b) (B i 0%nat 1%nat a b) x * G (qr a) (qt b) x y * c2 (B j 1%nat 0%nat a b) (B j 0%nat 1%nat a b) y))
               + BE (qr a) (qt b) * B i 0%nat 0%nat a b * B j 0%nat 0%nat a b).
  Definition entry (i j : nat) : R := Rsum (cells * g) (fun a => Rsum (nt * g) (fun b => W i j a b)).
  Lemma len_r : length (pf_qr p) = (cells * g)%nat.
  Proof. rewrite (fe_len_r p tr tt m x0 y0 FS). fold d. apply Nat.mul_comm. Qed.
  Lemma len_t : length (pf_qt p) = (nt * g)%nat.
  Proof. rewrite (fe_len_t p tr tt m x0 y0 FS). rewrite (fs_deg p HS). fold d. unfold pf_nt, nbasis_t. apply Nat.mul_comm. Qed.
  Lemma vol_ok a b : (a < cells * g)%nat -> (b < nt * g)%nat -> rd2 (pf_vol p) (pf_nqr p) (pf_nqt p) (z a) (z b) = Ok (vol a b).
  Proof.
    intros Ha Hb. rewrite (nq_t p HS), nq_r. rewrite rd2_ok; [reflexivity| |exact Ha|exact Hb].
    rewrite (fe_vol p tr tt m x0 y0 FS), len_r, len_t. reflexivity.
  Qed.
  Lemma weak_ok i j a b : (i < n)%nat -> (j < n)%nat -> (a < cells * g)%nat -> (b < nt * g)%nat -> touches p i (a / g) (b / g) -> touches p j (a / g) (b / g) ->
    weak_integral_element p q (z i) (z j) (z a) (z b) = Ok (W i j a b).
  Proof.
    intros Hi Hj Ha Hb Ti Tj. unfold weak_integral_element. rewrite (rd_nth _ a 0) by (rewrite len_r; exact Ha). rewrite (rd_nth _ b 0) by (rewrite len_t; exact Hb). cbn [bind].
    rewrite HAL, HBE by assumption. cbn [bind].
    destruct (derivs_ok p tr tt m x0 y0 FS V HV i a b Hi Ha Hb Ti) as [E1 _]. destruct (derivs_ok p tr tt m x0 y0 FS V HV j a b Hj Ha Hb Tj) as [E2 _].
    rewrite E1, E2. cbn [bind]. rewrite HG by assumption. cbn [bind]. rewrite vol_ok by assumption. cbn [bind]. reflexivity.
  Qed.
  Lemma weak_off i j a b : (i < n)%nat -> (j < n)%nat -> (a < cells * g)%nat -> (b < nt * g)%nat -> ~ (touches p i (a / g) (b / g) /\ touches p j (a / g) (b / g)) ->
    W i j a b = 0.
  Proof.
    intros Hi Hj Ha Hb HT. destruct (div_lt a cells g Ha) as [HA _]. destruct (div_lt b nt g Hb) as [HB _].
    assert (TD : forall i, (i < n)%nat -> {touches p i (a / g) (b / g)} + {~ touches p i (a / g) (b / g)}).
    { intros k Hk. destruct (lt_dec k ns) as [L|L].
      - destruct (lt_dec (a / g) c1); [left|right]; rewrite (touches_sing p HS) by exact L; lia.
      - assert (X : (k = ns + (k - ns) / nt * nt + (k - ns) mod nt)%nat /\ ((k - ns) mod nt < nt)%nat).
        { pose proof (H_nt p HS). pose proof (Nat.div_mod (k - ns) nt ltac:(lia)). pose proof (Nat.mod_upper_bound (k - ns) nt ltac:(lia)). lia. }
        destruct X as [KE X]. rewrite KE. clear KE. set (qq := ((k - ns) / nt)%nat) in *. set (it := ((k - ns) mod nt)%nat) in *.
        assert (DD : {(a / g <= c1 + qq <= a / g + d)%nat /\ near d nt it (b / g)} + {~ ((a / g <= c1 + qq <= a / g + d)%nat /\ near d nt it (b / g))}).
        { unfold near. destruct (le_dec (a / g) (c1 + qq)); [|right; lia]. destruct (le_dec (c1 + qq) (a / g + d)); [|right; lia].
          destruct (le_dec (b / g) it); destruct (le_dec it (b / g + d)); destruct (le_dec (b / g) (it + nt)); destruct (le_dec (it + nt) (b / g + d)); try (left; lia); right; lia. }
        destruct DD as [DD|DD]; [left|right]; rewrite (touches_tensor p HS) by assumption; exact DD. }
    unfold W. destruct (TD i Hi) as [Ti|Ti].
    - assert (Tj : ~ touches p j (a / g) (b / g)) by tauto.
      pose proof (fun n' k' => bv_off p tr tt m x0 y0 FS V j n' k' a b Hj HA HB Tj) as Z. rewrite !Z. cbn [Rsum]. unfold c2. ring.
    - pose proof (fun n' k' => bv_off p tr tt m x0 y0 FS V i n' k' a b Hi HA HB Ti) as Z. rewrite !Z. cbn [Rsum]. unfold c2. ring.
  Qed.
  (** both functions cover the pole *)
  Lemma sing_sing_ok i j : (i < ns)%nat -> (j < ns)%nat -> sing_sing_element p q (z i) (z j) = Ok (entry i j).
  Proof.
    intros Hi Hj. pose proof (H_nt p HS) as HT. pose proof (fs_radial p HS) as HR. fold d in HR.
    assert (CL : (c1 * g <= cells * g)%nat) by (apply Nat.mul_le_mono_r; lia).
    unfold sing_sing_element. rewrite (nq_t p HS). rewrite (sum_points_ok 0 (c1 * g) 0 (nt * g) _ (fun a b => W i j a b)).
    - f_equal. unfold entry. symmetry. apply Rsum_cut; [exact CL|]. intros a Ha. apply Rsum_zero. intros b Hb. apply weak_off; try lia.
      rewrite !(touches_sing p HS) by assumption. assert (c1 <= a / g)%nat by (apply Nat.div_le_lower_bound; lia). lia.
    - intros a b Ha Hb. apply weak_ok; try lia; rewrite (touches_sing p HS) by assumption; apply Nat.div_lt_upper_bound; lia.
  Qed.
  (** the poloidal support of one function *)
  Definition st1 (it : nat) : nat := if (it <? d)%nat then (it + nt - d)%nat else (it - d)%nat.
  Lemma near_window it b : (it < nt)%nat -> (b < nt)%nat -> near d nt it b <-> exists k, (k < g)%nat /\ b = ((st1 it + k) mod nt)%nat.
  Proof.
    intros Hi Hb. pose proof (H_nt p HS) as HT. unfold near, st1. split.
    - intros H. destruct (it <? d)%nat eqn:E.
      + exists (if (b <=? it)%nat then b + d - it else b + d - it - nt)%nat. destruct (b <=? it)%nat eqn:Q; (split; [lia|]); (rewrite mod_once by lia); (destruct (_ <? nt)%nat eqn:Q2); lia.
      + exists (b + d - it)%nat. split; [lia|]. rewrite mod_once by lia. destruct (_ <? nt)%nat eqn:Q2; lia.
    - intros [k [Hk E]]. destruct (it <? d)%nat eqn:Q; (rewrite mod_once in E by lia); (destruct (_ <? nt)%nat eqn:Q2 in E); lia.
  Qed.
  Lemma between_1 sr nr it : (0 < nr)%nat -> (it < nt)%nat ->
    quadrature_between_knots p (z sr) (z (sr + nr)) (z it - z (pf_dt p)) (z it + 1) = Ok (z sr * z g, z nr * z g, z (st1 it) * z g, z g * z g)%Z.
  Proof.
    intros Hn Hi. pose proof (H_nt p HS) as HT. unfold quadrature_between_knots. rewrite (H_dt p HS). cbv zeta.
    replace ((z (sr + nr) - z sr) * z g)%Z with (z nr * z g)%Z by lia. replace ((z it + 1 - (z it - z d)) * z g)%Z with (z g * z g)%Z by lia.
    replace (0 <? z nr * z g)%Z with true by nia. replace (0 <? z g * z g)%Z with true by nia. cbn [check bind]. unfold st1.
    replace (if z it - z d <? 0 then z it - z d + z nt else z it - z d)%Z with (z (if (it <? d)%nat then (it + nt - d)%nat else (it - d)%nat)) by (destruct (it <? d)%nat eqn:E; destruct (z it - z d <? 0)%Z eqn:E2; lia).
    reflexivity.
  Qed.
  Lemma st1_lt it : (it < nt)%nat -> (st1 it < nt)%nat.
  Proof. intros H. pose proof (H_nt p HS). unfold st1. destruct (it <? d)%nat eqn:E; lia. Qed.
  Lemma sing_tensor_ok i q' jt : (i < ns)%nat -> (q' < d)%nat -> (jt < nt)%nat -> sing_tensor_element p q (z i) (z (ns + q' * nt + jt)) = Ok (entry i (ns + q' * nt + jt)).
  Proof.
    intros Hi Hq Hj. pose proof (H_nt p HS) as HT. pose proof (H_N p HS) as HN. pose proof (fs_radial p HS) as HR. fold d in HR.
    assert (C1 : (1 <= c1)%nat) by exact (c1_pos p HS i Hi). pose proof (row_index p q' jt ltac:(lia) Hj) as HI.
    unfold sing_tensor_element. rewrite two_d_at by assumption. cbn [bind].
    set (sr := (c1 + q' - d)%nat). replace (Z.max 0 (z (c1 + q') - z d)) with (z sr) by lia. replace (Z.min (z c1) (z (c1 + q') + 1)) with (z (sr + (c1 - sr))) by lia.
    rewrite between_1 by lia. cbn [bind].
    replace (0 <? z (c1 - sr) * z g * (z g * z g))%Z with true by nia. cbn [check bind].
    apply (window_points p HS sr (c1 - sr) (st1 jt) g (weak_integral_element p q (z i) (z (ns + q' * nt + jt))) (W i (ns + q' * nt + jt))); [lia|apply st1_lt; exact Hj|lia| |].
    - intros a b Ha Hb NE. apply weak_off; try lia. destruct (div_lt b nt g Hb) as [HB _].
      rewrite (touches_sing p HS), (touches_tensor p HS) by assumption. intros [T1 [T2 T3]]. apply NE. split; [lia|]. apply near_window; assumption.
    - intros a b Ha Hb H1 H2. destruct (div_lt b nt g Hb) as [HB _]. apply near_window in H2; [|exact Hj|exact HB].
      apply weak_ok; try lia; [rewrite (touches_sing p HS) by assumption; lia|rewrite (touches_tensor p HS) by assumption; split; [lia|exact H2]].
  Qed.
  (** the common poloidal support of two functions *)
  Lemma between_2 sr nr it jt : (0 < nr)%nat -> (it < nt)%nat -> (jt < nt)%nat -> (exists b, (b < nt)%nat /\ near d nt it b /\ near d nt jt b) ->
    exists s w, (s < nt)%nat /\ (w <= nt)%nat /\
    (forall b, (b < nt)%nat -> near d nt it b /\ near d nt jt b <-> exists k, (k < w)%nat /\ b = ((s + k) mod nt)%nat) /\
    (let ft := (z it - z d)%Z in let fu := (z jt - z d)%Z in let lt := (ft + (z d + 1))%Z in let lu := (fu + (z d + 1))%Z in
     let '(ft, lt, fu, lu) :=
       if (lu <? ft)%Z then (ft, lt, fu + z nt, lu + z nt)%Z
       else if (lt <? fu)%Z then (ft + z nt, lt + z nt, fu, lu)%Z
       else (ft, lt, fu, lu) in
     quadrature_between_knots p (z sr) (z (sr + nr)) (Z.max ft fu) (Z.min lt lu)) = Ok (z sr * z g, z nr * z g, z s * z g, z w * z g)%Z.
  Proof.
    intros Hn Hi Hj [b0 [Hb0 [N1 N2]]]. pose proof (H_nt p HS) as HT.
    assert (Q : forall st en s w : Z, (s = if st <? 0 then st + z nt else st)%Z -> (w = en - st)%Z -> (0 < w)%Z ->
      quadrature_between_knots p (z sr) (z (sr + nr)) st en = Ok (z sr * z g, z nr * z g, s * z g, w * z g)%Z).
    { intros st en s w Es Ew Hw. unfold quadrature_between_knots. rewrite (H_dt p HS). cbv zeta. rewrite <- Es, <- Ew.
      replace ((z (sr + nr) - z sr) * z g)%Z with (z nr * z g)%Z by lia. replace (0 <? z nr * z g)%Z with true by nia. replace (0 <? w * z g)%Z with true by nia. reflexivity. }
    cbv zeta. unfold near in N1, N2.
    assert (C : (it <= jt + d /\ jt <= it + d)%nat \/ (jt + nt <= it + d)%nat \/ (it + nt <= jt + d)%nat) by lia. clear N1 N2 b0 Hb0.
    destruct C as [C|[C|C]].
    - replace (z jt - z d + (z d + 1) <? z it - z d)%Z with false by lia. replace (z it - z d + (z d + 1) <? z jt - z d)%Z with false by lia.
      set (hi := Nat.max it jt). set (lo := Nat.min it jt).
      exists (st1 hi), (lo + 1 + d - hi)%nat. split; [apply st1_lt; lia|]. split; [lia|]. split.
      + intros b Hb. unfold near, st1. split.
        * intros [A1 A2]. destruct (hi <? d)%nat eqn:E.
          -- exists (if (b <=? hi)%nat then b + d - hi else b + d - hi - nt)%nat. destruct (b <=? hi)%nat eqn:Q1; (split; [lia|]); (rewrite mod_once by lia); (destruct (_ <? nt)%nat eqn:Q2); lia.
          -- exists (b + d - hi)%nat. split; [lia|]. rewrite mod_once by lia. destruct (_ <? nt)%nat eqn:Q2; lia.
        * intros [k [Hk E]]. destruct (hi <? d)%nat eqn:Q1; (rewrite mod_once in E by lia); (destruct (_ <? nt)%nat eqn:Q2 in E); lia.
      + apply Q; [unfold st1; destruct (hi <? d)%nat eqn:E; destruct (Z.max (z it - z d) (z jt - z d) <? 0)%Z eqn:E2; lia|lia|lia].
    - replace (z jt - z d + (z d + 1) <? z it - z d)%Z with true by lia.
      exists (jt + nt - d)%nat, (it + 1 + d - jt - nt)%nat. split; [lia|]. split; [lia|]. split.
      + intros b Hb. unfold near. split.
        * intros [A1 A2]. exists (b + d - jt - nt)%nat. split; [lia|]. rewrite mod_once by lia. destruct (_ <? nt)%nat eqn:Q2; lia.
        * intros [k [Hk E]]. rewrite mod_once in E by lia. destruct (_ <? nt)%nat eqn:Q2 in E; lia.
      + apply Q; [destruct (Z.max (z it - z d) (z jt - z d + z nt) <? 0)%Z eqn:E2; lia|lia|lia].
    - replace (z jt - z d + (z d + 1) <? z it - z d)%Z with false by lia. replace (z it - z d + (z d + 1) <? z jt - z d)%Z with true by lia.
      exists (it + nt - d)%nat, (jt + 1 + d - it - nt)%nat. split; [lia|]. split; [lia|]. split.
      + intros b Hb. unfold near. split.
        * intros [A1 A2]. exists (b + d - it - nt)%nat. split; [lia|]. rewrite mod_once by lia. destruct (_ <? nt)%nat eqn:Q2; lia.
        * intros [k [Hk E]]. rewrite mod_once in E by lia. destruct (_ <? nt)%nat eqn:Q2 in E; lia.
      + apply Q; [destruct (Z.max (z it - z d + z nt) (z jt - z d) <? 0)%Z eqn:E2; lia|lia|lia].
  Qed.
  Lemma stencil_ok q1 it q2 jt : (q1 < N)%nat -> (q2 < N)%nat -> (q1 <= q2 + d)%nat -> (q2 <= q1 + d)%nat -> (it < nt)%nat -> (jt < nt)%nat ->
    (exists b, (b < nt)%nat /\ near d nt it b /\ near d nt jt b) ->
    stencil_element p q (z (c1 + q1), z it) (z (c1 + q2), z jt) = Ok (entry (ns + q1 * nt + it) (ns + q2 * nt + jt)).
  Proof.
    intros Hq1 Hq2 D1 D2 Hi Hj HE. pose proof (H_nt p HS) as HT. pose proof (H_N p HS) as HN. pose proof (fs_radial p HS) as HR. fold d in HR.
    pose proof (cells_eq p HS) as CE. pose proof (row_index p q1 it Hq1 Hi) as HI. pose proof (row_index p q2 jt Hq2 Hj) as HJ.
    unfold stencil_element. cbn [fst snd]. cbv zeta. rewrite !theta_mod_small by lia.
    replace ((0 <=? z it) && (z it <? z nt))%Z%bool with true by lia. replace ((0 <=? z jt) && (z jt <? z nt))%Z%bool with true by lia. cbn [check bind].
    set (sr := (Nat.max (c1 + q1) (c1 + q2) - d)%nat). set (er := Nat.min (Nat.min cells (c1 + q1 + 1)) (c1 + q2 + 1)).
    replace (Z.max 0 (Z.max (z (c1 + q1) - z d) (z (c1 + q2) - z d))) with (z sr) by lia.
    replace (Z.min (z cells) (Z.min (z (c1 + q1) + 1) (z (c1 + q2) + 1))) with (z (sr + (er - sr))) by lia.
    destruct (between_2 sr (er - sr) it jt ltac:(lia) Hi Hj HE) as [s [w [Hs [Hw [HW HQ]]]]]. rewrite (H_dt p HS). cbv zeta in HQ.
    assert (F : forall (X : res R) (cont : Z * Z * Z * Z -> res R), cont (z sr * z g, z (er - sr) * z g, z s * z g, z w * z g)%Z = X ->
      (let '(ft, lt, fu, lu) :=
        if (z jt - z d + (z d + 1) <? z it - z d)%Z then (z it - z d, z it - z d + (z d + 1), z jt - z d + z nt, z jt - z d + (z d + 1) + z nt)%Z
        else if (z it - z d + (z d + 1) <? z jt - z d)%Z then (z it - z d + z nt, z it - z d + (z d + 1) + z nt, z jt - z d, z jt - z d + (z d + 1))%Z
        else (z it - z d, z it - z d + (z d + 1), z jt - z d, z jt - z d + (z d + 1))%Z in
       let* out := quadrature_between_knots p (z sr) (z (sr + (er - sr))) (Z.max ft fu) (Z.min lt lu) in cont out) = X).
    { intros X cont HX. destruct (_ <? _)%Z in HQ |- *; [|destruct (_ <? _)%Z in HQ |- *]; rewrite HQ; exact HX. }
    apply F. rewrite (Nat2Z.inj_add c1 q1), (Nat2Z.inj_add c1 q2). rewrite (polar_at p HS q1 it Hi), (polar_at p HS q2 jt Hj). cbn [bind].
    apply (window_points p HS sr (er - sr) s w
      (fun a b => let* _ := check (quad_contains p a b) in weak_integral_element p q (z (ns + q1 * nt + it)) (z (ns + q2 * nt + jt)) a b) (W (ns + q1 * nt + it) (ns + q2 * nt + jt))); [lia|exact Hs|exact Hw| |].
    - intros a b Ha Hb NE. apply weak_off; try assumption. destruct (div_lt b nt g Hb) as [HB _]. destruct (div_lt a cells g Ha) as [HA _].
      rewrite !(touches_tensor p HS) by assumption. intros [[T1 T2] [T3 T4]]. apply NE. split; [lia|]. apply HW; auto.
    - intros a b Ha Hb H1 H2. destruct (div_lt b nt g Hb) as [HB _]. apply HW in H2; [|exact HB]. destruct H2 as [H2 H3].
      unfold quad_contains. rewrite nq_r, (nq_t p HS). replace (_ && _)%bool with true by lia. cbn [check bind].
      apply weak_ok; try assumption; rewrite (touches_tensor p HS) by assumption; (split; [lia|assumption]).
  Qed.
End Form.
