(** The refined builder; an example of the whole setting. *)
From Verif Require Import Lib LagDerivSpec DerivModel QuadModel QuadProofs FemSolve FemAsm MappingModel OnionEval PspModel PspSpec PspProofs PspBasis PspMain PspCor PspExamples DmbModel DmbSpec DmbProofs DmbCirc.
Open Scope R_scope.

(** ** Break points *)
Lemma refined_break_points_ok a b n : (1 <= n)%nat -> exists l, refined_break_points a b n = Ok l /\ length l = (n + 1)%nat /\
  forall i, (i <= n)%nat -> nth i l 0 = a + INR i * ((b - a) / INR n).
Proof.
  intros Hn. unfold refined_break_points.
  destruct (for_res_inv (fun k l => length l = (n + 1)%nat /\ forall i, (i < k)%nat -> nth i l 0 = a + INR i * ((b - a) / INR n))
    (n + 1) (fun i l => wr l (Z.of_nat i) (a + INR i * ((b - a) / INR n))) (repeat 0 (n + 1))) as [l [E [L N]]].
  - split; [apply repeat_length|]. intros i Hi. lia.
  - intros k l Hk [L N]. destruct (wr_nth l k (a + INR k * ((b - a) / INR n)) 0 ltac:(lia)) as [l' [E [L' N']]].
    exists l'. split; [exact E|]. split; [lia|]. intros i Hi. rewrite N'. destruct (Nat.eqb_spec i k) as [->|Q]; [reflexivity|apply N; lia].
  - exists l. split; [exact E|]. split; [exact L|]. intros i Hi. apply N. lia.
Qed.
Theorem refined_points a b n : (1 <= n)%nat -> a < b -> exists l, refined_break_points a b n = Ok l /\ equal_cells a b n l /\
  forall i j, (i < j <= n)%nat -> nth i l 0 < nth j l 0.
Proof.
  intros Hn Hab. destruct (refined_break_points_ok a b n Hn) as [l [E [L N]]]. exists l. split; [exact E|].
  assert (P : 0 < INR n) by (apply lt_0_INR; lia).
  split.
  - split; [exact L|]. split; [rewrite N by lia; cbn [INR]; ring|]. split; [rewrite N by lia; field; lra|].
    intros i Hi. rewrite !N by lia. rewrite plus_INR. cbn [INR]. ring.
  - intros i j Hij. rewrite !N by lia. pose proof (lt_INR i j ltac:(lia)) as LI.
    apply Rplus_lt_compat_l, Rmult_lt_compat_r; [|exact LI]. apply Rdiv_lt_0_compat; lra.
Qed.

(** ** The refined mapping *)
Theorem refined_mapping fa (uniform : bool) nr nt A br bt order uninit : (1 <= nr)%nat -> (1 <= nt)%nat ->
  b_rmin br < b_rmax br -> b_rmin bt < b_rmax bt ->
  exists (lr lt : list R), equal_cells (b_rmin br) (b_rmax br) nr lr /\ equal_cells (b_rmin bt) (b_rmax bt) nt lt /\
    let sr := if uniform then fa_uniform_r fa (b_rmin br) (b_rmax br) nr else fa_breaks_r fa lr in
    let st := if uniform then fa_uniform_t fa (b_rmin bt) (b_rmax bt) nt else fa_breaks_t fa lt in
    let bu := fa_builder fa sr st in
    forall (tr tt : nat -> R), builder_setup sr st tr tt bu (fa_evaluator fa sr st) -> has_breaks sr tr lr -> has_breaks st tt lt ->
      grid_loop bu order uninit ->
      exists m, build_refined fa uniform nr nt A br bt order uninit = Ok (sr, st, m) /\
        b_rmin sr = b_rmin br /\ b_rmax sr = b_rmax br /\ b_cells sr = nr /\
        b_rmin st = b_rmin bt /\ b_rmax st = b_rmax bt /\ b_cells st = nt /\
        polar_mapping sr st (bd_map m) /\ fits (bd_map m) bu A /\
        bd_singular m = {| r2_r0 := 0; r2_t0 := 0; r2_nr := 1; r2_nt := length (bu_t bu) |}.
Proof.
  intros Hr Ht Dr Dt. destruct (refined_points _ _ nr Hr Dr) as [lr [Er [Cr _]]]. destruct (refined_points _ _ nt Ht Dt) as [lt [Et [Ct _]]].
  exists lr, lt. split; [exact Cr|]. split; [exact Ct|]. cbv zeta. intros tr tt H BR BT G.
  set (sr := if uniform then fa_uniform_r fa (b_rmin br) (b_rmax br) nr else fa_breaks_r fa lr) in *.
  set (st := if uniform then fa_uniform_t fa (b_rmin bt) (b_rmax bt) nt else fa_breaks_t fa lt) in *.
  destruct (builder_fits sr st tr tt (fa_builder fa sr st) (fa_evaluator fa sr st) A order uninit H G) as [m [E [M [F [_ SG]]]]].
  exists m. split.
  - unfold build_refined. rewrite Er, Et. cbn [bind]. unfold sr, st in *. destruct uniform; cbn [bind]; rewrite E; reflexivity.
  - pose proof (bu_space_r _ _ _ _ _ _ H) as SR. pose proof (bu_space_t _ _ _ _ _ _ H) as ST.
    destruct BR as [N1 B1]. destruct BT as [N2 B2]. destruct Cr as [L1 [A1 [Z1 _]]]. destruct Ct as [L2 [A2 [Z2 _]]].
    assert (C1 : b_cells sr = nr) by lia. assert (C2 : b_cells st = nt) by lia.
    split; [rewrite <- (bs_first _ _ SR), <- A1, <- (B1 0%nat) by lia; f_equal; lia|].
    split; [rewrite <- (bs_last _ _ SR), <- Z1, C1, <- (B1 nr) by lia; reflexivity|]. split; [exact C1|].
    split; [rewrite <- (bs_first _ _ ST), <- A2, <- (B2 0%nat) by lia; f_equal; lia|].
    split; [rewrite <- (bs_last _ _ ST), <- Z2, C2, <- (B2 nt) by lia; reflexivity|]. split; [exact C2|]. auto.
Qed.

(** ** Example: quadratic splines, 3 radial and 4 poloidal cells, Greville points *)
Definition ex_pr : list R := [0; 1 / 2; 3 / 2; 5 / 2; 3].
Definition ex_pt : list R := map (fun k => (INR k + 1 / 2) * (PI / 2)) (seq 0 4).
Definition ex_Mr (a : nat) (e : nat -> R) : R :=
  match a with
  | O => e 0%nat | 1%nat => e 0%nat / 4 + 5 / 8 * e 1%nat + e 2%nat / 8 | 2%nat => (e 1%nat + 6 * e 2%nat + e 3%nat) / 8
  | 3%nat => e 2%nat / 8 + 5 / 8 * e 3%nat + e 4%nat / 4 | _ => e 4%nat
  end.
Lemma kr i : knots_r 3 i = INR (Nat.min (i - 2) 3). Proof. reflexivity. Qed.
Lemma ex_r_cell x p k : (k < 3)%nat -> b_eval (disc_r 3) 0 x = Ok p -> INR k <= x <= INR k + 1 ->
  (k = 0%nat \/ INR k < x) -> (k = 2%nat \/ x < INR k + 1) ->
  fst p = k /\ forall j, (j <= 2)%nat -> snd p j = cdb (knots_r 3) (2 + k) 2 j x.
Proof.
  intros Hk E D L1 L2.
  assert (DX : b_rmin (disc_r 3) <= x <= b_rmax (disc_r 3)).
  { replace (b_rmin (disc_r 3)) with 0 by reflexivity. replace (b_rmax (disc_r 3)) with 3 by (cbn [disc_r cdb_space b_rmax]; rewrite kr; cbn; ring).
    pose proof (pos_INR k). assert (INR k <= 2) by (replace 2 with (INR 2) by (cbn; ring); apply le_INR; lia). lra. }
  destruct (basis_at (disc_r 3) (knots_r 3) 0 x (disc_r_ok 3 ltac:(lia)) DX) as [c [v [E' [V Hc]]]]. rewrite E in E'. injection E' as ->. cbn [fst snd].
  destruct V as [_ [Vc V]]. change (b_deg (disc_r 3)) with 2%nat in *. change (b_cells (disc_r 3)) with 3%nat in *.
  rewrite !kr in Vc. replace (Nat.min (2 + c - 2) 3) with c in Vc by lia. replace (Nat.min (2 + c + 1 - 2) 3) with (c + 1)%nat in Vc by lia. rewrite plus_INR in Vc. cbn [INR] in Vc.
  assert (c = k).
  { destruct (Nat.lt_trichotomy c k) as [G|[G|G]]; [|exact G|].
    - pose proof (le_INR (c + 1) k ltac:(lia)) as Q. rewrite plus_INR in Q. cbn [INR] in Q. destruct L1 as [L1|L1]; [lia|lra].
    - pose proof (le_INR (k + 1) c ltac:(lia)) as Q. rewrite plus_INR in Q. cbn [INR] in Q. destruct L2 as [L2|L2]; [lia|lra]. }
  subst c. split; [reflexivity|]. intros j Hj. destruct (V j Hj) as [g [G ->]]. apply (nth_derivative_0 _ _ _ G).
Qed.
Lemma ex_r_values a x e p : nth_error ex_pr a = Some x -> b_eval (disc_r 3) 0 x = Ok p -> spline1 (disc_r 3) e p = ex_Mr a e.
Proof.
  intros Ha E. unfold spline1. change (b_deg (disc_r 3) + 1)%nat with 3%nat. cbn [Rsum].
  assert (K : (a < 5)%nat) by (apply (nth_error_Some ex_pr); congruence).
  assert (R3 : INR 3 = 3) by (cbn; ring). assert (R2 : INR 2 = 2) by reflexivity.
  assert (a = 0 \/ a = 1 \/ a = 2 \/ a = 3 \/ a = 4)%nat as [->|[->|[->|[->| ->]]]] by lia; cbn in Ha; injection Ha as <-; cbn [ex_Mr].
  - destruct (ex_r_cell 0 p 0 ltac:(lia) E ltac:(cbn; lra) ltac:(auto) ltac:(right; cbn; lra)) as [-> V]. rewrite !V by lia. cbn [cdb Nat.eqb Nat.add Nat.sub]. unfold cdb_weight. rewrite !kr. cbn [Nat.add Nat.sub Nat.min]. replace (INR 1) with 1 by reflexivity. rewrite R2. cbn [INR]. rewrite ?Rmult_0_r, ?Rplus_0_l, ?Rmult_0_r. field.
  - destruct (ex_r_cell (1/2) p 0 ltac:(lia) E ltac:(cbn; lra) ltac:(auto) ltac:(right; cbn; lra)) as [-> V]. rewrite !V by lia. cbn [cdb Nat.eqb Nat.add Nat.sub]. unfold cdb_weight. rewrite !kr. cbn [Nat.add Nat.sub Nat.min]. replace (INR 1) with 1 by reflexivity. rewrite R2. cbn [INR]. rewrite ?Rmult_0_r, ?Rplus_0_l, ?Rmult_0_r. field.
  - destruct (ex_r_cell (3/2) p 1 ltac:(lia) E ltac:(cbn; lra) ltac:(right; cbn; lra) ltac:(right; cbn; lra)) as [-> V]. rewrite !V by lia. cbn [cdb Nat.eqb Nat.add Nat.sub]. unfold cdb_weight. rewrite !kr. cbn [Nat.add Nat.sub Nat.min]. replace (INR 1) with 1 by reflexivity. rewrite R2, R3. cbn [INR]. rewrite ?Rmult_0_r, ?Rplus_0_l, ?Rmult_0_r. field.
  - destruct (ex_r_cell (5/2) p 2 ltac:(lia) E ltac:(cbn; lra) ltac:(right; cbn; lra) ltac:(auto)) as [-> V]. rewrite !V by lia. cbn [cdb Nat.eqb Nat.add Nat.sub]. unfold cdb_weight. rewrite !kr. cbn [Nat.add Nat.sub Nat.min]. replace (INR 1) with 1 by reflexivity. rewrite R2, R3. cbn [INR]. rewrite ?Rmult_0_r, ?Rplus_0_l, ?Rmult_0_r. field.
  - destruct (ex_r_cell 3 p 2 ltac:(lia) E ltac:(cbn; lra) ltac:(right; cbn; lra) ltac:(auto)) as [-> V]. rewrite !V by lia. cbn [cdb Nat.eqb Nat.add Nat.sub]. unfold cdb_weight. rewrite !kr. cbn [Nat.add Nat.sub Nat.min]. replace (INR 1) with 1 by reflexivity. rewrite R2, R3. cbn [INR]. rewrite ?Rmult_0_r, ?Rplus_0_l, ?Rmult_0_r. field.
Qed.
Definition ex_Mt (l : nat) (e : nat -> R) : R := (e l + 6 * e (l + 1)%nat + e (l + 2)%nat) / 8.
Lemma ex_pt_nth l x : nth_error ex_pt l = Some x -> (l < 4)%nat /\ x = (INR l + 1 / 2) * (PI / 2).
Proof.
  intros H. assert (K : (l < 4)%nat) by (apply (nth_error_Some ex_pt); congruence). split; [exact K|].
  assert (l = 0 \/ l = 1 \/ l = 2 \/ l = 3)%nat as [->|[->|[->| ->]]] by lia; cbn [ex_pt map seq nth_error] in H; injection H as <-; reflexivity.
Qed.
Lemma ex_t_dom l x : nth_error ex_pt l = Some x -> b_rmin disc_t <= x <= b_rmax disc_t.
Proof.
  intros H. destruct (ex_pt_nth l x H) as [K ->]. pose proof PI_RGT_0 as PP. cbn [disc_t cdb_space b_rmin b_rmax]. unfold knots_t. cbn [INR Nat.add].
  pose proof (pos_INR l). pose proof (le_INR l 3 ltac:(lia)) as Q. cbn [INR] in Q. split; apply Rmult_le_compat_r; lra.
Qed.
Lemma ex_t_values l x e p : nth_error ex_pt l = Some x -> b_eval disc_t 0 x = Ok p -> spline1 disc_t e p = ex_Mt l e.
Proof.
  intros H E. pose proof (ex_t_dom l x H) as D. destruct (ex_pt_nth l x H) as [K X]. pose proof PI_RGT_0 as PP.
  destruct (basis_at disc_t knots_t 0 x disc_t_ok D) as [c [v [E' [V Hc]]]]. rewrite E in E'. injection E' as ->.
  destruct V as [_ [Vc V]]. change (b_deg disc_t) with 2%nat in *. change (b_cells disc_t) with 4%nat in *.
  assert (c = l).
  { unfold knots_t in Vc. rewrite !plus_INR in Vc. replace (INR 2) with 2 in Vc by reflexivity. replace (INR 1) with 1 in Vc by reflexivity. rewrite X in Vc.
    assert (A1 : 2 + INR c - 2 <= INR l + 1 / 2) by (apply (Rmult_le_reg_r (PI / 2)); lra).
    assert (A2 : INR l + 1 / 2 <= 2 + INR c + 1 - 2) by (apply (Rmult_le_reg_r (PI / 2)); lra).
    destruct (Nat.lt_trichotomy c l) as [G|[G|G]]; [|exact G|].
    - pose proof (le_INR (c + 1) l ltac:(lia)) as Q. rewrite plus_INR in Q. cbn [INR] in Q. lra.
    - pose proof (le_INR (l + 1) c ltac:(lia)) as Q. rewrite plus_INR in Q. cbn [INR] in Q. lra. }
  subst c. destruct (quad_t l x) as [Q0 [Q1 Q2]]. cbv zeta in *.
  assert (U : (x - knots_t (2 + l)) / (PI / 2) = 1 / 2).
  { rewrite X. unfold knots_t. rewrite plus_INR. replace (INR 2) with 2 by reflexivity. field. lra. }
  rewrite U in Q0, Q1, Q2.
  assert (W : forall j, (j <= 2)%nat -> v j = cdb knots_t (2 + l) 2 j x) by (intros j Hj; destruct (V j Hj) as [g [G ->]]; apply (nth_derivative_0 _ _ _ G)).
  unfold spline1. change (b_deg disc_t + 1)%nat with 3%nat. cbn [Rsum fst snd]. rewrite !W, Q0, Q1, Q2 by lia. rewrite Nat.add_0_r. unfold ex_Mt. field.
Qed.
Lemma ex_det_r : determines (disc_r 3) ex_pr (fun _ => True).
Proof.
  intros e _ Z i Hi.
  assert (V : forall a, (a < 5)%nat -> ex_Mr a e = 0).
  { intros a Ha. destruct (nth_error ex_pr a) as [x|] eqn:N; [|apply nth_error_None in N; cbn in N; lia].
    assert (D : b_rmin (disc_r 3) <= x <= b_rmax (disc_r 3)).
    { replace (b_rmin (disc_r 3)) with 0 by reflexivity. replace (b_rmax (disc_r 3)) with 3 by (cbn [disc_r cdb_space b_rmax]; rewrite kr; cbn; ring).
      assert (a = 0 \/ a = 1 \/ a = 2 \/ a = 3 \/ a = 4)%nat as [->|[->|[->|[->| ->]]]] by lia; cbn in N; injection N as <-; lra. }
    destruct (basis_at (disc_r 3) (knots_r 3) 0 x (disc_r_ok 3 ltac:(lia)) D) as [c [v [E _]]].
    rewrite <- (ex_r_values a x e (c, v) N E). apply (Z x); auto. apply (nth_error_In _ _ N). }
  pose proof (V 0%nat ltac:(lia)) as V0. pose proof (V 1%nat ltac:(lia)) as V1. pose proof (V 2%nat ltac:(lia)) as V2. pose proof (V 3%nat ltac:(lia)) as V3. pose proof (V 4%nat ltac:(lia)) as V4.
  cbn [ex_Mr] in *. change (b_size (disc_r 3)) with 5%nat in Hi.
  assert (i = 0 \/ i = 1 \/ i = 2 \/ i = 3 \/ i = 4)%nat as [->|[->|[->|[->| ->]]]] by lia; lra.
Qed.
Lemma ex_det_t : determines disc_t ex_pt (periodic_coefs disc_t).
Proof.
  intros e P Z i Hi. change (b_size disc_t) with 6%nat in Hi.
  assert (P0 := P 0%nat ltac:(cbn; lia)). assert (P1 := P 1%nat ltac:(cbn; lia)). change (0 + b_cells disc_t)%nat with 4%nat in P0. change (1 + b_cells disc_t)%nat with 5%nat in P1.
  assert (V : forall a, (a < 4)%nat -> ex_Mt a e = 0).
  { intros a Ha. destruct (nth_error ex_pt a) as [x|] eqn:N; [|apply nth_error_None in N; cbn in N; lia].
    destruct (basis_at disc_t knots_t 0 x disc_t_ok (ex_t_dom a x N)) as [c [v [E _]]].
    rewrite <- (ex_t_values a x e (c, v) N E). apply (Z x); auto. apply (nth_error_In _ _ N). }
  pose proof (V 0%nat ltac:(lia)) as V0. pose proof (V 1%nat ltac:(lia)) as V1. pose proof (V 2%nat ltac:(lia)) as V2. pose proof (V 3%nat ltac:(lia)) as V3.
  unfold ex_Mt in *. cbn [Nat.add] in *.
  assert (i = 0 \/ i = 1 \/ i = 2 \/ i = 3 \/ i = 4 \/ i = 5)%nat as [->|[->|[->|[->|[->| ->]]]]] by lia; lra.
Qed.
(** the inverse matrices *)
Definition ex_Sr (i : nat) (w : nat -> R) : R :=
  let a := w 1%nat - w 0%nat / 4 in let b := w 2%nat in let c := w 3%nat - w 4%nat / 4 in
  let e2 := (10 * b - 2 * a - 2 * c) / 7 in
  match i with O => w 0%nat | 1%nat => (8 * a - e2) / 5 | 2%nat => e2 | 3%nat => (8 * c - e2) / 5 | _ => w 4%nat end.
Definition ex_St (j : nat) (v : nat -> R) : R :=
  17 / 12 * v ((j + 3) mod 4)%nat - 1 / 4 * (v ((j + 2) mod 4)%nat + v (j mod 4)%nat) + 1 / 12 * v ((j + 1) mod 4)%nat.
Definition ex_build (vals : list R) : res (list R) :=
  Ok (map (fun p => ex_Sr (p / 6) (fun k => ex_St (p mod 6) (fun l => nth (k * 4 + l) vals 0))) (seq 0 30)).
Definition ex_builder : builder2 := {| bu_r := ex_pr; bu_t := ex_pt; bu_build := ex_build |}.
Definition ex_eval (n m : nat) (c : list R) (r th : R) : res R :=
  let* pr := b_eval (disc_r 3) n r in let* pt := b_eval disc_t m th in
  Ok (tensor_spline (disc_r 3) disc_t (field2 disc_t c) pr pt).
Lemma ex_coef vals i j : (i < 5)%nat -> (j < 6)%nat ->
  field2 disc_t (map (fun p => ex_Sr (p / 6) (fun k => ex_St (p mod 6) (fun l => nth (k * 4 + l) vals 0))) (seq 0 30)) i j
  = ex_Sr i (fun k => ex_St j (fun l => nth (k * 4 + l) vals 0)).
Proof.
  intros Hi Hj. unfold field2. change (b_size disc_t) with 6%nat.
  set (F := fun p => ex_Sr (p / 6) (fun k => ex_St (p mod 6) (fun l => nth (k * 4 + l) vals 0))).
  rewrite (nth_indep (map F _) 0 (F 0%nat)) by (rewrite map_length, seq_length; lia). rewrite map_nth, seq_nth by lia. unfold F. rewrite Nat.add_0_l.
  replace ((i * 6 + j) / 6)%nat with i by (rewrite Nat.div_add_l by lia; rewrite Nat.div_small by lia; lia).
  replace ((i * 6 + j) mod 6)%nat with j by (rewrite Nat.add_comm, Nat.mod_add by lia; rewrite Nat.mod_small by lia; reflexivity). reflexivity.
Qed.
Lemma ex_solves vals a l : (a < 5)%nat -> (l < 4)%nat ->
  ex_Mt l (fun j => ex_Mr a (fun i => ex_Sr i (fun k => ex_St j (fun l => nth (k * 4 + l) vals 0)))) = nth (a * 4 + l) vals 0.
Proof.
  intros Ha Hl.
  assert (R : forall w, ex_Mr a (fun i => ex_Sr i w) = w a).
  { intros w. assert (a = 0 \/ a = 1 \/ a = 2 \/ a = 3 \/ a = 4)%nat as [->|[->|[->|[->| ->]]]] by lia; cbn [ex_Mr]; unfold ex_Sr; field. }
  unfold ex_Mt. rewrite !R. unfold ex_St.
  assert (l = 0 \/ l = 1 \/ l = 2 \/ l = 3)%nat as [->|[->|[->| ->]]] by lia; cbn [Nat.add Nat.modulo Nat.divmod fst snd Nat.sub]; field.
Qed.
Theorem ex_builder_setup : builder_setup (disc_r 3) disc_t (knots_r 3) knots_t ex_builder ex_eval.
Proof.
  constructor.
  - apply disc_r_ok. lia.
  - apply disc_r_clamped.
  - apply disc_t_ok.
  - reflexivity.
  - replace (b_rmin (disc_r 3)) with 0 by reflexivity. replace (b_rmax (disc_r 3)) with 3 by (cbn [disc_r cdb_space b_rmax]; rewrite kr; cbn; ring).
    intros r Hr. cbn in Hr. lra.
  - intros th Ht. destruct (In_nth_error _ _ Ht) as [l N]. apply (ex_t_dom l th N).
  - exact ex_det_r.
  - exact ex_det_t.
  - intros vals L. eexists. split; [reflexivity|]. split; [reflexivity|]. split.
    + intros i Hi j Hj. change (nbasis_r (disc_r 3)) with 5%nat in Hi. change (b_deg disc_t) with 2%nat in Hj. change (b_cells disc_t) with 4%nat.
      rewrite !ex_coef by lia. assert (j = 0 \/ j = 1)%nat as [->| ->] by lia; reflexivity.
    + intros i j r th pr pt Ei Ej Er Et. change (bu_r ex_builder) with ex_pr in Ei. change (bu_t ex_builder) with ex_pt in *. change (length ex_pt) with 4%nat.
      assert (K : (i < 5)%nat) by (apply (nth_error_Some ex_pr); congruence). destruct (ex_pt_nth j th Ej) as [K' _].
      rewrite tensor_rows. rewrite (ex_t_values j th _ pt Ej Et). rewrite <- (ex_solves vals i j K K'). unfold ex_Mt.
      rewrite !(ex_r_values i r _ pr Ei Er).
      assert (Q : forall e e', (forall k, (k < 5)%nat -> e k = e' k) -> ex_Mr i e = ex_Mr i e').
      { intros e e' HE. assert (i = 0 \/ i = 1 \/ i = 2 \/ i = 3 \/ i = 4)%nat as [->|[->|[->|[->| ->]]]] by lia; cbn [ex_Mr]; rewrite ?HE by lia; reflexivity. }
      assert (W : forall q, (q < 6)%nat -> ex_Mr i (fun k => field2 disc_t (map (fun p => ex_Sr (p / 6) (fun k => ex_St (p mod 6) (fun l => nth (k * 4 + l) vals 0))) (seq 0 30)) k q)
          = ex_Mr i (fun a => ex_Sr a (fun k => ex_St q (fun l => nth (k * 4 + l) vals 0)))) by (intros q Hq; apply Q; intros k Hk; apply ex_coef; lia).
      rewrite !W by lia. reflexivity.
  - intros n m c r th pr pt _ _ _ E1 E2. unfold ex_eval. rewrite E1. cbn [bind]. rewrite E2. reflexivity.
Qed.
Lemma ex_polar_domain : polar_domain 2 (disc_r 3) disc_t.
Proof.
  split; [reflexivity|]. split; [apply disc_period|]. split; [apply disc_contains_0|]. cbn [disc_r cdb_space b_cells b_deg]. lia.
Qed.
Lemma ex_grid_loop : grid_loop ex_builder (rev (list_prod (seq 0 5) (seq 0 4))) (repeat 0 20, repeat 0 20).
Proof.
  split; [|split; [|split; reflexivity]].
  - apply NoDup_rev. cbn. repeat constructor; cbn; intuition congruence.
  - intros i j. rewrite <- in_rev, in_prod_iff, !in_seq. cbn. lia.
Qed.
Definition ex_factory : ddc_factory :=
  {| fa_uniform_r := fun _ _ _ => disc_r 3; fa_uniform_t := fun _ _ _ => disc_t; fa_breaks_r := fun _ => disc_r 3; fa_breaks_t := fun _ => disc_t;
     fa_builder := fun _ _ => ex_builder; fa_evaluator := fun _ _ => ex_eval |}.
Lemma ex_breaks lr lt : equal_cells 0 3 3 lr -> equal_cells 0 (2 * PI) 4 lt -> has_breaks (disc_r 3) (knots_r 3) lr /\ has_breaks disc_t knots_t lt.
Proof.
  intros [L1 [A1 [_ S1]]] [L2 [A2 [_ S2]]].
  assert (E1 : forall i, (i <= 3)%nat -> nth i lr 0 = INR i).
  { induction i as [|i IH]; intros Hi; [exact A1|]. pose proof (S1 i ltac:(lia)) as Q. rewrite Nat.add_1_r in Q. rewrite S_INR, <- (IH ltac:(lia)).
    replace (INR 3) with 3 in Q by (cbn; ring). lra. }
  assert (E2 : forall i, (i <= 4)%nat -> nth i lt 0 = INR i * (PI / 2)).
  { induction i as [|i IH]; intros Hi; [rewrite A2; cbn; ring|]. pose proof (S2 i ltac:(lia)) as Q. rewrite Nat.add_1_r in Q. rewrite S_INR.
    replace (INR 4) with 4 in Q by (cbn; ring). rewrite (IH ltac:(lia)) in Q. lra. }
  split; split.
  - rewrite L1. reflexivity.
  - intros i Hi. rewrite E1 by lia. cbn [disc_r cdb_space b_deg]. rewrite kr. f_equal. lia.
  - rewrite L2. reflexivity.
  - intros i Hi. rewrite E2 by lia. cbn [disc_t cdb_space b_deg]. unfold knots_t. rewrite plus_INR. replace (INR 2) with 2 by reflexivity. ring.
Qed.
