(** Extra interpolation points with two cells (C68): the formula of the last cell is applied to the wrong slots. *)
From Verif Require Import IfdSpec IfdAnalysis OnionProofs IfdProofs IfdMain IfdCase IfdLink IfdTheorems.
From Coq Require Import ZifyBool.
Open Scope R_scope.

Section Pair.
Variables p1 p2 : side.
Hypothesis O1 : ordered p1.
Hypothesis O2 : ordered p2.
Local Notation pp := (pp p1 p2).
Local Notation E := (E p1 p2).
Local Notation good := (good p1 p2).
Local Notation consistent := (consistent p1 p2).
Local Notation lengths_at := (lengths_at p1 p2 O1 O2).

Lemma correction_raw on1 n t0 t1 x : sd_greville (pp on1) = true -> n = (cells (pp on1) - 1)%nat -> (1 <= n)%nat ->
  length (v_of on1 t0) = length (sd_x (pp on1)) -> length (v_of on1 t1) = length (sd_x (pp on1)) ->
  exists ka l v, let r := ka * own on1 t1 / own on1 t0 in let den := 1 - r in
  let u := combine_weights den r (v_of (negb on1) t1) (v_of (negb on1) t0) in
  -1 / 2 < ka < 0 /\ (forall k a, In (k, a) l -> (k < length (sd_x (pp on1)))%nat) /\
  (forall FL FR YL YR, consistent FL FR YL YR ->
     exists G, F_ on1 YL YR n = G + ka * F_ on1 YL YR (n - 1)%nat /\ asum (F_ on1 FL FR) l = 1 / den * own on1 t1 * G) /\
  adds (pp on1) (combine_weights den r (v_of on1 t1) (v_of on1 t0)) l = Ok v /\
  correction_boundary p1 p2 on1 (t0, t1, x) =
    Ok (t0, t1, mk_slot on1 (0 * own on1 t1 / den) ((other on1 t1 - r * other on1 t0) / den) (if on1 then v else u) (if on1 then u else v)).
Proof.
  intros GR En Hn LT0 LT1. assert (Hlen : length (sd_x (pp on1)) = (n + 3)%nat) by (unfold cells in En; rewrite GR in En; lia).
  assert (NX : nxt (pp on1) n = (n + 2)%nat).
  { unfold nxt. destruct (Nat.ltb_spec (n + 1) (cells (pp on1))); lia. }
  assert (OO := pp_ordered p1 p2 O1 O2 on1).
  pose proof (dist_lt (pp on1) (n - 1) n OO ltac:(lia)) as D1. pose proof (dist_lt (pp on1) n (n + 1) OO ltac:(lia)) as D2.
  pose proof (dist_lt (pp on1) (n + 1) (n + 2) OO ltac:(lia)) as D3.
  set (c := dist (pp on1) n - dist (pp on1) (n - 1)). set (h := dist (pp on1) (n + 2) - dist (pp on1) n).
  set (a := dist (pp on1) (n + 1) - dist (pp on1) n). set (b := dist (pp on1) (n + 2) - dist (pp on1) (n + 1)).
  assert (PC : 0 < c) by (unfold c; lra). assert (PF : 0 < h) by (unfold h; lra). assert (PA : 0 < a) by (unfold a; lra).
  assert (PB : 0 < b) by (unfold b; lra). assert (AB : a + b = h) by (unfold a, b, h; ring).
  set (t := a / h). assert (T01 : 0 < t < 1).
  { unfold t. split; [apply Rdiv_lt_0_compat; lra|]. apply Rmult_lt_reg_r with h; auto. unfold Rdiv. rewrite Rmult_assoc, Rinv_l by lra. lra. }
  destruct (kap_phi c h PC PF) as (HK & HP & _).
  set (K0 := (1 - t) * (1 - t) * t). set (K1 := t * t * (t - 1)). set (H0 := (1 - t) * (1 - t) * (1 + 2 * t)). set (H1 := t * t * (3 - 2 * t)).
  assert (RT : K0 / K1 < 0) by (apply bernoulli_ratio; auto).
  assert (K1n : K1 < 0) by (apply k1_neg; auto).
  assert (DG : 1 < 1 + phi c h * K0 / K1).
  { replace (phi c h * K0 / K1) with (phi c h * (K0 / K1)) by (field; lra). nra. }
  set (dg := 1 / (1 + phi c h * K0 / K1)).
  assert (DG1 : 0 < dg < 1).
  { unfold dg, Rdiv. rewrite Rmult_1_l. split; [apply Rinv_0_lt_compat; lra|]. rewrite <- Rinv_1. apply Rinv_lt_contravar; lra. }
  set (ka := dg * kap c h). assert (HKA : -1 / 2 < ka < 0) by (unfold ka; nra).
  set (r := ka * own on1 t1 / own on1 t0). set (den := 1 - r). set (fa := 1 / den * own on1 t1).
  set (gp := sg on1 * (dg * (3 / 2 / (c + h) * (c / h) - phi c h * H1 / K1 / h))).
  set (gs := sg on1 * (dg * phi c h / K1 / h)).
  set (gi := sg on1 * (dg * (3 / 2 / (c + h) * (h / c - c / h) - phi c h * H0 / K1 / h))).
  set (gm := sg on1 * (dg * (3 / 2 / (c + h) * (- (h / c))))).
  set (l := [((n + 2)%nat, fa * gp); ((n + 1)%nat, fa * gs); (n, fa * gi); ((n - 1)%nat, fa * gm)]).
  assert (LL : forall k aa, In (k, aa) l -> (k < length (sd_x (pp on1)))%nat).
  { unfold l. intros k aa [H|[H|[H|[H|[]]]]]; injection H as <- <-; lia. }
  assert (HG : forall FL FR YL YR, consistent FL FR YL YR ->
     exists G, F_ on1 YL YR n = G + ka * F_ on1 YL YR (n - 1)%nat /\ asum (F_ on1 FL FR) l = 1 / den * own on1 t1 * G).
  { intros FL FR YL YR C. set (F := F_ on1 FL FR). set (Y := F_ on1 YL YR).
    pose proof (side_of p1 p2 on1 FL FR YL YR C) as [SC SS]. specialize (SS GR). cbv zeta in SS.
    replace (length (sd_x (pp on1)) - 1)%nat with (n + 2)%nat in SS by lia.
    replace (length (sd_x (pp on1)) - 2)%nat with (n + 1)%nat in SS by lia.
    replace (length (sd_x (pp on1)) - 3)%nat with n in SS by lia.
    fold h a t F Y K0 K1 H0 H1 in SS. specialize (SC n ltac:(lia)). unfold closer, further in SC. rewrite NX in SC. fold c h F Y in SC.
    exists (gp * F (n + 2)%nat + gs * F (n + 1)%nat + gi * F n + gm * F (n - 1)%nat). split.
    - assert (SG : sg on1 * sg on1 = 1) by (destruct on1; cbn; ring).
      assert (YP : Y (n + 2)%nat = sg on1 * (F (n + 1)%nat - H0 * F n - H1 * F (n + 2)%nat) / (h * K1) - K0 / K1 * Y n).
      { rewrite SS. replace (sg on1 * (H0 * F n + H1 * F (n + 2)%nat + sg on1 * h * (K0 * Y n + K1 * Y (n + 2)%nat) - H0 * F n - H1 * F (n + 2)%nat))
          with (sg on1 * sg on1 * (h * (K0 * Y n + K1 * Y (n + 2)%nat))) by ring. rewrite SG. field. split; lra. }
      rewrite YP in SC.
      assert (Q : (1 + phi c h * K0 / K1) * Y n = sg on1 * gam c h (F (n - 1)%nat) (F n) (F (n + 2)%nat) + kap c h * Y (n - 1)%nat
                   + phi c h * (sg on1 * (F (n + 1)%nat - H0 * F n - H1 * F (n + 2)%nat) / (h * K1))).
      { rewrite Rmult_plus_distr_r, Rmult_1_l. rewrite SC at 1. field. split; lra. }
      replace (Y n) with (dg * ((1 + phi c h * K0 / K1) * Y n)).
      2:{ unfold dg. rewrite <- Rmult_assoc. replace (1 / (1 + phi c h * K0 / K1) * (1 + phi c h * K0 / K1)) with 1; [ring|].
          unfold Rdiv at 1. rewrite Rmult_1_l, Rinv_l; lra. }
      rewrite Q. unfold gp, gs, gi, gm, ka, gam. clear -PC PF K1n. generalize (phi c h) (kap c h). intros. field. repeat split; lra.
    - unfold l. cbn [asum]. fold r den fa. ring. }
  destruct (adds_spec (pp on1) l (combine_weights den r (v_of on1 t1) (v_of on1 t0))) as (v & A & _ & _ & _).
  { apply combine_len; auto. }
  { exact LL. }
  exists ka, l, v. cbv zeta. fold r. fold den.
  split; [exact HKA|]. split; [exact LL|]. split; [exact HG|]. split; [exact A|].
  set (u := combine_weights den r (v_of (negb on1) t1) (v_of (negb on1) t0)).
  clear HG LL. unfold correction_boundary. fold (pp on1).
  assert (Z1 : (sd_n (pp on1) - 3 = Z.of_nat n)%Z) by (unfold sd_n; lia). rewrite Z1.
  rewrite (lengths_at on1 _ n eq_refl) by lia. rewrite (lengths_at on1 _ (n + 1)) by lia. cbn [bind].
  replace (n + 1 - 1)%nat with n by lia. replace (n + 1 + 1)%nat with (n + 2)%nat by lia. fold a b c.
  assert (Ehl : (if on1 then fst (if on1 then (a, c) else (c, a)) + fst (if on1 then (b, a) else (a, b)) else fst (if on1 then (a, c) else (c, a))) = if on1 then h else c)
    by (destruct on1; cbn [fst]; lra).
  assert (Ehr : (if on1 then snd (if on1 then (a, c) else (c, a)) else snd (if on1 then (a, c) else (c, a)) + snd (if on1 then (b, a) else (a, b))) = if on1 then c else h)
    by (destruct on1; cbn [snd]; lra).
  rewrite Ehl, Ehr. clear Ehl Ehr.
  assert (EF : (if on1 then get_beta (if on1 then h else c) (if on1 then c else h) else get_alpha (if on1 then h else c) (if on1 then c else h)) = phi c h).
  { unfold phi, get_alpha, get_beta. destruct on1; field; lra. }
  assert (EC : (if on1 then get_alpha (if on1 then h else c) (if on1 then c else h) else get_beta (if on1 then h else c) (if on1 then c else h)) = kap c h).
  { unfold kap, get_alpha, get_beta. destruct on1; field; lra. }
  rewrite EF, EC. clear EF EC. unfold get_gammas.
  assert (EX : (if on1 then fst (if on1 then (b, a) else (a, b)) / (if on1 then h else c) else fst (if on1 then (b, a) else (a, b)) / (if on1 then c else h)) = if on1 then 1 - t else t).
  { unfold t. destruct on1; cbn [fst]; [|reflexivity]. replace b with (h - a) by lra. field. lra. }
  rewrite EX. clear EX. unfold adds, l in A.
  assert (ZZ : (Z.of_nat n + 2 = Z.of_nat (n + 2) /\ Z.of_nat n + 1 = Z.of_nat (n + 1) /\ Z.of_nat n - 1 = Z.of_nat (n - 1))%Z) by lia.
  destruct ZZ as (-> & -> & ->).
  destruct on1; cbn [v_of negb IfdProofs.pp sg fst snd] in *.
  - assert (X0 : (1 - (1 - t)) * (1 - (1 - t)) * (1 - t) = - K1) by (unfold K1; ring).
    assert (X1 : (1 - t) * (1 - t) * (1 - t - 1) = - K0) by (unfold K0; ring).
    assert (X2 : (1 - (1 - t)) * (1 - (1 - t)) * (1 + 2 * (1 - t)) = H1) by (unfold H1; ring).
    assert (X3 : (1 - t) * (1 - t) * (3 - 2 * (1 - t)) = H0) by (unfold H0; ring).
    rewrite X0, X1, X2, X3.
    replace (1 / (1 + phi c h * - K0 / - K1)) with dg by (unfold dg; f_equal; f_equal; field; lra).
    fold ka. fold r. fold den. fold fa.
    replace (fa * (dg * (- (3 / 2 / (h + c)) * (c / h) - phi c h * H1 / - K1 / h))) with (fa * gp) by (unfold gp; cbn [sg]; field; repeat split; lra).
    replace (fa * (dg * phi c h / - K1 / h)) with (fa * gs) by (unfold gs; cbn [sg]; field; repeat split; lra).
    replace (fa * (dg * (3 / 2 / (h + c) * (c / h - h / c) - phi c h * H0 / - K1 / h))) with (fa * gi) by (unfold gi; cbn [sg]; field; repeat split; lra).
    replace (fa * (dg * (3 / 2 / (h + c) * (h / c)))) with (fa * gm) by (unfold gm; cbn [sg]; field; repeat split; lra).
    destruct (add_at _ _ _) as [v1| | |] eqn:A1; cbn [bind] in A; try discriminate. cbn [bind].
    destruct (add_at v1 _ _) as [v2| | |] eqn:A2; cbn [bind] in A; try discriminate. cbn [bind].
    destruct (add_at v2 _ _) as [v3| | |] eqn:A3; cbn [bind] in A; try discriminate. cbn [bind].
    destruct (add_at v3 _ _) as [v4| | |] eqn:A4; cbn [bind] in A; try discriminate. cbn [bind].
    replace v4 with v by congruence. reflexivity.
  - fold K0 K1 H0 H1. fold dg. fold ka. fold r. fold den. fold fa.
    replace (fa * (dg * (3 / 2 / (c + h) * (c / h) - phi c h * H1 / K1 / h))) with (fa * gp) by (unfold gp; cbn [sg]; ring).
    replace (fa * (dg * phi c h / K1 / h)) with (fa * gs) by (unfold gs; cbn [sg]; ring).
    replace (fa * (dg * (3 / 2 / (c + h) * (h / c - c / h) - phi c h * H0 / K1 / h))) with (fa * gi) by (unfold gi; cbn [sg]; ring).
    replace (fa * (dg * (- (3 / 2 / (c + h)) * (h / c)))) with (fa * gm) by (unfold gm; cbn [sg]; ring).
    destruct (add_at _ _ _) as [v1| | |] eqn:A1; cbn [bind] in A; try discriminate. cbn [bind].
    destruct (add_at v1 _ _) as [v2| | |] eqn:A2; cbn [bind] in A; try discriminate. cbn [bind].
    destruct (add_at v2 _ _) as [v3| | |] eqn:A3; cbn [bind] in A; try discriminate. cbn [bind].
    destruct (add_at v3 _ _) as [v4| | |] eqn:A4; cbn [bind] in A; try discriminate. cbn [bind].
    replace v4 with v by congruence. reflexivity.
Qed.
End Pair.

(** ** Patch 1 *)
Definition plain (p : side) : side :=
  {| sd_x := sd_x p; sd_ext := sd_ext p; sd_greville := false; sd_uniform := sd_uniform p; sd_breaks := sd_breaks p |}.
Lemma plain_ordered p : ordered p -> ordered (plain p).
Proof. intros [A B]. split; [exact A|]. unfold cells, plain in *. cbn [sd_greville sd_x] in *. destruct (sd_greville p); lia. Qed.

Lemma two_extra_1 p1 p2 : ordered p1 -> ordered p2 -> sd_greville p1 = true -> cells p1 = 2%nat ->
  (3 <= cells p2)%nat \/ (cells p2 = 2%nat /\ sd_greville p2 = false) ->
  exists c, non_uniform_case p1 p2 = Ok c /\ length (w1 c) = length (sd_x p1) /\ length (w2 c) = length (sd_x p2) /\ s1 c = 0 /\
    E p1 p2 c (fun k => cub 0 0 1 0 (- dist p1 k)) (fun k => cub 0 0 1 0 (dist p2 k)) + s2 c * cub1 0 1 0 (far p2) <> 0.
Proof.
  intros O1 O2 GR N1 N2. pose proof (cells_lt _ O1) as C1. pose proof (cells_lt _ O2) as C2.
  assert (L1 : length (sd_x p1) = 4%nat) by (unfold cells in N1; rewrite GR in N1; lia).
  set (p1' := plain p1). assert (O1' : ordered p1') by (apply plain_ordered; auto).
  assert (N1' : cells p1' = 3%nat) by (unfold cells, p1', plain; cbn [sd_greville sd_x]; lia).
  unfold non_uniform_case. assert (B1 : (sd_n p1 <? 2)%Z = false) by (unfold sd_n; lia). assert (B2 : (sd_n p2 <? 2)%Z = false) by (unfold sd_n; lia).
  rewrite B1, B2. destruct (first_spec p1' p2 O1' O2 ltac:(cbn; lia) ltac:(lia)) as (t0 & A0 & G0 & R0 & _ & _ & S1 & S2 & S12).
  change (first_slot p1 p2) with (first_slot p1' p2). rewrite A0. cbn [bind].
  assert (X1 : nxt p1' 1 = 2%nat) by (unfold nxt; rewrite N1'; reflexivity).
  assert (X2 : nxt p2 1 = 2%nat).
  { unfold nxt, cells in *. destruct (Nat.ltb_spec (1 + 1) (length (sd_x p2) - (if sd_greville p2 then 2 else 1))); [reflexivity|].
    destruct N2 as [N2|[N2 N3]]; [lia|]. rewrite N3 in *. lia. }
  destruct (second_2_spec p1' p2 O1' O2 (- 2 * s1 t0) 1 t0 G0 R0 S2 ltac:(lia) X2) as (t1 & A1 & I1).
  { intros ka HK. split; [lra|]. assert (0 < - s2 t0 * (1 + ka)) by (apply Rmult_lt_0_compat; lra). lra. }
  change (second_slot_2 p1 p2 t0) with (second_slot_2 p1' p2 t0). rewrite A1. cbn [bind].
  destruct (rest_spec p1' p2 O1' O2 false (s1 t0) (- 2 * s1 t0) 1 t0 t1 t1 I1) as (t & A2 & G2 & R2 & OW2 & u & v & OT & Hu & Hv & Hz).
  { cbn. intros. destruct N2 as [N2|[N2 N3]]; [lia|congruence]. }
  { cbn. intros. destruct N2 as [N2|[N2 N3]]; [left; lia|right; auto]. }
  change (rest_of_patch p1 p2 false (t0, t1, t1)) with (rest_of_patch p1' p2 false (t0, t1, t1)).
  rewrite A2. cbn [bind]. cbn [IfdProofs.pp] in *. set (tm := snd t) in *. cbn [own other] in OW2, OT.
  assert (Q : 0 < v / u) by (apply Rdiv_lt_0_compat; auto).
  assert (SM : -1 / 2 < s1 tm < 0).
  { rewrite OT. replace (s1 t0 * v / u) with (s1 t0 * (v / u)) by (field; lra). split; [|nra].
    apply Rmult_lt_reg_r with u; auto. replace (s1 t0 * (v / u) * u) with (s1 t0 * v) by (field; lra). lra. }
  destruct (second_1_spec p1' p2 O1' O2 (1 / 2) (length (sd_x p2) - 1) tm G2 R2 SM ltac:(lia) X1) as (t3 & A3 & I3).
  { intros ka HK. assert (s1 tm * ka < 1 / 4) by nra. lra. }
  change (second_slot_1 p1 p2 tm) with (second_slot_1 p1' p2 tm). rewrite A3. cbn [bind].
  unfold rest_of_patch. rewrite GR. unfold sd_n. rewrite L1.
  change (recursion p1 p2 true (Z.of_nat 4 - 3) (tm, t3, tm)) with (Ok (tm, t3, tm)). cbn [bind].
  pose proof I3 as [[LA LB _] [LA3 LB3 _] R0' R3 _ _].
  destruct (correction_raw p1 p2 O1 O2 true 1 tm t3 tm) as (ka & l & w & HK & HL & HG & AD & CB); cbn [IfdProofs.pp]; auto; try lia.
  rewrite CB. cbn [bind snd]. cbn [IfdProofs.pp v_of own other negb mk_slot] in *.
  set (r := ka * s1 t3 / s1 tm) in *. set (den := 1 - r) in *.
  eexists. split; [reflexivity|]. cbn [w1 w2 s1 s2 mk_slot].
  destruct (adds_spec p1 l (combine_weights den r (w1 t3) (w1 tm))) as (w' & AD' & LW & SW & _); auto.
  { apply combine_len; assumption. }
  rewrite AD in AD'. injection AD' as <-.
  assert (LC1 : length (combine_weights den r (w1 t3) (w1 tm)) = length (sd_x p1)) by (apply combine_len; assumption).
  split; [lia|]. split; [apply combine_len; assumption|]. split; [unfold Rdiv; ring|].
  pose proof (cubic_spline p1 p2 0 0 1 0) as SP. pose proof (cubic_spline p1' p2 0 0 1 0) as SP'.
  assert (NN2 : (2 <= cells p2)%nat \/ sd_greville p2 = false) by (left; lia).
  pose proof (spline_consistent p1 p2 _ _ O1 O2 ltac:(left; lia) NN2 SP) as K.
  pose proof (spline_consistent p1' p2 _ _ O1' O2 ltac:(left; lia) NN2 SP') as K'.
  destruct (HG _ _ _ _ K) as (G & EG & AG). cbn [F_] in EG, AG.
  pose proof (R0' _ _ _ _ K') as E0. pose proof (R3 _ _ _ _ K') as E1. cbv beta in E0, E1.
  change (dist p1') with (dist p1) in E0, E1. change (2 - 1)%nat with 1%nat in E0.
  change (1 - 1)%nat with 0%nat in EG. rewrite dist_0 in E0, E1, EG.
  unfold IfdProofs.E in E0, E1 |- *. cbn [w1 w2]. rewrite SW, AG.
  rewrite wsum_combine by assumption. change (length (sd_x p1')) with (length (sd_x p1)) in *.
  rewrite wsum_combine by assumption. rewrite combine_wt by (try assumption; lia).
  unfold far. set (D1 := dist p1 1) in *. set (D2 := dist p1 2) in *. set (YF := cub1 0 1 0 (dist p2 (length (sd_x p2) - 1))) in *.
  assert (HD1 : 0 < D1). { unfold D1. pose proof (dist_lt p1 0 1 O1 ltac:(lia)). rewrite dist_0 in *. lra. }
  assert (HD2 : D1 < D2) by (apply dist_lt; auto; lia).
  assert (Q0 : cub 0 0 1 0 (dist p2 0) = 0) by (rewrite dist_0; unfold cub; ring). rewrite Q0 in *.
  change (wsum p1') with (wsum p1) in *.
  set (a3 := wsum p1 (w1 t3) _) in *. set (am := wsum p1 (w1 tm) _) in *. set (b3 := wsum p2 (w2 t3) _) in *. set (bm := wsum p2 (w2 tm) _) in *.
  destruct (mag_step p1' p2 true _ _ _ _ tm t3 ka I3 HK) as (RB & N0 & DN & (OP & _) & _). cbn [own] in RB, N0, DN, OP. fold r in RB, DN. fold den in DN.
  assert (S3 : s1 t3 <> 0) by (intros Z; rewrite Z, Rabs_R0 in OP; lra).
  assert (RS : r * s1 tm = ka * s1 t3) by (unfold r; field; auto).
  assert (V1 : cub1 0 1 0 (- D1) = - 2 * D1) by (unfold cub1; ring). assert (V2 : cub1 0 1 0 (- D2) = - 2 * D2) by (unfold cub1; ring).
  assert (V0 : cub1 0 1 0 (- 0) = 0 /\ cub1 0 1 0 0 = 0) by (split; unfold cub1; ring). destruct V0 as [V0 V0'].
  rewrite V1 in E0, EG. rewrite V2 in E1. rewrite V0 in EG. rewrite V0' in E0, E1.
  assert (EG' : G = - 2 * D1) by lra. clear EG. subst G.
  assert (A3' : a3 + b3 = 2 * D2 * s1 t3 - s2 t3 * YF) by lra. assert (Am' : am + bm = 2 * D1 * s1 tm - s2 tm * YF) by lra.
  intros Z. assert (Z2 : den * (1 / den * (a3 - r * am) + 1 / den * s1 t3 * (-2 * D1) + 1 / den * (b3 - r * bm) -
     1 / den * (wt p2 (w2 t3) 0 - r * wt p2 (w2 tm) 0) * 0 + (s2 t3 - r * s2 tm) / den * YF) = 0) by (rewrite Z; ring).
  replace (den * (1 / den * (a3 - r * am) + 1 / den * s1 t3 * (-2 * D1) + 1 / den * (b3 - r * bm) -
     1 / den * (wt p2 (w2 t3) 0 - r * wt p2 (w2 tm) 0) * 0 + (s2 t3 - r * s2 tm) / den * YF))
    with ((a3 + b3) - r * (am + bm) - 2 * D1 * s1 t3 + (s2 t3 - r * s2 tm) * YF) in Z2 by (field; auto).
  rewrite A3', Am' in Z2.
  assert (Z3 : 2 * s1 t3 * (D2 - D1 - ka * D1) = 0).
  { rewrite <- Z2. replace (2 * s1 t3 * (D2 - D1 - ka * D1)) with (2 * D2 * s1 t3 - 2 * D1 * s1 t3 - 2 * D1 * (ka * s1 t3)) by ring. rewrite <- RS. ring. }
  apply Rmult_integral in Z3. destruct Z3 as [Z3|Z3]; [lra|]. nra.
Qed.
Theorem two_extra_wrong_1 p1 p2 : ordered p1 -> ordered p2 -> breaks_are_points p1 -> breaks_are_points p2 ->
  sd_uniform p1 && sd_uniform p2 = false -> sd_greville p1 = true -> cells p1 = 2%nat ->
  (3 <= cells p2)%nat \/ (cells p2 = 2%nat /\ sd_greville p2 = false) ->
  exists c s d, calculator p1 p2 = Ok c /\ global_spline p1 p2 s d /\ ~ relation_holds p1 p2 c s d.
Proof.
  intros O1 O2 B1 B2 NU G1 N1 N2.
  destruct (two_extra_1 p1 p2 O1 O2 G1 N1 N2) as (c & A & W1 & W2 & S1 & NE).
  exists c, (cub 0 0 1 0), (cub1 0 1 0). rewrite calculator_eq, NU by auto. split; [exact A|].
  split; [apply cubic_spline|]. intros RH.
  destruct (values_exist p1 p2 (cub 0 0 1 0)) as (f1 & f2 & V). destruct (RH f1 f2 V) as (v & EV & EQ).
  rewrite (function_coefficients_len p1 p2 O1 O2 c f1 f2 _ W1 W2 V) in EV.
  match type of EV with Ok ?e = Ok _ => assert (Ev : v = e) by congruence end. apply NE. rewrite <- Ev.
  unfold get_coeff_deriv_patch_1, get_coeff_deriv_patch_2 in EQ. rewrite S1 in EQ.
  assert (Z : cub1 0 1 0 0 = 0) by (unfold cub1; ring). lra.
Qed.

(** ** Patch 2: a wrong relation after patch 2 stays wrong *)
Section Wrong.
Variables p1 p2 : side.
Hypothesis O1 : ordered p1.
Hypothesis O2 : ordered p2.
Variables FL FR YL YR : nat -> R.
Hypothesis K : consistent p1 p2 FL FR YL YR.
Hypothesis F0 : FR 0%nat = 0.
Variable jo : nat.
Definition lens (t : slot) : Prop := length (w1 t) = length (sd_x p1) /\ length (w2 t) = length (sd_x p2).
(** the relation of a slot with the points [n] of patch 1 and [jo] of patch 2, with an error [e] *)
Definition off (t : slot) (n : nat) (e : R) : Prop := YR 0%nat = E p1 p2 t FL FR + s1 t * YL n + s2 t * YR jo + e.
Lemma E_zero t : E p1 p2 t FL FR = wsum p1 (w1 t) FL + wsum p2 (w2 t) FR.
Proof. unfold E. rewrite F0. ring. Qed.
Record badinv (n : nat) (e : R) (t0 t1 : slot) : Prop := {
  b_l0 : lens t0; b_l1 : lens t1;
  b_r0 : exists k0 k1, 0 < k0 <= k1 /\ off t0 (n - 1) (k0 * e) /\ off t1 n (k1 * e);
  b_own : exists ra, -1 / 2 < ra < 0 /\ s1 t0 <> 0 /\ s1 t1 = ra * s1 t0 }.

Lemma second_off t0 e : lens t0 -> off t0 1 e -> -1 / 2 < s1 t0 < 0 -> (2 <= cells p1)%nat -> nxt p1 1 = 2%nat ->
  exists t1, second_slot_1 p1 p2 t0 = Ok t1 /\ badinv 2 e t0 t1.
Proof.
  intros [LA LB] R0 OW Hc NX. pose proof (cells_lt _ O1) as CL. pose proof (cells_lt _ O2) as CL2.
  pose proof (nxt_lt _ 1 O1 ltac:(lia)) as NL. rewrite NX in NL.
  pose proof (dist_lt p1 0 1 O1 ltac:(lia)) as D1. pose proof (dist_lt p1 1 2 O1 ltac:(lia)) as D2.
  destruct (kap_phi (dist p1 1 - dist p1 0) (dist p1 2 - dist p1 1) ltac:(lra) ltac:(lra)) as (HK & HP & KP).
  set (c := dist p1 1 - dist p1 0) in *. set (f := dist p1 2 - dist p1 1) in *.
  assert (PC : 0 < c) by (unfold c; lra). assert (PF : 0 < f) by (unfold f; lra).
  set (ka := kap c f) in *. set (ph := phi c f) in *.
  set (d := 1 - s1 t0 * ka). set (fa := 1 / d * s1 t0).
  assert (KO : 0 < s1 t0 * ka < 1 / 4) by nra. assert (Dd : 3 / 4 < d < 1) by (unfold d; lra).
  set (gp := -1 * (3 / 2 / (c + f) * (c / f))). set (gi := -1 * (3 / 2 / (c + f) * (f / c - c / f))). set (gm := -1 * (3 / 2 / (c + f) * - (f / c))).
  destruct (adds_spec p1 [(2%nat, fa * gp); (1%nat, fa * gi); (0%nat, fa * gm)] (scale_weights (1 / d) (w1 t0))) as (v & A & LV & SV & _).
  { rewrite scale_len. exact LA. }
  { intros k a [H|[H|[H|[]]]]; injection H as <- <-; lia. }
  destruct (adds_spec p2 [(0%nat, fa * gm)] (scale_weights (1 / d) (w2 t0))) as (u & B & LU & SU & _).
  { rewrite scale_len. exact LB. }
  { intros k a [H|[]]; injection H as <- <-. pose proof (proj2 O2). lia. }
  exists {| s1 := s1 t0 * ph / d; s2 := s2 t0 / d; w1 := v; w2 := u |}. split.
  - unfold second_slot_1. pose proof (lengths_at p1 p2 O1 O2 true (Z.of_nat 1) 1 eq_refl ltac:(lia) ltac:(cbn; lia)) as LL; cbn [IfdProofs.pp] in LL. rewrite (idx_one p1), LL. cbn [bind]. clear LL.
    change (1 + 1)%nat with 2%nat. change (1 - 1)%nat with 0%nat. fold c f.
    assert (Eb : get_beta f c = ph) by (unfold ph, get_beta, phi; field; lra).
    assert (Ea : get_alpha f c = ka) by (unfold ka, get_alpha, kap; field; lra).
    rewrite Ea, Eb. unfold get_gammas. fold d. fold fa.
    replace (fa * (- (3 / 2 / (f + c)) * (c / f))) with (fa * gp) by (unfold gp; field; lra).
    replace (fa * (3 / 2 / (f + c) * (c / f - f / c))) with (fa * gi) by (unfold gi; field; lra).
    replace (fa * (3 / 2 / (f + c) * (f / c))) with (fa * gm) by (unfold gm; field; lra).
    rewrite (idx_two p1). rewrite (add_at_eq _ (interface_idx p2) _ _ (idx_zero p2)).
    cbn [adds] in A, B.
    destruct (add_at (scale_weights (1 / d) (w1 t0)) _ _) as [v1| | |] eqn:A1; cbn [bind] in A; try discriminate. cbn [bind].
    destruct (add_at v1 _ _) as [v2| | |] eqn:A2; cbn [bind] in A; try discriminate. cbn [bind].
    rewrite (add_at_eq _ (interface_idx p1) _ _ (idx_zero p1)).
    destruct (add_at v2 _ _) as [v3| | |] eqn:A3; cbn [bind] in A; try discriminate. cbn [bind].
    destruct (add_at (scale_weights (1 / d) (w2 t0)) _ _) as [v4| | |] eqn:A4; cbn [bind] in B; try discriminate. cbn [bind].
    replace v3 with v by congruence. replace v4 with u by congruence. reflexivity.
  - rewrite scale_len in LV, LU. split; [split; assumption|split; cbn; lia| |].
    + exists 1, (1 / d). split; [split; [lra|]|].
      { unfold Rdiv. rewrite Rmult_1_l. apply Rmult_le_reg_l with d; [lra|]. rewrite Rinv_r by lra. lra. }
      change (2 - 1)%nat with 1%nat. rewrite Rmult_1_l. split; [exact R0|]. unfold off in *. rewrite E_zero in *. cbn [s1 s2 w1 w2].
      rewrite SV, SU, !wsum_scale. cbn [asum]. rewrite F0.
      pose proof (se_cell _ _ _ _ (co_left _ _ _ _ _ _ K) 1 ltac:(lia)) as EQ. unfold closer, further in EQ. rewrite NX in EQ.
      change (1 - 1)%nat with 0%nat in EQ. fold c f ka ph in EQ. rewrite (co_f _ _ _ _ _ _ K), F0, (co_y _ _ _ _ _ _ K) in EQ.
      assert (FL0 : FL 0%nat = 0) by (rewrite (co_f _ _ _ _ _ _ K); exact F0). rewrite FL0.
      assert (GG : -1 * gam c f 0 (FL 1%nat) (FL 2%nat) = gp * FL 2%nat + gi * FL 1%nat) by (unfold gp, gi, gam; ring).
      rewrite GG in EQ. rewrite EQ in R0.
      assert (D : d * YR 0%nat = wsum p1 (w1 t0) FL + wsum p2 (w2 t0) FR + s1 t0 * (gp * FL 2%nat + gi * FL 1%nat) + s1 t0 * ph * YL 2%nat + s2 t0 * YR jo + e).
      { unfold d. rewrite Rmult_minus_distr_r, Rmult_1_l. rewrite R0 at 1. ring. }
      replace (YR 0%nat) with (1 / d * (d * YR 0%nat)) at 1 by (field; lra). rewrite D. unfold fa. field. lra.
    + exists (ph / d). cbn [s1]. split; [|split; [lra|field; lra]].
      assert (s1 t0 * ka < - ka / 2) by nra.
      split; apply Rmult_lt_reg_r with d; try lra; replace (ph / d * d) with ph by (field; lra); unfold d; lra.
Qed.

(** one elimination *)
Lemma off_next n e t0 t1 t2 ka ph G np : badinv n e t0 t1 -> -1 / 2 < ka < 0 -> YL n = G + ka * YL (n - 1)%nat + ph * YL np ->
  let r := ka * s1 t1 / s1 t0 in let den := 1 - r in
  s1 t2 = ph * s1 t1 / den -> s2 t2 = (s2 t1 - r * s2 t0) / den ->
  E p1 p2 t2 FL FR = 1 / den * (E p1 p2 t1 FL FR - r * E p1 p2 t0 FL FR) + 1 / den * s1 t1 * G ->
  0 < r < - ka / 2 /\ (exists k1 k2, 0 < k1 <= k2 /\ off t1 n (k1 * e) /\ off t2 np (k2 * e)).
Proof.
  intros [_ _ (k0 & k1 & Hk & R0 & R1) (ra & HR & N0 & H1)] HK EQ r den E1 E2 E3.
  assert (Er : r = ka * ra) by (unfold r; rewrite H1; field; auto).
  assert (RB : 0 < r < - ka / 2) by (rewrite Er; nra). split; [exact RB|].
  assert (DN : 0 < den < 1) by (unfold den; lra).
  exists k1, ((k1 - r * k0) / den).
  split; [split; [lra|]|split; [exact R1|]].
  { apply Rmult_le_reg_r with den; [lra|]. unfold Rdiv. rewrite Rmult_assoc, Rinv_l by lra. unfold den. nra. }
  unfold off in *.
  assert (R0' : YR 0%nat = (E p1 p2 t0 FL FR + k0 * e) + s1 t0 * YL (n - 1)%nat + s2 t0 * YR jo) by lra.
  assert (R1' : YR 0%nat = (E p1 p2 t1 FL FR + k1 * e) + s1 t1 * YL n + s2 t1 * YR jo) by lra.
  assert (DNZ : 1 - ka * s1 t1 / s1 t0 <> 0) by (fold r; fold den; intros Z; lra).
  pose proof (eliminate _ _ _ _ _ _ _ _ _ _ _ G ka ph N0 DNZ R0' R1' EQ) as EL. cbv zeta in EL. fold r den in EL.
  rewrite EL, E1, E2, E3. field. lra.
Qed.
Lemma combine_E den r t0 t1 t2 v : lens t0 -> lens t1 -> w1 t2 = v ->
  w2 t2 = combine_weights den r (w2 t1) (w2 t0) -> forall x, wsum p1 v FL = 1 / den * (wsum p1 (w1 t1) FL - r * wsum p1 (w1 t0) FL) + x ->
  E p1 p2 t2 FL FR = 1 / den * (E p1 p2 t1 FL FR - r * E p1 p2 t0 FL FR) + x.
Proof.
  intros [A B] [A' B'] H1 H2 x Hx. rewrite !E_zero, H1, H2, Hx, wsum_combine by assumption. ring.
Qed.
Lemma step_off e n t0 t1 x z : z = Z.of_nat n -> badinv n e t0 t1 -> (2 <= n < cells p1)%nat -> nxt p1 n = (n + 1)%nat ->
  exists t2, recursion_step p1 p2 true z (t0, t1, x) = Ok (t1, t2, t2) /\ badinv (n + 1) e t1 t2.
Proof.
  intros -> I Hn NX. pose proof (cells_lt _ O1) as CL.
  pose proof (nxt_lt _ n O1 ltac:(lia)) as NL. rewrite NX in NL.
  destruct (lengths_pos p1 p2 O1 O2 true n ltac:(lia) ltac:(cbn; lia)) as [PC PF]. cbn [IfdProofs.pp] in PC, PF.
  set (c := dist p1 n - dist p1 (n - 1)) in *. set (f := dist p1 (n + 1) - dist p1 n) in *.
  destruct (kap_phi c f PC PF) as (HK & HP & KP).
  set (ka := kap c f) in *. set (ph := phi c f) in *.
  set (r := ka * s1 t1 / s1 t0). set (den := 1 - r). set (fa := 1 / den * s1 t1).
  pose proof I as [L0 L1 _ (ra & HR & N0 & H1)].
  set (gp := -1 * (3 / 2 / (c + f) * (c / f))). set (gi := -1 * (3 / 2 / (c + f) * (f / c - c / f))). set (gm := -1 * (3 / 2 / (c + f) * - (f / c))).
  destruct (adds_spec p1 [((n + 1)%nat, fa * gp); (n, fa * gi); ((n - 1)%nat, fa * gm)] (combine_weights den r (w1 t1) (w1 t0))) as (v & A & LV & SV & _).
  { apply combine_len; [apply L1|apply L0]. }
  { intros k a [H|[H|[H|[]]]]; injection H as <- <-; lia. }
  set (t2 := {| s1 := ph * s1 t1 / den; s2 := (s2 t1 - r * s2 t0) / den; w1 := v; w2 := combine_weights den r (w2 t1) (w2 t0) |}).
  exists t2. split.
  - pose proof (lengths_at p1 p2 O1 O2 true (Z.of_nat n) n eq_refl ltac:(lia) ltac:(cbn; lia)) as LL. cbn [IfdProofs.pp] in LL.
    unfold recursion_step. cbv beta iota zeta. rewrite LL. clear LL. fold c f. cbn [bind].
    assert (QF : get_beta f c = ph) by (unfold ph, phi, get_beta; field; lra).
    assert (QC : get_alpha f c = ka) by (unfold ka, kap, get_alpha; field; lra).
    rewrite QF, QC. unfold get_gammas. cbn [own other]. fold r. fold den. fold fa.
    replace (Z.of_nat n + 1)%Z with (Z.of_nat (n + 1)) by lia. replace (Z.of_nat n - 1)%Z with (Z.of_nat (n - 1)) by lia.
    replace (fa * (- (3 / 2 / (f + c)) * (c / f))) with (fa * gp) by (unfold gp; field; lra).
    replace (fa * (3 / 2 / (f + c) * (c / f - f / c))) with (fa * gi) by (unfold gi; field; lra).
    replace (fa * (3 / 2 / (f + c) * (f / c))) with (fa * gm) by (unfold gm; field; lra).
    cbn [adds] in A.
    destruct (add_at _ _ _) as [v1| | |] eqn:A1; cbn [bind] in A; try discriminate. cbn [bind].
    destruct (add_at v1 _ _) as [v2| | |] eqn:A2; cbn [bind] in A; try discriminate. cbn [bind].
    destruct (add_at v2 _ _) as [v3| | |] eqn:A3; cbn [bind] in A; try discriminate. cbn [bind].
    replace v3 with v by congruence. reflexivity.
  - pose proof (se_cell _ _ _ _ (co_left _ _ _ _ _ _ K) n ltac:(lia)) as EQ. unfold closer, further in EQ. rewrite NX in EQ. fold c f ka ph in EQ.
    set (G := -1 * gam c f (FL (n - 1)%nat) (FL n) (FL (n + 1)%nat)) in *.
    assert (EE : E p1 p2 t2 FL FR = 1 / den * (E p1 p2 t1 FL FR - r * E p1 p2 t0 FL FR) + 1 / den * s1 t1 * G).
    { apply (combine_E den r t0 t1 t2 v L0 L1 eq_refl eq_refl). rewrite SV, wsum_combine by (apply L1 || apply L0). cbn [asum].
      unfold G, gam, gp, gi, gm, fa. ring. }
    destruct (off_next n e t0 t1 t2 ka ph G (n + 1) I HK EQ eq_refl eq_refl EE) as [RB R2]. fold r in RB.
    split; [exact L1| | |].
    + split; [cbn; rewrite LV; apply combine_len; [apply L1|apply L0]|cbn; apply combine_len; [apply L1|apply L0]].
    + replace (n + 1 - 1)%nat with n by lia. exact R2.
    + exists (ph / den). assert (DN : 0 < den < 1) by (unfold den; lra). cbn [s1 t2].
      assert (N1 : s1 t1 <> 0). { rewrite H1. apply Rmult_integral_contrapositive. split; [lra|auto]. }
      split; [|split; [exact N1|field; lra]].
      split; apply Rmult_lt_reg_r with den; try lra; replace (ph / den * den) with ph by (field; lra); unfold den; lra.
Qed.
Lemma recursion_off e m t0 t1 x nc : badinv 2 e t0 t1 -> nc = Z.of_nat m -> (2 <= m <= cells p1)%nat ->
  (m < cells p1 \/ sd_greville p1 = false)%nat ->
  exists t0' t1' y, recursion p1 p2 true nc (t0, t1, x) = Ok (t0', t1', y) /\ badinv m e t0' t1' /\ ((2 < m)%nat -> y = t1').
Proof.
  intros I -> Hm G. unfold recursion. replace (Z.to_nat (Z.of_nat m - 2)) with (m - 2)%nat by lia.
  assert (H : forall k, (k <= m - 2)%nat -> exists t0' t1' y,
    for_res k (fun k t => recursion_step p1 p2 true (Z.of_nat k + 2) t) (t0, t1, x) = Ok (t0', t1', y) /\ badinv (k + 2) e t0' t1' /\
    ((0 < k)%nat -> y = t1')).
  { induction k as [|k IH]; intros Hk.
    - exists t0, t1, x. cbn. split; [reflexivity|]. split; [exact I|]. intros; lia.
    - destruct (IH ltac:(lia)) as (a & b & y & A & IV & _). cbn [for_res]. rewrite A. cbn [bind].
      destruct (step_off e (k + 2) a b y (Z.of_nat k + 2)) as (t2 & B & IV2); auto; try lia.
      { destruct (nxt_cases p1 p2 true (k + 2) ltac:(cbn; lia)) as [N|[N N2]]; [exact N|]. cbn in N, N2. destruct G as [G|G]; [lia|congruence]. }
      exists b, t2, t2. rewrite B. replace (S k + 2)%nat with (k + 2 + 1)%nat by lia. split; [reflexivity|]. split; [exact IV2|]. reflexivity. }
  destruct (H (m - 2)%nat ltac:(lia)) as (a & b & y & A & IV & B). replace (m - 2 + 2)%nat with m in IV by lia.
  exists a, b, y. split; [exact A|]. split; [exact IV|]. intros; apply B; lia.
Qed.
(** after patch 1 the relation with the far points is still wrong *)
Lemma rest_off e t0 t1 x : e <> 0 -> badinv 2 e t0 t1 -> (3 <= cells p1)%nat ->
  exists t, rest_of_patch p1 p2 true (t0, t1, x) = Ok t /\ lens (snd t) /\ exists e', e' <> 0 /\ off (snd t) (length (sd_x p1) - 1) e'.
Proof.
  intros HE I HN. unfold rest_of_patch.
  assert (CN : cells p1 = (length (sd_x p1) - if sd_greville p1 then 2 else 1)%nat) by reflexivity.
  pose proof (cells_lt _ O1) as CL. unfold sd_n.
  destruct (sd_greville p1) eqn:G.
  - destruct (recursion_off e (cells p1 - 1) t0 t1 x (Z.of_nat (length (sd_x p1)) - 3)) as (a & b & y & A & IV & _); auto; try lia.
    rewrite A. cbn [bind]. pose proof IV as [L0 L1 _ _].
    destruct (correction_raw p1 p2 O1 O2 true (cells p1 - 1) a b y) as (ka & l & w & HK & HL & HG & AD & CB); cbn [IfdProofs.pp]; auto; try lia; [apply L0|apply L1|].
    rewrite CB. eexists. split; [reflexivity|]. cbn [snd]. cbn [IfdProofs.pp v_of own other negb mk_slot] in *.
    set (r := ka * s1 b / s1 a) in *. set (den := 1 - r) in *. set (t2 := {| s1 := _; s2 := _; w1 := _; w2 := _ |}).
    destruct (HG _ _ _ _ K) as (g & EG & AG). cbn [F_] in EG, AG.
    destruct (adds_spec p1 l (combine_weights den r (w1 b) (w1 a))) as (w' & AD' & LW & SW & _); auto.
    { apply combine_len; [apply L1|apply L0]. }
    rewrite AD in AD'. injection AD' as <-.
    assert (EE : E p1 p2 t2 FL FR = 1 / den * (E p1 p2 b FL FR - r * E p1 p2 a FL FR) + 1 / den * s1 b * g).
    { apply (combine_E den r a b t2 w L0 L1 eq_refl eq_refl). rewrite SW, wsum_combine by (apply L1 || apply L0). rewrite AG. reflexivity. }
    assert (EG' : YL (cells p1 - 1)%nat = g + ka * YL (cells p1 - 1 - 1)%nat + 0 * YL (length (sd_x p1) - 1)%nat) by lra.
    destruct (off_next _ e a b t2 ka 0 g (length (sd_x p1) - 1) IV HK EG' eq_refl eq_refl EE) as [_ (k1 & k2 & Hk & _ & R2)].
    split.
    + split; cbn; [rewrite LW|]; apply combine_len; (apply L1 || apply L0).
    + exists (k2 * e). split; [apply Rmult_integral_contrapositive; split; lra|exact R2].
  - destruct (recursion_off e (cells p1) t0 t1 x (Z.of_nat (length (sd_x p1)) - 1)) as (a & b & y & A & IV & Y1); auto; try lia.
    rewrite A. cbn [bind]. eexists. split; [reflexivity|]. cbn [snd]. rewrite (Y1 ltac:(lia)).
    destruct IV as [_ L1 (k0 & k1 & Hk & _ & R1) _]. split; [exact L1|].
    exists (k1 * e). split; [apply Rmult_integral_contrapositive; split; lra|].
    replace (length (sd_x p1) - 1)%nat with (cells p1) by lia. exact R1.
Qed.
End Wrong.

Lemma two_extra_2 p1 p2 : ordered p1 -> ordered p2 -> sd_greville p2 = true -> cells p2 = 2%nat -> (3 <= cells p1)%nat ->
  exists c, non_uniform_case p1 p2 = Ok c /\ length (w1 c) = length (sd_x p1) /\ length (w2 c) = length (sd_x p2) /\
    E p1 p2 c (fun k => cub 0 0 1 0 (- dist p1 k)) (fun k => cub 0 0 1 0 (dist p2 k)) +
      s1 c * cub1 0 1 0 (- far p1) + s2 c * cub1 0 1 0 (far p2) <> 0.
Proof.
  intros O1 O2 GR N2 N1. pose proof (cells_lt _ O1) as C1. pose proof (cells_lt _ O2) as C2.
  assert (L2 : length (sd_x p2) = 4%nat) by (unfold cells in N2; rewrite GR in N2; lia).
  set (p2' := plain p2). assert (O2' : ordered p2') by (apply plain_ordered; auto).
  assert (N2' : cells p2' = 3%nat) by (unfold cells, p2', plain; cbn [sd_greville sd_x]; lia).
  unfold non_uniform_case. assert (B1 : (sd_n p1 <? 2)%Z = false) by (unfold sd_n; lia). assert (B2 : (sd_n p2 <? 2)%Z = false) by (unfold sd_n; lia).
  rewrite B1, B2. destruct (first_spec p1 p2' O1 O2' ltac:(lia) ltac:(cbn; lia)) as (t0 & A0 & G0 & R0 & _ & _ & S1 & S2 & S12).
  change (first_slot p1 p2) with (first_slot p1 p2'). rewrite A0. cbn [bind].
  assert (X1 : nxt p1 1 = 2%nat) by (unfold nxt; destruct (Nat.ltb_spec (1 + 1) (cells p1)); lia).
  assert (X2 : nxt p2' 1 = 2%nat) by (unfold nxt; rewrite N2'; reflexivity).
  destruct (second_2_spec p1 p2' O1 O2' (- 2 * s1 t0) 1 t0 G0 R0 S2 ltac:(lia) X2) as (t3 & A1 & I1).
  { intros ka HK. split; [lra|]. assert (0 < - s2 t0 * (1 + ka)) by (apply Rmult_lt_0_compat; lra). lra. }
  change (second_slot_2 p1 p2 t0) with (second_slot_2 p1 p2' t0). rewrite A1. cbn [bind].
  match goal with |- context [bind (rest_of_patch p1 p2 false ?t) ?k] => set (kk := k) end.
  unfold rest_of_patch. rewrite GR. unfold sd_n. rewrite L2.
  change (recursion p1 p2 false (Z.of_nat 4 - 3) (t0, t3, t3)) with (Ok (t0, t3, t3)). cbn [bind].
  pose proof I1 as [[LA LB _] [LA3 LB3 _] R0' R3 _ _].
  destruct (correction_raw p1 p2 O1 O2 false 1 t0 t3 t3) as (ka & l & w & HK & HL & HG & AD & CB); cbn [IfdProofs.pp]; auto; try lia.
  rewrite CB. cbn [bind]. cbn [IfdProofs.pp v_of own other negb mk_slot] in *.
  set (r := ka * s2 t3 / s2 t0) in *. set (den := 1 - r) in *.
  set (tm := {| s1 := _; s2 := _; w1 := _; w2 := _ |}). unfold kk. cbn [snd bind]. clear kk.
  destruct (adds_spec p2 l (combine_weights den r (w2 t3) (w2 t0))) as (w' & AD' & LW & SW & _); auto.
  { apply combine_len; assumption. }
  rewrite AD in AD'. injection AD' as <-.
  assert (LC1 : length (combine_weights den r (w2 t3) (w2 t0)) = length (sd_x p2)) by (apply combine_len; assumption).
  assert (LM : lens p1 p2 tm) by (split; cbn; [apply combine_len; assumption|lia]).
  destruct (mag_step p1 p2' false _ _ _ _ t0 t3 ka I1 HK) as (RB & N0 & DN & (OP & _) & u1 & u2 & v1 & v2 & _ & M2 & M3 & M4 & M5 & M6 & M7 & M8 & _).
  cbn [own other] in RB, N0, DN, OP, M2. fold r in RB, DN, M2. fold den in DN, M2.
  assert (SM : -1 / 2 < s1 tm < 0).
  { cbn [s1 tm]. rewrite M2. assert (Hu : 0 < u2) by lra. assert (Hv : 0 < v2) by lra. assert (Q : 0 < v2 / u2) by (apply Rdiv_lt_0_compat; auto).
    replace (s1 t0 * v2 / u2) with (s1 t0 * (v2 / u2)) by (field; lra). split; [|nra].
    apply Rmult_lt_reg_r with u2; auto. replace (s1 t0 * (v2 / u2) * u2) with (s1 t0 * v2) by (field; lra). lra. }
  pose proof (cubic_spline p1 p2 0 0 1 0) as SP. pose proof (cubic_spline p1 p2' 0 0 1 0) as SP'.
  pose proof (spline_consistent p1 p2 _ _ O1 O2 ltac:(left; lia) ltac:(left; lia) SP) as K.
  pose proof (spline_consistent p1 p2' _ _ O1 O2' ltac:(left; lia) ltac:(left; lia) SP') as K'.
  destruct (HG _ _ _ _ K) as (G & EG & AG). cbn [F_] in EG, AG.
  assert (Q0 : cub 0 0 1 0 (dist p2 0) = 0) by (rewrite dist_0; unfold cub; ring).
  set (D1 := dist p2 1) in *. set (D2 := dist p2 2) in *.
  set (e := 2 * s2 t3 / den * (D2 - D1 - ka * D1)).
  assert (HD1 : 0 < D1). { unfold D1. pose proof (dist_lt p2 0 1 O2 ltac:(lia)). rewrite dist_0 in *. lra. }
  assert (HD2 : D1 < D2) by (apply dist_lt; auto; lia).
  assert (S3 : s2 t3 <> 0) by (intros Z; rewrite Z, Rabs_R0 in OP; lra).
  assert (RS : r * s2 t0 = ka * s2 t3) by (unfold r; field; auto).
  assert (He : e <> 0).
  { unfold e. apply Rmult_integral_contrapositive. split; [|nra]. unfold Rdiv. apply Rmult_integral_contrapositive. split; [lra|apply Rinv_neq_0_compat; auto]. }
  assert (OFF : off p1 p2 (fun k => cub 0 0 1 0 (- dist p1 k)) (fun k => cub 0 0 1 0 (dist p2 k)) (fun k => cub1 0 1 0 (- dist p1 k))
                  (fun k => cub1 0 1 0 (dist p2 k)) (length (sd_x p2) - 1) tm 1 e).
  { unfold off. rewrite E_zero by exact Q0. cbn [s1 s2 w1 w2 tm].
    pose proof (R0' _ _ _ _ K') as E0. pose proof (R3 _ _ _ _ K') as E1. cbv beta in E0, E1.
    change (dist p2') with (dist p2) in E0, E1. change (2 - 1)%nat with 1%nat in E0. fold D1 in E0. fold D2 in E1.
    cbv beta in EG. change (1 - 1)%nat with 0%nat in EG. fold D1 in EG.
    change (E p1 p2' t0) with (E p1 p2 t0) in E0. change (E p1 p2' t3) with (E p1 p2 t3) in E1.
    rewrite E_zero in E0, E1 by exact Q0. rewrite dist_0 in *.
    assert (V1 : cub1 0 1 0 D1 = 2 * D1) by (unfold cub1; ring). assert (V2 : cub1 0 1 0 D2 = 2 * D2) by (unfold cub1; ring).
    assert (V0 : cub1 0 1 0 0 = 0) by (unfold cub1; ring). rewrite V0, ?V1, ?V2 in *.
    rewrite SW, AG, !wsum_combine by assumption. assert (EG' : G = 2 * D1) by lra. subst G.
    set (YF := cub1 0 1 0 (- dist p1 1)) in *.
    set (a3 := wsum p1 (w1 t3) _) in *. set (am := wsum p1 (w1 t0) _) in *. set (b3 := wsum p2 (w2 t3) _) in *. set (bm := wsum p2 (w2 t0) _) in *.
    assert (A3' : a3 = - b3 - s1 t3 * YF - s2 t3 * (2 * D2)) by lra. assert (Am' : am = - bm - s1 t0 * YF - s2 t0 * (2 * D1)) by lra.
    rewrite A3', Am'. unfold e.
    replace (2 * s2 t3 / den * (D2 - D1 - ka * D1)) with ((2 * s2 t3 * (D2 - D1) - 2 * D1 * (ka * s2 t3)) / den) by (field; auto).
    rewrite <- RS. field. auto. }
  clearbody e. destruct (second_off p1 p2 O1 O2 _ _ _ _ K Q0 _ tm e LM OFF SM ltac:(lia) X1) as (t4 & A4 & I4).
  rewrite A4. cbn [bind].
  destruct (rest_off p1 p2 O1 O2 _ _ _ _ K Q0 _ e tm t4 tm He I4 N1) as (t & A5 & LT & e' & He' & OF).
  rewrite A5. cbn [bind]. exists (snd t). split; [reflexivity|]. split; [exact (proj1 LT)|]. split; [rewrite (proj2 LT); exact L2|].
  unfold off in OF. rewrite dist_0 in OF. assert (V0 : cub1 0 1 0 0 = 0) by (unfold cub1; ring). rewrite V0 in OF. unfold far. lra.
Qed.
Theorem two_extra_wrong_2 p1 p2 : ordered p1 -> ordered p2 -> breaks_are_points p1 -> breaks_are_points p2 ->
  sd_uniform p1 && sd_uniform p2 = false -> sd_greville p2 = true -> cells p2 = 2%nat -> (3 <= cells p1)%nat ->
  exists c s d, calculator p1 p2 = Ok c /\ global_spline p1 p2 s d /\ ~ relation_holds p1 p2 c s d.
Proof.
  intros O1 O2 B1 B2 NU G2 N2 N1.
  destruct (two_extra_2 p1 p2 O1 O2 G2 N2 N1) as (c & A & W1 & W2 & NE).
  exists c, (cub 0 0 1 0), (cub1 0 1 0). rewrite calculator_eq, NU by auto. split; [exact A|].
  split; [apply cubic_spline|]. intros RH.
  destruct (values_exist p1 p2 (cub 0 0 1 0)) as (f1 & f2 & V). destruct (RH f1 f2 V) as (v & EV & EQ).
  rewrite (function_coefficients_len p1 p2 O1 O2 c f1 f2 _ W1 W2 V) in EV.
  match type of EV with Ok ?e = Ok _ => assert (Ev : v = e) by congruence end. apply NE. rewrite <- Ev.
  unfold get_coeff_deriv_patch_1, get_coeff_deriv_patch_2 in EQ.
  assert (Z : cub1 0 1 0 0 = 0) by (unfold cub1; ring). lra.
Qed.
