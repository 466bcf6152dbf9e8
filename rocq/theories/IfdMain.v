(** The recursion of the interface derivatives: the steps (C68). *)
From Verif Require Import IfdSpec IfdAnalysis OnionProofs IfdProofs.
From Coq Require Import ZifyBool.
Open Scope R_scope.

Lemma idx_add p k (z : Z) : (interface_idx p + z * idx_step p = interface_idx p + z * idx_step p)%Z -> z = Z.of_nat k ->
  (interface_idx p + z * idx_step p = interface_idx p + Z.of_nat k * idx_step p)%Z.
Proof. intros _ ->. reflexivity. Qed.
(** additions at points given by their numbers from the interface *)
Fixpoint adds (p : side) (v : list R) (l : list (nat * R)) : res (list R) :=
  match l with
  | [] => Ok v
  | (k, a) :: t => let* v := add_at v (interface_idx p + Z.of_nat k * idx_step p) a in adds p v t
  end.
Fixpoint asum (F : nat -> R) (l : list (nat * R)) : R := match l with [] => 0 | (k, a) :: t => a * F k + asum F t end.
Lemma adds_spec p l : forall v, length v = length (sd_x p) -> (forall k a, In (k, a) l -> (k < length (sd_x p))%nat) -> exists v',
  adds p v l = Ok v' /\ length v' = length v /\ (forall F, wsum p v' F = wsum p v F + asum F l) /\
  wt p v' 0 = wt p v 0 + asum (fun k => if (k =? 0)%nat then 1 else 0) l.
Proof.
  induction l as [|[k a] l IH]; intros v L H.
  - exists v. cbn. repeat split; auto; intros; ring.
  - destruct (add_at_pos p v k a (H k a (or_introl eq_refl)) L) as (v1 & A & L1 & W).
    destruct (IH v1 ltac:(lia) (fun k a h => H k a (or_intror h))) as (v' & B & L2 & S & Z).
    exists v'. cbn [adds asum]. rewrite A. cbn [bind]. split; [exact B|]. split; [lia|]. split.
    + intros F. rewrite S, (wsum_add p v v1 k a F (H k a (or_introl eq_refl)) W). ring.
    + rewrite Z, W by (pose proof (H k a (or_introl eq_refl)); lia). rewrite (Nat.eqb_sym 0 k). destruct (k =? 0)%nat; ring.
Qed.

Section Pair.
Variables p1 p2 : side.
Hypothesis O1 : ordered p1.
Hypothesis O2 : ordered p2.
Local Notation pp := (pp p1 p2).
Local Notation E := (E p1 p2).
Local Notation good := (good p1 p2).
Local Notation relo := (relo p1 p2).
Local Notation inv := (inv p1 p2).
Local Notation consistent := (consistent p1 p2).

(** a new slot from the previous two: combination of the weights and additions [l] on the patch itself *)
Lemma new_slot on1 o lam n jo t0 t1 ka ph j l : inv on1 o lam n jo t0 t1 -> -1 / 2 < ka < 0 ->
  (forall k a, In (k, a) l -> (1 <= k < length (sd_x (pp on1)))%nat) ->
  let r := ka * own on1 t1 / own on1 t0 in let den := 1 - r in
  (forall FL FR YL YR, consistent FL FR YL YR ->
     let F := F_ on1 FL FR in let Y := F_ on1 YL YR in
     exists G, Y n = G + ka * Y (n - 1)%nat + ph * Y j /\ asum F l = 1 / den * own on1 t1 * G) ->
  exists v, adds (pp on1) (combine_weights den r (v_of on1 t1) (v_of on1 t0)) l = Ok v /\
    let u := combine_weights den r (v_of (negb on1) t1) (v_of (negb on1) t0) in
    forall t2, own on1 t2 = ph * own on1 t1 / den -> other on1 t2 = (other on1 t1 - r * other on1 t0) / den ->
      v_of on1 t2 = v -> v_of (negb on1) t2 = u -> good t2 /\ relo on1 t2 j jo.
Proof.
  intros I HK HL r den HG. pose proof I as [G0 G1 R0 R1 _ _].
  assert (LO : forall s b, good s -> length (v_of b s) = length (sd_x (pp b))).
  { intros s b [A B _]. destruct b; cbn; auto. }
  assert (WZ : forall s b, good s -> wt (pp b) (v_of b s) 0 = wt p2 (w2 s) 0).
  { intros s b [A B C]. destruct b; cbn; auto. }
  destruct (mag_step p1 p2 on1 o lam n jo t0 t1 ka I HK) as (RB & N0 & DN & _). fold r den in RB, DN.
  assert (NP : forall b, (0 < length (sd_x (pp b)))%nat).
  { intros b. pose proof (cells_lt _ (pp_ordered p1 p2 O1 O2 b)). lia. }
  destruct (adds_spec (pp on1) l (combine_weights den r (v_of on1 t1) (v_of on1 t0))) as (v & A & L & S & Z).
  { apply combine_len; apply LO; auto. }
  { intros k a h. apply HL in h. lia. }
  exists v. split; [exact A|]. intros u t2 E1 E2 E3 E4.
  assert (Z0 : asum (fun k => if (k =? 0)%nat then 1 else 0) l = 0).
  { clear - HL. induction l as [|[k a] l IH]; [reflexivity|]. cbn [asum]. rewrite IH by (intros; eapply HL; right; eauto).
    pose proof (HL k a (or_introl eq_refl)). destruct (Nat.eqb_spec k 0); [lia|ring]. }
  rewrite Z0, Rplus_0_r, combine_wt in Z by (try apply LO; auto).
  assert (U0 : wt (pp (negb on1)) u 0 = 1 / den * (wt (pp (negb on1)) (v_of (negb on1) t1) 0 - r * wt (pp (negb on1)) (v_of (negb on1) t0) 0)).
  { unfold u. rewrite combine_wt by (try apply LO; auto). reflexivity. }
  assert (LU : length u = length (sd_x (pp (negb on1)))) by (unfold u; apply combine_len; apply LO; auto).
  assert (LV : length v = length (sd_x (pp on1))) by (rewrite L; apply combine_len; apply LO; auto).
  rewrite !WZ in Z, U0 by auto.
  assert (G2 : good t2).
  { destruct on1; cbn [v_of negb] in *; split; subst; auto; cbn in *; rewrite E3 || rewrite E4; try (rewrite E4 || rewrite E3); auto; try congruence. }
  split; [exact G2|]. apply relo_iff. intros FL FR YL YR C.
  destruct (HG FL FR YL YR C) as (G & EQ & AS).
  apply relo_iff with (FL := FL) (FR := FR) (YL := YL) (YR := YR) in R0; [|exact C].
  apply relo_iff with (FL := FL) (FR := FR) (YL := YL) (YR := YR) in R1; [|exact C].
  pose proof (eliminate _ _ _ _ _ _ _ _ _ _ _ G ka ph N0 DN R0 R1 EQ) as EL. cbv zeta in EL. fold r den in EL.
  rewrite EL, E1, E2. f_equal. f_equal.
  rewrite (E_side p1 p2 on1 t2 FL FR YL YR C G2), (E_side p1 p2 on1 t1 FL FR YL YR C G1), (E_side p1 p2 on1 t0 FL FR YL YR C G0).
  rewrite E3, E4, S. unfold u. rewrite !wsum_combine by (apply LO; auto). rewrite Z, AS, !WZ by auto. ring.
Qed.

Lemma inv_next on1 o lam n jo t0 t1 t2 ka ph : inv on1 o lam n jo t0 t1 -> -1 / 2 < ka < 0 -> -1 / 2 < ph < 0 -> ka + ph = -1 / 2 ->
  (1 <= n)%nat ->
  let r := ka * own on1 t1 / own on1 t0 in let den := 1 - r in
  own on1 t2 = ph * own on1 t1 / den -> other on1 t2 = (other on1 t1 - r * other on1 t0) / den ->
  good t2 -> relo on1 t2 (n + 1) jo -> inv on1 o lam (n + 1) jo t1 t2.
Proof.
  intros I HK HP KP Hn r den E1 E2 G2 R2.
  destruct (mag_step p1 p2 on1 o lam n jo t0 t1 ka I HK) as (RB & N0 & DN & OW & u1 & u2 & v1 & v2 & M1 & M2 & M3 & M4 & M5 & M6 & M7 & M8 & M9).
  fold r den in RB, DN, M2, M9. destruct I as [_ G1 _ R1 _ _].
  split; auto.
  - replace (n + 1 - 1)%nat with n by lia. exact R1.
  - replace (n + 1 - 1)%nat with n by lia. exact OW.
  - assert (D1 : 0 < den < 1) by (unfold den; lra).
    assert (Q : ph * u1 / u2 = ph / den) by (rewrite M9; field; split; lra).
    exists u1, u2, v1, v2, ph.
    split; [exact HP|]. split; [rewrite E1, Q; field; auto|]. split; [exact M1|]. split; [rewrite E2; exact M2|].
    split; [exact M3|]. split; [exact M4|]. split; [exact M5|]. split; [exact M6|]. split; [exact M7|]. split; [exact M8|].
    rewrite Q. split; apply Rmult_lt_reg_r with den; try lra; replace (ph / den * den) with ph by (field; auto); unfold den; lra.
Qed.

Lemma add_at_eq v i i' a : i = i' -> add_at v i a = add_at v i' a.
Proof. intros ->. reflexivity. Qed.
Lemma lengths_at on1 z k : z = Z.of_nat k -> (1 <= k)%nat -> (k + 1 < length (sd_x (pp on1)))%nat ->
  get_cell_lengths p1 p2 on1 (interface_idx (pp on1) + z * idx_step (pp on1)) =
    Ok (if on1 then (dist (pp on1) (k + 1) - dist (pp on1) k, dist (pp on1) k - dist (pp on1) (k - 1))
        else (dist (pp on1) k - dist (pp on1) (k - 1), dist (pp on1) (k + 1) - dist (pp on1) k)).
Proof. intros -> A B. exact (lengths_inner p1 p2 on1 k (pp_ordered p1 p2 O1 O2 on1) A B). Qed.
Lemma nxt_cases on1 j : (j < cells (pp on1))%nat -> nxt (pp on1) j = (j + 1)%nat \/ (j = cells (pp on1) - 1 /\ sd_greville (pp on1) = true)%nat.
Proof.
  intros H. unfold nxt. destruct (Nat.ltb_spec (j + 1) (cells (pp on1))); [auto|].
  unfold cells in *. destruct (sd_greville (pp on1)); [right; split; auto; lia|left; lia].
Qed.
Lemma lengths_pos on1 k : (1 <= k)%nat -> (k + 1 < length (sd_x (pp on1)))%nat ->
  0 < dist (pp on1) k - dist (pp on1) (k - 1) /\ 0 < dist (pp on1) (k + 1) - dist (pp on1) k.
Proof.
  intros A B. pose proof (dist_lt (pp on1) (k - 1) k (pp_ordered p1 p2 O1 O2 on1) ltac:(lia)).
  pose proof (dist_lt (pp on1) k (k + 1) (pp_ordered p1 p2 O1 O2 on1) ltac:(lia)). lra.
Qed.
Lemma own_mk on1 a b v u : own on1 (mk_slot on1 a b v u) = a.
Proof. destruct on1; reflexivity. Qed.
Lemma other_mk on1 a b v u : other on1 (mk_slot on1 a b v u) = b.
Proof. destruct on1; reflexivity. Qed.

Lemma step_spec on1 o lam n jo t0 t1 x z : z = Z.of_nat n -> inv on1 o lam n jo t0 t1 -> (2 <= n < cells (pp on1))%nat -> nxt (pp on1) n = (n + 1)%nat ->
  exists t2, recursion_step p1 p2 on1 z (t0, t1, x) = Ok (t1, t2, t2) /\ inv on1 o lam (n + 1) jo t1 t2.
Proof.
  intros -> I Hn NX. pose proof (cells_lt _ (pp_ordered p1 p2 O1 O2 on1)) as CL.
  pose proof (nxt_lt _ n (pp_ordered p1 p2 O1 O2 on1) ltac:(lia)) as NL. rewrite NX in NL.
  destruct (lengths_pos on1 n ltac:(lia) ltac:(lia)) as [PC PF].
  set (c := dist (pp on1) n - dist (pp on1) (n - 1)) in *. set (f := dist (pp on1) (n + 1) - dist (pp on1) n) in *.
  destruct (kap_phi c f PC PF) as (HK & HP & KP).
  set (ka := kap c f) in *. set (ph := phi c f) in *.
  set (r := ka * own on1 t1 / own on1 t0). set (den := 1 - r).
  set (fa := 1 / den * own on1 t1).
  set (l := [((n + 1)%nat, fa * (sg on1 * (3 / 2 / (c + f) * (c / f)))); (n, fa * (sg on1 * (3 / 2 / (c + f) * (f / c - c / f))));
             ((n - 1)%nat, fa * (sg on1 * (3 / 2 / (c + f) * (- (f / c)))))]).
  destruct (new_slot on1 o lam n jo t0 t1 ka ph (n + 1) l I HK) as (v & A & T).
  { unfold l. intros k a [H|[H|[H|[]]]]; injection H as <- <-; lia. }
  { intros FL FR YL YR C F Y.
    pose proof (se_cell _ _ _ _ (side_of p1 p2 on1 FL FR YL YR C) n ltac:(lia)) as EQ. rewrite NX in EQ.
    unfold closer, further in EQ. rewrite NX in EQ. fold c f ka ph F Y in EQ.
    exists (sg on1 * gam c f (F (n - 1)%nat) (F n) (F (n + 1)%nat)). split; [exact EQ|].
    unfold l, gam. cbn [asum]. fold r den fa. ring. }
  fold r den in A, T.
  set (u := combine_weights den r (v_of (negb on1) t1) (v_of (negb on1) t0)) in *.
  exists (mk_slot on1 (ph * own on1 t1 / den) ((other on1 t1 - r * other on1 t0) / den) (if on1 then v else u) (if on1 then u else v)).
  destruct (T (mk_slot on1 (ph * own on1 t1 / den) ((other on1 t1 - r * other on1 t0) / den) (if on1 then v else u) (if on1 then u else v))) as [G2 R2].
  1: apply own_mk. 1: apply other_mk. 1, 2: destruct on1; reflexivity.
  split.
  - unfold recursion_step. fold (pp on1). rewrite (lengths_at on1 _ n eq_refl) by lia. fold c f. cbn [bind].
    assert (AL : forall b : bool, (if b then (f, c) else (c, f)) = (if b then f else c, if b then c else f)) by (intros []; reflexivity).
    rewrite AL. cbn [bind].
    assert (QF : (if on1 then get_beta (if on1 then f else c) (if on1 then c else f) else get_alpha (if on1 then f else c) (if on1 then c else f)) = ph).
    { unfold ph, phi, get_alpha, get_beta. destruct on1; field; lra. }
    assert (QC : (if on1 then get_alpha (if on1 then f else c) (if on1 then c else f) else get_beta (if on1 then f else c) (if on1 then c else f)) = ka).
    { unfold ka, kap, get_alpha, get_beta. destruct on1; field; lra. }
    rewrite QF, QC. unfold get_gammas. fold r. fold den. fold fa.
    clear T R2 G2 QF QC AL. unfold adds, l in A. destruct on1; cbn [v_of negb pp sg fst snd] in *.
    + replace (Z.of_nat n + 1)%Z with (Z.of_nat (n + 1)) by lia. replace (Z.of_nat n - 1)%Z with (Z.of_nat (n - 1)) by lia.
      replace (fa * (- (3 / 2 / (f + c)) * (c / f))) with (fa * (-1 * (3 / 2 / (c + f) * (c / f)))) by (field; lra).
      replace (fa * (3 / 2 / (f + c) * (c / f - f / c))) with (fa * (-1 * (3 / 2 / (c + f) * (f / c - c / f)))) by (field; lra).
      replace (fa * (3 / 2 / (f + c) * (f / c))) with (fa * (-1 * (3 / 2 / (c + f) * - (f / c)))) by (field; lra).
      destruct (add_at _ _ _) as [v1| | |] eqn:A1; cbn [bind] in A; try discriminate. cbn [bind].
      destruct (add_at v1 _ _) as [v2| | |] eqn:A2; cbn [bind] in A; try discriminate. cbn [bind].
      destruct (add_at v2 _ _) as [v3| | |] eqn:A3; cbn [bind] in A; try discriminate. cbn [bind].
      replace v with v3 by congruence. reflexivity.
    + replace (Z.of_nat n + 1)%Z with (Z.of_nat (n + 1)) by lia. replace (Z.of_nat n - 1)%Z with (Z.of_nat (n - 1)) by lia.
      replace (fa * (3 / 2 / (c + f) * (c / f))) with (fa * (1 * (3 / 2 / (c + f) * (c / f)))) by ring.
      replace (fa * (3 / 2 / (c + f) * (f / c - c / f))) with (fa * (1 * (3 / 2 / (c + f) * (f / c - c / f)))) by ring.
      replace (fa * (- (3 / 2 / (c + f)) * (f / c))) with (fa * (1 * (3 / 2 / (c + f) * - (f / c)))) by ring.
      destruct (add_at _ _ _) as [v1| | |] eqn:A1; cbn [bind] in A; try discriminate. cbn [bind].
      destruct (add_at v1 _ _) as [v2| | |] eqn:A2; cbn [bind] in A; try discriminate. cbn [bind].
      destruct (add_at v2 _ _) as [v3| | |] eqn:A3; cbn [bind] in A; try discriminate. cbn [bind].
      replace v with v3 by congruence. reflexivity.
  - apply (inv_next on1 o lam n jo t0 t1 _ ka ph I HK HP KP); auto; try lia; [apply own_mk|apply other_mk].
Qed.

Lemma recursion_spec on1 o lam m jo t0 t1 x nc : inv on1 o lam 2 jo t0 t1 -> nc = Z.of_nat m -> (2 <= m <= cells (pp on1))%nat ->
  (m < cells (pp on1) \/ sd_greville (pp on1) = false)%nat ->
  exists t0' t1' y, recursion p1 p2 on1 nc (t0, t1, x) = Ok (t0', t1', y) /\ inv on1 o lam m jo t0' t1' /\
    ((2 < m)%nat -> y = t1') /\ (m = 2%nat -> t0' = t0 /\ t1' = t1 /\ y = x).
Proof.
  intros I -> Hm G. unfold recursion. replace (Z.to_nat (Z.of_nat m - 2)) with (m - 2)%nat by lia.
  assert (H : forall k, (k <= m - 2)%nat -> exists t0' t1' y,
    for_res k (fun k t => recursion_step p1 p2 on1 (Z.of_nat k + 2) t) (t0, t1, x) = Ok (t0', t1', y) /\ inv on1 o lam (k + 2) jo t0' t1' /\
    ((0 < k)%nat -> y = t1') /\ (k = 0%nat -> t0' = t0 /\ t1' = t1 /\ y = x)).
  { induction k as [|k IH]; intros Hk.
    - exists t0, t1, x. cbn. split; [reflexivity|]. split; [exact I|]. split; [intros; lia|auto].
    - destruct (IH ltac:(lia)) as (a & b & y & A & IV & _ & _). cbn [for_res]. rewrite A. cbn [bind].
      destruct (step_spec on1 o lam (k + 2) jo a b y (Z.of_nat k + 2)) as (t2 & B & IV2); auto; try lia.
      { destruct (nxt_cases on1 (k + 2) ltac:(lia)) as [N|[N N2]]; [exact N|]. destruct G as [G|G]; [lia|congruence]. }
      exists b, t2, t2. rewrite B. replace (S k + 2)%nat with (k + 2 + 1)%nat by lia. split; [reflexivity|]. split; [exact IV2|]. split; [reflexivity|intros; lia]. }
  destruct (H (m - 2)%nat ltac:(lia)) as (a & b & y & A & IV & B & C). replace (m - 2 + 2)%nat with m in IV by lia.
  exists a, b, y. split; [exact A|]. split; [exact IV|]. split; intros; [apply B|apply C]; lia.
Qed.

Lemma bernoulli_ratio t : 0 < t < 1 -> (1 - t) * (1 - t) * t / (t * t * (t - 1)) < 0.
Proof.
  intros H. replace ((1 - t) * (1 - t) * t / (t * t * (t - 1))) with (- ((1 - t) / t)) by (field; split; lra).
  assert (0 < (1 - t) / t) by (apply Rdiv_lt_0_compat; lra). lra.
Qed.
Lemma k1_neg t : 0 < t < 1 -> t * t * (t - 1) < 0.
Proof. intros H. assert (0 < t * t) by (apply Rmult_lt_0_compat; lra). assert (0 < t * t * (1 - t)) by (apply Rmult_lt_0_compat; lra). lra. Qed.
Lemma correction_spec on1 o lam n jo t0 t1 x : inv on1 o lam n jo t0 t1 -> sd_greville (pp on1) = true -> n = (cells (pp on1) - 1)%nat -> (2 <= n)%nat ->
  exists t2 ka, correction_boundary p1 p2 on1 (t0, t1, x) = Ok (t0, t1, t2) /\ good t2 /\ relo on1 t2 (length (sd_x (pp on1)) - 1) jo /\
    own on1 t2 = 0 /\ -1 / 2 < ka < 0 /\
    other on1 t2 = (other on1 t1 - (ka * own on1 t1 / own on1 t0) * other on1 t0) / (1 - ka * own on1 t1 / own on1 t0).
Proof.
  intros I GR En Hn. assert (Hlen : length (sd_x (pp on1)) = (n + 3)%nat) by (unfold cells in En; rewrite GR in En; lia).
  assert (NX : nxt (pp on1) n = (n + 2)%nat).
  { unfold nxt. destruct (Nat.ltb_spec (n + 1) (cells (pp on1))); lia. }
  assert (OO := pp_ordered p1 p2 O1 O2 on1).
  pose proof (dist_lt (pp on1) (n - 1) n OO ltac:(lia)) as D1. pose proof (dist_lt (pp on1) n (n + 1) OO ltac:(lia)) as D2.
  pose proof (dist_lt (pp on1) (n + 1) (n + 2) OO ltac:(lia)) as D3.
  set (c := dist (pp on1) n - dist (pp on1) (n - 1)). set (h := dist (pp on1) (n + 2) - dist (pp on1) n).
  set (a := dist (pp on1) (n + 1) - dist (pp on1) n). set (b := dist (pp on1) (n + 2) - dist (pp on1) (n + 1)).
  assert (PC : 0 < c) by (unfold c; lra). assert (PF : 0 < h) by (unfold h; lra). assert (PA : 0 < a) by (unfold a; lra).
  assert (PB : 0 < b) by (unfold b; lra). assert (AB : a + b = h) by (unfold a, b, h; ring).
  set (t := a / h). assert (T01 : 0 < t < 1).
  { unfold t. split; [apply Rdiv_lt_0_compat; lra|]. apply Rmult_lt_reg_r with h; auto. unfold Rdiv. rewrite Rmult_assoc, Rinv_l by lra. lra. }
  destruct (kap_phi c h PC PF) as (HK & HP & _).
  set (K0 := (1 - t) * (1 - t) * t). set (K1 := t * t * (t - 1)). set (H0 := (1 - t) * (1 - t) * (1 + 2 * t)). set (H1 := t * t * (3 - 2 * t)).
  assert (RT : K0 / K1 < 0) by (apply bernoulli_ratio; auto).
  assert (K1n : K1 < 0) by (apply k1_neg; auto).
  assert (DG : 1 < 1 + phi c h * K0 / K1).
  { replace (phi c h * K0 / K1) with (phi c h * (K0 / K1)) by (field; lra). nra. }
  set (dg := 1 / (1 + phi c h * K0 / K1)).
  assert (DG1 : 0 < dg < 1).
  { unfold dg, Rdiv. rewrite Rmult_1_l. split; [apply Rinv_0_lt_compat; lra|]. rewrite <- Rinv_1. apply Rinv_lt_contravar; lra. }
  set (ka := dg * kap c h). assert (HKA : -1 / 2 < ka < 0) by (unfold ka; nra).
  set (r := ka * own on1 t1 / own on1 t0). set (den := 1 - r). set (fa := 1 / den * own on1 t1).
  set (gp := sg on1 * (dg * (3 / 2 / (c + h) * (c / h) - phi c h * H1 / K1 / h))).
  set (gs := sg on1 * (dg * phi c h / K1 / h)).
  set (gi := sg on1 * (dg * (3 / 2 / (c + h) * (h / c - c / h) - phi c h * H0 / K1 / h))).
  set (gm := sg on1 * (dg * (3 / 2 / (c + h) * (- (h / c))))).
  set (l := [((n + 2)%nat, fa * gp); ((n + 1)%nat, fa * gs); (n, fa * gi); ((n - 1)%nat, fa * gm)]).
  destruct (new_slot on1 o lam n jo t0 t1 ka 0 (n + 2) l I HKA) as (v & A & T).
  { unfold l. intros k aa [H|[H|[H|[H|[]]]]]; injection H as <- <-; lia. }
  { intros FL FR YL YR C F Y.
    pose proof (side_of p1 p2 on1 FL FR YL YR C) as [SC SS]. specialize (SS GR). cbv zeta in SS.
    replace (length (sd_x (pp on1)) - 1)%nat with (n + 2)%nat in SS by lia.
    replace (length (sd_x (pp on1)) - 2)%nat with (n + 1)%nat in SS by lia.
    replace (length (sd_x (pp on1)) - 3)%nat with n in SS by lia.
    fold h a t F Y K0 K1 H0 H1 in SS. specialize (SC n ltac:(lia)). unfold closer, further in SC. rewrite NX in SC. fold c h F Y in SC.
    exists (gp * F (n + 2)%nat + gs * F (n + 1)%nat + gi * F n + gm * F (n - 1)%nat). split.
    - assert (SG : sg on1 * sg on1 = 1) by (destruct on1; cbn; ring).
      assert (YP : Y (n + 2)%nat = sg on1 * (F (n + 1)%nat - H0 * F n - H1 * F (n + 2)%nat) / (h * K1) - K0 / K1 * Y n).
      { rewrite SS. replace (sg on1 * (H0 * F n + H1 * F (n + 2)%nat + sg on1 * h * (K0 * Y n + K1 * Y (n + 2)%nat) - H0 * F n - H1 * F (n + 2)%nat))
          with (sg on1 * sg on1 * (h * (K0 * Y n + K1 * Y (n + 2)%nat))) by ring. rewrite SG. field. split; lra. }
      rewrite YP in SC.
      assert (Q : (1 + phi c h * K0 / K1) * Y n = sg on1 * gam c h (F (n - 1)%nat) (F n) (F (n + 2)%nat) + kap c h * Y (n - 1)%nat
                   + phi c h * (sg on1 * (F (n + 1)%nat - H0 * F n - H1 * F (n + 2)%nat) / (h * K1))).
      { rewrite Rmult_plus_distr_r, Rmult_1_l. rewrite SC at 1. field. split; lra. }
      replace (Y n) with (dg * ((1 + phi c h * K0 / K1) * Y n)).
      2:{ unfold dg. rewrite <- Rmult_assoc. replace (1 / (1 + phi c h * K0 / K1) * (1 + phi c h * K0 / K1)) with 1; [ring|].
          unfold Rdiv at 1. rewrite Rmult_1_l, Rinv_l; lra. }
      rewrite Q. unfold gp, gs, gi, gm, ka, gam. clear -PC PF K1n. generalize (phi c h) (kap c h). intros. field. repeat split; lra.
    - unfold l. cbn [asum]. fold r den fa. ring. }
  fold r den in A, T.
  set (u := combine_weights den r (v_of (negb on1) t1) (v_of (negb on1) t0)) in *.
  set (t2 := mk_slot on1 (0 * own on1 t1 / den) ((other on1 t1 - r * other on1 t0) / den) (if on1 then v else u) (if on1 then u else v)).
  destruct (T t2) as [G2 R2].
  1: apply own_mk. 1: apply other_mk. 1, 2: destruct on1; reflexivity.
  exists t2, ka. split; [|split; [exact G2|]; split; [rewrite Hlen; replace (n + 3 - 1)%nat with (n + 2)%nat by lia; exact R2|];
    split; [unfold t2; rewrite own_mk; unfold Rdiv; ring|]; split; [exact HKA|]; unfold t2; rewrite other_mk; reflexivity].
  clear T R2 G2. unfold correction_boundary. fold (pp on1).
  assert (Z1 : (sd_n (pp on1) - 3 = Z.of_nat n)%Z) by (unfold sd_n; lia). rewrite Z1.
  rewrite (lengths_at on1 _ n eq_refl) by lia. rewrite (lengths_at on1 _ (n + 1)) by lia. cbn [bind].
  replace (n + 1 - 1)%nat with n by lia. replace (n + 1 + 1)%nat with (n + 2)%nat by lia. fold a b c.
  assert (Ehl : (if on1 then fst (if on1 then (a, c) else (c, a)) + fst (if on1 then (b, a) else (a, b)) else fst (if on1 then (a, c) else (c, a))) = if on1 then h else c)
    by (destruct on1; cbn [fst]; lra).
  assert (Ehr : (if on1 then snd (if on1 then (a, c) else (c, a)) else snd (if on1 then (a, c) else (c, a)) + snd (if on1 then (b, a) else (a, b))) = if on1 then c else h)
    by (destruct on1; cbn [snd]; lra).
  rewrite Ehl, Ehr. clear Ehl Ehr.
  assert (EF : (if on1 then get_beta (if on1 then h else c) (if on1 then c else h) else get_alpha (if on1 then h else c) (if on1 then c else h)) = phi c h).
  { unfold phi, get_alpha, get_beta. destruct on1; field; lra. }
  assert (EC : (if on1 then get_alpha (if on1 then h else c) (if on1 then c else h) else get_beta (if on1 then h else c) (if on1 then c else h)) = kap c h).
  { unfold kap, get_alpha, get_beta. destruct on1; field; lra. }
  rewrite EF, EC. clear EF EC. unfold get_gammas.
  assert (EX : (if on1 then fst (if on1 then (b, a) else (a, b)) / (if on1 then h else c) else fst (if on1 then (b, a) else (a, b)) / (if on1 then c else h)) = if on1 then 1 - t else t).
  { unfold t. destruct on1; cbn [fst]; [|reflexivity]. replace b with (h - a) by lra. field. lra. }
  rewrite EX. clear EX. unfold adds, l in A.
  assert (ZZ : (Z.of_nat n + 2 = Z.of_nat (n + 2) /\ Z.of_nat n + 1 = Z.of_nat (n + 1) /\ Z.of_nat n - 1 = Z.of_nat (n - 1))%Z) by lia.
  destruct ZZ as (-> & -> & ->).
  destruct on1; cbn [v_of negb IfdProofs.pp sg fst snd] in *.
  - assert (X0 : (1 - (1 - t)) * (1 - (1 - t)) * (1 - t) = - K1) by (unfold K1; ring).
    assert (X1 : (1 - t) * (1 - t) * (1 - t - 1) = - K0) by (unfold K0; ring).
    assert (X2 : (1 - (1 - t)) * (1 - (1 - t)) * (1 + 2 * (1 - t)) = H1) by (unfold H1; ring).
    assert (X3 : (1 - t) * (1 - t) * (3 - 2 * (1 - t)) = H0) by (unfold H0; ring).
    rewrite X0, X1, X2, X3.
    replace (1 / (1 + phi c h * - K0 / - K1)) with dg by (unfold dg; f_equal; f_equal; field; lra).
    fold ka. fold r. fold den. fold fa.
    replace (fa * (dg * (- (3 / 2 / (h + c)) * (c / h) - phi c h * H1 / - K1 / h))) with (fa * gp) by (unfold gp; cbn [sg]; field; repeat split; lra).
    replace (fa * (dg * phi c h / - K1 / h)) with (fa * gs) by (unfold gs; cbn [sg]; field; repeat split; lra).
    replace (fa * (dg * (3 / 2 / (h + c) * (c / h - h / c) - phi c h * H0 / - K1 / h))) with (fa * gi) by (unfold gi; cbn [sg]; field; repeat split; lra).
    replace (fa * (dg * (3 / 2 / (h + c) * (h / c)))) with (fa * gm) by (unfold gm; cbn [sg]; field; repeat split; lra).
    destruct (add_at _ _ _) as [v1| | |] eqn:A1; cbn [bind] in A; try discriminate. cbn [bind].
    destruct (add_at v1 _ _) as [v2| | |] eqn:A2; cbn [bind] in A; try discriminate. cbn [bind].
    destruct (add_at v2 _ _) as [v3| | |] eqn:A3; cbn [bind] in A; try discriminate. cbn [bind].
    destruct (add_at v3 _ _) as [v4| | |] eqn:A4; cbn [bind] in A; try discriminate. cbn [bind].
    replace v4 with v by congruence. reflexivity.
  - fold K0 K1 H0 H1. fold dg. fold ka. fold r. fold den. fold fa.
    replace (fa * (dg * (3 / 2 / (c + h) * (c / h) - phi c h * H1 / K1 / h))) with (fa * gp) by (unfold gp; cbn [sg]; ring).
    replace (fa * (dg * phi c h / K1 / h)) with (fa * gs) by (unfold gs; cbn [sg]; ring).
    replace (fa * (dg * (3 / 2 / (c + h) * (h / c - c / h) - phi c h * H0 / K1 / h))) with (fa * gi) by (unfold gi; cbn [sg]; ring).
    replace (fa * (dg * (- (3 / 2 / (c + h)) * (h / c)))) with (fa * gm) by (unfold gm; cbn [sg]; ring).
    destruct (add_at _ _ _) as [v1| | |] eqn:A1; cbn [bind] in A; try discriminate. cbn [bind].
    destruct (add_at v1 _ _) as [v2| | |] eqn:A2; cbn [bind] in A; try discriminate. cbn [bind].
    destruct (add_at v2 _ _) as [v3| | |] eqn:A3; cbn [bind] in A; try discriminate. cbn [bind].
    destruct (add_at v3 _ _) as [v4| | |] eqn:A4; cbn [bind] in A; try discriminate. cbn [bind].
    replace v4 with v by congruence. reflexivity.
Qed.
End Pair.
