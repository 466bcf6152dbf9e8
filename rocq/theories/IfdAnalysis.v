(** Cubic splines and the equations between their derivatives at consecutive break points. *)
From Verif Require Import IfdSpec.
Open Scope R_scope.

(** two functions equal on [a, b], a < b, have the same derivative at the points of [a, b] *)
Lemma deriv_on s P a b x l m : a < b -> a <= x <= b -> (forall y, a <= y <= b -> s y = P y) ->
  derivable_pt_lim s x l -> derivable_pt_lim P x m -> l = m.
Proof.
  intros AB Hx E Hl Hm. apply cond_eq. intros eps He.
  destruct (Hl (eps / 2)) as [d1 D1]; [lra|]. destruct (Hm (eps / 2)) as [d2 D2]; [lra|].
  assert (exists h, h <> 0 /\ Rabs h < d1 /\ Rabs h < d2 /\ a <= x + h <= b) as (h & H0 & H1 & H2 & H3).
  { pose proof (cond_pos d1). pose proof (cond_pos d2).
    destruct (Rlt_dec x b) as [C|C].
    - exists (Rmin (Rmin d1 d2) (b - x) / 2).
      assert (0 < Rmin (Rmin d1 d2) (b - x)) by (repeat apply Rmin_glb_lt; lra).
      pose proof (Rmin_l (Rmin d1 d2) (b - x)). pose proof (Rmin_r (Rmin d1 d2) (b - x)).
      pose proof (Rmin_l d1 d2). pose proof (Rmin_r d1 d2). rewrite Rabs_pos_eq by lra. lra.
    - exists (- (Rmin (Rmin d1 d2) (b - a) / 2)).
      assert (0 < Rmin (Rmin d1 d2) (b - a)) by (repeat apply Rmin_glb_lt; lra).
      pose proof (Rmin_l (Rmin d1 d2) (b - a)). pose proof (Rmin_r (Rmin d1 d2) (b - a)).
      pose proof (Rmin_l d1 d2). pose proof (Rmin_r d1 d2). rewrite Rabs_Ropp, Rabs_pos_eq by lra. lra. }
  specialize (D1 h H0 H1). specialize (D2 h H0 H2). rewrite (E (x + h)), (E x) in D1 by lra.
  set (q := (P (x + h) - P x) / h) in *.
  replace (l - m) with ((q - m) - (q - l)) by ring.
  eapply Rle_lt_trans; [apply Rabs_triang|]. rewrite Rabs_Ropp. lra.
Qed.

Definition cub (c0 c1 c2 c3 x : R) : R := c0 + c1 * x + c2 * x ^ 2 + c3 * x ^ 3.
Definition cub1 (c1 c2 c3 x : R) : R := c1 + 2 * c2 * x + 3 * c3 * x ^ 2.
Definition cub2 (c2 c3 x : R) : R := 2 * c2 + 6 * c3 * x.
Lemma cub_deriv c0 c1 c2 c3 x : derivable_pt_lim (cub c0 c1 c2 c3) x (cub1 c1 c2 c3 x).
Proof.
  unfold cub, cub1.
  replace (c1 + 2 * c2 * x + 3 * c3 * x ^ 2) with (0 + (0 * x + c1 * 1) + (0 * x ^ 2 + c2 * (INR 2 * x ^ pred 2)) + (0 * x ^ 3 + c3 * (INR 3 * x ^ pred 3)))
    by (simpl; ring).
  apply (derivable_pt_lim_plus (fun x => c0 + c1 * x + c2 * x ^ 2) (fun x => c3 * x ^ 3)).
  - apply (derivable_pt_lim_plus (fun x => c0 + c1 * x) (fun x => c2 * x ^ 2)).
    + apply (derivable_pt_lim_plus (fun x => c0) (fun x => c1 * x)).
      * apply derivable_pt_lim_const.
      * apply (derivable_pt_lim_mult (fun _ => c1) (fun x => x)); [apply derivable_pt_lim_const|apply derivable_pt_lim_id].
    + apply (derivable_pt_lim_mult (fun _ => c2) (fun x => x ^ 2)); [apply derivable_pt_lim_const|apply derivable_pt_lim_pow].
  - apply (derivable_pt_lim_mult (fun _ => c3) (fun x => x ^ 3)); [apply derivable_pt_lim_const|apply derivable_pt_lim_pow].
Qed.
Lemma cub1_deriv c1 c2 c3 x : derivable_pt_lim (cub1 c1 c2 c3) x (cub2 c2 c3 x).
Proof.
  unfold cub1, cub2.
  replace (2 * c2 + 6 * c3 * x) with (0 + (0 * x + 2 * c2 * 1) + (0 * x ^ 2 + 3 * c3 * (INR 2 * x ^ pred 2))) by (simpl; ring).
  apply (derivable_pt_lim_plus (fun x => c1 + 2 * c2 * x) (fun x => 3 * c3 * x ^ 2)).
  - apply (derivable_pt_lim_plus (fun x => c1) (fun x => 2 * c2 * x)).
    + apply derivable_pt_lim_const.
    + apply (derivable_pt_lim_mult (fun _ => 2 * c2) (fun x => x)); [apply derivable_pt_lim_const|apply derivable_pt_lim_id].
  - apply (derivable_pt_lim_mult (fun _ => 3 * c3) (fun x => x ^ 2)); [apply derivable_pt_lim_const|apply derivable_pt_lim_pow].
Qed.

Section Spline.
Variables s d : R -> R.
Hypothesis Hd : forall x, derivable_pt_lim s x (d x).
Hypothesis Hd2 : forall x, exists l, derivable_pt_lim d x l.
(** a cubic on [a, b]: its derivative, and its second derivative where it exists *)
Lemma cubic_cell a b : a < b -> cubic_on s a b -> exists c0 c1 c2 c3,
  (forall x, a <= x <= b -> s x = cub c0 c1 c2 c3 x) /\ (forall x, a <= x <= b -> d x = cub1 c1 c2 c3 x) /\
  (forall x l, a <= x <= b -> derivable_pt_lim d x l -> l = cub2 c2 c3 x).
Proof.
  intros AB (c0 & c1 & c2 & c3 & E). exists c0, c1, c2, c3.
  assert (E1 : forall x, a <= x <= b -> d x = cub1 c1 c2 c3 x).
  { intros x Hx. apply (deriv_on s (cub c0 c1 c2 c3) a b x); auto. apply cub_deriv. }
  split; [exact E|]. split; [exact E1|].
  intros x l Hx Hl. apply (deriv_on d (cub1 c1 c2 c3) a b x); auto. apply cub1_deriv.
Qed.
(** the equation at a break point *)
Lemma c2_equation u v w : u < v < w -> cubic_on s u v -> cubic_on s v w ->
  d v = 3 / 2 / ((v - u) + (w - v)) * ((v - u) / (w - v) * s w + ((w - v) / (v - u) - (v - u) / (w - v)) * s v - (w - v) / (v - u) * s u)
        + - (1 / 2) * (v - u) / ((w - v) + (v - u)) * d w + - (1 / 2) * (w - v) / ((w - v) + (v - u)) * d u.
Proof.
  intros [UV VW] C1 C2. destruct (cubic_cell u v UV C1) as (a0 & a1 & a2 & a3 & A & A1 & A2).
  destruct (cubic_cell v w VW C2) as (b0 & b1 & b2 & b3 & B & B1 & B2).
  destruct (Hd2 v) as [l Hl]. pose proof (A2 v l ltac:(lra) Hl) as L1. pose proof (B2 v l ltac:(lra) Hl) as L2.
  assert (SV : cub a0 a1 a2 a3 v = cub b0 b1 b2 b3 v) by (rewrite <- A, <- B by lra; reflexivity).
  assert (DV : cub1 a1 a2 a3 v = cub1 b1 b2 b3 v) by (rewrite <- A1, <- B1 by lra; reflexivity).
  rewrite L1 in L2.
  rewrite (A u), (A1 u), (B w), (B1 w) by lra. rewrite (A v), (A1 v) by lra.
  (* in the middle, express b by a *)
  unfold cub, cub1, cub2 in *.
  assert (Eb2 : b2 = a2 + 3 * a3 * v - 3 * b3 * v) by lra.
  assert (Eb1 : b1 = a1 + 2 * a2 * v + 3 * a3 * v ^ 2 - 2 * b2 * v - 3 * b3 * v ^ 2) by lra.
  assert (Eb0 : b0 = a0 + a1 * v + a2 * v ^ 2 + a3 * v ^ 3 - b1 * v - b2 * v ^ 2 - b3 * v ^ 3) by lra.
  rewrite Eb0, Eb1, Eb2. field. repeat split; lra.
Qed.
(** the value at a point of a cell *)
Lemma hermite u v x : u < v -> u <= x <= v -> cubic_on s u v -> let t := (x - u) / (v - u) in
  s x = (1 - t) * (1 - t) * (1 + 2 * t) * s u + t * t * (3 - 2 * t) * s v
        + (v - u) * ((1 - t) * (1 - t) * t * d u + t * t * (t - 1) * d v).
Proof.
  intros UV Hx C t. destruct (cubic_cell u v UV C) as (a0 & a1 & a2 & a3 & A & A1 & _).
  rewrite (A x), (A u), (A v), (A1 u), (A1 v) by lra. unfold t, cub, cub1. field. lra.
Qed.
End Spline.

(** ** The equations, with the points of a patch numbered from the interface.  [sg] is 1 for patch 2 (right) and -1
    for patch 1 (left) *)
Definition gam (c f Fm F0 Fp : R) : R := 3 / 2 / (c + f) * (c / f * Fp + (f / c - c / f) * F0 - f / c * Fm).
Definition kap (c f : R) : R := - (1 / 2) * f / (c + f).
Definition phi (c f : R) : R := - (1 / 2) * c / (c + f).
Definition nxt (p : side) (j : nat) : nat := if (j + 1 <? cells p)%nat then (j + 1)%nat else (length (sd_x p) - 1)%nat.
Definition closer (p : side) (j : nat) : R := dist p j - dist p (j - 1).
Definition further (p : side) (j : nat) : R := dist p (nxt p j) - dist p j.
Record side_eqs (p : side) (sg : R) (F Y : nat -> R) : Prop := {
  se_cell : forall j, (1 <= j < cells p)%nat ->
    Y j = sg * gam (closer p j) (further p j) (F (j - 1)%nat) (F j) (F (nxt p j))
          + kap (closer p j) (further p j) * Y (j - 1)%nat + phi (closer p j) (further p j) * Y (nxt p j);
  se_star : sd_greville p = true ->
    let n := length (sd_x p) in let h := dist p (n - 1) - dist p (n - 3) in
    let t := (dist p (n - 2) - dist p (n - 3)) / h in
    F (n - 2)%nat = (1 - t) * (1 - t) * (1 + 2 * t) * F (n - 3)%nat + t * t * (3 - 2 * t) * F (n - 1)%nat
      + sg * h * ((1 - t) * (1 - t) * t * Y (n - 3)%nat + t * t * (t - 1) * Y (n - 1)%nat) }.
Record consistent (p1 p2 : side) (FL FR YL YR : nat -> R) : Prop := {
  co_f : FL 0%nat = FR 0%nat;
  co_y : YL 0%nat = YR 0%nat;
  co_interface : YR 0%nat = gam (dist p1 1) (dist p2 1) (FL 1%nat) (FR 0%nat) (FR 1%nat)
                            + kap (dist p1 1) (dist p2 1) * YL 1%nat + phi (dist p1 1) (dist p2 1) * YR 1%nat;
  co_left : side_eqs p1 (-1) FL YL;
  co_right : side_eqs p2 1 FR YR }.

(** ** Distances *)
Lemma dist_front p k : sd_ext p = FRONT -> ordered p -> (k < length (sd_x p))%nat -> dist p k = nth k (sd_x p) 0 - nth 0 (sd_x p) 0.
Proof.
  intros E [O _] H. unfold dist, point_away. rewrite E. apply Rabs_pos_eq.
  destruct k; [lra|]. pose proof (O 0%nat (S k) ltac:(lia)). lra.
Qed.
Lemma dist_back p k : sd_ext p = BACK -> ordered p -> (k < length (sd_x p))%nat ->
  dist p k = nth (length (sd_x p) - 1) (sd_x p) 0 - nth (length (sd_x p) - 1 - k) (sd_x p) 0.
Proof.
  intros E [O _] H. unfold dist, point_away. rewrite E, Nat.sub_0_r.
  destruct k; [rewrite Nat.sub_0_r, Rminus_diag_eq, Rabs_R0 by reflexivity; lra|].
  pose proof (O (length (sd_x p) - 1 - S k)%nat (length (sd_x p) - 1)%nat ltac:(lia)). rewrite Rabs_left by lra. lra.
Qed.
Lemma dist_0 p : dist p 0 = 0.
Proof. unfold dist. rewrite Rminus_diag_eq by reflexivity. apply Rabs_R0. Qed.
Lemma dist_lt p i j : ordered p -> (i < j < length (sd_x p))%nat -> dist p i < dist p j.
Proof.
  intros O H. destruct (sd_ext p) eqn:E.
  - rewrite !dist_front by (auto; lia). pose proof (proj1 O i j ltac:(lia)). lra.
  - rewrite !dist_back by (auto; lia).
    pose proof (proj1 O (length (sd_x p) - 1 - j)%nat (length (sd_x p) - 1 - i)%nat ltac:(lia)). lra.
Qed.
Lemma cells_lt p : ordered p -> (cells p < length (sd_x p))%nat.
Proof. intros [_ C]. unfold cells in *. destruct (sd_greville p); lia. Qed.
Lemma nxt_lt p j : ordered p -> (j < cells p)%nat -> (j < nxt p j < length (sd_x p))%nat.
Proof. intros O H. pose proof (cells_lt p O). unfold nxt. destruct (Nat.ltb_spec (j + 1) (cells p)); lia. Qed.
Lemma break_dist_lt p j : ordered p -> (j < cells p)%nat -> break_dist p j = dist p j.
Proof. intros O H. unfold break_dist. destruct (Nat.ltb_spec j (cells p)); [reflexivity|lia]. Qed.
Lemma break_dist_nxt p j : ordered p -> (j < cells p)%nat -> break_dist p (j + 1) = dist p (nxt p j).
Proof. intros O H. unfold break_dist, nxt, far. destruct (Nat.ltb_spec (j + 1) (cells p)); reflexivity. Qed.

Lemma spline_consistent p1 p2 s d : ordered p1 -> ordered p2 -> (2 <= cells p1)%nat \/ sd_greville p1 = false -> (2 <= cells p2)%nat \/ sd_greville p2 = false -> global_spline p1 p2 s d ->
  consistent p1 p2 (fun k => s (- dist p1 k)) (fun k => s (dist p2 k)) (fun k => d (- dist p1 k)) (fun k => d (dist p2 k)).
Proof.
  intros O1 O2 N1 N2 [Hd Hd2 GL GR].
  assert (R1 : forall j, (j < cells p2)%nat -> cubic_on s (dist p2 j) (dist p2 (nxt p2 j))).
  { intros j Hj. specialize (GR j Hj). rewrite (break_dist_lt p2 j), (break_dist_nxt p2 j) in GR by auto. exact GR. }
  assert (L1 : forall j, (j < cells p1)%nat -> cubic_on s (- dist p1 (nxt p1 j)) (- dist p1 j)).
  { intros j Hj. specialize (GL j Hj). rewrite (break_dist_lt p1 j), (break_dist_nxt p1 j) in GL by auto. exact GL. }
  assert (M : forall p j, ordered p -> (j < cells p)%nat -> dist p j < dist p (nxt p j)).
  { intros p j O Hj. apply dist_lt; auto. apply nxt_lt; auto. }
  assert (P : forall p j, (j + 1 < cells p)%nat -> nxt p j = (j + 1)%nat).
  { intros p j Hj. unfold nxt. destruct (Nat.ltb_spec (j + 1) (cells p)); [reflexivity|lia]. }
  assert (P0 : forall p j, (1 <= j < cells p)%nat -> nxt p (j - 1) = j).
  { intros p j Hj. rewrite P by lia. lia. }
  assert (Q1 := proj2 O1). assert (Q2 := proj2 O2).
  assert (P1 : nxt p1 0 = 1%nat).
  { unfold nxt, cells in *. destruct N1 as [N1|N1]; [|rewrite N1 in *];
    match goal with |- context [(?a <? ?b)%nat] => destruct (Nat.ltb_spec a b) end; lia. }
  assert (P2 : nxt p2 0 = 1%nat).
  { unfold nxt, cells in *. destruct N2 as [N2|N2]; [|rewrite N2 in *];
    match goal with |- context [(?a <? ?b)%nat] => destruct (Nat.ltb_spec a b) end; lia. }
  split.
  - rewrite !dist_0. f_equal. ring.
  - rewrite !dist_0. f_equal. ring.
  - pose proof (L1 0%nat ltac:(lia)) as C1. pose proof (R1 0%nat ltac:(lia)) as C2.
    pose proof (M p1 0%nat O1 ltac:(lia)) as M1. pose proof (M p2 0%nat O2 ltac:(lia)) as M2.
    rewrite P1, dist_0, Ropp_0 in C1. rewrite P2, dist_0 in C2. rewrite P1, dist_0 in M1. rewrite P2, dist_0 in M2. rewrite !dist_0.
    rewrite (c2_equation s d Hd Hd2 (- dist p1 1) 0 (dist p2 1)) by (auto; lra).
    unfold gam, kap, phi. field. repeat split; lra.
  - split.
    + intros j Hj. pose proof (L1 j ltac:(lia)) as C1. pose proof (L1 (j - 1)%nat ltac:(lia)) as C2. rewrite P0 in C2 by lia.
      pose proof (M p1 j O1 ltac:(lia)) as M1. pose proof (M p1 (j - 1)%nat O1 ltac:(lia)) as M2. rewrite P0 in M2 by lia.
      rewrite (c2_equation s d Hd Hd2 (- dist p1 (nxt p1 j)) (- dist p1 j) (- dist p1 (j - 1))) by (auto; lra).
      unfold closer, further, gam, kap, phi. field. repeat split; lra.
    + intros G. cbv zeta. assert (N1' : (2 <= cells p1)%nat) by (destruct N1 as [N1|N1]; [exact N1|congruence]). pose proof (L1 (cells p1 - 1)%nat ltac:(lia)) as C.
      assert (E1 : nxt p1 (cells p1 - 1) = (length (sd_x p1) - 1)%nat).
      { unfold nxt. destruct (Nat.ltb_spec (cells p1 - 1 + 1) (cells p1)); [lia|reflexivity]. }
      assert (E2 : (cells p1 - 1 = length (sd_x p1) - 3)%nat) by (unfold cells; rewrite G; lia).
      rewrite E1 in C. rewrite E2 in C. assert (length (sd_x p1) >= 4)%nat by (unfold cells in N1'; rewrite G in N1'; lia).
      pose proof (dist_lt p1 (length (sd_x p1) - 3) (length (sd_x p1) - 2) O1 ltac:(lia)).
      pose proof (dist_lt p1 (length (sd_x p1) - 2) (length (sd_x p1) - 1) O1 ltac:(lia)).
      rewrite (hermite s d Hd (- dist p1 (length (sd_x p1) - 1)) (- dist p1 (length (sd_x p1) - 3)) (- dist p1 (length (sd_x p1) - 2)) ltac:(lra) ltac:(lra) C) at 1.
      field. lra.
  - split.
    + intros j Hj. pose proof (R1 j ltac:(lia)) as C1. pose proof (R1 (j - 1)%nat ltac:(lia)) as C2. rewrite P0 in C2 by lia.
      pose proof (M p2 j O2 ltac:(lia)) as M1. pose proof (M p2 (j - 1)%nat O2 ltac:(lia)) as M2. rewrite P0 in M2 by lia.
      rewrite (c2_equation s d Hd Hd2 (dist p2 (j - 1)) (dist p2 j) (dist p2 (nxt p2 j))) by (auto; lra).
      unfold closer, further, gam, kap, phi. field. repeat split; lra.
    + intros G. cbv zeta. assert (N2' : (2 <= cells p2)%nat) by (destruct N2 as [N2|N2]; [exact N2|congruence]). pose proof (R1 (cells p2 - 1)%nat ltac:(lia)) as C.
      assert (E1 : nxt p2 (cells p2 - 1) = (length (sd_x p2) - 1)%nat).
      { unfold nxt. destruct (Nat.ltb_spec (cells p2 - 1 + 1) (cells p2)); [lia|reflexivity]. }
      assert (E2 : (cells p2 - 1 = length (sd_x p2) - 3)%nat) by (unfold cells; rewrite G; lia).
      rewrite E1 in C. rewrite E2 in C. assert (length (sd_x p2) >= 4)%nat by (unfold cells in N2'; rewrite G in N2'; lia).
      pose proof (dist_lt p2 (length (sd_x p2) - 3) (length (sd_x p2) - 2) O2 ltac:(lia)).
      pose proof (dist_lt p2 (length (sd_x p2) - 2) (length (sd_x p2) - 1) O2 ltac:(lia)).
      rewrite (hermite s d Hd (dist p2 (length (sd_x p2) - 3)) (dist p2 (length (sd_x p2) - 1)) (dist p2 (length (sd_x p2) - 2)) ltac:(lra) ltac:(lra) C) at 1.
      field. lra.
Qed.
