(** Proofs of the properties of the equilibria: truncation, two velocities, parallel velocity and magnetic moment, sources. *)
From Coquelicot Require Import Coquelicot.
From Verif Require Import Lib RestrictProofs XVxModel XVxSpec XVxProofs MxwModel MxwSpec MxwGauss MxwProofs.
Open Scope R_scope.

(** ** the part of a Maxwellian outside [V - w, V + w] *)
Lemma G_sharp x : G x <= PI / 4 * bell x.
Proof.
  rewrite <- G_zero. unfold G. rewrite Rmult_comm. rewrite <- RInt_scalR by apply kern_int. apply RInt_le; [lra|apply kern_int| |].
  - apply (ex_RInt_scal (V := R_NormedModule) (kern 0)). apply kern_int.
  - intros t _. unfold kern, bell. pose proof (one_plus t) as O. replace (exp (- (0 * 0 * (1 + t * t)))) with 1 by (rewrite <- exp_0; f_equal; ring).
    replace (exp (- (x * x)) * (1 / (1 + t * t))) with (exp (- (x * x)) / (1 + t * t)) by (field; lra). apply Rmult_le_compat_r; [left; apply Rinv_0_lt_compat; exact O|].
    replace (- (x * x * (1 + t * t))) with (- (x * x) + - (x * t * (x * t))) by ring. rewrite exp_plus. pose proof (exp_pos (- (x * x))).
    assert (exp (- (x * t * (x * t))) <= 1). { rewrite <- exp_0. destruct (Req_dec (x * t) 0) as [->|N]; [right; f_equal; ring|]. left. apply exp_increasing. apply Rsqr_pos_lt in N. unfold Rsqr in N. lra. }
    nra.
Qed.
Lemma Phi_sharp x : 0 <= x -> 0 <= sqrt PI / 2 - Phi x <= sqrt PI / 2 * bell x.
Proof.
  intros H. pose proof (gauss_identity x H) as E. pose proof (G_bound x) as B. pose proof (G_sharp x) as B'. pose proof (Phi_pos x H) as P.
  assert (S1 : 0 < sqrt PI) by (apply sqrt_lt_R0; apply PI_RGT_0).
  assert (S2 : sqrt PI * sqrt PI = PI) by (apply sqrt_sqrt; pose proof PI_RGT_0; lra). assert (BP : 0 < bell x) by apply exp_pos.
  revert E B B' P S1 S2 BP. generalize (sqrt PI). intros s. generalize (Phi x) (G x) (bell x) PI. intros p g b pi E B B' P S1 S2 BP.
  assert (U : 0 <= s / 2 - p). { destruct (Rle_lt_dec 0 (s / 2 - p)); [assumption|]. exfalso. assert (0 < (p - s / 2) * (p + s / 2)) by (apply Rmult_lt_0_compat; lra). replace ((p - s / 2) * (p + s / 2)) with (p * p - s * s / 4) in * by field. lra. }
  split; [exact U|]. assert ((s / 2 - p) * (s / 2) <= (s / 2 - p) * (s / 2 + p)) by (apply Rmult_le_compat_l; lra).
  apply (Rmult_le_reg_r (s / 2)); [lra|]. replace ((s / 2 - p) * (s / 2 + p)) with (s * s / 4 - p * p) in * by field. replace (s / 2 * b * (s / 2)) with (s * s / 4 * b) by field. rewrite S2 in *. lra.
Qed.
Lemma maxwellian_truncated n T V w : 0 < T -> 0 <= n -> 0 <= w ->
  ex_RInt (maxwellian n T V) (V - w) (V + w) /\ 0 <= n - RInt (maxwellian n T V) (V - w) (V + w) <= n * exp (- w ^ 2 / (2 * T)).
Proof.
  intros HT Hn Hw. pose proof (maxwellian_first n T V HT) as ((X & _) & _). split; [apply X|].
  pose proof (root_pos T HT) as RP. set (s := sqrt (2 * T)). assert (SP : 0 < s) by (apply sqrt_lt_R0; lra). assert (SS : s * s = 2 * T) by (apply sqrt_sqrt; lra).
  assert (EQ : sqrt (2 * PI * T) = s * sqrt PI). { unfold s. rewrite <- sqrt_mult by (pose proof PI_RGT_0; lra). f_equal. ring. }
  assert (RR : RInt (maxwellian n T V) (V - w) (V + w) = n * (2 * Phi (w / s) / sqrt PI)).
  { rewrite (RInt_extR _ (fun v => n / sqrt (2 * PI * T) * gaussian V T v)) by (intros; apply maxwellian_gauss). rewrite RInt_scalR.
    - rewrite gauss_Phi by exact HT. fold s. replace ((V + w - V) / s) with (w / s) by (field; lra). replace ((V - w - V) / s) with (- (w / s)) by (field; lra). rewrite Phi_odd, EQ.
      onR. field. split; [apply Rgt_not_eq; apply sqrt_lt_R0; apply PI_RGT_0|lra].
    - pose proof (gauss_whole V T HT) as (Y & _). apply Y. }
  rewrite RR. assert (WS : 0 <= w / s) by (apply Rle_mult_inv_pos; assumption). pose proof (Phi_sharp (w / s) WS) as P.
  assert (BE : bell (w / s) = exp (- w ^ 2 / (2 * T))) by (unfold bell; f_equal; rewrite <- SS; field; lra). rewrite BE in P.
  assert (S1 : 0 < sqrt PI) by (apply sqrt_lt_R0; apply PI_RGT_0). revert P S1. generalize (sqrt PI) (Phi (w / s)) (exp (- w ^ 2 / (2 * T))). clear - Hn. intros q p b P Q.
  replace (n - n * (2 * p / q)) with (n * ((q / 2 - p) / (q / 2))) by (field; lra).
  assert (D : 0 <= (q / 2 - p) / (q / 2) <= b).
  { split; [apply Rle_mult_inv_pos; lra|]. apply (Rmult_le_reg_r (q / 2)); [lra|]. unfold Rdiv at 1. rewrite Rmult_assoc, Rinv_l, Rmult_1_r by lra. lra. }
  split; [apply Rmult_le_pos; lra|apply Rmult_le_compat_l; lra].
Qed.
Lemma maxwellian_pos n T V v : 0 < T -> 0 < n -> 0 < maxwellian n T V v.
Proof. intros HT Hn. rewrite maxwellian_gauss. apply Rmult_lt_0_compat; [apply Rdiv_lt_0_compat; [exact Hn|apply root_pos; exact HT]|apply exp_pos]. Qed.

(** ** bump on tail *)
Lemma bump_moments eps T V : 0 < T ->
  whole_line (two_maxwellian eps T V) 1 /\ whole_line (fun v => v * two_maxwellian eps T V v) (eps * V) /\
  whole_line (fun v => v ^ 2 * two_maxwellian eps T V v) (1 - eps + eps * (T + V ^ 2)).
Proof.
  intros HT. destruct (maxwellian_first (1 - eps) 1 0 Rlt_0_1) as (A0 & A1 & _ & A2). destruct (maxwellian_first eps T V HT) as (B0 & B1 & _ & B2).
  split; [|split].
  - replace 1 with (1 - eps + eps) at 1 by ring. apply (whole_ext (fun v => maxwellian (1 - eps) 1 0 v + maxwellian eps T V v)); [intros; rewrite two_maxwellian_sum by exact HT; reflexivity|].
    apply whole_plus; assumption.
  - replace (eps * V) with ((1 - eps) * 0 + eps * V) by ring. apply (whole_ext (fun v => v * maxwellian (1 - eps) 1 0 v + v * maxwellian eps T V v)); [intros; rewrite two_maxwellian_sum by exact HT; ring|].
    apply whole_plus; assumption.
  - replace (1 - eps + eps * (T + V ^ 2)) with ((1 - eps) * (1 + 0 ^ 2) + eps * (T + V ^ 2)) by ring.
    apply (whole_ext (fun v => v ^ 2 * maxwellian (1 - eps) 1 0 v + v ^ 2 * maxwellian eps T V v)); [intros; rewrite two_maxwellian_sum by exact HT; ring|].
    apply whole_plus; assumption.
Qed.

(** ** two velocities *)
Lemma maxwellian_xy_product n T V vx vy : 0 < T -> maxwellian_xy n T V vx vy = maxwellian n T V vx * maxwellian 1 T V vy.
Proof.
  intros HT. unfold maxwellian_xy, maxwellian. cbv zeta. pose proof (root_pos T HT) as RP.
  assert (SS : sqrt (2 * PI * T) * sqrt (2 * PI * T) = 2 * PI * T) by (apply sqrt_sqrt; pose proof PI_RGT_0; apply Rmult_le_pos; lra).
  replace (- ((vx - V) * (vx - V) + (vy - V) * (vy - V)) / (2 * T)) with (- (vx - V) * (vx - V) / (2 * T) + - (vy - V) * (vy - V) / (2 * T)) by (field; lra).
  rewrite exp_plus. assert (I1 : 1 / (2 * PI * T) = 1 / sqrt (2 * PI * T) * (1 / sqrt (2 * PI * T))) by (rewrite <- SS at 1; field; lra). rewrite I1. clear I1 SS. revert RP. generalize (sqrt (2 * PI * T)) (exp (- (vx - V) * (vx - V) / (2 * T))) (exp (- (vy - V) * (vy - V) / (2 * T))). intros s a b RP. field. lra.
Qed.
Lemma plane_product f g l m : whole_line f l -> whole_line g m -> whole_plane (fun x y => f x * g y) (l * m).
Proof.
  intros F H. exists (fun x => m * f x). split.
  - intros x. replace (m * f x) with (f x * m) by ring. apply whole_scal. exact H.
  - rewrite Rmult_comm. apply whole_scal. exact F.
Qed.
Lemma plane_ext f g l : (forall x y, f x y = g x y) -> whole_plane f l -> whole_plane g l.
Proof. intros E (h & A & B). exists h. split; [|exact B]. intros x. apply (whole_ext (f x)); [apply E|apply A]. Qed.
Lemma plane_unique f l m : whole_plane f l -> whole_plane f m -> l = m.
Proof.
  intros (h & A & B) (h' & A' & B'). apply (whole_unique h); [exact B|]. apply (whole_ext h'); [|exact B']. intros x. apply (whole_unique (f x)); auto.
Qed.
Lemma maxwellian_xy_moments n T V j k : 0 < T ->
  whole_plane (fun vx vy => (vx - V) ^ j * (vy - V) ^ k * maxwellian_xy n T V vx vy) (n * normal_moment T j * normal_moment T k).
Proof.
  intros HT. pose proof (maxwellian_moments n T V HT j) as A. pose proof (maxwellian_moments 1 T V HT k) as B. rewrite Rmult_1_l in B.
  apply (plane_ext (fun vx vy => ((vx - V) ^ j * maxwellian n T V vx) * ((vy - V) ^ k * maxwellian 1 T V vy))).
  - intros. rewrite maxwellian_xy_product by exact HT. ring.
  - apply plane_product; assumption.
Qed.
Lemma maxwellian_xy_marginal n T V vx : 0 < T -> whole_line (fun vy => maxwellian_xy n T V vx vy) (maxwellian n T V vx).
Proof.
  intros HT. apply (whole_ext (fun vy => maxwellian n T V vx * maxwellian 1 T V vy)); [intros; rewrite maxwellian_xy_product by exact HT; reflexivity|].
  pose proof (whole_scal (maxwellian n T V vx) _ _ (proj1 (maxwellian_first 1 T V HT))) as W. rewrite Rmult_1_r in W. exact W.
Qed.
Lemma maxwellian_xy_sym n T V vx vy : maxwellian_xy n T V vx vy = maxwellian_xy n T V vy vx.
Proof. unfold maxwellian_xy. cbv zeta. do 3 f_equal. ring. Qed.
Lemma maxwellian_xy_fluid n T V : 0 < T ->
  whole_plane (fun vx vy => maxwellian_xy n T V vx vy) n /\ whole_plane (fun vx vy => vx * maxwellian_xy n T V vx vy) (n * V) /\
  whole_plane (fun vx vy => vy * maxwellian_xy n T V vx vy) (n * V) /\
  whole_plane (fun vx vy => ((vx - V) ^ 2 + (vy - V) ^ 2) / 2 * maxwellian_xy n T V vx vy) (n * T).
Proof.
  intros HT. destruct (maxwellian_first n T V HT) as (A0 & A1 & A2 & _). destruct (maxwellian_first 1 T V HT) as (B0 & B1 & B2 & _). rewrite Rmult_1_l in B1, B2.
  assert (E : forall vx vy, maxwellian n T V vx * maxwellian 1 T V vy = maxwellian_xy n T V vx vy) by (intros; rewrite maxwellian_xy_product by exact HT; reflexivity).
  split; [|split; [|split]].
  - apply (plane_ext (fun vx vy => maxwellian n T V vx * maxwellian 1 T V vy)); [exact E|]. pose proof (plane_product _ _ _ _ A0 B0) as W. rewrite Rmult_1_r in W. exact W.
  - apply (plane_ext (fun vx vy => (vx * maxwellian n T V vx) * maxwellian 1 T V vy)); [intros; rewrite <- E; ring|]. replace (n * V) with (n * V * 1) by ring. apply plane_product; assumption.
  - apply (plane_ext (fun vx vy => maxwellian n T V vx * (vy * maxwellian 1 T V vy))); [intros; rewrite <- E; ring|]. apply plane_product; assumption.
  - exists (fun vx => / 2 * ((vx - V) ^ 2 * maxwellian n T V vx) + / 2 * (T * maxwellian n T V vx)). split.
    + intros vx. apply (whole_ext (fun vy => / 2 * ((vx - V) ^ 2 * maxwellian n T V vx) * maxwellian 1 T V vy + / 2 * maxwellian n T V vx * ((vy - V) ^ 2 * maxwellian 1 T V vy))); [intros; rewrite <- E; field|].
      apply whole_plus.
      * pose proof (whole_scal (/ 2 * ((vx - V) ^ 2 * maxwellian n T V vx)) _ _ B0) as W. rewrite Rmult_1_r in W. exact W.
      * replace (/ 2 * (T * maxwellian n T V vx)) with (/ 2 * maxwellian n T V vx * T) by ring. apply whole_scal. exact B2.
    + replace (n * T) with (/ 2 * (n * T) + / 2 * (T * n)) by field. apply whole_plus; apply whole_scal; [exact A2|]. apply whole_scal. exact A0.
Qed.

(** ** parallel velocity and magnetic moment *)
Lemma half_exp B T : 0 < B -> 0 < T -> half_line (fun mu => exp (- (mu * B / T))) (T / B).
Proof.
  intros HB HT. assert (C : forall x, continuous (fun mu => exp (- (mu * B / T))) x) by (intros x; apply @ex_derive_continuous; auto_derive; exact I).
  split; [intros; apply @ex_RInt_continuous; intros; apply C|]. intros eps He. assert (RP : 0 < T / B) by (apply Rdiv_lt_0_compat; assumption).
  destruct (decay 0 (eps / (T / B))) as (M & MP & HM); [apply Rdiv_lt_0_compat; assumption|]. exists (M * (T / B)). intros b Hb.
  rewrite (RInt_primitive (fun mu => - (T / B) * exp (- (mu * B / T))) (fun mu => exp (- (mu * B / T)))).
  - replace (0 * B / T) with 0 by (field; lra). rewrite Ropp_0, exp_0. set (y := b * B / T). assert (Y : M <= y).
    { unfold y. replace M with (M * (T / B) * (B / T)) by (field; lra). replace (b * B / T) with (b * (B / T)) by (field; lra). apply Rmult_le_compat_r; [left; apply Rdiv_lt_0_compat; assumption|exact Hb]. }
    specialize (HM y Y). cbn [pow] in HM. rewrite Rmult_1_l in HM. replace (- (T / B) * exp (- y) - - (T / B) * 1 - T / B) with (- (T / B * exp (- y))) by ring.
    rewrite Rabs_Ropp, Rabs_pos_eq by (apply Rmult_le_pos; [lra|left; apply exp_pos]). replace eps with (T / B * (eps / (T / B))) by (field; lra). apply Rmult_lt_compat_l; assumption.
  - intros x. auto_derive; [exact I|]. replace (- (x * B * / T)) with (- (x * B / T)) by (unfold Rdiv; ring). generalize (exp (- (x * B / T))). intros e. field. lra.
  - exact C.
Qed.
Lemma half_mu_exp B T : 0 < B -> 0 < T -> half_line (fun mu => mu * B * exp (- (mu * B / T))) (T * T / B).
Proof.
  intros HB HT. assert (C : forall x, continuous (fun mu => mu * B * exp (- (mu * B / T))) x) by (intros x; apply @ex_derive_continuous; auto_derive; exact I).
  split; [intros; apply @ex_RInt_continuous; intros; apply C|]. intros eps He. assert (RP : 0 < T * T / B) by (apply Rdiv_lt_0_compat; nra). assert (TB : 0 < T / B) by (apply Rdiv_lt_0_compat; assumption).
  assert (E2 : 0 < eps / (T * T / B) / 2) by (apply Rdiv_lt_0_compat; [apply Rdiv_lt_0_compat; assumption|lra]).
  destruct (decay 0 _ E2) as (M & MP & HM). destruct (decay 1 _ E2) as (M' & MP' & HM'). exists (Rmax M M' * (T / B)). intros b Hb.
  rewrite (RInt_primitive (fun mu => - (T * T / B) * ((1 + mu * B / T) * exp (- (mu * B / T)))) (fun mu => mu * B * exp (- (mu * B / T)))).
  - replace (0 * B / T) with 0 by (field; lra). rewrite Ropp_0, exp_0. set (y := b * B / T). assert (Y : Rmax M M' <= y).
    { unfold y. replace (Rmax M M') with (Rmax M M' * (T / B) * (B / T)) by (field; lra). replace (b * B / T) with (b * (B / T)) by (field; lra). apply Rmult_le_compat_r; [left; apply Rdiv_lt_0_compat; assumption|exact Hb]. }
    pose proof (Rmax_l M M'). pose proof (Rmax_r M M'). specialize (HM y ltac:(lra)). specialize (HM' y ltac:(lra)). cbn [pow] in HM, HM'. rewrite Rmult_1_l in HM. rewrite Rmult_1_r in HM'.
    pose proof (exp_pos (- y)) as EP. replace (- (T * T / B) * ((1 + y) * exp (- y)) - - (T * T / B) * ((1 + 0) * 1) - T * T / B) with (- (T * T / B * (exp (- y) + y * exp (- y)))) by ring.
    rewrite Rabs_Ropp, Rabs_pos_eq by (apply Rmult_le_pos; [lra|]; assert (0 <= y * exp (- y)) by (apply Rmult_le_pos; lra); lra).
    replace eps with (T * T / B * (eps / (T * T / B) / 2 + eps / (T * T / B) / 2)) by (field; lra). apply Rmult_lt_compat_l; [assumption|lra].
  - intros x. auto_derive; [exact I|]. replace (- (x * B * / T)) with (- (x * B / T)) by (unfold Rdiv; ring). generalize (exp (- (x * B / T))). intros e. field. lra.
  - exact C.
Qed.
(** m^(3/2) *)
Lemma vm_product m n T V B vpar mu : 0 < m -> 0 < T -> maxwellian_vm m n T V B vpar mu =
  m * sqrt m / (2 * PI * T) * maxwellian n T V vpar * exp (- (mu * B / T)).
Proof.
  intros Hm HT. unfold maxwellian_vm, maxwellian. cbv zeta. pose proof (root_pos T HT) as RP. pose proof PI_RGT_0 as PP.
  assert (TP : 0 < 2 * PI * T) by (apply Rmult_lt_0_compat; lra). rewrite sqrt_div_alt by exact TP.
  replace 0.5 with (/ 2) by lra. replace (- ((/ 2 * (vpar - V) * (vpar - V) + mu * B) / T)) with (- (vpar - V) * (vpar - V) / (2 * T) + - (mu * B / T)) by (field; lra). rewrite exp_plus.
  revert RP TP. generalize (sqrt (2 * PI * T)). intros s. generalize (2 * PI * T) (exp (- (vpar - V) * (vpar - V) / (2 * T))) (exp (- (mu * B / T))). intros t a b RP TP. field. lra.
Qed.
Lemma space_product f g l m c : whole_line f l -> half_line g m -> velocity_space (fun v mu => c * f v * g mu) (c * l * m).
Proof.
  intros F H. exists (fun v => c * m * f v). split.
  - intros v. replace (c * m * f v) with (c * f v * m) by ring. apply half_scal. exact H.
  - replace (c * l * m) with (c * m * l) by ring. apply whole_scal. exact F.
Qed.
Lemma space_ext f g l : (forall x y, f x y = g x y) -> velocity_space f l -> velocity_space g l.
Proof. intros E (h & A & B). exists h. split; [|exact B]. intros x. apply (half_ext (f x)); [apply E|apply A]. Qed.
Lemma half_unique f l l' : half_line f l -> half_line f l' -> l = l'.
Proof.
  intros (_ & A) (_ & B). destruct (Req_dec l l') as [E|N]; [exact E|exfalso]. assert (P : 0 < Rabs (l - l') / 2) by (apply Rdiv_lt_0_compat; [apply Rabs_pos_lt; lra|lra]).
  destruct (A _ P) as (M & HM). destruct (B _ P) as (M' & HM'). specialize (HM (Rmax M M') (Rmax_l _ _)). specialize (HM' (Rmax M M') (Rmax_r _ _)).
  revert HM HM'. generalize (RInt f 0 (Rmax M M') : R). intros i H1 H2. replace (l - l') with ((i - l') + - (i - l)) in * by ring.
  pose proof (Rabs_triang (i - l') (- (i - l))) as Q. rewrite Rabs_Ropp in Q. lra.
Qed.
Lemma space_unique f l m : velocity_space f l -> velocity_space f m -> l = m.
Proof.
  intros (h & A & B) (h' & A' & B'). apply (whole_unique h); [exact B|]. apply (whole_ext h'); [|exact B']. intros x. apply (half_unique (f x)); auto.
Qed.
Lemma vm_moments m n T V B k : 0 < m -> 0 < T -> 0 < B ->
  velocity_space (fun v mu => (v - V) ^ k * maxwellian_vm m n T V B v mu * (2 * PI * B)) (m * sqrt m * n * normal_moment T k).
Proof.
  intros Hm HT HB. pose proof PI_RGT_0 as PP.
  apply (space_ext (fun v mu => (m * sqrt m * B / T) * ((v - V) ^ k * maxwellian n T V v) * exp (- (mu * B / T)))).
  - intros v mu. rewrite vm_product by assumption. field. lra.
  - replace (m * sqrt m * n * normal_moment T k) with (m * sqrt m * B / T * (n * normal_moment T k) * (T / B)) by (field; lra).
    apply space_product; [apply maxwellian_moments; exact HT|apply half_exp; assumption].
Qed.
Lemma vm_perp m n T V B : 0 < m -> 0 < T -> 0 < B ->
  velocity_space (fun v mu => mu * B * maxwellian_vm m n T V B v mu * (2 * PI * B)) (m * sqrt m * n * T).
Proof.
  intros Hm HT HB. pose proof PI_RGT_0 as PP.
  apply (space_ext (fun v mu => (m * sqrt m * B / T) * maxwellian n T V v * (mu * B * exp (- (mu * B / T))))).
  - intros v mu. rewrite vm_product by assumption. field. lra.
  - replace (m * sqrt m * n * T) with (m * sqrt m * B / T * n * (T * T / B)) by (field; lra).
    apply space_product; [exact (proj1 (maxwellian_first n T V HT))|apply half_mu_exp; assumption].
Qed.
Lemma vm_moments_J m n T V B k J : 0 < m -> 0 < T -> 0 < B ->
  velocity_space (fun v mu => (v - V) ^ k * maxwellian_vm m n T V B v mu * J) (J / (2 * PI * B) * (m * sqrt m * n * normal_moment T k)).
Proof.
  intros Hm HT HB. pose proof PI_RGT_0 as PP. assert (0 < 2 * PI * B) by (apply Rmult_lt_0_compat; lra).
  destruct (vm_moments m n T V B k Hm HT HB) as (h & A & W). exists (fun v => J / (2 * PI * B) * h v). split.
  - intros v. apply (half_ext (fun mu => J / (2 * PI * B) * ((v - V) ^ k * maxwellian_vm m n T V B v mu * (2 * PI * B)))); [intros mu; field; lra|]. apply half_scal. apply A.
  - apply whole_scal. exact W.
Qed.

(** ** the kinetic source and the inter-species collisions *)
Lemma velocity_shape_poly d e T v : 0 < T -> velocity_shape d e T v =
  (1.5 * d - 0.5 * e) * maxwellian 1 T 0 v + (e - d) / (2 * T) * (v ^ 2 * maxwellian 1 T 0 v).
Proof.
  intros HT. unfold velocity_shape, maxwellian. cbv zeta. replace (- (v - 0) * (v - 0) / (2 * T)) with (- (v * v) / (2 * T)) by (field; lra).
  generalize (exp (- (v * v) / (2 * T))) (1 / sqrt (2 * PI * T)). intros a b. replace 0.5 with (/ 2) by lra. replace 1.5 with (3 / 2) by lra. replace (-0.5) with (- (/ 2)) by lra. field. lra.
Qed.
Lemma normal_4 T : normal_moment T 4 = 3 * T ^ 2. Proof. cbn. ring. Qed.
Lemma source_moments d e T : 0 < T ->
  whole_line (velocity_shape d e T) d /\ whole_line (fun v => v * velocity_shape d e T v) 0 /\
  whole_line (fun v => v ^ 2 / 2 * velocity_shape d e T v) (e * (T / 2)).
Proof.
  intros HT. assert (MM : forall k, whole_line (fun v => v ^ k * maxwellian 1 T 0 v) (normal_moment T k)).
  { intros k. replace (normal_moment T k) with (1 * normal_moment T k) by ring. apply (whole_ext (fun v => (v - 0) ^ k * maxwellian 1 T 0 v)); [intros v; rewrite Rminus_0_r; reflexivity|]. apply maxwellian_moments. exact HT. }
  split; [|split].
  - replace d with ((1.5 * d - 0.5 * e) * normal_moment T 0 + (e - d) / (2 * T) * normal_moment T 2) at 2 by (cbn; replace 0.5 with (/ 2) by lra; replace 1.5 with (3 / 2) by lra; field; lra).
    apply (whole_ext (fun v => (1.5 * d - 0.5 * e) * (v ^ 0 * maxwellian 1 T 0 v) + (e - d) / (2 * T) * (v ^ 2 * maxwellian 1 T 0 v))); [intros; rewrite velocity_shape_poly by exact HT; cbn [pow]; ring|].
    apply whole_plus; apply whole_scal; apply MM.
  - replace 0 with ((1.5 * d - 0.5 * e) * normal_moment T 1 + (e - d) / (2 * T) * normal_moment T 3) at 1 by (cbn; ring).
    apply (whole_ext (fun v => (1.5 * d - 0.5 * e) * (v ^ 1 * maxwellian 1 T 0 v) + (e - d) / (2 * T) * (v ^ 3 * maxwellian 1 T 0 v))); [intros; rewrite velocity_shape_poly by exact HT; cbn [pow]; ring|].
    apply whole_plus; apply whole_scal; apply MM.
  - replace (e * (T / 2)) with ((1.5 * d - 0.5 * e) / 2 * normal_moment T 2 + (e - d) / (4 * T) * normal_moment T 4) by (cbn; replace 0.5 with (/ 2) by lra; replace 1.5 with (3 / 2) by lra; field; lra).
    apply (whole_ext (fun v => (1.5 * d - 0.5 * e) / 2 * (v ^ 2 * maxwellian 1 T 0 v) + (e - d) / (4 * T) * (v ^ 4 * maxwellian 1 T 0 v))); [intros; rewrite velocity_shape_poly by exact HT; cbn [pow]; field; lra|].
    apply whole_plus; apply whole_scal; apply MM.
Qed.
Lemma inter_df_poly Rab Qab n V T v : 0 < T -> n <> 0 -> inter_df Rab Qab n V T v =
  Qab / T / T * ((v - V) ^ 2 * maxwellian 1 T V v) + (- (Qab / T) * ((v - V) ^ 0 * maxwellian 1 T V v) + Rab / T * ((v - V) ^ 1 * maxwellian 1 T V v)).
Proof.
  intros HT Hn. unfold inter_df, maxwellian. cbv zeta. generalize (exp (- (v - V) * (v - V) / (2 * T))) (1 / sqrt (2 * PI * T)). intros a b. cbn [pow]. replace 0.5 with (/ 2) by lra. field. split; [lra|exact Hn].
Qed.
Lemma exchange_moments Rab Qab n V T : 0 < T -> n <> 0 ->
  whole_line (inter_df Rab Qab n V T) 0 /\ whole_line (fun v => (v - V) * inter_df Rab Qab n V T v) Rab /\
  whole_line (fun v => (v - V) ^ 2 / 2 * inter_df Rab Qab n V T v) Qab.
Proof.
  intros HT Hn. assert (MM : forall k, whole_line (fun v => (v - V) ^ k * maxwellian 1 T V v) (normal_moment T k)).
  { intros k. replace (normal_moment T k) with (1 * normal_moment T k) by ring. apply maxwellian_moments. exact HT. }
  assert (K : forall j, whole_line (fun v => (v - V) ^ j * inter_df Rab Qab n V T v) (Qab / T / T * normal_moment T (j + 2) + (- (Qab / T) * normal_moment T j + Rab / T * normal_moment T (j + 1)))).
  { intros j. apply (whole_ext (fun v => Qab / T / T * ((v - V) ^ (j + 2) * maxwellian 1 T V v) + (- (Qab / T) * ((v - V) ^ j * maxwellian 1 T V v) + Rab / T * ((v - V) ^ (j + 1) * maxwellian 1 T V v)))).
    - intros v. rewrite (inter_df_poly Rab Qab n V T v HT Hn), !pow_add. generalize ((v - V) ^ j) (v - V) (maxwellian 1 T V v). intros a b c. cbn [pow]. field. lra.
    - apply whole_plus; [|apply whole_plus]; apply whole_scal; apply MM. }
  split; [|split].
  - pose proof (K 0%nat) as Q. cbn [Nat.add] in Q. replace (Qab / T / T * normal_moment T 2 + (- (Qab / T) * normal_moment T 0 + Rab / T * normal_moment T 1)) with 0 in Q by (cbn; field; lra).
    revert Q. apply whole_ext. intros. cbn. ring.
  - pose proof (K 1%nat) as Q. cbn [Nat.add] in Q. replace (Qab / T / T * normal_moment T 3 + (- (Qab / T) * normal_moment T 1 + Rab / T * normal_moment T 2)) with Rab in Q by (cbn; field; lra).
    revert Q. apply whole_ext. intros. cbn. ring.
  - pose proof (K 2%nat) as Q. cbn [Nat.add] in Q. apply (whole_scal (/ 2)) in Q. replace (/ 2 * (Qab / T / T * normal_moment T 4 + (- (Qab / T) * normal_moment T 2 + Rab / T * normal_moment T 3))) with Qab in Q by (cbn; field; lra).
    revert Q. apply whole_ext. intros. field.
Qed.

(** ** perturbations *)
Lemma perturbation_xy_bound mode amp Lx Ly x y : Rabs (perturbation_xy mode amp Lx Ly x y) <= 2 * Rabs amp.
Proof.
  unfold perturbation_xy. cbv zeta. rewrite Rabs_mult. pose proof (COS_bound (IZR mode * 2 * PI / Lx * x)). pose proof (COS_bound (IZR mode * 2 * PI / Ly * y)).
  assert (Rabs (cos (IZR mode * 2 * PI / Lx * x) + cos (IZR mode * 2 * PI / Ly * y)) <= 2) by (apply Rabs_le; lra). pose proof (Rabs_pos amp). nra.
Qed.
Lemma perturbation_xy_periodic mode amp Lx Ly x y a b : Lx <> 0 -> Ly <> 0 ->
  perturbation_xy mode amp Lx Ly (x + IZR a * Lx) (y + IZR b * Ly) = perturbation_xy mode amp Lx Ly x y.
Proof.
  intros HX HY. unfold perturbation_xy. cbv zeta.
  replace (IZR mode * 2 * PI / Lx * (x + IZR a * Lx)) with (IZR mode * 2 * PI / Lx * x + 2 * IZR (mode * a) * PI) by (rewrite mult_IZR; field; exact HX).
  replace (IZR mode * 2 * PI / Ly * (y + IZR b * Ly)) with (IZR mode * 2 * PI / Ly * y + 2 * IZR (mode * b) * PI) by (rewrite mult_IZR; field; exact HY).
  rewrite !RestrictProofs.cos_shift_Z. reflexivity.
Qed.
Lemma cos_mean (k : Z) L a : (k <> 0)%Z -> L <> 0 -> is_RInt (fun x => cos (IZR k * 2 * PI / L * x)) a (a + L) 0.
Proof.
  intros HK HL. pose proof PI_RGT_0 as PP. assert (KN : IZR k <> 0) by (intros E; apply eq_IZR in E; contradiction).
  set (w := IZR k * 2 * PI / L). assert (WN : w <> 0). { unfold w. intros E. apply (Rmult_eq_compat_r L) in E. unfold Rdiv in E. rewrite Rmult_assoc, Rinv_l, Rmult_1_r, Rmult_0_l in E by exact HL. apply Rmult_integral in E as [E|E]; [|lra]. apply Rmult_integral in E as [E|E]; [contradiction|lra]. }
  replace 0 with (minus (sin (w * (a + L)) / w) (sin (w * a) / w)).
  - apply (is_RInt_derive (fun x => sin (w * x) / w)).
    + intros x _. auto_derive; [exact I|]. generalize (cos (w * x)). intros c. field. exact WN.
    + intros x _. apply @ex_derive_continuous. auto_derive. exact I.
  - change (minus (sin (w * (a + L)) / w) (sin (w * a) / w)) with (sin (w * (a + L)) / w - sin (w * a) / w).
    replace (w * (a + L)) with (w * a + 2 * IZR k * PI) by (unfold w; field; exact HL). rewrite RestrictProofs.sin_shift_Z. onR. ring.
Qed.
Lemma perturbation_xy_mean mode amp Lx Ly x0 y0 : mode <> 0%Z -> Lx <> 0 -> Ly <> 0 ->
  exists g, (forall x, is_RInt (fun y => perturbation_xy mode amp Lx Ly x y) y0 (y0 + Ly) (g x)) /\ is_RInt g x0 (x0 + Lx) 0.
Proof.
  intros HM HX HY. pose proof (cos_mean mode Lx x0 HM HX) as CX. pose proof (cos_mean mode Ly y0 HM HY) as CY.
  exists (fun x => amp * Ly * cos (IZR mode * 2 * PI / Lx * x)). split.
  - intros x. pose proof (is_RInt_scal (V := R_NormedModule) _ y0 (y0 + Ly) amp _ CY) as A. pose proof (is_RInt_const (V := R_NormedModule) y0 (y0 + Ly) (amp * cos (IZR mode * 2 * PI / Lx * x))) as B.
    pose proof (is_RInt_plus (V := R_NormedModule) _ _ _ _ _ _ A B) as C. revert C. unfold plus, scal, mult; cbn; unfold mult; cbn. intros C.
    replace (amp * Ly * cos (IZR mode * 2 * PI / Lx * x)) with (amp * 0 + (y0 + Ly - y0) * (amp * cos (IZR mode * 2 * PI / Lx * x))) by ring.
    revert C. apply is_RInt_ext. intros y _. unfold perturbation_xy. cbv zeta. onR. ring.
  - pose proof (is_RInt_scal (V := R_NormedModule) _ x0 (x0 + Lx) (amp * Ly) _ CX) as A. unfold scal in A; cbn in A; unfold mult in A; cbn in A. rewrite Rmult_0_r in A. exact A.
Qed.
Lemma ten60 : 0 < / 10 ^ 60. Proof. apply Rinv_0_lt_compat. apply pow_lt. lra. Qed.
Lemma perturbed_xy_floor feq pert : / 10 ^ 60 <= perturbed_xy feq pert /\ (/ 10 ^ 60 <= feq * (1 + pert) -> perturbed_xy feq pert = feq * (1 + pert)) /\
  (0 <= feq * (1 + pert) -> Rabs (perturbed_xy feq pert - feq * (1 + pert)) <= / 10 ^ 60).
Proof.
  pose proof ten60 as P. unfold perturbed_xy. cbv zeta. revert P. generalize (/ 10 ^ 60) (feq * (1 + pert)). intros e v P. destruct (Rlt_dec v e).
  - split; [lra|]. split; [intros; lra|]. intros. rewrite Rabs_pos_eq; lra.
  - split; [lra|]. split; [reflexivity|]. intros. replace (v - v) with 0 by ring. rewrite Rabs_R0. lra.
Qed.
Lemma no_perturbation_floor feq : / 10 ^ 60 <= no_perturbation feq /\ (/ 10 ^ 60 <= feq -> no_perturbation feq = feq) /\ (0 <= feq -> Rabs (no_perturbation feq - feq) <= / 10 ^ 60).
Proof.
  pose proof ten60 as P. unfold no_perturbation. revert P. generalize (/ 10 ^ 60). intros e P. destruct (Rlt_dec feq e).
  - split; [lra|]. split; [intros; lra|]. intros. rewrite Rabs_pos_eq; lra.
  - split; [lra|]. split; [reflexivity|]. intros. replace (feq - feq) with 0 by ring. rewrite Rabs_R0. lra.
Qed.

(** ** unit mass, any mass *)
Lemma vm_unit n T V B : 0 < T -> 0 < B ->
  velocity_space (fun v mu => maxwellian_vm 1 n T V B v mu * (2 * PI * B)) n /\
  velocity_space (fun v mu => (v - V) * maxwellian_vm 1 n T V B v mu * (2 * PI * B)) 0 /\
  velocity_space (fun v mu => (v - V) ^ 2 * maxwellian_vm 1 n T V B v mu * (2 * PI * B)) (n * T) /\
  velocity_space (fun v mu => mu * B * maxwellian_vm 1 n T V B v mu * (2 * PI * B)) (n * T).
Proof.
  intros HT HB. pose proof (vm_moments 1 n T V B 0 Rlt_0_1 HT HB) as A. pose proof (vm_moments 1 n T V B 1 Rlt_0_1 HT HB) as A1.
  pose proof (vm_moments 1 n T V B 2 Rlt_0_1 HT HB) as A2. pose proof (vm_perp 1 n T V B Rlt_0_1 HT HB) as A3.
  rewrite sqrt_1 in *. cbn [normal_moment INR] in *. replace (1 * 1 * n * 1) with n in A by ring. replace (1 * 1 * n * 0) with 0 in A1 by ring. replace (1 * 1 * n * (T * 1 * 1)) with (n * T) in A2 by ring.
  replace (1 * 1 * n * T) with (n * T) in A3 by ring. split; [|split; [|split]].
  - revert A. apply space_ext. intros. cbn [pow]. ring.
  - revert A1. apply space_ext. intros. cbn [pow]. ring.
  - exact A2.
  - exact A3.
Qed.
Lemma vm_mass m n T V B : 0 < m -> m <> 1 -> n <> 0 -> 0 < T -> 0 < B ->
  ~ velocity_space (fun v mu => maxwellian_vm m n T V B v mu * (2 * PI * B)) n /\
  ~ velocity_space (fun v mu => maxwellian_vm m n T V B v mu * (2 * PI * B / m)) n /\
  velocity_space (fun v mu => maxwellian_vm m n T V B v mu * (2 * PI * B / m)) (n * sqrt m).
Proof.
  intros Hm M1 Hn HT HB. pose proof PI_RGT_0 as PP. assert (SP : 0 < sqrt m) by (apply sqrt_lt_R0; exact Hm). assert (SS : sqrt m * sqrt m = m) by (apply sqrt_sqrt; lra).
  pose proof (vm_moments_J m n T V B 0 (2 * PI * B) Hm HT HB) as A. pose proof (vm_moments_J m n T V B 0 (2 * PI * B / m) Hm HT HB) as A1. cbn [normal_moment] in *.
  replace (2 * PI * B / (2 * PI * B) * (m * sqrt m * n * 1)) with (n * (m * sqrt m)) in A by (field; lra).
  replace (2 * PI * B / m / (2 * PI * B) * (m * sqrt m * n * 1)) with (n * sqrt m) in A1 by (field; lra).
  apply (space_ext _ (fun v mu => maxwellian_vm m n T V B v mu * (2 * PI * B))) in A; [|intros; cbn [pow]; ring].
  apply (space_ext _ (fun v mu => maxwellian_vm m n T V B v mu * (2 * PI * B / m))) in A1; [|intros; cbn [pow]; ring].
  assert (C : forall c, n * c = n -> c = 1) by (intros c E; apply (Rmult_eq_reg_l n); [lra|exact Hn]). split; [|split; [|exact A1]].
  - intros X. pose proof (C _ (space_unique _ _ _ A X)) as E. apply M1. rewrite <- SS in E at 1. set (s := sqrt m) in *.
    assert (F : (s - 1) * (s * s + s + 1) = 0) by (transitivity (s * s * s - 1); [ring|lra]). apply Rmult_integral in F as [F|F]; [|nra]. rewrite <- SS. replace s with 1 by lra. ring.
  - intros X. pose proof (C _ (space_unique _ _ _ A1 X)) as E. apply M1. rewrite <- SS, E. ring.
Qed.
Lemma exchange_second Rab Qab n V T : 0 < T -> n <> 0 ->
  whole_line (fun v => v * inter_df Rab Qab n V T v) Rab /\ whole_line (fun v => v ^ 2 / 2 * inter_df Rab Qab n V T v) (Qab + V * Rab).
Proof.
  intros HT Hn. destruct (exchange_moments Rab Qab n V T HT Hn) as (A & B & C). split.
  - pose proof (whole_plus _ _ _ _ B (whole_scal V _ _ A)) as W. rewrite Rmult_0_r, Rplus_0_r in W. revert W. apply whole_ext. intros; ring.
  - replace (Qab + V * Rab) with (Qab + (V * Rab + V ^ 2 / 2 * 0)) by ring.
    apply (whole_ext (fun v => (v - V) ^ 2 / 2 * inter_df Rab Qab n V T v + (V * ((v - V) * inter_df Rab Qab n V T v) + V ^ 2 / 2 * inter_df Rab Qab n V T v))); [intros; field|].
    apply whole_plus; [exact C|]. apply whole_plus; apply whole_scal; assumption.
Qed.
Lemma exchange_total me mi nu_e ne Ve Vi Te Ti ni : 0 < Te -> 0 < Ti -> 0 < me -> 0 < mi -> ne <> 0 -> ni <> 0 ->
  let '(Re, Ri, Qe, Qi) := exchange me mi nu_e ne Ve Vi Te Ti in
  exists pe pi ee ei, 
    whole_line (fun v => v * inter_df Re Qe ne Ve Te v) pe /\ whole_line (fun v => v * inter_df Ri Qi ni Vi Ti v) pi /\
    whole_line (fun v => v ^ 2 / 2 * inter_df Re Qe ne Ve Te v) ee /\ whole_line (fun v => v ^ 2 / 2 * inter_df Ri Qi ni Vi Ti v) ei /\
    sqrt (me / mi) * pe + pi = 0 /\ ee + ei = 0.
Proof.
  intros HTe HTi Hme Hmi Hne Hni. destruct (exchange me mi nu_e ne Ve Vi Te Ti) as [[[Re Ri] Qe] Qi] eqn:E. unfold exchange in E. cbv zeta in E.
  set (s := sqrt (me / mi)) in *. assert (ERe : Re = - nu_e * ne * (Ve - s * Vi)) by congruence. assert (ERi : Ri = - s * Re) by congruence. assert (EQi : Qi = - Qe - (Ve - s * Vi) * Re) by congruence.
  destruct (exchange_second Re Qe ne Ve Te HTe Hne) as (A & B). destruct (exchange_second Ri Qi ni Vi Ti HTi Hni) as (A' & B').
  exists Re, Ri, (Qe + Ve * Re), (Qi + Vi * Ri). split; [exact A|]. split; [exact A'|]. split; [exact B|]. split; [exact B'|]. split.
  - rewrite ERi. ring.
  - rewrite EQi, ERi. ring.
Qed.
