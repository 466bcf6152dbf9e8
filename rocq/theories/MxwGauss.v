(** The Gaussian integral and the moments of a Gaussian on the whole line (not specific to the code). *)
From Coquelicot Require Import Coquelicot.
From Verif Require Import Lib MxwSpec.
Open Scope R_scope.

(** ** Integrals over the whole line *)
Ltac onR := match goal with |- @eq _ ?a ?b => change (@eq R a b) end.
Lemma RInt_extR (f g : R -> R) a b : (forall x : R, f x = g x) -> RInt f a b = RInt g a b.
Proof. intros H. apply (RInt_ext (V := R_CompleteNormedModule)). intros; apply H. Qed.
Lemma RInt_plusR (f g : R -> R) (a b : R) : ex_RInt f a b -> ex_RInt g a b -> RInt (fun x => f x + g x) a b = RInt f a b + RInt g a b.
Proof. exact (RInt_plus (V := R_CompleteNormedModule) f g a b). Qed.
Lemma RInt_scalR (c : R) (f : R -> R) (a b : R) : ex_RInt f a b -> RInt (fun x => c * f x) a b = c * RInt f a b.
Proof. exact (RInt_scal (V := R_CompleteNormedModule) f a b c). Qed.
Lemma RInt_linR (f : R -> R) (u v a b : R) : ex_RInt f (u * a + v) (u * b + v) -> RInt (fun y => u * f (u * y + v)) a b = RInt f (u * a + v) (u * b + v).
Proof. exact (RInt_comp_lin (V := R_CompleteNormedModule) f u v a b). Qed.
Lemma RInt_constR (a b c : R) : RInt (fun _ => c) a b = (b - a) * c.
Proof. exact (RInt_const (V := R_CompleteNormedModule) a b c). Qed.
Lemma RInt_chaslesR (f : R -> R) (a b c : R) : ex_RInt f a b -> ex_RInt f b c -> RInt f a b + RInt f b c = RInt f a c.
Proof. exact (RInt_Chasles (V := R_CompleteNormedModule) f a b c). Qed.
Lemma RInt_swapR (f : R -> R) (a b : R) : ex_RInt f a b -> RInt f b a = - RInt f a b.
Proof. intros H. symmetry. exact (opp_RInt_swap (V := R_CompleteNormedModule) f a b H). Qed.
Lemma RInt_primitive (F f : R -> R) (a b : R) : (forall x, is_derive F x (f x)) -> (forall x, continuous f x) -> RInt f a b = F b - F a.
Proof.
  intros D C. apply (is_RInt_unique (V := R_CompleteNormedModule)). apply (is_RInt_derive (V := R_CompleteNormedModule) F f); intros; auto.
Qed.
Lemma RInt_pointR (f : R -> R) (a : R) : RInt f a a = 0.
Proof. exact (RInt_point (V := R_CompleteNormedModule) a f). Qed.
Lemma whole_ext f g l : (forall x, f x = g x) -> whole_line f l -> whole_line g l.
Proof.
  intros E [A B]. split; [intros a b; apply (ex_RInt_ext f); [intros; apply E|apply A]|]. intros eps H. destruct (B eps H) as (M & HM). exists M. intros a b Ha Hb.
  rewrite <- (RInt_extR f g) by (intros; apply E). apply HM; assumption.
Qed.
Lemma whole_unique f l l' : whole_line f l -> whole_line f l' -> l = l'.
Proof.
  intros [_ A] [_ B]. apply cond_eq. intros eps H. assert (H2 : 0 < eps / 2) by lra. destruct (A _ H2) as (M & HM), (B _ H2) as (M' & HM').
  set (N := Rmax M M'). assert (M <= N) by apply Rmax_l. assert (M' <= N) by apply Rmax_r. specialize (HM (- N) N ltac:(lra) ltac:(lra)). specialize (HM' (- N) N ltac:(lra) ltac:(lra)).
  replace (l - l') with ((RInt f (- N) N - l') - (RInt f (- N) N - l)) by ring. unfold Rminus at 1. eapply Rle_lt_trans; [apply Rabs_triang|]. rewrite Rabs_Ropp. lra.
Qed.
Lemma whole_plus f g l m : whole_line f l -> whole_line g m -> whole_line (fun x => f x + g x) (l + m).
Proof.
  intros [A B] [A' B']. split; [intros; apply (ex_RInt_plus (V := R_NormedModule) f g); auto|]. intros eps H.
  assert (H2 : 0 < eps / 2) by lra. destruct (B _ H2) as (M & HM), (B' _ H2) as (M' & HM'). exists (Rmax M M'). intros a b Ha Hb.
  assert (M <= Rmax M M') by apply Rmax_l. assert (M' <= Rmax M M') by apply Rmax_r. specialize (HM a b ltac:(lra) ltac:(lra)). specialize (HM' a b ltac:(lra) ltac:(lra)).
  rewrite (RInt_plusR f g) by auto. replace (RInt f a b + RInt g a b - (l + m)) with ((RInt f a b - l) + (RInt g a b - m)) by ring.
  eapply Rle_lt_trans; [apply Rabs_triang|]. replace eps with (eps / 2 + eps / 2) by field. apply Rplus_lt_compat; [exact HM|exact HM'].
Qed.
Lemma whole_scal c f l : whole_line f l -> whole_line (fun x => c * f x) (c * l).
Proof.
  intros [A B]. split; [intros; apply (ex_RInt_scal (V := R_NormedModule) f); auto|]. intros eps H.
  destruct (B (eps / (1 + Rabs c))) as (M & HM). { apply Rdiv_lt_0_compat; [exact H|]. pose proof (Rabs_pos c). lra. }
  exists M. intros a b Ha Hb. specialize (HM a b Ha Hb). rewrite (RInt_scalR c f) by auto.
  replace (c * RInt f a b - c * l) with (c * (RInt f a b - l)) by ring. rewrite Rabs_mult. pose proof (Rabs_pos c). pose proof (Rabs_pos (RInt f a b - l)).
  assert (E : (1 + Rabs c) * (eps / (1 + Rabs c)) = eps) by (field; lra).
  nra.
Qed.
Lemma half_ext f g l : (forall x, f x = g x) -> half_line f l -> half_line g l.
Proof.
  intros E [A B]. split; [intros a b; apply (ex_RInt_ext f); [intros; apply E|apply A]|]. intros eps H. destruct (B eps H) as (M & HM). exists M. intros b Hb.
  rewrite <- (RInt_extR f g) by (intros; apply E). apply HM; assumption.
Qed.
Lemma half_scal c f l : half_line f l -> half_line (fun x => c * f x) (c * l).
Proof.
  intros [A B]. split; [intros; apply (ex_RInt_scal (V := R_NormedModule) f); auto|]. intros eps H.
  destruct (B (eps / (1 + Rabs c))) as (M & HM). { apply Rdiv_lt_0_compat; [exact H|]. pose proof (Rabs_pos c). lra. }
  exists M. intros b Hb. specialize (HM b Hb). rewrite (RInt_scalR c f) by auto.
  replace (c * RInt f 0 b - c * l) with (c * (RInt f 0 b - l)) by ring. rewrite Rabs_mult. pose proof (Rabs_pos c). pose proof (Rabs_pos (RInt f 0 b - l)).
  assert (E : (1 + Rabs c) * (eps / (1 + Rabs c)) = eps) by (field; lra).
  nra.
Qed.

(** ** int_0^oo exp(-t^2) dt = sqrt(pi) / 2 *)
Definition bell (t : R) : R := exp (- (t * t)).
Definition Phi (x : R) : R := RInt bell 0 x.
Lemma bell_cont x : continuous bell x.
Proof. apply @ex_derive_continuous. unfold bell. auto_derive. exact I. Qed.
Lemma bell_int a b : ex_RInt bell a b.
Proof. apply @ex_RInt_continuous. intros. apply bell_cont. Qed.
Lemma Phi_derive x : is_derive Phi x (bell x).
Proof.
  unfold Phi. apply (is_derive_RInt (V := R_NormedModule) bell (fun x => RInt bell 0 x) 0 x).
  - exists (mkposreal 1 Rlt_0_1). intros y _. apply @RInt_correct. apply bell_int.
  - apply bell_cont.
Qed.
Definition kern (x t : R) : R := exp (- (x * x * (1 + t * t))) / (1 + t * t).
Lemma one_plus t : 0 < 1 + t * t. Proof. nra. Qed.
Lemma kern_derive x t : is_derive (fun u => kern u t) x (- 2 * x * exp (- (x * x * (1 + t * t)))).
Proof. unfold kern. auto_derive; [pose proof (one_plus t); lra|]. pose proof (one_plus t). field. lra. Qed.
Lemma kern_int x a b : ex_RInt (kern x) a b.
Proof. apply @ex_RInt_continuous. intros t _. apply @ex_derive_continuous. unfold kern. auto_derive. pose proof (one_plus t). lra. Qed.
Definition G (x : R) : R := RInt (kern x) 0 1.
Lemma dkern_2d x t : continuity_2d_pt (fun u v => Derive (fun z => kern z v) u) x t.
Proof.
  apply (continuity_2d_pt_ext (fun u v => - 2 * u * exp (- (u * u * (1 + v * v))))).
  { intros u v. symmetry. apply is_derive_unique. apply kern_derive. }
  apply continuity_2d_pt_mult.
  - apply continuity_2d_pt_mult; [apply continuity_2d_pt_const|apply continuity_2d_pt_id1].
  - apply (continuity_1d_2d_pt_comp exp (fun u v => - (u * u * (1 + v * v)))).
    + apply derivable_continuous_pt. apply derivable_pt_exp.
    + apply continuity_2d_pt_opp. apply continuity_2d_pt_mult; [apply continuity_2d_pt_mult; apply continuity_2d_pt_id1|].
      apply continuity_2d_pt_plus; [apply continuity_2d_pt_const|]. apply continuity_2d_pt_mult; apply continuity_2d_pt_id2.
Qed.
Lemma G_derive x : is_derive G x (- 2 * bell x * Phi x).
Proof.
  assert (D : is_derive G x (RInt (fun t => Derive (fun u => kern u t) x) 0 1)).
  { unfold G. apply (is_derive_RInt_param kern 0 1 x).
    - exists (mkposreal 1 Rlt_0_1). intros y _ t _. eexists. apply kern_derive.
    - intros t _. apply dkern_2d.
    - exists (mkposreal 1 Rlt_0_1). intros y _. apply kern_int. }
  replace (- 2 * bell x * Phi x) with (RInt (fun t => Derive (fun u => kern u t) x) 0 1); [exact D|].
  rewrite (RInt_extR _ (fun t => (- 2 * bell x) * (x * bell (x * t + 0)))).
  - rewrite RInt_scalR.
    + rewrite (RInt_linR bell x 0 0 1) by apply bell_int. unfold Phi. do 2 f_equal; ring.
    + apply (ex_RInt_comp_lin (V := R_NormedModule) bell x 0 0 1). apply bell_int.
  - intros t. transitivity (- 2 * x * exp (- (x * x * (1 + t * t)))); [exact (is_derive_unique _ _ _ (kern_derive x t))|]. unfold bell.
    replace (- (x * x * (1 + t * t))) with (- (x * x) + - ((x * t + 0) * (x * t + 0))) by ring. rewrite exp_plus.
    ring.
Qed.
Lemma G_zero : G 0 = PI / 4.
Proof.
  unfold G. rewrite (RInt_extR _ (fun t => / (1 + t ^ 2))).
  - rewrite (RInt_primitive atan).
    + rewrite atan_0, atan_1. ring.
    + intros t. apply is_derive_Reals. apply derivable_pt_lim_atan.
    + intros t. apply @ex_derive_continuous. auto_derive. pose proof (one_plus t). lra.
  - intros t. unfold kern. replace (- (0 * 0 * (1 + t * t))) with 0 by ring. rewrite exp_0. pose proof (one_plus t). replace (t ^ 2) with (t * t) by ring. field. lra.
Qed.
Lemma gauss_identity x : 0 <= x -> Phi x * Phi x + G x = PI / 4.
Proof.
  intros [H| <-].
  - rewrite <- G_zero. transitivity (Phi 0 * Phi 0 + G 0).
    + symmetry. apply (eq_is_derive (V := R_NormedModule) (fun y => Phi y * Phi y + G y) 0 x); [|exact H]. intros t _.
      replace (@zero R_NormedModule) with ((bell t * Phi t + Phi t * bell t) + (- 2 * bell t * Phi t)) by (cbn; ring).
      apply (is_derive_plus (V := R_NormedModule) (fun y => Phi y * Phi y) G).
      * apply (is_derive_mult Phi Phi t); [apply Phi_derive|apply Phi_derive|intros; apply Rmult_comm].
      * apply G_derive.
    + unfold Phi. rewrite RInt_pointR. ring.
  - rewrite <- G_zero. unfold Phi. rewrite RInt_pointR. ring.
Qed.
Lemma G_bound x : 0 <= G x <= bell x.
Proof.
  assert (B : forall t, 0 <= kern x t <= bell x).
  { intros t. pose proof (one_plus t) as O. unfold kern, bell. split.
    - left. apply Rdiv_lt_0_compat; [apply exp_pos|exact O].
    - apply (Rmult_le_reg_r (1 + t * t)); [exact O|]. unfold Rdiv. rewrite Rmult_assoc, Rinv_l, Rmult_1_r by lra.
      replace (- (x * x * (1 + t * t))) with (- (x * x) + - (x * t * (x * t))) by ring. rewrite exp_plus.
      pose proof (exp_pos (- (x * x))). assert (exp (- (x * t * (x * t))) <= 1). { rewrite <- exp_0. destruct (Req_dec (x * t) 0) as [->|N]; [right; f_equal; ring|]. left. apply exp_increasing. apply Rsqr_pos_lt in N. unfold Rsqr in N. lra. }
      nra. }
  split.
  - unfold G. apply RInt_ge_0; [lra|apply kern_int|intros; apply B].
  - unfold G. assert (Q : RInt (kern x) 0 1 <= RInt (fun _ => bell x) 0 1) by (apply RInt_le; [lra|apply kern_int|apply @ex_RInt_const|intros; apply B]).
    rewrite RInt_constR in Q. eapply Rle_trans; [exact Q|lra].
Qed.
Lemma Phi_pos x : 0 <= x -> 0 <= Phi x.
Proof. intros H. apply RInt_ge_0; [exact H|apply bell_int|]. intros. left. apply exp_pos. Qed.
Lemma bell_small x : bell x <= / (1 + x * x).
Proof.
  unfold bell. rewrite exp_Ropp. apply Rinv_le_contravar; [apply one_plus|]. destruct (Req_dec x 0) as [->|N].
  - replace (0 * 0) with 0 by ring. rewrite exp_0. lra.
  - left. apply exp_ineq1. apply Rsqr_pos_lt in N. unfold Rsqr in N. lra.
Qed.
Lemma Phi_limit x : 0 <= x -> Rabs (Phi x - sqrt PI / 2) <= 2 * bell x.
Proof.
  intros H. pose proof (gauss_identity x H) as E. pose proof (G_bound x) as B. pose proof (Phi_pos x H) as P.
  assert (S1 : 1 <= sqrt PI). { rewrite <- sqrt_1. apply sqrt_le_1_alt. pose proof PI_4. pose proof PI2_1. lra. }
  assert (S2 : sqrt PI * sqrt PI = PI) by (apply sqrt_sqrt; pose proof PI_RGT_0; lra). set (s := sqrt PI) in *.
  assert (F : (Phi x - s / 2) * (Phi x + s / 2) = - G x) by nra. 
  assert (U : Phi x - s / 2 <= 0). { destruct (Rle_dec (Phi x - s / 2) 0); [assumption|]. exfalso. assert (0 < (Phi x - s / 2) * (Phi x + s / 2)) by (apply Rmult_lt_0_compat; lra). lra. }
  rewrite Rabs_left1 by exact U. assert ((s / 2 - Phi x) * (1 / 2) <= (s / 2 - Phi x) * (Phi x + s / 2)) by (apply Rmult_le_compat_l; lra). nra.
Qed.
Lemma Phi_odd x : Phi (- x) = - Phi x.
Proof.
  unfold Phi. pose proof (RInt_linR bell (-1) 0 0 x) as C. replace (-1 * 0 + 0) with 0 in C by ring. replace (-1 * x + 0) with (- x) in C by ring.
  rewrite <- C by apply bell_int. rewrite (RInt_extR _ (fun t => -1 * bell t)).
  - rewrite RInt_scalR by apply bell_int. ring.
  - intros t. unfold bell. do 3 f_equal. ring.
Qed.

(** ** Gaussians of any centre and width *)
Definition gaussian (V T v : R) : R := exp (- (v - V) * (v - V) / (2 * T)).
Lemma poly_gauss_int V T k a b : 0 < T -> ex_RInt (fun v => (v - V) ^ k * gaussian V T v) a b.
Proof. intros H. apply @ex_RInt_continuous. intros v _. apply @ex_derive_continuous. unfold gaussian. auto_derive. exact I. Qed.
Lemma gauss_Phi V T a b : 0 < T -> RInt (gaussian V T) a b = sqrt (2 * T) * (Phi ((b - V) / sqrt (2 * T)) - Phi ((a - V) / sqrt (2 * T))).
Proof.
  intros H. set (s := sqrt (2 * T)). assert (SP : 0 < s) by (apply sqrt_lt_R0; lra). assert (SS : s * s = 2 * T) by (apply sqrt_sqrt; lra).
  pose proof (RInt_linR bell (/ s) (- V / s) a b) as C.
  rewrite (RInt_extR (gaussian V T) (fun v => s * (/ s * bell (/ s * v + - V / s)))).
  - rewrite RInt_scalR.
    + rewrite C by apply bell_int. replace (/ s * a + - V / s) with ((a - V) / s) by (field; lra). replace (/ s * b + - V / s) with ((b - V) / s) by (field; lra).
      f_equal. unfold Phi. rewrite <- (RInt_chaslesR bell ((a - V) / s) 0 ((b - V) / s)) by apply bell_int.
      rewrite (RInt_swapR bell 0 ((a - V) / s)) by apply bell_int. onR. ring.
    + apply (ex_RInt_comp_lin (V := R_NormedModule) bell). apply bell_int.
  - intros v. unfold gaussian, bell. rewrite <- Rmult_assoc, Rinv_r, Rmult_1_l by lra. f_equal.
    replace (- (v - V) * (v - V) / (2 * T)) with (- (((v - V) * (v - V)) / (s * s))) by (rewrite SS; field; lra). f_equal. field. lra.
Qed.
Lemma gauss_whole V T : 0 < T -> whole_line (gaussian V T) (sqrt (2 * PI * T)).
Proof.
  intros H. split. { intros a b. apply (ex_RInt_ext (fun v => (v - V) ^ 0 * gaussian V T v)); [intros; cbn; ring|apply poly_gauss_int; exact H]. }
  intros eps He. set (s := sqrt (2 * T)). assert (SP : 0 < s) by (apply sqrt_lt_R0; lra).
  set (q := 4 * s / eps). assert (Q : 0 < q) by (apply Rdiv_lt_0_compat; lra). exists (Rabs V + s * (1 + q)). intros a b Ha Hb. rewrite gauss_Phi by exact H. fold s.
  assert (EQ : sqrt (2 * PI * T) = s * sqrt PI). { unfold s. rewrite <- sqrt_mult by (pose proof PI_RGT_0; lra). f_equal. ring. } rewrite EQ.
  assert (HB : 1 + q <= (b - V) / s). { apply (Rmult_le_reg_r s); [exact SP|]. unfold Rdiv. rewrite Rmult_assoc, Rinv_l, Rmult_1_r by lra. pose proof (Rle_abs V). lra. }
  assert (HA : 1 + q <= - ((a - V) / s)). { apply (Rmult_le_reg_r s); [exact SP|]. replace (- ((a - V) / s) * s) with (V - a) by (field; lra). pose proof (Rle_abs (- V)). rewrite Rabs_Ropp in *. lra. }
  replace (Phi ((a - V) / s)) with (- Phi (- ((a - V) / s))) by (rewrite <- Phi_odd; f_equal; ring).
  assert (SM : forall z, 1 + q <= z -> Rabs (Phi z - sqrt PI / 2) < eps / (2 * s)).
  { intros z Hz. eapply Rle_lt_trans; [apply Phi_limit; lra|]. pose proof (bell_small z). assert (/ (1 + z * z) < / q).
    { apply Rinv_lt_contravar; [apply Rmult_lt_0_compat; [exact Q|apply one_plus]|]. nra. }
    assert (/ q = eps / (4 * s)) by (unfold q; field; lra). assert (2 * (eps / (4 * s)) = eps / (2 * s)) by (field; lra). lra. }
  pose proof (SM _ HB) as S1. pose proof (SM _ HA) as S2. set (A := Phi (- ((a - V) / s))) in *. set (B := Phi ((b - V) / s)) in *.
  replace (s * (B - - A) - s * sqrt PI) with (s * ((B - sqrt PI / 2) + (A - sqrt PI / 2))) by field. rewrite Rabs_mult, (Rabs_pos_eq s) by lra.
  assert (Rabs (B - sqrt PI / 2 + (A - sqrt PI / 2)) < eps / s). { eapply Rle_lt_trans; [apply Rabs_triang|]. replace (eps / s) with (eps / (2 * s) + eps / (2 * s)) by (field; lra). lra. }
  replace eps with (s * (eps / s)) by (field; lra). apply Rmult_lt_compat_l; assumption.
Qed.
