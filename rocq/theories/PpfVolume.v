(** The quadrature points and weights of the finite element solver. *)
From Coq Require Import ZifyBool.
From Verif Require Import Lib DerivModel QuadModel QuadProofs QuadNdProofs FemModel FemSolve MappingModel PspModel PspSpec PpfModel PpfSpec PpfRows PpfPattern.
Open Scope R_scope.

Lemma break_nth b t c : (c <= b_cells b)%nat -> nth c (break_points b t) 0 = t (b_deg b + c)%nat.
Proof.
  intros Hc. unfold break_points. set (F := fun c => t (b_deg b + c)%nat). rewrite (nth_indep _ 0 (F 0%nat)) by (rewrite map_length, seq_length; lia). rewrite map_nth, seq_nth by lia. reflexivity.
Qed.
Lemma break_length b t : length (break_points b t) = (b_cells b + 1)%nat.
Proof. unfold break_points. rewrite map_length, seq_length. reflexivity. Qed.
Section Line.
  Variables (b : bspace) (t : nat -> R) (pos w : list R).
  Hypothesis SB : bspline_space b t.
  Hypothesis GT : gauss_table (b_deg b + 1) pos w.
  Notation g := (b_deg b + 1)%nat.
  Notation q := (gl_sampling pos (break_points b t)).
  Lemma line_length : length q = (g * b_cells b)%nat.
  Proof. rewrite gl_sampling_length by (rewrite break_length; lia). unfold gl_size. rewrite break_length, (gt_pos _ _ _ GT). lia. Qed.
  Lemma line_point c k : (c < b_cells b)%nat -> (k <= b_deg b)%nat ->
    nth (c * g + k) q 0 = 0.5 * (t (b_deg b + c)%nat + t (b_deg b + c + 1)%nat) + 0.5 * (t (b_deg b + c + 1)%nat - t (b_deg b + c)%nat) * nth k pos 0.
  Proof.
    intros Hc Hk. pose proof (gl_sampling_nth pos (break_points b t) c k ltac:(rewrite break_length; lia) ltac:(rewrite (gt_pos _ _ _ GT); lia)) as E. rewrite (gt_pos _ _ _ GT) in E.
    rewrite E. unfold gl_cell_half_length. rewrite !break_nth by lia. replace (b_deg b + S c)%nat with (b_deg b + c + 1)%nat by lia. reflexivity.
  Qed.
  Lemma line_inside c k : (c < b_cells b)%nat -> (k <= b_deg b)%nat -> t (b_deg b + c)%nat < nth (c * g + k) q 0 < t (b_deg b + c + 1)%nat.
  Proof.
    intros Hc Hk. rewrite line_point by assumption. pose proof (bs_breaks b t SB c Hc) as HB. assert (P : -1 < nth k pos 0 < 1) by (apply (gt_in _ _ _ GT), nth_In; rewrite (gt_pos _ _ _ GT); lia).
    set (u := t (b_deg b + c)%nat) in *. set (v := t (b_deg b + c + 1)%nat) in *. set (x := nth k pos 0) in *. clear - HB P. pose proof (Rmult_lt_compat_l (v - u) _ _ ltac:(lra) (proj1 P)). pose proof (Rmult_lt_compat_l (v - u) _ _ ltac:(lra) (proj2 P)). lra.
  Qed.
  Lemma line_distinct : NoDup q.
  Proof.
    apply (NoDup_nth _ 0). intros i j Hi Hj E. rewrite line_length in Hi, Hj. rewrite Nat.mul_comm in Hi, Hj.
    destruct (div_lt i (b_cells b) g Hi) as [I1 [I2 I3]]. destruct (div_lt j (b_cells b) g Hj) as [J1 [J2 J3]].
    set (c := (i / g)%nat) in *. set (c' := (j / g)%nat) in *. set (k := (i mod g)%nat) in *. set (k' := (j mod g)%nat) in *.
    assert (LT : forall a a' l l', (a < a')%nat -> (a' < b_cells b)%nat -> (l <= b_deg b)%nat -> (l' <= b_deg b)%nat -> nth (a * g + l) q 0 < nth (a' * g + l') q 0).
    { intros a a' l l' H1 H2 H3 H4. pose proof (line_inside a l ltac:(lia) H3). pose proof (line_inside a' l' H2 H4). pose proof (bs_mono b t SB (b_deg b + a + 1)%nat (b_deg b + a')%nat ltac:(lia)). lra. }
    destruct (lt_eq_lt_dec c c') as [[L|L]|L].
    - pose proof (LT c c' k k' L J1 ltac:(lia) ltac:(lia)) as X. rewrite <- I3, <- J3 in X. lra.
    - rewrite I3, J3 in E |- *. rewrite <- L in E |- *. rewrite !line_point in E by lia. pose proof (bs_breaks b t SB c I1) as HB.
      assert (EK : nth k pos 0 = nth k' pos 0). { apply Rmult_eq_reg_l with (0.5 * (t (b_deg b + c + 1)%nat - t (b_deg b + c)%nat)); lra. }
      pose proof (proj1 (NoDup_nth pos 0) (gt_distinct _ _ _ GT) k k' ltac:(rewrite (gt_pos _ _ _ GT); lia) ltac:(rewrite (gt_pos _ _ _ GT); lia) EK). lia.
    - pose proof (LT c' c k' k L I1 ltac:(lia) ltac:(lia)) as X. rewrite <- I3, <- J3 in X. lra.
  Qed.
  Lemma line_weight k : (k < g * b_cells b)%nat -> gl_coefficient w (break_points b t) k = point_weight b t (fun i => nth i w 0) k /\ 0 < gl_coefficient w (break_points b t) k.
  Proof.
    intros Hk. rewrite Nat.mul_comm in Hk. destruct (div_lt k (b_cells b) g Hk) as [I1 [I2 _]]. unfold gl_coefficient, point_weight, gl_cell_half_length. cbv zeta. rewrite (gt_w _ _ _ GT).
    rewrite !break_nth by lia. replace (b_deg b + S (k / g))%nat with (b_deg b + k / g + 1)%nat by lia. pose proof (bs_breaks b t SB _ I1) as HB.
    assert (P : 0 < nth (k mod g) w 0) by (apply (gt_positive _ _ _ GT), nth_In; rewrite (gt_w _ _ _ GT); lia). split; [lra|]. apply Rmult_lt_0_compat; lra.
  Qed.
End Line.
Lemma flat_nth (f : nat -> nat -> R) n m a c : (a < n)%nat -> (c < m)%nat -> nth (a * m + c) (flat_map (fun a => map (f a) (seq 0 m)) (seq 0 n)) 0 = f a c.
Proof.
  intros Ha Hc. assert (G : forall s n a, (a < n)%nat -> nth (a * m + c) (flat_map (fun a => map (f a) (seq 0 m)) (seq s n)) 0 = f (s + a)%nat c).
  { clear n a Ha. intros s n. revert s. induction n as [|n IH]; intros s a Ha; [lia|]. cbn [seq flat_map]. destruct a as [|a].
    - cbn [Nat.mul Nat.add]. rewrite app_nth1 by (rewrite map_length, seq_length; exact Hc). rewrite (nth_indep _ 0 (f s 0%nat)) by (rewrite map_length, seq_length; exact Hc). rewrite map_nth, seq_nth by exact Hc. rewrite Nat.add_0_r. reflexivity.
    - rewrite app_nth2 by (rewrite map_length, seq_length; lia). rewrite map_length, seq_length. replace (S a * m + c - m)%nat with (a * m + c)%nat by lia. rewrite IH by lia. f_equal. lia. }
  rewrite (G 0%nat n a Ha). reflexivity.
Qed.
Lemma flat_length (f : nat -> nat -> R) n m : length (flat_map (fun a => map (f a) (seq 0 m)) (seq 0 n)) = (n * m)%nat.
Proof.
  generalize 0%nat at 2. induction n as [|n IH]; intros s; cbn [seq flat_map]; [reflexivity|]. rewrite app_length, map_length, seq_length, IH. lia.
Qed.
Theorem volume_theorem br bt tr tt pos_r w_r pos_t w_t mp qr qt vol : bspline_space br tr -> bspline_space bt tt ->
  gauss_table (b_deg br + 1) pos_r w_r -> gauss_table (b_deg bt + 1) pos_t w_t ->
  int_volume pos_r w_r (break_points br tr) pos_t w_t (break_points bt tt) mp = (qr, qt, vol) ->
  (length qr = ((b_deg br + 1) * b_cells br)%nat /\ length qt = ((b_deg bt + 1) * b_cells bt)%nat /\ length vol = (length qr * length qt)%nat) /\
  (forall c k, (c < b_cells br)%nat -> (k <= b_deg br)%nat -> tr (b_deg br + c)%nat < nth (c * (b_deg br + 1) + k) qr 0 < tr (b_deg br + c + 1)%nat) /\
  (forall c k, (c < b_cells bt)%nat -> (k <= b_deg bt)%nat -> tt (b_deg bt + c)%nat < nth (c * (b_deg bt + 1) + k) qt 0 < tt (b_deg bt + c + 1)%nat) /\
  (NoDup qr /\ NoDup qt) /\
  (forall a b, (a < length qr)%nat -> (b < length qt)%nat -> nth (a * length qt + b) vol 0 =
     point_weight br tr (fun i => nth i w_r 0) a * point_weight bt tt (fun i => nth i w_t 0) b * Rabs (m_jac mp (c2 (nth a qr 0) (nth b qt 0)))) /\
  ((forall r th, In r qr -> In th qt -> m_jac mp (c2 r th) <> 0) -> forall w, In w vol -> 0 < w).
Proof.
  intros SR ST GR GT E. unfold int_volume in E.
  set (f := fun a b => coeffs_on_mapping (fun ab => [nth (Z.to_nat (nth 0 ab 0%Z)) (gl_sampling pos_r (break_points br tr)) 0; nth (Z.to_nat (nth 1 ab 0%Z)) (gl_sampling pos_t (break_points bt tt)) 0])
       (fun x => m_jac mp (c2 (nth 0 x 0) (nth 1 x 0)))
       (quadrature_coeffs_nd [(fun i => gl_coefficient w_r (break_points br tr) (Z.to_nat i)); (fun j => gl_coefficient w_t (break_points bt tt) (Z.to_nat j))]) [Z.of_nat a; Z.of_nat b]).
  assert (E1 := f_equal (fun z => fst (fst z)) E). assert (E2 := f_equal (fun z => snd (fst z)) E). assert (E3 := f_equal snd E). cbn [fst snd] in E1, E2, E3. clear E.
  change (flat_map (fun a => map (f a) (seq 0 (length (gl_sampling pos_t (break_points bt tt))))) (seq 0 (length (gl_sampling pos_r (break_points br tr)))) = vol) in E3. rewrite E1, E2 in E3.
  pose proof (line_length br tr pos_r w_r GR) as L1. rewrite E1 in L1. pose proof (line_length bt tt pos_t w_t GT) as L2. rewrite E2 in L2.
  assert (FV : forall a b, (a < length qr)%nat -> (b < length qt)%nat -> f a b = gl_coefficient w_r (break_points br tr) a * gl_coefficient w_t (break_points bt tt) b * Rabs (m_jac mp (c2 (nth a qr 0) (nth b qt 0)))).
  { intros a b Ha Hb. unfold f, coeffs_on_mapping. cbn [nth quadrature_coeffs_nd]. rewrite !Nat2Z.id, E1, E2. ring. }
  split. { split; [exact L1|]. split; [exact L2|]. rewrite <- E3. apply flat_length. }
  split. { intros c k Hc Hk. rewrite <- E1. apply (line_inside br tr pos_r w_r); assumption. }
  split. { intros c k Hc Hk. rewrite <- E2. apply (line_inside bt tt pos_t w_t); assumption. }
  split. { split; [rewrite <- E1; apply (line_distinct br tr pos_r w_r)|rewrite <- E2; apply (line_distinct bt tt pos_t w_t)]; assumption. }
  split.
  - intros a b Ha Hb. rewrite <- E3, flat_nth by assumption. rewrite FV by assumption.
    rewrite (proj1 (line_weight br tr pos_r w_r SR GR a ltac:(lia))), (proj1 (line_weight bt tt pos_t w_t ST GT b ltac:(lia))). reflexivity.
  - intros HJ w Hw. rewrite <- E3 in Hw. apply in_flat_map in Hw. destruct Hw as [a [Ha Hw]]. apply in_seq in Ha. apply in_map_iff in Hw. destruct Hw as [b [<- Hb]]. apply in_seq in Hb.
    rewrite FV by lia. pose proof (proj2 (line_weight br tr pos_r w_r SR GR a ltac:(lia))). pose proof (proj2 (line_weight bt tt pos_t w_t ST GT b ltac:(lia))).
    apply Rmult_lt_0_compat; [apply Rmult_lt_0_compat; assumption|]. apply Rabs_pos_lt, HJ; apply nth_In; lia.
Qed.
