(** Norms by quadrature. *)
From Coq Require Import Lra Lia.
From Verif Require Import NrmSpec QuadNdProofs.
Open Scope R_scope.

Definition lsum (l : list nd_idx) (f : nd_idx -> R) : R := fold_right (fun i s => f i + s) 0 l.
Lemma lsum_app : forall l l' f, lsum (l ++ l') f = lsum l f + lsum l' f.
Proof. intros l l' f. unfold lsum. induction l as [|i l IH]; cbn; [lra|]. rewrite IH. lra. Qed.
Lemma lsum_map : forall l h f, lsum (map h l) f = lsum l (fun i => f (h i)).
Proof. intros l h f. induction l as [|i l IH]; cbn; [reflexivity|]. unfold lsum in IH. rewrite IH. reflexivity. Qed.
Lemma lsum_flat : forall n (h : nat -> list nd_idx) f, lsum (flat_map h (seq 0 n)) f = Rsum n (fun k => lsum (h k) f).
Proof.
  intros n h f. induction n as [|n IH]; [reflexivity|].
  rewrite seq_S, flat_map_app, lsum_app, IH. cbn [flat_map plus Nat.add Rsum]. rewrite app_nil_r. reflexivity.
Qed.
Lemma nd_sum_points : forall g f, nd_sum g f = lsum (points g) f.
Proof.
  induction g as [|[fr n] g IH]; intros f; [cbn; lra|]. cbn [nd_sum points]. rewrite lsum_flat.
  apply Rsum_ext. intros k _. rewrite IH, lsum_map. reflexivity.
Qed.
Lemma in_points : forall g i, In i (points g) <-> in_nd g i.
Proof.
  induction g as [|[fr n] g IH]; intros i.
  - destruct i as [|k i]; cbn; split; [auto|auto|intros [H|[]]; discriminate|intros []].
  - cbn [points]. rewrite in_flat_map. split.
    + intros (k & Hk & H). apply in_map_iff in H. destruct H as (i' & <- & H). apply in_seq in Hk. cbn. split; [lia|]. apply IH. exact H.
    + destruct i as [|k i]; [intros []|]. intros [H1 H2]. exists (Z.to_nat (k - fr)). split; [apply in_seq; lia|].
      apply in_map_iff. exists i. split; [f_equal; lia|apply IH; exact H2].
Qed.
Lemma contains_iff : forall g i, contains g i = true <-> in_nd g i.
Proof.
  induction g as [|[fr n] g IH]; intros [|k i]; cbn; try (split; [discriminate|intros []]); [split; auto|].
  rewrite !Bool.andb_true_iff, Z.leb_le, Z.ltb_lt, IH. tauto.
Qed.
Lemma reads_inside_iff : forall g f, reads_inside g f = true <-> covers g f.
Proof.
  intros g f. unfold reads_inside, covers. rewrite forallb_forall. split.
  - intros H i Hi. apply contains_iff. apply H. apply in_points. exact Hi.
  - intros H i Hi. apply contains_iff. apply H. apply in_points. exact Hi.
Qed.
Lemma quad_lsum : forall g c f, quadrature g c f = lsum (points g) (fun i => c i * f i).
Proof. intros. rewrite quadrature_is_sum. apply nd_sum_points. Qed.

(** ** Sums *)
Lemma lsum_ext : forall l f h, (forall i, In i l -> f i = h i) -> lsum l f = lsum l h.
Proof.
  intros l f h. induction l as [|i l IH]; intros H; [reflexivity|]. cbn. rewrite (H i (or_introl eq_refl)).
  unfold lsum in IH. rewrite IH; [reflexivity|]. intros j Hj. apply H. right. exact Hj.
Qed.
Lemma lsum_le : forall l f h, (forall i, In i l -> f i <= h i) -> lsum l f <= lsum l h.
Proof.
  intros l f h. induction l as [|i l IH]; intros H; [cbn; lra|]. cbn. pose proof (H i (or_introl eq_refl)).
  unfold lsum in IH. assert (X := IH (fun j Hj => H j (or_intror Hj))). lra.
Qed.
Lemma lsum_nonneg : forall l f, (forall i, In i l -> 0 <= f i) -> 0 <= lsum l f.
Proof.
  intros l f. induction l as [|i l IH]; intros H; [cbn; lra|]. cbn. pose proof (H i (or_introl eq_refl)).
  unfold lsum in IH. assert (X := IH (fun j Hj => H j (or_intror Hj))). lra.
Qed.
Lemma lsum_zero : forall l f, (forall i, In i l -> 0 <= f i) -> (lsum l f = 0 <-> forall i, In i l -> f i = 0).
Proof.
  intros l f. induction l as [|i l IH]; intros H; [split; [intros _ ? []|reflexivity]|].
  pose proof (H i (or_introl eq_refl)) as Hi. assert (X := lsum_nonneg l f (fun j Hj => H j (or_intror Hj))).
  destruct (IH (fun j Hj => H j (or_intror Hj))) as [I1 I2]. cbn. fold (lsum l f). split.
  - intros E j [<-|Hj]; [lra|]. apply I1; [lra|exact Hj].
  - intros E. rewrite (E i (or_introl eq_refl)), I2; [lra|]. intros j Hj. apply E. right. exact Hj.
Qed.
Lemma lsum_scal : forall l a f, lsum l (fun i => a * f i) = a * lsum l f.
Proof. intros l a f. induction l as [|i l IH]; cbn; [lra|]. unfold lsum in IH. rewrite IH. lra. Qed.
Lemma lsum_plus : forall l f h, lsum l (fun i => f i + h i) = lsum l f + lsum l h.
Proof. intros l f h. induction l as [|i l IH]; cbn; [lra|]. unfold lsum in IH. rewrite IH. lra. Qed.
Lemma cauchy_schwarz : forall l w a b, (forall i, In i l -> 0 <= w i) ->
  lsum l (fun i => w i * (a i * b i)) * lsum l (fun i => w i * (a i * b i)) <=
  lsum l (fun i => w i * (a i * a i)) * lsum l (fun i => w i * (b i * b i)).
Proof.
  intros l w a b. induction l as [|i l IH]; intros H; [cbn; lra|].
  specialize (IH (fun j Hj => H j (or_intror Hj))). pose proof (H i (or_introl eq_refl)) as Wi.
  assert (PA : 0 <= lsum l (fun i => w i * (a i * a i))).
  { apply lsum_nonneg. intros j Hj. pose proof (H j (or_intror Hj)). pose proof (Rle_0_sqr (a j)). unfold Rsqr in *. nra. }
  assert (PC : 0 <= lsum l (fun i => w i * (b i * b i))).
  { apply lsum_nonneg. intros j Hj. pose proof (H j (or_intror Hj)). pose proof (Rle_0_sqr (b j)). unfold Rsqr in *. nra. }
  cbn. fold (lsum l (fun i => w i * (a i * b i))) (lsum l (fun i => w i * (a i * a i))) (lsum l (fun i => w i * (b i * b i))).
  set (A := lsum l (fun i => w i * (a i * a i))) in *. set (B := lsum l (fun i => w i * (a i * b i))) in *. set (C := lsum l (fun i => w i * (b i * b i))) in *.
  set (x := a i) in *. set (y := b i) in *. set (v := w i) in *. clearbody A B C x y v. clear H.
  assert (K : 2 * (B * (x * y)) <= A * (y * y) + C * (x * x)).
  { assert (Q : (2 * (B * (x * y))) * (2 * (B * (x * y))) <= (A * (y * y) + C * (x * x)) * (A * (y * y) + C * (x * x))).
    { assert (B * B * ((x * y) * (x * y)) <= A * C * ((x * y) * (x * y))) by (apply Rmult_le_compat_r; [apply Rle_0_sqr|exact IH]).
      pose proof (Rle_0_sqr (A * (y * y) - C * (x * x))) as S0. unfold Rsqr in S0. nra. }
    assert (P : 0 <= A * (y * y) + C * (x * x)) by (pose proof (Rle_0_sqr x); pose proof (Rle_0_sqr y); unfold Rsqr in *; nra).
    apply Rsqr_incr_0_var; [exact Q|exact P]. }
  nra.
Qed.

(** ** Norms *)
Notation "'pos_on' g c" := (forall i, in_nd g i -> 0 <= c i) (at level 10, g at level 9, c at level 9, only parsing).
Lemma sum_of : forall g c f, quadrature g c f = nd_sum g (fun i => c i * f i).
Proof. exact quadrature_is_sum. Qed.

Theorem norm_L1_value : forall g c f,
  (covers g f -> norm_L1 g c f = Ok (Fin (nd_sum g (fun i => c i * Rabs (val f i))))) /\
  (~ covers g f -> norm_L1 g c f = Ub).
Proof.
  intros g c f. unfold norm_L1. split; intros H.
  - rewrite (proj2 (reads_inside_iff g f) H), sum_of. reflexivity.
  - destruct (reads_inside g f) eqn:E; [|reflexivity]. apply reads_inside_iff in E. contradiction.
Qed.
Lemma nd_sum_ge : forall g f, (forall i, in_nd g i -> 0 <= f i) -> 0 <= nd_sum g f.
Proof. intros g f H. rewrite nd_sum_points. apply lsum_nonneg. intros i Hi. apply H. apply in_points. exact Hi. Qed.
Theorem norm_L2_value : forall g c f, (forall i, in_nd g i -> 0 <= c i) ->
  (covers g f -> norm_L2 g c f = Ok (Fin (sqrt (nd_sum g (fun i => c i * (val f i * val f i)))))) /\
  (~ covers g f -> norm_L2 g c f = Ub).
Proof.
  intros g c f W. unfold norm_L2. split; intros H.
  - rewrite (proj2 (reads_inside_iff g f) H), sum_of. unfold dsqrt.
    destruct (Rlt_dec _ 0) as [L|_]; [|reflexivity]. exfalso.
    assert (0 <= nd_sum g (fun i => c i * (val f i * val f i))); [|lra].
    apply nd_sum_ge. intros i Hi. pose proof (W i Hi). pose proof (Rle_0_sqr (val f i)). unfold Rsqr in *. nra.
  - destruct (reads_inside g f) eqn:E; [|reflexivity]. apply reads_inside_iff in E. contradiction.
Qed.

Theorem error_norm_L1_ok : forall g c f h, covers g f -> covers g h -> error_norm_L1 g c f h = norm_L1 g c (minus f h).
Proof.
  intros g c f h Hf Hh. unfold error_norm_L1, norm_L1. rewrite (proj2 (reads_inside_iff g f) Hf), (proj2 (reads_inside_iff g h) Hh).
  rewrite (proj2 (reads_inside_iff g (minus f h)) Hf). reflexivity.
Qed.
Theorem error_norm_L2_ok : forall g c f h, covers g f -> covers g h -> error_norm_L2 g c f h = norm_L2 g c (minus f h).
Proof.
  intros g c f h Hf Hh. unfold error_norm_L2, norm_L2. rewrite (proj2 (reads_inside_iff g f) Hf), (proj2 (reads_inside_iff g h) Hh).
  rewrite (proj2 (reads_inside_iff g (minus f h)) Hf). reflexivity.
Qed.

Section norms.
  Variables (g : nd_range) (c : nd_idx -> R).
  Hypothesis W : forall i, in_nd g i -> 0 < c i.
  Lemma Wl : forall i, In i (points g) -> 0 < c i.
  Proof using W. intros i Hi. apply W. apply in_points. exact Hi. Qed.
  Definition L1v (f : nd_idx -> R) := nd_sum g (fun i => c i * Rabs (f i)).
  Definition L2v (f : nd_idx -> R) := sqrt (nd_sum g (fun i => c i * (f i * f i))).
  Lemma L1_isnorm : is_norm g L1v.
  Proof using W.
    unfold L1v. split; [|split; [|split]].
    - intros f. apply nd_sum_ge. intros i Hi. pose proof (W i Hi). pose proof (Rabs_pos (f i)). nra.
    - intros f. rewrite nd_sum_points, lsum_zero by (intros i Hi; pose proof (Wl i Hi); pose proof (Rabs_pos (f i)); nra).
      split; intros H i Hi.
      + apply in_points in Hi. specialize (H i Hi). pose proof (Wl i Hi). apply Rmult_integral in H. destruct H as [H|H]; [lra|].
        destruct (Req_dec (f i) 0) as [E|E]; [exact E|]. apply Rabs_pos_lt in E. lra.
      + rewrite (H i) by (apply in_points; exact Hi). rewrite Rabs_R0. lra.
    - intros a f. rewrite !nd_sum_points, <- lsum_scal. apply lsum_ext. intros i _. rewrite Rabs_mult. lra.
    - intros f h. rewrite !nd_sum_points, <- lsum_plus. apply lsum_le. intros i Hi. pose proof (Wl i Hi). pose proof (Rabs_triang (f i) (h i)). nra.
  Qed.
  Lemma sq_nonneg : forall f, 0 <= nd_sum g (fun i => c i * (f i * f i)).
  Proof using W. intros f. apply nd_sum_ge. intros i Hi. pose proof (W i Hi). pose proof (Rle_0_sqr (f i)). unfold Rsqr in *. nra. Qed.
  Lemma L2_isnorm : is_norm g L2v.
  Proof using W.
    unfold L2v. split; [|split; [|split]].
    - intros f. apply sqrt_pos.
    - intros f. split.
      + intros H. apply sqrt_eq_0 in H; [|apply sq_nonneg]. rewrite nd_sum_points in H.
        rewrite lsum_zero in H by (intros i Hi; pose proof (Wl i Hi); pose proof (Rle_0_sqr (f i)); unfold Rsqr in *; nra).
        intros i Hi. apply in_points in Hi. specialize (H i Hi). pose proof (Wl i Hi). apply Rmult_integral in H. destruct H as [H|H]; [lra|].
        apply Rmult_integral in H. tauto.
      + intros H. replace (nd_sum g (fun i => c i * (f i * f i))) with 0; [apply sqrt_0|]. symmetry. rewrite nd_sum_points.
        apply lsum_zero; intros i Hi; apply in_points in Hi; rewrite (H i Hi); lra.
    - intros a f. replace (nd_sum g (fun i => c i * (a * f i * (a * f i)))) with (Rsqr a * nd_sum g (fun i => c i * (f i * f i))).
      + rewrite sqrt_mult; [|apply Rle_0_sqr|apply sq_nonneg]. rewrite sqrt_Rsqr_abs. reflexivity.
      + rewrite !nd_sum_points, <- lsum_scal. apply lsum_ext. intros i _. unfold Rsqr. ring.
    - intros f h.
      assert (CS := cauchy_schwarz (points g) c f h (fun i Hi => Rlt_le _ _ (Wl i Hi))).
      rewrite <- !nd_sum_points in CS. pose proof (sq_nonneg f) as PF. pose proof (sq_nonneg h) as PH.
      set (A := nd_sum g (fun i => c i * (f i * f i))) in *. set (C := nd_sum g (fun i => c i * (h i * h i))) in *.
      set (B := nd_sum g (fun i => c i * (f i * h i))) in *.
      assert (E : nd_sum g (fun i => c i * ((f i + h i) * (f i + h i))) = A + 2 * B + C).
      { unfold A, B, C. rewrite !nd_sum_points, <- lsum_scal, <- !lsum_plus. apply lsum_ext. intros i _. ring. }
      rewrite E.
      assert (BB : B <= sqrt A * sqrt C).
      { rewrite <- sqrt_mult by assumption. destruct (Rle_dec B 0) as [N|N]; [pose proof (sqrt_pos (A * C)); lra|].
        rewrite <- (sqrt_Rsqr B) by lra. apply sqrt_le_1_alt. exact CS. }
      rewrite <- (sqrt_Rsqr (sqrt A + sqrt C)) by (pose proof (sqrt_pos A); pose proof (sqrt_pos C); lra).
      apply sqrt_le_1_alt. unfold Rsqr. pose proof (sqrt_sqrt A PF). pose proof (sqrt_sqrt C PH). nra.
  Qed.
  (** bounds: the quadrature of 1 is the volume *)
  Lemma L1_le_inf : forall f M, (forall i, in_nd g i -> Rabs (f i) <= M) -> L1v f <= nd_sum g c * M.
  Proof using W.
    intros f M H. unfold L1v. rewrite !nd_sum_points, Rmult_comm, <- lsum_scal. apply lsum_le. intros i Hi. pose proof (Wl i Hi).
    apply in_points in Hi. specialize (H i Hi). nra.
  Qed.
  Lemma L1_le_L2 : forall f, L1v f <= sqrt (nd_sum g c) * L2v f.
  Proof using W.
    intros f. unfold L1v, L2v.
    assert (CS := cauchy_schwarz (points g) c (fun _ => 1) (fun i => Rabs (f i)) (fun i Hi => Rlt_le _ _ (Wl i Hi))). cbv beta in CS.
    assert (E1 : lsum (points g) (fun i => c i * (1 * Rabs (f i))) = nd_sum g (fun i => c i * Rabs (f i))) by (rewrite nd_sum_points; apply lsum_ext; intros; ring).
    assert (E2 : lsum (points g) (fun i => c i * (1 * 1)) = nd_sum g c) by (rewrite nd_sum_points; apply lsum_ext; intros; ring).
    assert (E3 : lsum (points g) (fun i => c i * (Rabs (f i) * Rabs (f i))) = nd_sum g (fun i => c i * (f i * f i))).
    { rewrite nd_sum_points. apply lsum_ext. intros i _. f_equal. rewrite <- Rabs_mult. apply Rabs_right. apply Rle_ge. apply Rle_0_sqr. }
    rewrite E1, E2, E3 in CS. rewrite <- sqrt_mult; [|apply nd_sum_ge; intros i Hi; apply Rlt_le; apply W; exact Hi|apply sq_nonneg].
    rewrite <- (sqrt_Rsqr (nd_sum g (fun i => c i * Rabs (f i)))); [apply sqrt_le_1_alt; exact CS|].
    apply nd_sum_ge. intros i Hi. pose proof (W i Hi). pose proof (Rabs_pos (f i)). nra.
  Qed.
End norms.

Theorem L1_norm : forall g c, (forall i, in_nd g i -> 0 < c i) -> exists N, is_norm g N /\
  (forall f, covers g f -> norm_L1 g c f = Ok (Fin (N (val f)))) /\
  (forall f h, covers g f -> covers g h -> error_norm_L1 g c f h = Ok (Fin (N (fun i => val f i - val h i)))) /\
  (forall f M, (forall i, in_nd g i -> Rabs (f i) <= M) -> N f <= nd_sum g c * M).
Proof.
  intros g c W. exists (L1v g c). split; [exact (L1_isnorm g c W)|]. split; [|split].
  - intros f Hf. apply (norm_L1_value g c f). exact Hf.
  - intros f h Hf Hh. rewrite error_norm_L1_ok by assumption. exact (proj1 (norm_L1_value g c (minus f h)) Hf).
  - exact (L1_le_inf g c W).
Qed.
Theorem L2_norm : forall g c, (forall i, in_nd g i -> 0 < c i) -> exists N, is_norm g N /\
  (forall f, covers g f -> norm_L2 g c f = Ok (Fin (N (val f)))) /\
  (forall f h, covers g f -> covers g h -> error_norm_L2 g c f h = Ok (Fin (N (fun i => val f i - val h i)))) /\
  (forall f r, covers g f -> norm_L1 g c f = Ok (Fin r) -> r <= sqrt (nd_sum g c) * N (val f)).
Proof.
  intros g c W. exists (L2v g c). split; [exact (L2_isnorm g c W)|].
  assert (W' : forall i, in_nd g i -> 0 <= c i) by (intros i Hi; apply Rlt_le; apply W; exact Hi). split; [|split].
  - intros f Hf. apply (norm_L2_value g c f W'). exact Hf.
  - intros f h Hf Hh. rewrite error_norm_L2_ok by assumption. exact (proj1 (norm_L2_value g c (minus f h) W') Hf).
  - intros f r Hf E. rewrite (proj1 (norm_L1_value g c f) Hf) in E. injection E as <-. exact (L1_le_L2 g c W (val f)).
Qed.
