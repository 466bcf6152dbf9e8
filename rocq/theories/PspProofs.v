(** Proofs about the polar spline indices, the construction and the evaluation (C71, C72). *)
From Verif Require Import Lib DerivModel QuadModel QuadProofs FemModel FemSolve FemMain MathModel RestrictProofs MappingModel
  OnionEval PspModel PspSpec PspBernstein.
From Coq Require Import ZifyBool.
Open Scope R_scope.

(** ** Indices *)
Lemma polar_index_ok c1 nt ir it : (1 <= nt)%nat -> (c1 <= ir)%nat ->
  get_polar_index c1 nt (Z.of_nat ir) (Z.of_nat it) = Ok (Z.of_nat (n_singular c1 + (ir - c1) * nt + it mod nt)).
Proof.
  intros Hn Hr. unfold get_polar_index. rewrite wrap_index_mod by lia.
  replace (0 <=? Z.of_nat ir - Z.of_nat c1)%Z with true by lia. cbn [check bind]. f_equal.
  rewrite <- Nat2Z.inj_mod. nia.
Qed.
Lemma index_2d_ok c1 nt a b : (b < nt)%nat ->
  get_2d_index c1 nt (Z.of_nat (n_singular c1 + a * nt + b)) = Ok (Z.of_nat (c1 + a), Z.of_nat b).
Proof.
  intros Hb. unfold get_2d_index.
  replace (Z.of_nat (n_singular c1) <=? Z.of_nat (n_singular c1 + a * nt + b))%Z with true by lia. cbn [check bind].
  replace (Z.of_nat (n_singular c1 + a * nt + b) - Z.of_nat (n_singular c1))%Z with (Z.of_nat b + Z.of_nat a * Z.of_nat nt)%Z by lia.
  rewrite Z.quot_add by nia. rewrite Z.quot_small by lia.
  repeat f_equal; lia.
Qed.
Lemma subset_ok c1 nt n coef : (1 <= nt)%nat -> (1 <= n)%nat -> length coef = (n_singular c1 + n * nt)%nat ->
  get_tensor_product_subset c1 nt coef =
  Ok {| v_r0 := Z.of_nat c1; v_t0 := 0; v_nr := Z.of_nat n; v_nt := Z.of_nat nt; v_data := skipn (n_singular c1) coef |}.
Proof.
  intros Hn Hm HL. unfold get_tensor_product_subset.
  pose proof (index_2d_ok c1 nt 0 0 ltac:(lia)) as E0. replace (n_singular c1 + 0 * nt + 0)%nat with (n_singular c1) in E0 by lia.
  rewrite E0. cbn [bind]. rewrite skipn_length, HL.
  pose proof (index_2d_ok c1 nt (n - 1) (nt - 1) ltac:(lia)) as E1.
  replace (Z.of_nat (n_singular c1) + Z.of_nat (n_singular c1 + n * nt - n_singular c1) - 1)%Z
    with (Z.of_nat (n_singular c1 + (n - 1) * nt + (nt - 1))) by nia.
  rewrite E1. cbn [bind fst snd].
  replace (Z.of_nat (c1 + (n - 1)) - Z.of_nat (c1 + 0) + 1)%Z with (Z.of_nat n) by lia.
  replace (Z.of_nat (nt - 1) - Z.of_nat 0 + 1)%Z with (Z.of_nat nt) by lia.
  replace (Z.of_nat n * Z.of_nat nt =? _)%Z with true by nia. cbn [check bind]. repeat f_equal. lia.
Qed.
Lemma view_ok c1 nt n coef ir it : (it < nt)%nat -> (c1 <= ir < c1 + n)%nat -> length coef = (n_singular c1 + n * nt)%nat ->
  rd_view {| v_r0 := Z.of_nat c1; v_t0 := 0; v_nr := Z.of_nat n; v_nt := Z.of_nat nt; v_data := skipn (n_singular c1) coef |}
    (Z.of_nat ir) (Z.of_nat it) = Ok (nth (n_singular c1 + (ir - c1) * nt + it) coef 0).
Proof.
  intros Ht Hr HL. unfold rd_view. cbn [v_r0 v_t0 v_nr v_nt v_data].
  replace (_ && _ && _ && _)%bool with true by lia.
  replace ((Z.of_nat ir - Z.of_nat c1) * Z.of_nat nt + (Z.of_nat it - 0))%Z with (Z.of_nat ((ir - c1) * nt + it)) by (rewrite Nat2Z.inj_add, Nat2Z.inj_mul, Nat2Z.inj_sub by lia; ring).
  assert (B : ((ir - c1) * nt + it < n * nt)%nat) by (assert (ir - c1 + 1 <= n)%nat by lia; assert ((ir - c1 + 1) * nt <= n * nt)%nat by (apply Nat.mul_le_mono_r; lia); lia).
  rewrite (rd_nth _ _ 0) by (rewrite skipn_length; lia).
  f_equal.
  rewrite <- (firstn_skipn (n_singular c1) coef) at 2. rewrite app_nth2; rewrite firstn_length_le by lia; [|nia].
  f_equal. generalize ((ir - c1) * nt)%nat (n_singular c1). clear. lia.
Qed.
Lemma view_out c1 nt n coef ir it : (c1 + n <= ir)%nat ->
  rd_view {| v_r0 := Z.of_nat c1; v_t0 := 0; v_nr := Z.of_nat n; v_nt := Z.of_nat nt; v_data := skipn (n_singular c1) coef |}
    (Z.of_nat ir) it = Ub.
Proof.
  intros Hr. unfold rd_view. cbn [v_r0 v_t0 v_nr v_nt v_data].
  replace (_ && _ && _ && _)%bool with false by lia. reflexivity.
Qed.

(** ** The elements *)
Section Fill.
  Variables (c1 nt dt : nat) (V : nat -> nat -> nat -> R).
  Let np := (nt + dt)%nat.
  Definition done (e : elements) (D : nat -> nat -> nat -> Prop) : Prop :=
    length e = (n_singular c1 * c1 * np)%nat /\
    forall k i j, (k < n_singular c1)%nat -> (i < c1)%nat -> (j < np)%nat -> D k i j -> rd_el e c1 np k i j = Ok (V k i j).
  Lemma el_bound k i j : (k < n_singular c1)%nat -> (i < c1)%nat -> (j < np)%nat -> ((k * c1 + i) * np + j < n_singular c1 * c1 * np)%nat.
  Proof. intros. assert (k * c1 + i < n_singular c1 * c1)%nat by nia. nia. Qed.
  Lemma el_inj k i j k' i' j' : (i < c1)%nat -> (j < np)%nat -> (i' < c1)%nat -> (j' < np)%nat ->
    el_pos c1 np k i j = el_pos c1 np k' i' j' -> k = k' /\ i = i' /\ j = j'.
  Proof.
    unfold el_pos. intros H1 H2 H3 H4 E. apply Nat2Z.inj in E.
    assert (E1 : (k * c1 + i = k' * c1 + i')%nat).
    { apply (f_equal (fun x => x / np)%nat) in E. rewrite !Nat.div_add_l in E by lia. rewrite !Nat.div_small in E by lia. lia. }
    rewrite E1 in E. assert (j = j') by lia.
    apply (f_equal (fun x => x / c1)%nat) in E1 as E2. rewrite !Nat.div_add_l in E2 by lia. rewrite !Nat.div_small in E2 by lia.
    assert (k = k') by lia. subst. lia.
  Qed.
  Lemma wr_done e D k i j : done e D -> (k < n_singular c1)%nat -> (i < c1)%nat -> (j < np)%nat ->
    exists e', wr_el e c1 np k i j (V k i j) = Ok e' /\ done e' (fun a b c => D a b c \/ (a = k /\ b = i /\ c = j)).
  Proof.
    intros [HL HD] Hk Hi Hj. unfold wr_el. replace (_ && _ && _)%bool with true by lia.
    pose proof (el_bound k i j Hk Hi Hj).
    assert (W : exists e', wr e (el_pos c1 np k i j) (Some (V k i j)) = Ok e').
    { eexists. apply wr_ok. unfold el_pos. lia. }
    destruct W as [e' W]. exists e'. split; [exact W|]. split; [rewrite (wr_length _ _ _ _ W); exact HL|].
    intros a b c Ha Hb Hc DD. unfold rd_el. replace (_ && _ && _)%bool with true by lia.
    destruct (Z.eq_dec (el_pos c1 np k i j) (el_pos c1 np a b c)) as [EQ|NE].
    - apply el_inj in EQ; auto. destruct EQ as [-> [-> ->]]. rewrite (rd_wr_eq _ _ _ _ W). reflexivity.
    - rewrite (rd_wr_neq _ _ _ _ _ W NE). destruct DD as [DD|[-> [-> ->]]]; [|congruence].
      specialize (HD a b c Ha Hb Hc DD). unfold rd_el in HD. replace (_ && _ && _)%bool with true in HD by lia. exact HD.
  Qed.
  Lemma done_weaken e (D D' : nat -> nat -> nat -> Prop) : done e D ->
    (forall k i j, (k < n_singular c1)%nat -> (i < c1)%nat -> (j < np)%nat -> D' k i j -> D k i j) -> done e D'.
  Proof. intros [HL HD] W. split; auto. Qed.
  Variables (tr : bary_triangle) (pt : nat -> nat -> R * R).
  Hypothesis HV : forall i j, (i < c1)%nat -> (j < nt)%nat ->
    exists vals, bernstein_eval (c1 - 1) tr (c2 (fst (pt i j)) (snd (pt i j))) = Ok vals /\ length vals = n_singular c1 /\
      forall k, (k < n_singular c1)%nat -> nth k vals 0 = V k i j.
  Hypothesis HP : forall k i j, (k < n_singular c1)%nat -> (i < c1)%nat -> (j < dt)%nat -> V k i (j + nt)%nat = V k i j.
  Hypothesis Hnt : (1 <= nt)%nat.
  Lemma fill_point_ok e D i j : done e D -> (i < c1)%nat -> (j < nt)%nat ->
    exists e', fill_point c1 np tr pt i j e = Ok e' /\ done e' (fun a b c => D a b c \/ (b = i /\ c = j)).
  Proof.
    intros HD Hi Hj. unfold fill_point. destruct (HV i j Hi Hj) as [vals [-> [HL HN]]]. cbn [bind].
    destruct (for_res_inv (fun n e => done e (fun a b c => D a b c \/ (a < n /\ b = i /\ c = j)%nat)) (n_singular c1)
      (fun k e => let* v := rd vals (Z.of_nat k) in wr_el e c1 np k i j v) e) as [e' [E I']].
    - apply (done_weaken _ _ _ HD). intros. intuition lia.
    - intros k s Hk Is. rewrite (rd_nth _ _ 0) by lia. cbn [bind]. rewrite HN by auto.
      destruct (wr_done s _ k i j Is Hk Hi ltac:(unfold np; lia)) as [s' [E' D']]. exists s'. split; auto.
      apply (done_weaken _ _ _ D'). intros a b c _ _ _ [H|[H1 [-> ->]]]; [auto|].
      destruct (Nat.eq_dec a k) as [->|]; [right; auto|left; right; lia].
    - exists e'. split; auto. apply (done_weaken _ _ _ I'). intros a b c Ha _ _ [H|[-> ->]]; auto.
  Qed.
  Lemma repeat_row_ok e (D : nat -> nat -> nat -> Prop) i : done e D -> (i < c1)%nat ->
    (forall k j, (k < n_singular c1)%nat -> (j < nt)%nat -> D k i j) ->
    exists e', repeat_row c1 np nt dt i e = Ok e' /\ done e' (fun a b c => D a b c \/ b = i).
  Proof.
    intros HD Hi HR. unfold repeat_row.
    destruct (for_res_inv (fun n e => done e (fun a b c => D a b c \/ (a < n /\ b = i)%nat)) (n_singular c1)
      (fun k e => for_res dt (fun it e => let* v := rd_el e c1 np k i it in wr_el e c1 np k i (it + nt) v) e) e) as [e' [E I']].
    - apply (done_weaken _ _ _ HD). intros. intuition lia.
    - intros k s Hk Is.
      destruct (for_res_inv (fun n e => done e (fun a b c => (D a b c \/ (a < k /\ b = i)%nat) \/ (a = k /\ b = i /\ c < nt + n)%nat)) dt
        (fun it e => let* v := rd_el e c1 np k i it in wr_el e c1 np k i (it + nt) v) s) as [s' [E' I'']].
      + apply (done_weaken _ _ _ Is). intros a b c _ _ _ [H|[-> [-> H]]]; auto. left. apply HR; lia.
      + intros j t Hj It. destruct It as [HL It]. rewrite (It k i j) by (unfold np; lia). cbn [bind].
        rewrite <- HP by auto.
        destruct (wr_done t (fun a b c => (D a b c \/ (a < k /\ b = i)%nat) \/ (a = k /\ b = i /\ c < nt + j)%nat) k i (j + nt)
          (conj HL It) Hk Hi ltac:(unfold np; lia)) as [t' [Et Dt]].
        exists t'. split; auto. apply (done_weaken _ _ _ Dt). intros a b c _ _ _ [H|[-> [-> H]]]; auto.
        destruct (Nat.eq_dec c (j + nt)) as [->|]; [right; auto|left; right; lia].
      + exists s'. split; auto. apply (done_weaken _ _ _ I''). intros a b c _ _ Hc [H|[H ->]]; auto.
        destruct (Nat.eq_dec a k) as [->|]; [right; unfold np in Hc; lia|left; right; lia].
    - exists e'. split; auto. apply (done_weaken _ _ _ I'). intros a b c Ha _ _ [H| ->]; auto.
  Qed.
  Lemma fill_elements_ok : exists e, fill_elements c1 nt dt tr pt = Ok e /\ done e (fun _ _ _ => True).
  Proof.
    unfold fill_elements. fold np.
    destruct (for_res_inv (fun n e => done e (fun a b c => (b < n)%nat)) c1
      (fun ir e => let* e := for_res nt (fun it e => fill_point c1 np tr pt ir it e) e in repeat_row c1 np nt dt ir e)
      (repeat None (n_singular c1 * c1 * np))) as [e' [E I']].
    - split; [apply repeat_length|]. intros; lia.
    - intros i s Hi Is.
      destruct (for_res_inv (fun n e => done e (fun a b c => (b < i)%nat \/ (b = i /\ c < n)%nat)) nt
        (fun it e => fill_point c1 np tr pt i it e) s) as [s1 [E1 I1]].
      + apply (done_weaken _ _ _ Is). intros. lia.
      + intros j t Hj It. destruct (fill_point_ok t _ i j It Hi Hj) as [t' [Et Dt]]. exists t'. split; auto.
        apply (done_weaken _ _ _ Dt). intros a b c _ _ _ [H|[-> H]]; auto.
        destruct (Nat.eq_dec c j) as [->|]; [right; auto|left; right; lia].
      + rewrite E1. cbn [bind].
        destruct (repeat_row_ok s1 _ i I1 Hi) as [s2 [E2 I2]]; [intros; lia|].
        exists s2. split; auto. apply (done_weaken _ _ _ I2). intros a b c _ _ _ H.
        destruct (Nat.eq_dec b i) as [->|]; [right; auto|left; left; lia].
    - exists e'. split; auto. apply (done_weaken _ _ _ I'). intros; lia.
  Qed.
End Fill.

(** ** Evaluation *)
(** [e] holds the values V *)
Definition holds (c1 np : nat) (e : elements) (V : nat -> nat -> nat -> R) : Prop :=
  forall k i j, (k < n_singular c1)%nat -> (i < c1)%nat -> (j < np)%nat -> rd_el e c1 np k i j = Ok (V k i j).
Lemma sing_value_ok c1 np e V dt jr jt n vr vt k : holds c1 np e V -> (k < n_singular c1)%nat -> (jr + n <= c1)%nat -> (jt + dt < np)%nat ->
  sing_value c1 np e dt jr jt n vr vt k
  = Ok (Rsum n (fun i => Rsum (dt + 1) (fun j => V k (jr + i)%nat (jt + j)%nat * vr i * vt j))).
Proof.
  intros HE Hk Hn Ht. unfold sing_value.
  rewrite (for_res_ext n _ (fun i s => let* a := Ok (Rsum (dt + 1) (fun j => V k (jr + i)%nat (jt + j)%nat * vr i * vt j)) in Ok (s + a))).
  - rewrite (for_res_sum n _ (fun i => Rsum (dt + 1) (fun j => V k (jr + i)%nat (jt + j)%nat * vr i * vt j))) by reflexivity. f_equal. ring.
  - intros i s Hi. cbn [bind].
    rewrite (for_res_ext (dt + 1) _ (fun j s => let* a := Ok (V k (jr + i)%nat (jt + j)%nat * vr i * vt j) in Ok (s + a))).
    + now rewrite (for_res_sum (dt + 1) _ (fun j => V k (jr + i)%nat (jt + j)%nat * vr i * vt j)) by reflexivity.
    + intros j t Hj. rewrite HE by lia. reflexivity.
Qed.
Lemma polar_eval_ok c1 br bt e V n m r th jr vr jt vt : holds c1 (b_size bt) e V ->
  b_eval br n r = Ok (jr, vr) -> b_eval bt m th = Ok (jt, vt) -> (jt < b_cells bt)%nat -> (c1 <= b_deg br + 1)%nat ->
  polar_eval c1 br bt e n m r th =
  Ok (map (fun k => Rsum (c1 - jr) (fun i => Rsum (b_deg bt + 1) (fun j => V k (jr + i)%nat (jt + j)%nat * vr i * vt j))) (seq 0 (n_singular c1)),
      (fun i j => if (i <? b_deg br + 1 - (c1 - jr))%nat then vr (i + (c1 - jr))%nat * vt j else 0),
      (Nat.max c1 jr, jt)).
Proof.
  intros HE E1 E2 Ht Hd. unfold polar_eval. rewrite E1, E2. cbn [bind].
  destruct (jr <? c1)%nat eqn:J.
  - replace (b_deg br + 1 <? c1 - jr)%nat with false by lia.
    rewrite (map_res_map _ (fun k => Rsum (c1 - jr) (fun i => Rsum (b_deg bt + 1) (fun j => V k (jr + i)%nat (jt + j)%nat * vr i * vt j)))).
    + cbn [bind]. repeat f_equal. lia.
    + intros k Hk. apply in_seq in Hk. apply sing_value_ok; auto; try lia. unfold b_size. lia.
  - cbn [bind]. replace (c1 - jr)%nat with 0%nat by lia. cbn [Rsum]. replace (Nat.max c1 jr) with jr by lia.
    do 3 f_equal.
    assert (G : forall s, repeat 0 (n_singular c1) = map (fun _ : nat => 0) (seq s (n_singular c1))).
    { induction (n_singular c1) as [|q IH]; intros s; [reflexivity|]. cbn. f_equal. apply IH. }
    apply G.
Qed.
(** the tensor-product coefficients of a polar spline *)
Definition expand (c1 nt : nat) (V : nat -> nat -> nat -> R) (coef : list R) (i j : nat) : R :=
  if (i <? c1)%nat then Rsum (n_singular c1) (fun k => nth k coef 0 * V k i j)
  else nth (n_singular c1 + (i - c1) * nt + j mod nt) coef 0.
Lemma Rsum3_swap a b c (f : nat -> nat -> nat -> R) :
  Rsum a (fun k => Rsum b (fun i => Rsum c (fun j => f k i j))) = Rsum b (fun i => Rsum c (fun j => Rsum a (fun k => f k i j))).
Proof.
  rewrite Rsum_swap. apply Rsum_ext. intros i _. rewrite Rsum_swap. reflexivity.
Qed.
Lemma Rsum_split n q F : (q <= n)%nat -> Rsum n F = Rsum q F + Rsum (n - q) (fun i => F (q + i)%nat).
Proof. intros H. rewrite <- Rsum_app. f_equal. lia. Qed.
Lemma Rsum_cut n q F : (q <= n)%nat -> (forall i, (q <= i < n)%nat -> F i = 0) -> Rsum n F = Rsum q F.
Proof. intros H Z. rewrite (Rsum_split n q) by auto. rewrite (Rsum_zero (n - q)); [ring|]. intros i Hi. apply Z. lia. Qed.
Theorem eval_no_bc_ok c1 br bt e V coef n m r th jr vr jt vt : holds c1 (b_size bt) e V ->
  b_eval br n r = Ok (jr, vr) -> b_eval bt m th = Ok (jt, vt) -> (jr < b_cells br)%nat -> (jt < b_cells bt)%nat -> (c1 <= b_deg br + 1)%nat ->
  (b_deg bt <= b_cells bt)%nat ->
  (c1 < b_cells br)%nat -> length coef = polar_nbasis c1 br bt ->
  eval_no_bc c1 br bt e coef n m r th = Ok (tensor_spline br bt (expand c1 (b_cells bt) V coef) (jr, vr) (jt, vt)).
Proof.
  intros HE E1 E2 Hr Ht Hd Hdt Hc HL. unfold eval_no_bc. rewrite (polar_eval_ok _ _ _ _ _ _ _ _ _ _ _ _ _ HE E1 E2 Ht Hd).
  cbn [bind]. unfold polar_nbasis, nbasis_r, nbasis_t in HL.
  set (sv := fun k => Rsum (c1 - jr) (fun i => Rsum (b_deg bt + 1) (fun j => V k (jr + i)%nat (jt + j)%nat * vr i * vt j))).
  rewrite (for_res_ext (n_singular c1) _ (fun i y => let* a := Ok (nth i coef 0 * sv i) in Ok (y + a))).
  2:{ intros i t Hi. rewrite (rd_nth _ _ 0) by (rewrite HL; apply Nat.lt_le_trans with (1 := Hi); apply Nat.le_add_r). cbn [bind]. rewrite (rd_nth _ _ 0) by (rewrite map_length, seq_length; lia). cbn [bind].
      rewrite (nth_indep (map sv (seq 0 (n_singular c1))) 0 (sv 0%nat)) by (rewrite map_length, seq_length; lia). rewrite map_nth, seq_nth by lia. reflexivity. }
  rewrite (for_res_sum (n_singular c1) _ (fun i => nth i coef 0 * sv i)) by reflexivity. cbn [bind].
  unfold nbasis_t. rewrite (subset_ok c1 (b_cells bt) (b_cells br + b_deg br - c1) coef ltac:(lia) ltac:(lia) HL). cbn [bind v_t0 v_nt].
  set (vals := fun i j => if (i <? b_deg br + 1 - (c1 - jr))%nat then vr (i + (c1 - jr))%nat * vt j else 0).
  set (cf := fun i j => nth (n_singular c1 + (Nat.max c1 jr + i - c1) * b_cells bt + (jt + j) mod b_cells bt) coef 0).
  rewrite (for_res_ext (b_deg br + 1) _ (fun i y => let* a := Ok (Rsum (b_deg bt + 1) (fun j => cf i j * vals i j)) in Ok (y + a))).
  2:{ intros i t Hi. cbn [bind].
      rewrite (for_res_ext (b_deg bt + 1) _ (fun j y => let* a := Ok (cf i j * vals i j) in Ok (y + a))).
      - now rewrite (for_res_sum (b_deg bt + 1) _ (fun j => cf i j * vals i j)) by reflexivity.
      - intros j s Hj.
        match goal with |- context [rd_view ?v ?a ?b] => replace b with (Z.of_nat ((jt + j) mod b_cells bt)) end.
        2:{ destruct (0 + Z.of_nat (b_cells bt) - 1 <? Z.of_nat (jt + j))%Z eqn:Q.
            - replace (jt + j)%nat with ((jt + j - b_cells bt) + 1 * b_cells bt)%nat at 1 by lia.
              rewrite Nat.mod_add by lia. rewrite Nat.mod_small by lia. lia.
            - rewrite Nat.mod_small by lia. lia. }
        rewrite view_ok; [reflexivity|apply Nat.mod_upper_bound; lia|lia|exact HL]. }
  rewrite (for_res_sum (b_deg br + 1) _ (fun i => Rsum (b_deg bt + 1) (fun j => cf i j * vals i j))) by reflexivity.
  f_equal. unfold tensor_spline. cbn [fst snd]. rewrite Rplus_0_l.
  set (q := (c1 - jr)%nat). assert (Nq : q = (c1 - jr)%nat) by reflexivity. clearbody q.
  match goal with |- _ + _ = Rsum _ ?F => rewrite (Rsum_split (b_deg br + 1) q F) by lia end. f_equal.
  - unfold sv. rewrite <- Nq.
    rewrite (Rsum_ext (n_singular c1) _ (fun k => Rsum q (fun i => Rsum (b_deg bt + 1) (fun j => nth k coef 0 * (V k (jr + i)%nat (jt + j)%nat * vr i * vt j))))).
    2:{ intros k _. rewrite <- Rsum_scal. apply Rsum_ext. intros i _. rewrite <- Rsum_scal. reflexivity. }
    rewrite Rsum3_swap. apply Rsum_ext. intros i Hi. apply Rsum_ext. intros j Hj. unfold expand.
    replace (jr + i <? c1)%nat with true by lia. rewrite Rmult_assoc, <- Rsum_scal_r. apply Rsum_ext. intros; ring.
  - rewrite (Rsum_cut (b_deg br + 1) (b_deg br + 1 - q)) by
      (try lia; intros i Hi; apply Rsum_zero; intros j Hj; unfold vals; rewrite <- Nq;
       replace (i <? b_deg br + 1 - q)%nat with false by lia; ring).
    apply Rsum_ext. intros i Hi. apply Rsum_ext. intros j Hj. unfold vals, expand, cf. rewrite <- Nq.
    replace (i <? b_deg br + 1 - q)%nat with true by lia. replace (jr + (q + i) <? c1)%nat with false by lia.
    rewrite Rmult_assoc. rewrite (Nat.add_comm i q). replace (Nat.max c1 jr + i - c1)%nat with (jr + (q + i) - c1)%nat by lia. ring.
Qed.
