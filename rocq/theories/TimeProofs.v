From Verif Require Import Lib TimeModel TimeSpec.
From Coq Require Import FunctionalExtensionality.
Open Scope R_scope.

(** ** elementary facts on component bounds *)
Lemma vle_weak n v m m' : vle n v m -> m <= m' -> vle n v m'.
Proof. intros H L i Hi. specialize (H i Hi). lra. Qed.
Lemma vle_ext n u v m : veq n u v -> vle n u m -> vle n v m.
Proof. intros E H i Hi. rewrite <- E by exact Hi. apply H, Hi. Qed.
Lemma vle_exists n v : exists m, 0 <= m /\ vle n v m.
Proof.
  induction n as [|n [m [Hm IH]]].
  - exists 0. split; [lra|]. intros i Hi; lia.
  - exists (Rmax m (Rabs (v n))). split; [apply Rle_trans with m; [exact Hm|apply Rmax_l]|].
    intros i Hi. destruct (Nat.eq_dec i n) as [->|].
    + apply Rmax_r.
    + apply Rle_trans with m; [apply IH; lia|apply Rmax_l].
Qed.
Lemma vle_add n u v m m' : vle n u m -> vle n v m' -> vle n (vadd u v) (m + m').
Proof.
  intros H H' i Hi. unfold vadd. eapply Rle_trans; [apply Rabs_triang|].
  specialize (H i Hi). specialize (H' i Hi). lra.
Qed.
Lemma vle_scal n a u m : vle n u m -> vle n (vscal a u) (Rabs a * m).
Proof.
  intros H i Hi. unfold vscal. rewrite Rabs_mult.
  apply Rmult_le_compat_l; [apply Rabs_pos|apply H, Hi].
Qed.

Lemma pow_abs_le h k l : Rabs h <= 1 -> (k <= l)%nat -> Rabs h ^ l <= Rabs h ^ k.
Proof.
  intros H Hk. replace l with (k + (l - k))%nat by lia. rewrite pow_add.
  rewrite <- (Rmult_1_r (Rabs h ^ k)) at 2. apply Rmult_le_compat_l.
  - apply pow_le, Rabs_pos.
  - rewrite <- (pow1 (l - k)). apply pow_incr. split; [apply Rabs_pos|exact H].
Qed.
Lemma abs_pow_nonneg h k : 0 <= Rabs h ^ k.
Proof. apply pow_le, Rabs_pos. Qed.

(** ** asymptotic expansions in the time step *)
Definition poly (c0 c1 c2 c3 : vec) (h : R) : vec :=
  fun i => c0 i + h * c1 i + h ^ 2 * c2 i + h ^ 3 * c3 i.
Definition near (n : nat) (H : R) (k : nat) (g : R -> vec) (c0 c1 c2 c3 : vec) : Prop :=
  exists C, 0 <= C /\ forall h, Rabs h <= H ->
    vle n (fun i => g h i - poly c0 c1 c2 c3 h i) (C * Rabs h ^ k).
Definition zerov : vec := fun _ => 0.

Section Near.
Variables (n : nat) (H : R).
Hypothesis H1 : H <= 1.

Lemma near_weak k l g c0 c1 c2 c3 : (l <= k)%nat -> near n H k g c0 c1 c2 c3 -> near n H l g c0 c1 c2 c3.
Proof.
  intros Hl [C [HC Hg]]. exists C. split; [exact HC|]. intros h Hh. eapply vle_weak; [apply Hg, Hh|].
  apply Rmult_le_compat_l; [exact HC|]. apply pow_abs_le; [lra|exact Hl].
Qed.

Lemma near_ext k g g' c0 c1 c2 c3 d0 d1 d2 d3 :
  (forall h, Rabs h <= H -> veq n (g h) (g' h)) ->
  veq n c0 d0 -> veq n c1 d1 -> veq n c2 d2 -> veq n c3 d3 ->
  near n H k g c0 c1 c2 c3 -> near n H k g' d0 d1 d2 d3.
Proof.
  intros Eg E0 E1 E2 E3 [C [HC Hg]]. exists C. split; [exact HC|]. intros h Hh.
  eapply vle_ext; [|apply Hg, Hh]. intros i Hi. unfold poly.
  rewrite Eg, E0, E1, E2, E3 by assumption. reflexivity.
Qed.

Lemma near_const k v : near n H k (fun _ => v) v zerov zerov zerov.
Proof.
  exists 0. split; [lra|]. intros h _ i _. unfold poly, zerov.
  replace (v i - (v i + h * 0 + h ^ 2 * 0 + h ^ 3 * 0)) with 0 by ring. rewrite Rabs_R0. lra.
Qed.

Lemma near_lin k a b g g' c0 c1 c2 c3 d0 d1 d2 d3 :
  near n H k g c0 c1 c2 c3 -> near n H k g' d0 d1 d2 d3 ->
  near n H k (fun h => vadd (vscal a (g h)) (vscal b (g' h)))
    (vadd (vscal a c0) (vscal b d0)) (vadd (vscal a c1) (vscal b d1))
    (vadd (vscal a c2) (vscal b d2)) (vadd (vscal a c3) (vscal b d3)).
Proof.
  intros [C [HC Hg]] [C' [HC' Hg']].
  exists (Rabs a * C + Rabs b * C').
  split. { pose proof (Rabs_pos a); pose proof (Rabs_pos b). apply Rplus_le_le_0_compat; apply Rmult_le_pos; lra. }
  intros h Hh. specialize (Hg h Hh). specialize (Hg' h Hh).
  apply (vle_scal n a) in Hg. apply (vle_scal n b) in Hg'.
  pose proof (vle_add _ _ _ _ _ Hg Hg') as Hs.
  eapply vle_weak; [eapply vle_ext; [|exact Hs]|]; [|lra].
  intros i _. unfold vadd, vscal, poly. ring.
Qed.

(** multiplication by a * h *)
Lemma near_shift a g c0 c1 c2 c3 : near n H 4 g c0 c1 c2 c3 ->
  near n H 4 (fun h => vscal (a * h) (g h)) zerov (vscal a c0) (vscal a c1) (vscal a c2).
Proof.
  intros [C [HC Hg]]. destruct (vle_exists n c3) as [m [Hm H3]].
  exists (Rabs a * (C + m)). split; [apply Rmult_le_pos; [apply Rabs_pos|lra]|].
  intros h Hh i Hi. specialize (Hg h Hh i Hi). specialize (H3 i Hi).
  unfold vscal, poly, zerov in *.
  replace (a * h * g h i - (0 + h * (a * c0 i) + h ^ 2 * (a * c1 i) + h ^ 3 * (a * c2 i)))
    with (a * (h * (g h i - (c0 i + h * c1 i + h ^ 2 * c2 i + h ^ 3 * c3 i)) + h ^ 4 * c3 i)) by ring.
  rewrite Rabs_mult, Rmult_assoc. apply Rmult_le_compat_l; [apply Rabs_pos|].
  eapply Rle_trans; [apply Rabs_triang|]. rewrite !Rabs_mult, <- RPow_abs.
  rewrite Rmult_plus_distr_r. apply Rplus_le_compat.
  - apply Rle_trans with (1 * (C * Rabs h ^ 4)); [|lra].
    apply Rmult_le_compat; try apply Rabs_pos; [lra|exact Hg].
  - rewrite (Rmult_comm m). apply Rmult_le_compat_l; [apply abs_pow_nonneg|exact H3].
Qed.

(** an expansion is bounded, and small if it has no constant term *)
Lemma poly_bound c1 c2 c3 : exists M, 0 <= M /\ forall h, Rabs h <= H -> vle n (poly zerov c1 c2 c3 h) (M * Rabs h).
Proof.
  destruct (vle_exists n c1) as [m1 [P1 Q1]]. destruct (vle_exists n c2) as [m2 [P2 Q2]].
  destruct (vle_exists n c3) as [m3 [P3 Q3]].
  exists (m1 + m2 + m3). split; [lra|]. intros h Hh i Hi. unfold poly, zerov.
  specialize (Q1 i Hi). specialize (Q2 i Hi). specialize (Q3 i Hi).
  replace (0 + h * c1 i + h ^ 2 * c2 i + h ^ 3 * c3 i) with (h * (c1 i + (h * c2 i + h * h * c3 i))) by ring.
  rewrite Rabs_mult, Rmult_comm. apply Rmult_le_compat_r; [apply Rabs_pos|].
  pose proof (Rabs_triang (c1 i) (h * c2 i + h * h * c3 i)).
  pose proof (Rabs_triang (h * c2 i) (h * h * c3 i)).
  assert (Rabs (h * c2 i) <= m2).
  { rewrite Rabs_mult. apply Rle_trans with (1 * m2); [|lra]. apply Rmult_le_compat; try apply Rabs_pos; lra. }
  assert (Rabs (h * h * c3 i) <= m3).
  { rewrite !Rabs_mult. apply Rle_trans with (1 * 1 * m3); [|lra].
    apply Rmult_le_compat; try apply Rabs_pos; [apply Rmult_le_pos; apply Rabs_pos| |lra].
    apply Rmult_le_compat; try apply Rabs_pos; lra. }
  lra.
Qed.
End Near.

(** ** multilinear maps *)
Section Multi.
Variables (n : nat) (H : R).
Hypothesis H1 : H <= 1.
Variables (f : vec -> vec) (y : vec) (A : vec -> vec) (B : vec -> vec -> vec) (T : vec -> vec -> vec -> vec).
Hypothesis HT : taylor_expansion n f y A B T.

Lemma A_lin a b u v i : (i < n)%nat -> A (vadd (vscal a u) (vscal b v)) i = a * A u i + b * A v i.
Proof. apply HT. Qed.
Lemma vadd_norm u v : vadd u v = vadd (vscal 1 u) (vscal 1 v).
Proof. apply functional_extensionality; intros i; unfold vadd, vscal; ring. Qed.
Lemma vscal_norm a u : vscal a u = vadd (vscal a u) (vscal 0 u).
Proof. apply functional_extensionality; intros i; unfold vadd, vscal; ring. Qed.
Lemma A_add u v i : (i < n)%nat -> A (vadd u v) i = A u i + A v i.
Proof. intros Hi. rewrite vadd_norm, A_lin by exact Hi. ring. Qed.
Lemma A_scal a u i : (i < n)%nat -> A (vscal a u) i = a * A u i.
Proof. intros Hi. rewrite vscal_norm, A_lin by exact Hi. ring. Qed.
Lemma B_sym u v i : (i < n)%nat -> B u v i = B v u i.
Proof. apply HT. Qed.
Lemma B_add u v w i : (i < n)%nat -> B (vadd u v) w i = B u w i + B v w i.
Proof. intros Hi. rewrite vadd_norm. destruct HT as [_ [[L _] _]]. rewrite L by exact Hi. ring. Qed.
Lemma B_scal a u w i : (i < n)%nat -> B (vscal a u) w i = a * B u w i.
Proof. intros Hi. rewrite vscal_norm. destruct HT as [_ [[L _] _]]. rewrite L by exact Hi. ring. Qed.
Lemma B_add_r u v w i : (i < n)%nat -> B w (vadd u v) i = B w u i + B w v i.
Proof. intros Hi. rewrite B_sym, B_add by exact Hi. rewrite (B_sym u), (B_sym v) by exact Hi. reflexivity. Qed.
Lemma B_scal_r a u w i : (i < n)%nat -> B w (vscal a u) i = a * B w u i.
Proof. intros Hi. rewrite B_sym, B_scal by exact Hi. rewrite (B_sym u) by exact Hi. reflexivity. Qed.
Lemma T_sym12 u v w i : (i < n)%nat -> T u v w i = T v u w i.
Proof. intros Hi. apply HT; exact Hi. Qed.
Lemma T_sym23 u v w i : (i < n)%nat -> T u v w i = T u w v i.
Proof. intros Hi. apply HT; exact Hi. Qed.
Lemma T_add u v w x i : (i < n)%nat -> T (vadd u v) w x i = T u w x i + T v w x i.
Proof. intros Hi. rewrite vadd_norm. destruct HT as [_ [_ [[L _] _]]]. rewrite L by exact Hi. ring. Qed.
Lemma T_scal a u w x i : (i < n)%nat -> T (vscal a u) w x i = a * T u w x i.
Proof. intros Hi. rewrite vscal_norm. destruct HT as [_ [_ [[L _] _]]]. rewrite L by exact Hi. ring. Qed.
Lemma T_add_2 u v w x i : (i < n)%nat -> T w (vadd u v) x i = T w u x i + T w v x i.
Proof. intros Hi. rewrite T_sym12, T_add by exact Hi. rewrite (T_sym12 u), (T_sym12 v) by exact Hi. reflexivity. Qed.
Lemma T_scal_2 a u w x i : (i < n)%nat -> T w (vscal a u) x i = a * T w u x i.
Proof. intros Hi. rewrite T_sym12, T_scal by exact Hi. rewrite (T_sym12 u) by exact Hi. reflexivity. Qed.
Lemma T_add_3 u v w x i : (i < n)%nat -> T w x (vadd u v) i = T w x u i + T w x v i.
Proof. intros Hi. rewrite T_sym23, T_add_2 by exact Hi. rewrite (T_sym23 w u), (T_sym23 w v) by exact Hi. reflexivity. Qed.
Lemma T_scal_3 a u w x i : (i < n)%nat -> T w x (vscal a u) i = a * T w x u i.
Proof. intros Hi. rewrite T_sym23, T_scal_2 by exact Hi. rewrite (T_sym23 w u) by exact Hi. reflexivity. Qed.

Lemma A_bound : exists C, 0 <= C /\ forall u m, vle n u m -> vle n (A u) (C * m).
Proof. apply HT. Qed.
(** replacing a by a + b changes B(a,a) and T(a,a,a) by at most C |b| (|a|+|b|)^(1,2) *)
Lemma B_diff : exists C, 0 <= C /\ forall a b m m', 0 <= m -> 0 <= m' -> vle n a m -> vle n b m' ->
  vle n (fun i => B (vadd a b) (vadd a b) i - B a a i) (C * m' * (m + m')).
Proof.
  destruct HT as [_ [[_ [_ [C [HC Hb]]]] _]]. exists (2 * C). split; [lra|].
  intros a b m m' Hm Hm' Ha Hb'. intros i Hi.
  replace (B (vadd a b) (vadd a b) i - B a a i) with (B b (vadd a b) i + B a b i).
  - pose proof (vle_add _ _ _ _ _ Ha Hb') as Hab.
    pose proof (Hb b (vadd a b) m' (m + m') Hm' ltac:(lra) Hb' Hab i Hi) as P1.
    pose proof (Hb a b m m' Hm Hm' Ha Hb' i Hi) as P2.
    pose proof (Rabs_triang (B b (vadd a b) i) (B a b i)).
    assert (C * m * m' <= C * m' * (m + m')).
    { replace (C * m * m') with (C * m' * m) by ring. apply Rmult_le_compat_l; [apply Rmult_le_pos; lra|lra]. }
    lra.
  - rewrite (B_add a b) by exact Hi. rewrite !B_add_r by exact Hi. rewrite (B_sym b a) by exact Hi. ring.
Qed.
Lemma T_diff : exists C, 0 <= C /\ forall a b m m', 0 <= m -> 0 <= m' -> vle n a m -> vle n b m' ->
  vle n (fun i => T (vadd a b) (vadd a b) (vadd a b) i - T a a a i) (C * m' * (m + m') ^ 2).
Proof.
  destruct HT as [_ [_ [[_ [_ [C [HC Hb]]]] _]]]. exists (3 * C). split; [lra|].
  intros a b m m' Hm Hm' Ha Hb'. intros i Hi.
  set (s := vadd a b). pose proof (vle_add _ _ _ _ _ Ha Hb') as Hs. fold s in Hs.
  replace (T s s s i - T a a a i) with (T b s s i + T a b s i + T a a b i).
  - assert (P1 : Rabs (T b s s i) <= C * m' * (m + m') ^ 2).
    { pose proof (Hb b s s m' (m + m') (m + m') Hm' ltac:(lra) ltac:(lra) Hb' Hs Hs i Hi) as P.
      replace (C * m' * (m + m') ^ 2) with (C * m' * (m + m') * (m + m')) by ring. exact P. }
    assert (K : forall x z, 0 <= x <= m + m' -> 0 <= z <= m + m' -> C * x * m' * z <= C * m' * (m + m') ^ 2).
    { intros x z Hx Hz. replace (C * x * m' * z) with (C * m' * (x * z)) by ring.
      apply Rmult_le_compat_l; [apply Rmult_le_pos; lra|]. replace ((m + m') ^ 2) with ((m + m') * (m + m')) by ring.
      apply Rmult_le_compat; lra. }
    assert (P2 : Rabs (T a b s i) <= C * m' * (m + m') ^ 2).
    { eapply Rle_trans; [apply (Hb a b s m m' (m + m')); try assumption; lra|]. apply K; lra. }
    assert (P3 : Rabs (T a a b i) <= C * m' * (m + m') ^ 2).
    { eapply Rle_trans; [apply (Hb a a b m m m'); try assumption; lra|].
      replace (C * m * m * m') with (C * m * m' * m) by ring. apply K; lra. }
    pose proof (Rabs_triang (T b s s i + T a b s i) (T a a b i)).
    pose proof (Rabs_triang (T b s s i) (T a b s i)). lra.
  - unfold s. rewrite !T_add, !T_add_2, !T_add_3 by exact Hi.
    rewrite (T_sym12 b a), (T_sym23 a b a) by exact Hi. ring.
Qed.

(** composition with f of an expansion around y *)
Lemma f_near k u c1 c2 c3 : (k <= 4)%nat -> near n H k u zerov c1 c2 c3 ->
  near n H k (fun h => f (vadd y (u h)))
    (f y) (A c1) (vadd (A c2) (B c1 c1))
    (vadd (A c3) (vadd (vscal 2 (B c1 c2)) (T c1 c1 c1))).
Proof.
  intros Hk [C [HC Hu]].
  destruct (poly_bound n H H1 c1 c2 c3) as [M [HM HP]].
  destruct A_bound as [CA [HCA BA]]. destruct B_diff as [CB [HCB BB]]. destruct T_diff as [CT [HCT BT]].
  destruct HT as [_ [_ [_ HF]]]. destruct (HF (M + C)) as [CF [HCF BF]].
  (* bounds of vectors *)
  destruct (vle_exists n c1) as [m1 [P1 Q1]]. destruct (vle_exists n c2) as [m2 [P2 Q2]].
  destruct (vle_exists n c3) as [m3 [P3 Q3]]. destruct (vle_exists n (B c2 c2)) as [m4 [P4 Q4]].
  exists (CF * (M + C) ^ 4 + CA * C + (CB * C * (M + C) + CB * m3 * (m1 + m2 + m3) + m4)
          + (CT * C * (M + C) ^ 2 + CT * (m2 + m3) * (m1 + (m2 + m3)) ^ 2)).
  split.
  { repeat apply Rplus_le_le_0_compat; repeat apply Rmult_le_pos; try apply pow_le; lra. }
  intros h Hh i Hi. pose proof (Rabs_pos h) as Hh0.
  set (p := poly zerov c1 c2 c3 h). set (r := fun i => u h i - p i).
  assert (Er : u h = vadd p r) by (apply functional_extensionality; intros j; unfold vadd, r; ring).
  assert (Vp : vle n p (M * Rabs h)) by (apply HP, Hh).
  assert (Vr : vle n r (C * Rabs h ^ k)) by (apply Hu, Hh).
  pose proof (abs_pow_nonneg h k) as Hk0.
  assert (Hk1 : Rabs h ^ k <= 1) by (apply (pow_abs_le h 0 k); [lra|lia]).
  assert (H4k : Rabs h ^ 4 <= Rabs h ^ k) by (apply pow_abs_le; [lra|exact Hk]).
  (* f *)
  assert (EF : Rabs (f (vadd y (u h)) i - (f y i + A (u h) i + B (u h) (u h) i + T (u h) (u h) (u h) i))
               <= CF * (M + C) ^ 4 * Rabs h ^ k).
  { destruct k as [|k'].
    - cbn [pow] in *. eapply Rle_trans; [apply (BF (u h) (M + C)); [|lra|exact Hi]|lra].
      rewrite Er. eapply vle_weak; [apply vle_add; eassumption|].
      assert (M * Rabs h <= M * 1) by (apply Rmult_le_compat_l; lra). lra.
    - set (k := S k') in *. assert (Hkh : Rabs h ^ k <= Rabs h).
      { rewrite <- (pow_1 (Rabs h)) at 2. apply pow_abs_le; [lra|unfold k; lia]. }
      eapply Rle_trans; [apply (BF (u h) ((M + C) * Rabs h)); [| |exact Hi]|].
      + rewrite Er. eapply vle_weak; [apply vle_add; eassumption|].
        assert (C * Rabs h ^ k <= C * Rabs h) by (apply Rmult_le_compat_l; lra). lra.
      + split; [apply Rmult_le_pos; lra|]. rewrite <- (Rmult_1_r (M + C)) at 2. apply Rmult_le_compat_l; lra.
      + rewrite Rpow_mult_distr, <- Rmult_assoc. apply Rmult_le_compat_l; [|exact H4k].
        apply Rmult_le_pos; [exact HCF|apply pow_le; lra]. }
  (* A *)
  assert (EA : Rabs (A (u h) i - A p i) <= CA * C * Rabs h ^ k).
  { rewrite Er, A_add by exact Hi. replace (A p i + A r i - A p i) with (A r i) by ring.
    rewrite Rmult_assoc. apply (BA r (C * Rabs h ^ k)); [exact Vr|exact Hi]. }
  assert (Ep : p = vadd (vscal h c1) (vadd (vscal (h ^ 2) c2) (vscal (h ^ 3) c3))).
  { apply functional_extensionality; intros j; unfold p, poly, zerov, vadd, vscal; ring. }
  assert (EA' : A p i = h * A c1 i + h ^ 2 * A c2 i + h ^ 3 * A c3 i).
  { rewrite Ep. rewrite !A_add, !A_scal by exact Hi. ring. }
  (* scaling facts *)
  assert (Hh1 : Rabs h <= 1) by lra.
  assert (Mh : 0 <= M * Rabs h <= M).
  { split; [apply Rmult_le_pos; lra|]. rewrite <- (Rmult_1_r M) at 2. apply Rmult_le_compat_l; lra. }
  assert (Ck : 0 <= C * Rabs h ^ k <= C).
  { split; [apply Rmult_le_pos; lra|]. rewrite <- (Rmult_1_r C) at 2. apply Rmult_le_compat_l; lra. }
  (* B *)
  assert (EB1 : Rabs (B (u h) (u h) i - B p p i) <= CB * C * (M + C) * Rabs h ^ k).
  { rewrite Er. eapply Rle_trans; [apply (BB p r (M * Rabs h) (C * Rabs h ^ k)); try assumption; lra|].
    replace (CB * C * (M + C) * Rabs h ^ k) with (CB * (C * Rabs h ^ k) * (M + C)) by ring.
    apply Rmult_le_compat_l; [apply Rmult_le_pos; lra|lra]. }
  assert (h2 : Rabs (h ^ 2) <= Rabs h).
  { rewrite <- RPow_abs. rewrite <- (pow_1 (Rabs h)) at 2. apply pow_abs_le; [lra|lia]. }
  assert (h3 : Rabs (h ^ 3) <= Rabs h).
  { rewrite <- RPow_abs. rewrite <- (pow_1 (Rabs h)) at 2. apply pow_abs_le; [lra|lia]. }
  set (a12 := vadd (vscal h c1) (vscal (h ^ 2) c2)).
  assert (Ep2 : p = vadd a12 (vscal (h ^ 3) c3)).
  { rewrite Ep. apply functional_extensionality; intros j; unfold a12, vadd, vscal; ring. }
  assert (V1 : vle n (vscal h c1) (Rabs h * m1)) by (apply vle_scal, Q1).
  assert (V2 : vle n (vscal (h ^ 2) c2) (Rabs (h ^ 2) * m2)) by (apply vle_scal, Q2).
  assert (V3 : vle n (vscal (h ^ 3) c3) (Rabs (h ^ 3) * m3)) by (apply vle_scal, Q3).
  assert (V12 : vle n a12 (Rabs h * (m1 + m2))).
  { eapply vle_weak; [apply vle_add; eassumption|].
    assert (Rabs (h ^ 2) * m2 <= Rabs h * m2) by (apply Rmult_le_compat_r; lra). lra. }
  assert (EB2 : Rabs (B p p i - B a12 a12 i) <= CB * m3 * (m1 + m2 + m3) * Rabs h ^ k).
  { rewrite Ep2. eapply Rle_trans; [apply (BB a12 (vscal (h ^ 3) c3) (Rabs h * (m1 + m2)) (Rabs (h ^ 3) * m3)); try assumption|].
    - apply Rmult_le_pos; lra.
    - apply Rmult_le_pos; [apply Rabs_pos|lra].
    - apply Rle_trans with (CB * m3 * (m1 + m2 + m3) * Rabs h ^ 4).
      + assert (Rabs (h ^ 3) * m3 <= Rabs h * m3) by (apply Rmult_le_compat_r; lra).
        apply Rle_trans with (CB * (Rabs (h ^ 3) * m3) * (Rabs h * (m1 + m2 + m3))).
        * apply Rmult_le_compat_l; [apply Rmult_le_pos; [lra|apply Rmult_le_pos; [apply Rabs_pos|lra]]|lra].
        * rewrite <- RPow_abs. right. ring.
      + apply Rmult_le_compat_l; [|exact H4k]. repeat apply Rmult_le_pos; lra. }
  assert (EB3 : B a12 a12 i = h ^ 2 * B c1 c1 i + h ^ 3 * (2 * B c1 c2 i) + h ^ 4 * B c2 c2 i).
  { unfold a12. rewrite !B_add, !B_add_r, !B_scal, !B_scal_r by exact Hi. rewrite (B_sym c2 c1) by exact Hi. ring. }
  assert (EB4 : Rabs (h ^ 4 * B c2 c2 i) <= m4 * Rabs h ^ k).
  { rewrite Rabs_mult, <- RPow_abs, Rmult_comm. apply Rmult_le_compat; [apply Rabs_pos|apply abs_pow_nonneg|apply Q4, Hi|exact H4k]. }
  (* T *)
  assert (ET1 : Rabs (T (u h) (u h) (u h) i - T p p p i) <= CT * C * (M + C) ^ 2 * Rabs h ^ k).
  { rewrite Er. eapply Rle_trans; [apply (BT p r (M * Rabs h) (C * Rabs h ^ k)); try assumption; lra|].
    replace (CT * C * (M + C) ^ 2 * Rabs h ^ k) with (CT * (C * Rabs h ^ k) * (M + C) ^ 2) by ring.
    apply Rmult_le_compat_l; [apply Rmult_le_pos; lra|apply pow_incr; lra]. }
  set (q := vadd (vscal (h ^ 2) c2) (vscal (h ^ 3) c3)).
  assert (Vq : vle n q (Rabs h ^ 2 * (m2 + m3))).
  { eapply vle_weak; [apply vle_add; eassumption|]. rewrite <- !RPow_abs.
    assert (Rabs h ^ 3 * m3 <= Rabs h ^ 2 * m3) by (apply Rmult_le_compat_r; [lra|apply pow_abs_le; [lra|lia]]). lra. }
  assert (ET2 : Rabs (T p p p i - T (vscal h c1) (vscal h c1) (vscal h c1) i)
     <= CT * (m2 + m3) * (m1 + (m2 + m3)) ^ 2 * Rabs h ^ k).
  { rewrite Ep. fold q. eapply Rle_trans; [apply (BT (vscal h c1) q (Rabs h * m1) (Rabs h ^ 2 * (m2 + m3))); try assumption|].
    - apply Rmult_le_pos; lra.
    - apply Rmult_le_pos; [apply abs_pow_nonneg|lra].
    - apply Rle_trans with (CT * (m2 + m3) * (m1 + (m2 + m3)) ^ 2 * Rabs h ^ 4).
      + apply Rle_trans with (CT * (Rabs h ^ 2 * (m2 + m3)) * (Rabs h * (m1 + (m2 + m3))) ^ 2).
        * apply Rmult_le_compat_l; [repeat apply Rmult_le_pos; try apply abs_pow_nonneg; lra|].
          assert (Rabs h ^ 2 <= Rabs h) by (rewrite <- (pow_1 (Rabs h)) at 2; apply pow_abs_le; [lra|lia]).
          assert (Rabs h ^ 2 * (m2 + m3) <= Rabs h * (m2 + m3)) by (apply Rmult_le_compat_r; lra).
          apply pow_incr. split; [|lra]. apply Rplus_le_le_0_compat; apply Rmult_le_pos; try apply abs_pow_nonneg; lra.
        * rewrite Rpow_mult_distr. right. ring.
      + apply Rmult_le_compat_l; [|exact H4k]. repeat apply Rmult_le_pos; try apply pow_le; lra. }
  assert (ET3 : T (vscal h c1) (vscal h c1) (vscal h c1) i = h ^ 3 * T c1 c1 c1 i).
  { rewrite !T_scal, !T_scal_2, !T_scal_3 by exact Hi. ring. }
  (* conclusion *)
  set (X1 := f (vadd y (u h)) i - (f y i + A (u h) i + B (u h) (u h) i + T (u h) (u h) (u h) i)) in *.
  set (X2 := A (u h) i - A p i) in *. set (X3 := B (u h) (u h) i - B p p i) in *.
  set (X4 := B p p i - B a12 a12 i) in *. set (X5 := h ^ 4 * B c2 c2 i) in *.
  set (X6 := T (u h) (u h) (u h) i - T p p p i) in *.
  set (X7 := T p p p i - T (vscal h c1) (vscal h c1) (vscal h c1) i) in *.
  replace (f (vadd y (u h)) i -
    poly (f y) (A c1) (vadd (A c2) (B c1 c1)) (vadd (A c3) (vadd (vscal 2 (B c1 c2)) (T c1 c1 c1))) h i)
    with (X1 + X2 + X3 + X4 + X5 + X6 + X7).
  2:{ unfold X1, X2, X3, X4, X5, X6, X7. rewrite EA', EB3, ET3. unfold X5, poly, vadd, vscal. ring. }
  pose proof (Rabs_triang (X1 + X2 + X3 + X4 + X5 + X6) X7).
  pose proof (Rabs_triang (X1 + X2 + X3 + X4 + X5) X6).
  pose proof (Rabs_triang (X1 + X2 + X3 + X4) X5).
  pose proof (Rabs_triang (X1 + X2 + X3) X4).
  pose proof (Rabs_triang (X1 + X2) X3). pose proof (Rabs_triang X1 X2). lra.
Qed.
End Multi.

(** ** the exact solution *)
Lemma mean_value_bound (G G' : R -> R) (H C : R) (k : nat) :
  G 0 = 0 -> 0 <= C ->
  (forall t, Rabs t <= H -> derivable_pt_lim G t (G' t)) ->
  (forall t, Rabs t <= H -> Rabs (G' t) <= C * Rabs t ^ k) ->
  forall h, Rabs h <= H -> Rabs (G h) <= C * Rabs h ^ (S k).
Proof.
  intros G0 HC HD HB h Hh.
  assert (K : forall c, Rabs c <= Rabs h -> Rabs (G' c * h) <= C * Rabs h ^ (S k)).
  { intros c Hc. rewrite Rabs_mult. cbn [pow].
    replace (C * (Rabs h * Rabs h ^ k)) with (C * Rabs h ^ k * Rabs h) by ring.
    apply Rmult_le_compat_r; [apply Rabs_pos|]. eapply Rle_trans; [apply HB; lra|].
    apply Rmult_le_compat_l; [exact HC|]. apply pow_incr. split; [apply Rabs_pos|exact Hc]. }
  destruct (Rtotal_order h 0) as [L|[->|L]].
  - destruct (MVT_cor2 G G' h 0 L) as [c [E Hc]].
    { intros c Hc. apply HD. apply Rle_trans with (Rabs h); [|exact Hh]. rewrite !Rabs_left1; lra. }
    replace (G h) with (G' c * h) by lra. apply K. rewrite !Rabs_left1; lra.
  - rewrite G0, Rabs_R0. cbn [pow]. rewrite Rmult_0_l, Rmult_0_r. lra.
  - destruct (MVT_cor2 G G' 0 h L) as [c [E Hc]].
    { intros c Hc. apply HD. apply Rle_trans with (Rabs h); [|exact Hh]. rewrite !Rabs_pos_eq; lra. }
    replace (G h) with (G' c * h) by lra. apply K. rewrite !Rabs_pos_eq; lra.
Qed.

Lemma deriv_poly a1 a2 a3 a4 t :
  derivable_pt_lim (fun t => t * a1 + t ^ 2 * a2 + t ^ 3 * a3 + t ^ 4 * a4) t
    (a1 + t * (2 * a2) + t ^ 2 * (3 * a3) + t ^ 3 * (4 * a4)).
Proof.
  replace (a1 + t * (2 * a2) + t ^ 2 * (3 * a3) + t ^ 3 * (4 * a4))
    with (((1 * a1 + (INR 2 * t ^ 1) * a2) + (INR 3 * t ^ 2) * a3) + (INR 4 * t ^ 3) * a4) by (cbn [INR pow]; ring).
  assert (M : forall g l a, derivable_pt_lim g t l -> derivable_pt_lim (fun t => g t * a) t (l * a)).
  { intros g l a Hg. replace (l * a) with (l * a + g t * 0) by ring.
    apply (derivable_pt_lim_mult g (fun _ => a)); [exact Hg|apply derivable_pt_lim_const]. }
  apply (derivable_pt_lim_plus (fun t => t * a1 + t ^ 2 * a2 + t ^ 3 * a3)).
  - apply (derivable_pt_lim_plus (fun t => t * a1 + t ^ 2 * a2)).
    + apply (derivable_pt_lim_plus (fun t => t * a1)).
      * apply (M (fun t => t)). apply derivable_pt_lim_id.
      * apply (M (fun t => t ^ 2)). apply (derivable_pt_lim_pow t 2).
    + apply (M (fun t => t ^ 3)). apply (derivable_pt_lim_pow t 3).
  - apply (M (fun t => t ^ 4)). apply (derivable_pt_lim_pow t 4).
Qed.

Section Order.
Variables (n : nat) (H : R).
Hypothesis (H0 : 0 < H) (H1 : H <= 1).
Variables (f : vec -> vec) (y : vec) (A : vec -> vec) (B : vec -> vec -> vec) (T : vec -> vec -> vec -> vec).
Hypothesis HT : taylor_expansion n f y A B T.
Variable Y : R -> vec.
Hypothesis HY : solves_ode n f y H Y.

Let e1 : vec := f y.
Let p1 : vec := A e1.
Let e2 : vec := vscal (1 / 2) p1.
Let p2 : vec := vadd (A e2) (B e1 e1).
Let e3 : vec := vscal (1 / 3) p2.
Let p3 : vec := vadd (A e3) (vadd (vscal 2 (B e1 e2)) (T e1 e1 e1)).
Let e4 : vec := vscal (1 / 4) p3.
Let u (t : R) : vec := fun i => Y t i - y i.

Lemma sol_start : near n H 0 u zerov e1 e2 e3.
Proof.
  assert (Hb : forall m, (m <= n)%nat -> exists C, 0 <= C /\ forall t, Rabs t <= H -> vle m (u t) C).
  { induction m as [|m IH]; intros Hm.
    - exists 0. split; [lra|]. intros t _ i Hi. lia.
    - destruct IH as [C [HC IH]]; [lia|].
      assert (Hc : forall c, - H <= c <= H -> continuity_pt (fun s => Y s m) c).
      { intros c Hc. apply derivable_continuous_pt. exists (f (Y c) m). apply HY; [|lia].
        apply Rabs_le. exact Hc. }
      destruct (continuity_ab_maj (fun s => Y s m) (- H) H ltac:(lra) Hc) as [Mx [HM _]].
      destruct (continuity_ab_min (fun s => Y s m) (- H) H ltac:(lra) Hc) as [mx [Hm' _]].
      exists (Rmax C (Rmax (Rabs (Y Mx m)) (Rabs (Y mx m)) + Rabs (y m))). split.
      + apply Rle_trans with C; [exact HC|apply Rmax_l].
      + intros t Ht i Hi. destruct (Nat.eq_dec i m) as [->|Hne].
        * eapply Rle_trans; [|apply Rmax_r]. unfold u.
          assert (Ht' : - H <= t <= H) by (pose proof (Rle_abs t); pose proof (Rle_abs (- t)) as QQ; rewrite Rabs_Ropp in QQ; lra).
          specialize (HM t Ht'). specialize (Hm' t Ht').
          pose proof (Rmax_l (Rabs (Y Mx m)) (Rabs (Y mx m))). pose proof (Rmax_r (Rabs (Y Mx m)) (Rabs (Y mx m))).
          pose proof (Rle_abs (Y Mx m)). pose proof (Rle_abs (- Y mx m)) as Q. rewrite Rabs_Ropp in Q.
          pose proof (Rle_abs (y m)). pose proof (Rle_abs (- y m)) as Q'. rewrite Rabs_Ropp in Q'.
          apply Rabs_le. lra.
        * eapply Rle_trans; [|apply Rmax_l]. apply IH; [exact Ht|lia]. }
  destruct (Hb n (le_n n)) as [C [HC Hu]].
  destruct (poly_bound n H H1 e1 e2 e3) as [M [HM HP]].
  exists (C + M). split; [lra|]. intros h Hh i Hi. cbn [pow]. rewrite Rmult_1_r.
  specialize (Hu h Hh i Hi). specialize (HP h Hh i Hi).
  unfold Rminus. eapply Rle_trans; [apply Rabs_triang|]. rewrite Rabs_Ropp.
  assert (M * Rabs h <= M * 1) by (apply Rmult_le_compat_l; lra). lra.
Qed.

Lemma fY_near k : (k <= 4)%nat -> near n H k u zerov e1 e2 e3 -> near n H k (fun t => f (Y t)) e1 p1 p2 p3.
Proof.
  intros Hk Hu. pose proof (f_near n H H1 f y A B T HT k u e1 e2 e3 Hk Hu) as Hf.
  eapply near_ext; [| | | | |exact Hf]; try (intros i _; reflexivity).
  intros h _ i _. replace (vadd y (u h)) with (Y h); [reflexivity|].
  apply functional_extensionality; intros j. unfold vadd, u. ring.
Qed.

Lemma sol_integrate k : (k <= 4)%nat -> near n H k u zerov e1 e2 e3 ->
  exists C, 0 <= C /\ forall h, Rabs h <= H ->
    vle n (fun i => u h i - (poly zerov e1 e2 e3 h i + h ^ 4 * e4 i)) (C * Rabs h ^ (S k)).
Proof.
  intros Hk Hu. destruct (fY_near k Hk Hu) as [C [HC Hf]]. exists C. split; [exact HC|].
  intros h Hh i Hi.
  set (G := fun t => Y t i - y i - (t * e1 i + t ^ 2 * e2 i + t ^ 3 * e3 i + t ^ 4 * e4 i)).
  set (G' := fun t => f (Y t) i - 0 - (e1 i + t * (2 * e2 i) + t ^ 2 * (3 * e3 i) + t ^ 3 * (4 * e4 i))).
  destruct HY as [HY0 HYd].
  assert (K : Rabs (G h) <= C * Rabs h ^ (S k)).
  { apply (mean_value_bound G G' H C k); [|exact HC| | |exact Hh].
    - unfold G. rewrite HY0 by exact Hi. ring.
    - intros t Ht. unfold G, G'.
      apply (derivable_pt_lim_minus (fun t => Y t i - y i)); [|apply deriv_poly].
      apply (derivable_pt_lim_minus (fun t => Y t i)); [apply HYd; assumption|apply derivable_pt_lim_const].
    - intros t Ht. specialize (Hf t Ht i Hi).
      replace (G' t) with (f (Y t) i - poly e1 p1 p2 p3 t i); [exact Hf|].
      unfold G', poly, e2, e3, e4, vscal. field. }
  replace (u h i - (poly zerov e1 e2 e3 h i + h ^ 4 * e4 i)) with (G h); [exact K|].
  unfold G, u, poly, zerov. ring.
Qed.

Lemma sol_step k : (k <= 3)%nat -> near n H k u zerov e1 e2 e3 -> near n H (S k) u zerov e1 e2 e3.
Proof.
  intros Hk Hu. destruct (sol_integrate k ltac:(lia) Hu) as [C [HC Hf]].
  destruct (vle_exists n e4) as [m [Hm H4]]. exists (C + m). split; [lra|].
  intros h Hh i Hi. specialize (Hf h Hh i Hi). specialize (H4 i Hi).
  replace (u h i - poly zerov e1 e2 e3 h i)
    with (u h i - (poly zerov e1 e2 e3 h i + h ^ 4 * e4 i) + h ^ 4 * e4 i) by ring.
  eapply Rle_trans; [apply Rabs_triang|]. rewrite Rmult_plus_distr_r. apply Rplus_le_compat; [exact Hf|].
  rewrite Rabs_mult, <- RPow_abs, Rmult_comm.
  apply Rmult_le_compat; [apply Rabs_pos|apply abs_pow_nonneg|exact H4|apply pow_abs_le; [lra|lia]].
Qed.

Lemma sol_near : near n H 4 u zerov e1 e2 e3.
Proof. do 4 (apply sol_step; [lia|]). exact sol_start. Qed.

(** a one-step method y + h K(h) whose K agrees with the solution's slope to order p *)
Lemma local_error p K s0 s1 s2 s3 : (1 <= p <= 4)%nat ->
  near n H 4 K s0 s1 s2 s3 ->
  veq n s0 e1 -> ((2 <= p)%nat -> veq n s1 e2) -> ((3 <= p)%nat -> veq n s2 e3) ->
  ((4 <= p)%nat -> veq n s3 e4) ->
  exists C, 0 <= C /\ forall h, Rabs h <= H ->
    vle n (fun i => y i + h * K h i - Y h i) (C * Rabs h ^ (S p)).
Proof.
  intros Hp [C [HC HK]] E0 E1 E2 E3.
  destruct (sol_integrate 4 (le_n 4) sol_near) as [D [HD Hs]].
  destruct (vle_exists n (fun i => s1 i - e2 i)) as [m1 [P1 Q1]].
  destruct (vle_exists n (fun i => s2 i - e3 i)) as [m2 [P2 Q2]].
  destruct (vle_exists n (fun i => s3 i - e4 i)) as [m3 [P3 Q3]].
  exists (C + D + m1 + m2 + m3). split; [lra|]. intros h Hh i Hi.
  specialize (HK h Hh i Hi). specialize (Hs h Hh i Hi). specialize (Q1 i Hi). specialize (Q2 i Hi). specialize (Q3 i Hi).
  pose proof (abs_pow_nonneg h (S p)) as Hpp.
  assert (T1 : Rabs (h * (K h i - poly s0 s1 s2 s3 h i)) <= C * Rabs h ^ S p).
  { rewrite Rabs_mult. apply Rle_trans with (Rabs h * (C * Rabs h ^ 4)).
    - apply Rmult_le_compat_l; [apply Rabs_pos|exact HK].
    - replace (Rabs h * (C * Rabs h ^ 4)) with (C * Rabs h ^ 5) by ring.
      apply Rmult_le_compat_l; [exact HC|apply pow_abs_le; [lra|lia]]. }
  assert (T2 : Rabs (- (u h i - (poly zerov e1 e2 e3 h i + h ^ 4 * e4 i))) <= D * Rabs h ^ S p).
  { rewrite Rabs_Ropp. eapply Rle_trans; [exact Hs|]. apply Rmult_le_compat_l; [exact HD|apply pow_abs_le; [lra|lia]]. }
  assert (M : forall (a b : vec) m q, (0 <= m) -> Rabs (a i - b i) <= m -> ((q <= p)%nat -> veq n a b) ->
     Rabs (h ^ q * (a i - b i)) <= m * Rabs h ^ S p).
  { intros a b m q Hm Hab Heq. destruct (le_lt_dec q p) as [L|L].
    - rewrite (Heq L i Hi), Rminus_diag_eq, Rmult_0_r, Rabs_R0 by reflexivity. apply Rmult_le_pos; assumption.
    - rewrite Rabs_mult, <- RPow_abs, Rmult_comm.
      apply Rmult_le_compat; [apply Rabs_pos|apply abs_pow_nonneg|exact Hab|apply pow_abs_le; [lra|lia]]. }
  pose proof (M s1 e2 m1 2%nat P1 Q1 E1) as T3.
  pose proof (M s2 e3 m2 3%nat P2 Q2 E2) as T4.
  pose proof (M s3 e4 m3 4%nat P3 Q3 E3) as T5.
  set (X1 := h * (K h i - poly s0 s1 s2 s3 h i)) in *.
  set (X2 := - (u h i - (poly zerov e1 e2 e3 h i + h ^ 4 * e4 i))) in *.
  set (X3 := h ^ 2 * (s1 i - e2 i)) in *. set (X4 := h ^ 3 * (s2 i - e3 i)) in *. set (X5 := h ^ 4 * (s3 i - e4 i)) in *.
  replace (y i + h * K h i - Y h i) with (X1 + X2 + X3 + X4 + X5).
  2:{ unfold X1, X2, X3, X4, X5, u, poly, zerov. rewrite E0 by exact Hi. ring. }
  pose proof (Rabs_triang (X1 + X2 + X3 + X4) X5). pose proof (Rabs_triang (X1 + X2 + X3) X4).
  pose proof (Rabs_triang (X1 + X2) X3). pose proof (Rabs_triang X1 X2). lra.
Qed.

(** the stages *)
Let k1 (h : R) : vec := f y.
Let k2 (h : R) : vec := f (vadd y (vscal (1 / 2 * h) (k1 h))).
Let k3r (h : R) : vec := f (vadd y (vscal (1 * h) (vadd (vscal 2 (k2 h)) (vscal (-1) (k1 h))))).
Let k3 (h : R) : vec := f (vadd y (vscal (1 / 2 * h) (k2 h))).
Let k4 (h : R) : vec := f (vadd y (vscal (1 * h) (k3 h))).

Lemma k1_near : near n H 4 k1 e1 zerov zerov zerov.
Proof. apply (near_const n H 4 (f y)). Qed.
Let stage a k c0 c1 c2 c3 (Hk : near n H 4 k c0 c1 c2 c3) :=
  f_near n H H1 f y A B T HT 4 _ _ _ _ (le_n 4) (near_shift n H H1 a k c0 c1 c2 c3 Hk).

Lemma A_ext v w i : veq n v w -> (i < n)%nat -> A v i = A w i.
Proof.
  intros E Hi. assert (D : Rabs (A (vadd v (vscal (-1) w)) i) <= 0).
  { destruct (A_bound n f y A B T HT) as [C [HC HA]].
    replace 0 with (C * 0) by ring. apply HA; [|exact Hi]. intros j Hj. unfold vadd, vscal. rewrite (E j Hj).
    replace (w j + -1 * w j) with 0 by ring. rewrite Rabs_R0. lra. }
  rewrite (A_add n f y A B T HT), (A_scal n f y A B T HT) in D by exact Hi.
  pose proof (Rabs_pos (A v i + -1 * A w i)).
  assert (E' : Rabs (A v i + -1 * A w i) = 0) by lra.
  destruct (Req_dec (A v i + -1 * A w i) 0) as [Z|Z]; [lra|]. apply Rabs_no_R0 in Z. lra.
Qed.

Lemma A_zero i : (i < n)%nat -> A zerov i = 0.
Proof.
  intros Hi. replace (zerov) with (vscal 0 zerov) by (apply functional_extensionality; intros j; unfold vscal, zerov; ring).
  rewrite (A_scal n f y A B T HT) by exact Hi. ring.
Qed.
Lemma B_zero_r v i : (i < n)%nat -> B v zerov i = 0.
Proof.
  intros Hi. replace (zerov) with (vscal 0 zerov) by (apply functional_extensionality; intros j; unfold vscal, zerov; ring).
  rewrite (B_scal_r n f y A B T HT) by exact Hi. ring.
Qed.

Lemma AA_scal a v i : (i < n)%nat -> A (A (vscal a v)) i = a * A (A v) i.
Proof.
  intros Hi. rewrite (A_ext (A (vscal a v)) (vscal a (A v)) i); [|intros j Hj|exact Hi].
  - apply (A_scal n f y A B T HT); exact Hi.
  - apply (A_scal n f y A B T HT); exact Hj.
Qed.
Lemma vadd_i v w i : vadd v w i = v i + w i. Proof. reflexivity. Qed.
Lemma vscal_i a v i : vscal a v i = a * v i. Proof. reflexivity. Qed.
Lemma zerov_i i : zerov i = 0. Proof. reflexivity. Qed.
Ltac simp Hi :=
  repeat first [rewrite vadd_i | rewrite vscal_i | rewrite zerov_i
   | rewrite (A_add n f y A B T HT) by exact Hi | rewrite (A_scal n f y A B T HT) by exact Hi
   | rewrite (B_add n f y A B T HT) by exact Hi | rewrite (B_scal n f y A B T HT) by exact Hi
   | rewrite (B_add_r n f y A B T HT) by exact Hi | rewrite (B_scal_r n f y A B T HT) by exact Hi
   | rewrite (T_add n f y A B T HT) by exact Hi | rewrite (T_scal n f y A B T HT) by exact Hi
   | rewrite (T_add_2 n f y A B T HT) by exact Hi | rewrite (T_scal_2 n f y A B T HT) by exact Hi
   | rewrite (T_add_3 n f y A B T HT) by exact Hi | rewrite (T_scal_3 n f y A B T HT) by exact Hi
   | rewrite AA_scal by exact Hi | rewrite A_zero by exact Hi | rewrite B_zero_r by exact Hi].

(** coefficients of k2: f0, A f0 / 2, B(f0,f0)/4, T(f0,f0,f0)/8 *)
Lemma k2_near : near n H 4 k2 e1 (vscal (1/2) (A e1)) (vscal (1/4) (B e1 e1)) (vscal (1/8) (T e1 e1 e1)).
Proof.
  eapply near_ext; [| | | | |exact (stage (1/2) k1 _ _ _ _ k1_near)].
  - intros h _ i _. reflexivity.
  - intros i _. reflexivity.
  - intros i Hi. simp Hi. field.
  - intros i Hi. simp Hi. field.
  - intros i Hi. simp Hi. field.
Qed.
(** k3 of RK3, k3 and k4 of RK4 *)
Lemma k3r_near : near n H 4 k3r e1 (A e1) (vadd (A (A e1)) (B e1 e1))
   (vadd (vscal (1/2) (A (B e1 e1))) (vadd (vscal 2 (B e1 (A e1))) (T e1 e1 e1))).
Proof.
  pose proof (near_lin n H 4 2 (-1) _ _ _ _ _ _ _ _ _ _ k2_near k1_near) as HL.
  eapply near_ext; [| | | | |exact (stage 1 _ _ _ _ _ HL)].
  - intros h _ i _. reflexivity.
  - intros i _. reflexivity.
  - intros i Hi. simp Hi. field.
  - intros i Hi. simp Hi. field.
  - intros i Hi. simp Hi. field.
Qed.
Lemma k3_near : near n H 4 k3 e1 (vscal (1/2) (A e1)) (vadd (vscal (1/4) (A (A e1))) (vscal (1/4) (B e1 e1)))
   (vadd (vscal (1/8) (A (B e1 e1))) (vadd (vscal (1/4) (B e1 (A e1))) (vscal (1/8) (T e1 e1 e1)))).
Proof.
  eapply near_ext; [| | | | |exact (stage (1/2) _ _ _ _ _ k2_near)].
  - intros h _ i _. reflexivity.
  - intros i _. reflexivity.
  - intros i Hi. simp Hi. field.
  - intros i Hi. simp Hi. field.
  - intros i Hi. simp Hi. field.
Qed.
Lemma k4_near : near n H 4 k4 e1 (A e1) (vadd (vscal (1/2) (A (A e1))) (B e1 e1))
   (vadd (vadd (vscal (1/4) (A (A (A e1)))) (vscal (1/4) (A (B e1 e1)))) (vadd (B e1 (A e1)) (T e1 e1 e1))).
Proof.
  eapply near_ext; [| | | | |exact (stage 1 _ _ _ _ _ k3_near)].
  - intros h _ i _. reflexivity.
  - intros i _. reflexivity.
  - intros i Hi. simp Hi. field.
  - intros i Hi. simp Hi. field.
  - intros i Hi. simp Hi. field.
Qed.

Ltac coef Hi := unfold e4, p3, e3, p2, e2, p1; simp Hi; try field.

Lemma order_euler : exists C, 0 <= C /\ forall h, Rabs h <= H ->
  vle n (fun i => euler vec nat f default_update y h i - Y h i) (C * Rabs h ^ 2).
Proof.
  destruct (local_error 1 k1 _ _ _ _ ltac:(lia) k1_near) as [C [HC HE]]; try (intros; lia); [intros i _; reflexivity|].
  exists C. split; [exact HC|]. intros h Hh. eapply vle_ext; [|exact (HE h Hh)].
  intros i _. cbv beta. unfold euler, default_update, k1. ring.
Qed.

Lemma upd_vadd (v : vec) a : default_update y v a = vadd y (vscal a v).
Proof. apply functional_extensionality; intros i. unfold default_update, vadd, vscal. ring. Qed.

Lemma order_rk2 : exists C, 0 <= C /\ forall h, Rabs h <= H ->
  vle n (fun i => rk2 vec nat f default_update y h i - Y h i) (C * Rabs h ^ 3).
Proof.
  destruct (local_error 2 k2 _ _ _ _ ltac:(lia) k2_near) as [C [HC HE]]; try (intros; lia).
  - intros i _; reflexivity.
  - intros _ i Hi. coef Hi.
  - exists C. split; [exact HC|]. intros h Hh. eapply vle_ext; [|exact (HE h Hh)].
    intros i _. cbv beta. unfold rk2. rewrite !upd_vadd. rewrite vadd_i, vscal_i. unfold k2, k1. ring.
Qed.

Lemma order_rk3 : exists C, 0 <= C /\ forall h, Rabs h <= H ->
  vle n (fun i => rk3 vec nat f default_update y h i - Y h i) (C * Rabs h ^ 4).
Proof.
  pose proof (near_lin n H 4 (1/6) (4/6) _ _ _ _ _ _ _ _ _ _ k1_near k2_near) as HL.
  pose proof (near_lin n H 4 1 (1/6) _ _ _ _ _ _ _ _ _ _ HL k3r_near) as HK.
  destruct (local_error 3 _ _ _ _ _ ltac:(lia) HK) as [C [HC HE]]; try (intros; lia).
  - intros i Hi. coef Hi.
  - intros _ i Hi. coef Hi.
  - intros _ i Hi. coef Hi.
  - exists C. split; [exact HC|]. intros h Hh. eapply vle_ext; [|exact (HE h Hh)].
    intros i _. cbv beta. unfold rk3. rewrite !upd_vadd. fold (k1 h).
    change (f (vadd y (vscal (1 / 2 * h) (k1 h)))) with (k2 h).
    replace (vadd y (vscal h (fun j => 2 * k2 h j - k1 h j)))
      with (vadd y (vscal (1 * h) (vadd (vscal 2 (k2 h)) (vscal (-1) (k1 h)))))
      by (apply functional_extensionality; intros j; unfold vadd, vscal; ring).
    fold (k3r h). unfold vadd, vscal. field.
Qed.

Lemma order_rk4 : exists C, 0 <= C /\ forall h, Rabs h <= H ->
  vle n (fun i => rk4 vec nat f default_update y h i - Y h i) (C * Rabs h ^ 5).
Proof.
  pose proof (near_lin n H 4 (1/6) (2/6) _ _ _ _ _ _ _ _ _ _ k1_near k2_near) as HL.
  pose proof (near_lin n H 4 1 (2/6) _ _ _ _ _ _ _ _ _ _ HL k3_near) as HL'.
  pose proof (near_lin n H 4 1 (1/6) _ _ _ _ _ _ _ _ _ _ HL' k4_near) as HK.
  destruct (local_error 4 _ _ _ _ _ ltac:(lia) HK) as [C [HC HE]]; try (intros; lia).
  - intros i Hi. coef Hi.
  - intros _ i Hi. coef Hi.
  - intros _ i Hi. coef Hi.
  - intros _ i Hi. coef Hi.
  - exists C. split; [exact HC|]. intros h Hh. eapply vle_ext; [|exact (HE h Hh)].
    intros i _. cbv beta. unfold rk4. rewrite !upd_vadd. fold (k1 h).
    change (f (vadd y (vscal (1 / 2 * h) (k1 h)))) with (k2 h).
    change (f (vadd y (vscal (1 / 2 * h) (k2 h)))) with (k3 h).
    replace (vadd y (vscal h (k3 h))) with (vadd y (vscal (1 * h) (k3 h)))
      by (rewrite Rmult_1_l; reflexivity).
    fold (k4 h). unfold vadd, vscal. field.
Qed.
End Order.

(** ** exactness on linear systems *)
Section Linear.
Variable A : vec -> vec.
Hypothesis HA : forall a b u v i, A (fun j => a * u j + b * v j) i = a * A u i + b * A v i.
Let A_ext' u v i : (forall j, u j = v j) -> A u i = A v i.
Proof. intros E. f_equal. apply functional_extensionality; exact E. Qed.
Let term (h : R) (y : vec) (k : nat) (i : nat) : R := h ^ k / INR (fact k) * iter_map k A y i.

Lemma lin2 c1 c2 v1 v2 i : A (fun j => c1 * v1 j + c2 * v2 j) i = c1 * A v1 i + c2 * A v2 i.
Proof. apply HA. Qed.
Lemma lin_upd (y v : vec) a i : A (fun j => y j + v j * a) i = A y i + A v i * a.
Proof.
  rewrite (A_ext' _ (fun j => 1 * y j + a * v j)) by (intros; ring). rewrite HA. ring.
Qed.
Lemma euler_linear y h i : euler vec nat A default_update y h i = Rsum 2 (fun k => term h y k i).
Proof. unfold euler, default_update, term. cbn. field. Qed.
Lemma rk2_linear y h i : rk2 vec nat A default_update y h i = Rsum 3 (fun k => term h y k i).
Proof. unfold rk2, default_update, term. rewrite lin_upd. cbn. field. Qed.
Lemma rk3_linear y h i : rk3 vec nat A default_update y h i = Rsum 4 (fun k => term h y k i).
Proof.
  unfold rk3, default_update, term. rewrite !lin_upd.
  rewrite (A_ext' (fun j => 2 * A (fun j0 => y j0 + A y j0 * (1 / 2 * h)) j - A y j)
            (fun j => 1 * A y j + h * A (A y) j)) by (intros j; rewrite lin_upd; field).
  rewrite HA. cbn. field.
Qed.
Lemma rk4_linear y h i : rk4 vec nat A default_update y h i = Rsum 5 (fun k => term h y k i).
Proof.
  unfold rk4, default_update, term. rewrite !lin_upd.
  assert (E2 : (fun j => A (fun j0 => y j0 + A y j0 * (1 / 2 * h)) j) = (fun j => A y j + A (A y) j * (1 / 2 * h))).
  { apply functional_extensionality; intros j. apply lin_upd. }
  assert (E3 : forall j, A (A (fun j0 => y j0 + A y j0 * (1 / 2 * h))) j = A (A y) j + A (A (A y)) j * (1 / 2 * h)).
  { intros j. transitivity (A (fun j => A y j + A (A y) j * (1 / 2 * h)) j); [|apply lin_upd].
    apply (f_equal (fun g => A g j)). exact E2. }
  rewrite !E3.
  assert (E4 : forall j, A (A (fun j0 => y j0 + A (fun j1 => y j1 + A y j1 * (1 / 2 * h)) j0 * (1 / 2 * h))) j
     = A (A y) j + (A (A (A y)) j + A (A (A (A y))) j * (1/2*h)) * (1 / 2 * h)).
  { intros j. transitivity (A (fun j => A y j + (A (A y) j + A (A (A y)) j * (1 / 2 * h)) * (1/2*h)) j).
    - apply (f_equal (fun g => A g j)). apply functional_extensionality; intros l. rewrite lin_upd, E3. reflexivity.
    - rewrite lin_upd.
      f_equal. f_equal. exact (lin_upd (A (A y)) (A (A (A y))) (1/2*h) j). }
  rewrite E4. cbn. field.
Qed.
End Linear.

(** ** no time, no change *)
Lemma zero_dt (J : Type) (f : (J -> R) -> (J -> R)) (y : J -> R) j :
  euler _ J f default_update y 0 j = y j /\ rk2 _ J f default_update y 0 j = y j /\
  rk3 _ J f default_update y 0 j = y j /\ rk4 _ J f default_update y 0 j = y j.
Proof. unfold euler, rk2, rk3, rk4, default_update. repeat split; field. Qed.

(** ** components *)
Section Components.
Variables (J J' : Type) (s : J' -> J).
Variables (f : (J -> R) -> (J -> R)) (g : (J' -> R) -> (J' -> R)).
Hypothesis Hfg : forall u j, f u (s j) = g (fun j => u (s j)) j.
Let res (u : J -> R) : J' -> R := fun j => u (s j).
Let Hres u : res (f u) = g (res u).
Proof. apply functional_extensionality; intros j. apply Hfg. Qed.
Let res_upd u v a : res (default_update u v a) = default_update (res u) (res v) a.
Proof. reflexivity. Qed.

Lemma steppers_componentwise y dt j :
  euler _ J f default_update y dt (s j) = euler _ J' g default_update (res y) dt j /\
  rk2 _ J f default_update y dt (s j) = rk2 _ J' g default_update (res y) dt j /\
  rk3 _ J f default_update y dt (s j) = rk3 _ J' g default_update (res y) dt j /\
  rk4 _ J f default_update y dt (s j) = rk4 _ J' g default_update (res y) dt j.
Proof.
  assert (Hu : forall u v a, g (res (default_update u v a)) = g (default_update (res u) (res v) a)) by reflexivity.
  split; [|split; [|split]].
  - change (euler _ J f default_update y dt (s j)) with (res (euler _ J f default_update y dt) j).
    unfold euler. rewrite res_upd, Hres. reflexivity.
  - change (rk2 _ J f default_update y dt (s j)) with (res (rk2 _ J f default_update y dt) j).
    unfold rk2. rewrite res_upd, Hres, res_upd, Hres. reflexivity.
  - change (rk3 _ J f default_update y dt (s j)) with (res (rk3 _ J f default_update y dt) j).
    unfold rk3. rewrite res_upd.
    set (k1 := f y). set (k2 := f (default_update y k1 _)).
    set (k3 := f (default_update y (fun j => 2 * k2 j - k1 j) dt)).
    assert (E1 : res k1 = g (res y)) by apply Hres.
    assert (E2 : res k2 = g (default_update (res y) (g (res y)) (1 / 2 * dt))).
    { unfold k2. rewrite Hres, res_upd, E1. reflexivity. }
    assert (E3 : res k3 = g (default_update (res y) (fun j => 2 * g (default_update (res y) (g (res y)) (1 / 2 * dt)) j - g (res y) j) dt)).
    { unfold k3. rewrite Hres, res_upd. rewrite <- E2, <- E1. reflexivity. }
    rewrite <- E3, <- E2, <- E1. reflexivity.
  - change (rk4 _ J f default_update y dt (s j)) with (res (rk4 _ J f default_update y dt) j).
    unfold rk4. rewrite res_upd.
    set (k1 := f y). set (k2 := f (default_update y k1 _)). set (k3 := f (default_update y k2 _)).
    set (k4 := f (default_update y k3 dt)).
    assert (E1 : res k1 = g (res y)) by apply Hres.
    assert (E2 : res k2 = g (default_update (res y) (g (res y)) (1 / 2 * dt))).
    { unfold k2. rewrite Hres, res_upd, E1. reflexivity. }
    assert (E3 : res k3 = g (default_update (res y) (res k2) (1 / 2 * dt))) by (unfold k3; rewrite Hres, res_upd; reflexivity).
    assert (E4 : res k4 = g (default_update (res y) (res k3) dt)) by (unfold k4; rewrite Hres, res_upd; reflexivity).
    rewrite <- E2, <- E3, <- E4, <- E1. reflexivity.
Qed.
End Components.

(** ** a linear derivative gives a linear update *)
Section LinearUpdate.
Variables (J : Type) (f : (J -> R) -> (J -> R)).
Hypothesis Hf : forall a b u v j, f (fun j => a * u j + b * v j) j = a * f u j + b * f v j.
Let comb (a b : R) (u v : J -> R) : J -> R := fun j => a * u j + b * v j.
Let f_comb a b u v : f (comb a b u v) = comb a b (f u) (f v).
Proof. apply functional_extensionality; intros j. apply Hf. Qed.
Let upd_comb a b u v k l dt : default_update (comb a b u v) (comb a b k l) dt = comb a b (default_update u k dt) (default_update v l dt).
Proof. apply functional_extensionality; intros j. unfold default_update, comb. ring. Qed.

Lemma steppers_linear a b u v dt j :
  let lin (F : (J -> R) -> J -> R) := F (fun j => a * u j + b * v j) j = a * F u j + b * F v j in
  lin (fun y => euler _ J f default_update y dt) /\ lin (fun y => rk2 _ J f default_update y dt) /\
  lin (fun y => rk3 _ J f default_update y dt) /\ lin (fun y => rk4 _ J f default_update y dt).
Proof.
  cbv zeta beta. fold (comb a b u v).
  assert (C3 : forall (p q : R) k1 k2 l1 l2, (fun j => p * comb a b k1 l1 j - comb a b k2 l2 j) = comb a b (fun j => p * k1 j - k2 j) (fun j => p * l1 j - l2 j)).
  { intros. apply functional_extensionality; intros. unfold comb. ring. }
  split; [|split; [|split]].
  - unfold euler. rewrite f_comb, upd_comb. reflexivity.
  - unfold rk2. rewrite f_comb, upd_comb, f_comb, upd_comb. reflexivity.
  - unfold rk3. rewrite f_comb, upd_comb, f_comb, (C3 2 0), upd_comb, f_comb.
    match goal with |- default_update _ ?k _ _ = _ => set (kk := k) end.
    transitivity (comb a b (rk3 _ J f default_update u dt) (rk3 _ J f default_update v dt) j); [|reflexivity].
    unfold rk3. rewrite <- upd_comb. f_equal. apply functional_extensionality; intros i. unfold kk, comb. ring.
  - unfold rk4. rewrite !f_comb, !upd_comb, !f_comb, !upd_comb, !f_comb, !upd_comb, !f_comb.
    match goal with |- default_update _ ?k _ _ = _ => set (kk := k) end.
    transitivity (comb a b (rk4 _ J f default_update u dt) (rk4 _ J f default_update v dt) j); [|reflexivity].
    unfold rk4. rewrite <- upd_comb. f_equal. apply functional_extensionality; intros i. unfold kk, comb. ring.
Qed.
End LinearUpdate.
