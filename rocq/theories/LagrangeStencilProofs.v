(** Proofs about the selection of the stencil and the Lagrange evaluator. *)
From Verif Require Import LagrangeModel LagrangeSpec LagrangeProofs RestrictProofs.
From Coq Require Import Lia Lra ZifyBool.
Open Scope R_scope.
Local Opaque Nat.div Nat.modulo.

Record good (b : basis) : Prop := {
  g_deg : (0 < b_degree b)%nat;
  g_bp : (b_degree b + 1 <= b_bp b)%nat;
  g_len : length (b_knots b) = (if b_periodic b then b_bp b + b_degree b else b_bp b)%nat;
  g_mono : forall i j, (i < j < length (b_knots b))%nat -> kn b i < kn b j;
  g_uni : b_uniform b = true -> 0 < b_step b /\
          forall i, (i < length (b_knots b))%nat -> kn b i = kn b 0 + INR i * b_step b;
  g_per : b_periodic b = true -> forall i, (i <= b_degree b)%nat -> kn b (b_bp b - 1 + i) = kn b i + period b }.

Lemma initialised_good b : initialised b -> good b.
Proof.
  intros [HD [[per [rmin [step [n [Hs E]]]]]|[per [pts [HI E]]]]].
  - unfold uniform_basis in E. destruct (Nat.leb_spec (b_degree b + 1) n) as [Hn|]; [|discriminate].
    injection E as E. remember (b_degree b) as D eqn:ED. rewrite <- E. clear E ED b.
    set (nk := if per then (n + D)%nat else n).
    assert (NK : (n <= nk)%nat) by (unfold nk; destruct per; lia).
    assert (K : forall i, (i < nk)%nat -> nth i (map (fun i => rmin + INR i * step) (seq 0 nk)) 0 = rmin + INR i * step).
    { intros i Hi. rewrite (nth_indep _ 0 ((fun i => rmin + INR i * step) 0%nat)) by (rewrite map_length, seq_length; auto).
      rewrite (map_nth (fun i => rmin + INR i * step)), seq_nth by auto. reflexivity. }
    split; cbn [b_degree b_bp b_knots b_periodic b_uniform b_step]; auto.
    + rewrite map_length, seq_length. reflexivity.
    + rewrite map_length, seq_length. intros i j H. unfold kn; cbn [b_knots]. rewrite !K by lia.
      apply Rplus_lt_compat_l, Rmult_lt_compat_r; auto. apply lt_INR. lia.
    + intros _. split; auto. rewrite map_length, seq_length. intros i Hi. unfold kn; cbn [b_knots].
      rewrite !K by lia. simpl. ring.
    + intros -> i Hi. unfold period, kn; cbn [b_knots b_bp]. rewrite !K by (unfold nk; lia).
      rewrite plus_INR. simpl. ring.
  - unfold non_uniform_basis in E. destruct (Nat.leb_spec (b_degree b + 1) (length pts)) as [Hn|]; [|discriminate].
    injection E as E. remember (b_degree b) as D eqn:ED. rewrite <- E. clear E ED b.
    destruct per.
    + set (ext := map (fun i => nth (length pts - 1) pts 0 + (nth i pts 0 - nth 0 pts 0)) (seq 1 D)).
      assert (Lx : length (pts ++ ext) = (length pts + D)%nat).
      { unfold ext. rewrite app_length, map_length, seq_length. reflexivity. }
      rewrite firstn_all2 by lia.
      assert (K1 : forall i, (i < length pts)%nat -> nth i (pts ++ ext) 0 = nth i pts 0) by (intros; apply app_nth1; auto).
      assert (K2 : forall i, (1 <= i <= D)%nat -> nth (length pts - 1 + i) (pts ++ ext) 0
                    = nth (length pts - 1) pts 0 + (nth i pts 0 - nth 0 pts 0)).
      { intros i Hi. rewrite app_nth2 by lia. unfold ext.
        set (f := fun i => nth (length pts - 1) pts 0 + (nth i pts 0 - nth 0 pts 0)).
        rewrite (nth_indep _ 0 (f 0%nat)) by (rewrite map_length, seq_length; lia).
        rewrite (map_nth f), seq_nth by lia. unfold f. do 3 f_equal. lia. }
      split; cbn [b_degree b_bp b_knots b_periodic b_uniform b_step]; auto.
      * intros i j H. unfold kn; cbn [b_knots]. rewrite Lx in H.
        destruct (lt_dec j (length pts)).
        -- rewrite !K1 by lia. apply HI. lia.
        -- assert (Ej : nth j (pts ++ ext) 0 = nth (length pts - 1) pts 0 + (nth (j - (length pts - 1)) pts 0 - nth 0 pts 0)).
           { replace j with (length pts - 1 + (j - (length pts - 1)))%nat at 1 by lia. apply K2. lia. }
           rewrite Ej. destruct (lt_dec i (length pts)).
           ++ rewrite K1 by auto.
              assert (nth 0 pts 0 < nth (j - (length pts - 1)) pts 0) by (apply HI; lia).
              assert (nth i pts 0 <= nth (length pts - 1) pts 0).
              { destruct (Nat.eq_dec i (length pts - 1)) as [->|]; [lra|]. left. apply HI. lia. }
              lra.
           ++ replace i with (length pts - 1 + (i - (length pts - 1)))%nat by lia. rewrite K2 by lia.
              assert (nth (i - (length pts - 1)) pts 0 < nth (j - (length pts - 1)) pts 0) by (apply HI; lia).
              lra.
      * discriminate.
      * intros _ i Hi. unfold period, kn; cbn [b_knots b_bp]. rewrite !(K1 (length pts - 1)%nat) by lia.
        rewrite !(K1 0%nat) by lia. destruct (Nat.eq_dec i 0) as [->|].
        -- rewrite Nat.add_0_r, !K1 by lia. ring.
        -- rewrite K2 by lia. rewrite K1 by lia. ring.
    + rewrite firstn_all.
      split; cbn [b_degree b_bp b_knots b_periodic b_uniform b_step]; auto; discriminate.
Qed.

Section Stencil.
  Variable b : basis.
  Hypothesis G : good b.
  Notation D := (b_degree b).
  Notation bp := (b_bp b).

  Lemma len_bp : (bp <= length (b_knots b))%nat.
  Proof. rewrite (g_len b G). destruct (b_periodic b); lia. Qed.
  Lemma knot_ok i : (i < length (b_knots b))%nat -> knot b (Z.of_nat i) = Ok (kn b i).
  Proof.
    intros H. unfold knot, rd. destruct (Z.ltb_spec (Z.of_nat i) 0); [lia|]. rewrite Nat2Z.id.
    rewrite (nth_error_nth' _ 0) by auto. reflexivity.
  Qed.
  Lemma knot_okZ z : (0 <= z < Z.of_nat (length (b_knots b)))%Z -> knot b z = Ok (kn b (Z.to_nat z)).
  Proof. intros H. rewrite <- knot_ok by lia. f_equal. lia. Qed.
  Lemma kn_le i j : (i <= j < length (b_knots b))%nat -> kn b i <= kn b j.
  Proof. intros H. destruct (Nat.eq_dec i j) as [->|]; [lra|]. left. apply (g_mono b G). lia. Qed.
  Lemma rmin_ok : b_rmin b = Ok (kn b 0).
  Proof. pose proof len_bp. pose proof (g_bp b G). apply (knot_ok 0). lia. Qed.
  Lemma rmax_ok : b_rmax b = Ok (kn b (bp - 1)).
  Proof.
    pose proof len_bp. pose proof (g_bp b G). unfold b_rmax.
    replace (Z.of_nat bp - 1)%Z with (Z.of_nat (bp - 1)) by lia. apply knot_ok. lia.
  Qed.
  Lemma length_ok : b_length b = Ok (period b).
  Proof. unfold b_length. rewrite rmax_ok, rmin_ok. reflexivity. Qed.
  Lemma period_pos : 0 < period b.
  Proof.
    pose proof len_bp. pose proof (g_bp b G). pose proof (g_deg b G). unfold period.
    assert (kn b 0 < kn b (bp - 1)) by (apply (g_mono b G); lia). lra.
  Qed.

  (** bisection *)
  Lemma bisect_spec x fuel : forall first last,
    (0 <= first < last)%Z -> (last < Z.of_nat bp)%Z -> (last - first <= Z.of_nat fuel + 1)%Z ->
    kn b (Z.to_nat first) <= x <= kn b (Z.to_nat last) ->
    exists c, bisect fuel b x first last (first + (last - first) / 2) = Ok (Z.of_nat c) /\
      (c + 1 < bp)%nat /\ kn b c <= x <= kn b (c + 1).
  Proof.
    pose proof len_bp as HLB.
    induction fuel as [|fuel IH]; intros first last H1 H2 H3 H4.
    - assert (last = first + 1)%Z by lia. subst last.
      replace (first + (first + 1 - first) / 2)%Z with first
        by (replace (first + 1 - first)%Z with 1%Z by lia; change (1 / 2)%Z with 0%Z; lia).
      cbn [bisect]. rewrite !knot_okZ by lia. cbn [bind].
      replace (Z.to_nat (first + 1)) with (Z.to_nat first + 1)%nat in * by lia.
      destruct (Rlt_dec x (kn b (Z.to_nat first))); [lra|].
      destruct (Rlt_dec (kn b (Z.to_nat first + 1)) x); [lra|].
      exists (Z.to_nat first). split; [f_equal; lia|]. split; [lia|lra].
    - set (elm := (first + (last - first) / 2)%Z).
      assert (HE : (first <= elm < last)%Z).
      { unfold elm. pose proof (Z.div_pos (last - first) 2 ltac:(lia) ltac:(lia)).
        assert ((last - first) / 2 < last - first)%Z by (apply Z.div_lt; lia). lia. }
      assert (HE2 : (elm = first -> last = first + 1)%Z).
      { intros C. unfold elm in C. assert ((last - first) / 2 = 0)%Z by lia.
        apply Z.div_small_iff in H; lia. }
      cbn [bisect]. rewrite !knot_okZ by lia. cbn [bind].
      replace (Z.to_nat (elm + 1)) with (Z.to_nat elm + 1)%nat by lia.
      destruct (Rlt_dec x (kn b (Z.to_nat elm))) as [HL|HL].
      + assert (first < elm)%Z. { destruct (Z.eq_dec elm first) as [C|]; [rewrite C in HL; lra|lia]. }
        apply IH; try lia. split; lra.
      + destruct (Rlt_dec (kn b (Z.to_nat elm + 1)) x) as [HU|HU].
        * assert (first < elm)%Z.
          { destruct (Z.eq_dec elm first) as [C|]; [|lia]. specialize (HE2 C). subst last.
            replace (Z.to_nat (first + 1)) with (Z.to_nat elm + 1)%nat in H4 by lia. lra. }
          apply IH; try lia. split; lra.
        * exists (Z.to_nat elm). split; [f_equal; lia|]. split; [lia|lra].
  Qed.

  Definition near (c : nat) (x : R) : Prop :=
    if Nat.even D then
      ((c = 0)%nat \/ kn b (c - 1) + kn b c <= 2 * x) /\ ((c + 1 >= bp)%nat \/ 2 * x <= kn b c + kn b (c + 1))
    else kn b c <= x /\ ((c + 1 >= bp)%nat \/ x <= kn b (c + 1)).

  Lemma closest_spec x : in_domain b x ->
    exists c, get_closest b x = Ok (Z.of_nat c) /\ (c < bp)%nat /\ near c x.
  Proof.
    intros Hx. unfold in_domain in Hx. pose proof len_bp as HLB. pose proof (g_bp b G) as HBP. pose proof (g_deg b G) as HDG.
    unfold get_closest. destruct (b_uniform b) eqn:EU.
    - destruct (g_uni b G EU) as [Hs Hk]. change 0%Z with (Z.of_nat 0). rewrite knot_ok by lia. cbn [bind].
      set (t := (x - kn b 0) / b_step b).
      assert (Ht : x = kn b 0 + t * b_step b) by (unfold t; field; lra).
      assert (T0 : 0 <= t). { unfold t. apply Rmult_le_pos; [lra|]. left. apply Rinv_0_lt_compat; auto. }
      rewrite (Hk (bp - 1)%nat) in Hx by lia.
      assert (T1 : t <= INR (bp - 1)). { apply (Rmult_le_reg_r (b_step b)); auto. lra. }
      assert (KC : forall c, (c < bp)%nat -> kn b c = kn b 0 + INR c * b_step b) by (intros; apply Hk; lia).
      unfold near. destruct (Nat.even D) eqn:EV.
      + unfold round_int. destruct (Rle_dec 0 t); [|lra].
        destruct (base_Int_part (t + 1 / 2)) as [B1 B2]. set (z := Int_part (t + 1 / 2)) in *.
        assert (Z0 : (0 <= z)%Z). { assert (-1 < z)%Z; [|lia]. apply lt_IZR. simpl. lra. }
        assert (Z1 : (z <= Z.of_nat (bp - 1))%Z).
        { assert (z < Z.of_nat (bp - 1) + 1)%Z; [|lia]. apply lt_IZR. rewrite plus_IZR, <- INR_IZR_INZ. lra. }
        exists (Z.to_nat z). split; [f_equal; lia|]. split; [lia|].
        assert (IZ : INR (Z.to_nat z) = IZR z) by (rewrite INR_IZR_INZ; f_equal; lia).
        split.
        * destruct (Nat.eq_dec (Z.to_nat z) 0); [auto|right].
          rewrite (KC (Z.to_nat z - 1)%nat), (KC (Z.to_nat z)) by lia. rewrite minus_INR by lia. rewrite IZ. simpl. rewrite Ht.
          assert (IZR z - 1 / 2 <= t) by lra. nra.
        * destruct (le_lt_dec bp (Z.to_nat z + 1)); [auto|right].
          rewrite (KC (Z.to_nat z + 1)%nat), (KC (Z.to_nat z)) by lia. rewrite plus_INR, IZ. simpl. rewrite Ht.
          assert (t <= IZR z + 1 / 2) by lra. nra.
      + unfold trunc_int. destruct (Rle_dec 0 t); [|lra].
        destruct (base_Int_part t) as [B1 B2]. set (z := Int_part t) in *.
        assert (Z0 : (0 <= z)%Z). { assert (-1 < z)%Z; [|lia]. apply lt_IZR. simpl. lra. }
        assert (Z1 : (z <= Z.of_nat (bp - 1))%Z).
        { apply le_IZR. rewrite <- INR_IZR_INZ. lra. }
        exists (Z.to_nat z). split; [f_equal; lia|]. split; [lia|].
        assert (IZ : INR (Z.to_nat z) = IZR z) by (rewrite INR_IZR_INZ; f_equal; lia).
        split.
        * rewrite (KC (Z.to_nat z)) by lia. rewrite IZ, Ht. nra.
        * destruct (le_lt_dec bp (Z.to_nat z + 1)); [auto|right].
          rewrite (KC (Z.to_nat z + 1)%nat) by lia. rewrite plus_INR, IZ. simpl. rewrite Ht. nra.
    - rewrite rmin_ok, rmax_ok. cbn [bind].
      destruct (Rle_dec (kn b 0) x); [|lra]. destruct (Rle_dec x (kn b (bp - 1))); [|lra].
      destruct (bisect_spec x (length (b_knots b)) 0 (Z.of_nat bp - 1)) as [c [E [Hc Hb]]]; try lia.
      { replace (Z.to_nat (Z.of_nat bp - 1)) with (bp - 1)%nat by lia. simpl. lra. }
      rewrite E. cbn [bind]. replace (Z.of_nat c + 1)%Z with (Z.of_nat (c + 1)) by lia.
      rewrite !knot_ok by lia. cbn [bind].
      unfold near. destruct (Nat.even D) eqn:EV.
      + assert (EM : ((D + 1) mod 2 = 1)%nat).
        { apply Nat.even_spec in EV. destruct EV as [m ->]. rewrite Nat.add_comm, Nat.mul_comm, Nat.mod_add by lia. reflexivity. }
        rewrite EM. change (Z.of_nat 1) with 1%Z.
        assert (MC : kn b c < kn b (c + 1)) by (apply (g_mono b G); lia).
        destruct (Rlt_dec ((kn b (c + 1) - kn b c) / 2) (x - kn b c)).
        * exists (c + 1)%nat. split; [f_equal; lia|]. split; [lia|]. split.
          -- right. replace (c + 1 - 1)%nat with c by lia. lra.
          -- destruct (le_lt_dec bp (c + 1 + 1)); [auto|right].
             assert (kn b (c + 1) < kn b (c + 1 + 1)) by (apply (g_mono b G); lia). lra.
        * exists c. split; [f_equal; lia|]. split; [lia|]. split; [|right; lra].
          destruct (Nat.eq_dec c 0); [auto|right].
          assert (kn b (c - 1) < kn b c) by (apply (g_mono b G); lia). lra.
      + assert (EM : ((D + 1) mod 2 = 0)%nat).
        { assert (O : Nat.odd D = true) by (rewrite <- Nat.negb_even, EV; reflexivity).
          apply Nat.odd_spec in O. destruct O as [m ->].
          replace (2 * m + 1 + 1)%nat with ((m + 1) * 2)%nat by lia. apply Nat.mod_mul. lia. }
        rewrite EM. exists c. split; [f_equal; lia|]. split; [lia|]. split; [lra|right; lra].
  Qed.

  Lemma half_facts : let h := (D / 2)%nat in
    (h < D)%nat /\ (if Nat.even D then D = 2 * h /\ D mod 2 = 0 /\ 1 <= h else D = 2 * h + 1 /\ D mod 2 = 1)%nat.
  Proof.
    intros h. pose proof (g_deg b G) as HD. split; [apply Nat.div_lt; lia|].
    pose proof (Nat.div_mod D 2 ltac:(lia)) as HM. fold h in HM. pose proof (Nat.mod_upper_bound D 2 ltac:(lia)).
    destruct (Nat.even D) eqn:E.
    - apply Nat.even_spec in E. destruct E as [m E]. lia.
    - assert (O : Nat.odd D = true) by (rewrite <- Nat.negb_even, E; reflexivity).
      apply Nat.odd_spec in O. destruct O as [m O]. lia.
  Qed.

  (** bounds implied by [near] *)
  Lemma near_bounds c x : in_domain b x -> (c < bp)%nat -> near c x ->
    (forall i, (i < c)%nat -> kn b i <= x) /\
    (Nat.even D = false -> kn b c <= x) /\
    (forall i, (c < i < length (b_knots b))%nat -> x <= kn b i).
  Proof.
    intros Hx Hc HN. unfold in_domain in Hx. pose proof len_bp as HLB. unfold near in HN. destruct (Nat.even D).
    - destruct HN as [H1 H2]. split; [|split; [discriminate|]].
      + intros i Hi. destruct H1 as [|H1]; [lia|].
        assert (kn b i <= kn b (c - 1)) by (apply kn_le; lia).
        assert (kn b (c - 1) <= kn b c) by (apply kn_le; lia). lra.
      + intros i Hi. destruct H2 as [H2|H2].
        * assert (c = bp - 1)%nat by lia. subst c. assert (kn b (bp - 1) <= kn b i) by (apply kn_le; lia). lra.
        * assert (kn b (c + 1) <= kn b i) by (apply kn_le; lia).
          assert (kn b c <= kn b (c + 1)) by (apply kn_le; lia). lra.
    - destruct HN as [H1 H2]. split; [|split; [auto|]].
      + intros i Hi. assert (kn b i <= kn b c) by (apply kn_le; lia). lra.
      + intros i Hi. destruct H2 as [H2|H2].
        * assert (c = bp - 1)%nat by lia. subst c. assert (kn b (bp - 1) <= kn b i) by (apply kn_le; lia). lra.
        * assert (kn b (c + 1) <= kn b i) by (apply kn_le; lia). lra.
  Qed.

  Lemma find_stencil_spec x : in_domain b x ->
    exists x1 s, find_stencil b x = Ok (x1, Z.of_nat s) /\
      (s + D < length (b_knots b))%nat /\ kn b s <= x1 <= kn b (s + D) /\
      (x1 = x \/ (b_periodic b = true /\ x1 = x + period b)) /\
      (b_periodic b = false -> (s = 0)%nat \/ (s = bp - 1 - D)%nat \/ centred b s x1) /\
      (b_periodic b = true -> centred b s x1).
  Proof.
    intros Hx. destruct (closest_spec x Hx) as [c [E [Hc HN]]].
    destruct (near_bounds c x Hx Hc HN) as [LO [LOdd HI]].
    pose proof len_bp as HLB. pose proof (g_bp b G) as HBP. pose proof (g_deg b G) as HDG.
    pose proof half_facts as HH. cbn zeta in HH. pose proof (g_len b G) as HL.
    unfold find_stencil. rewrite E. cbn [bind]. rewrite knot_ok by lia. cbn [bind]. rewrite length_ok.
    set (h := (D / 2)%nat) in *. destruct HH as [Hh HE].
    assert (ES : (- Z.of_nat h - Z.of_nat (D mod 2) * (if Rlt_dec x (kn b c) then 1 else 0))%Z = (- Z.of_nat h)%Z).
    { destruct (Nat.even D) eqn:EV.
      - destruct HE as [_ [-> _]]. lia.
      - specialize (LOdd eq_refl). destruct (Rlt_dec x (kn b c)); [lra|]. lia. }
    rewrite ES. unfold in_domain in Hx.
    assert (LOh : forall i, (i + h <= c)%nat -> kn b i <= x).
    { intros i Hi. destruct (Nat.even D) eqn:EV.
      - apply LO. lia.
      - specialize (LOdd eq_refl). assert (kn b i <= kn b c) by (apply kn_le; lia). lra. }
    destruct (b_periodic b) eqn:EP.
    - cbn [bind]. pose proof (g_per b G EP) as GP. pose proof period_pos as PP.
      destruct (Z.ltb_spec (- Z.of_nat h) (0 - Z.of_nat c)) as [HC|HC].
      + (* wrapped *)
        exists (x + period b), (c + (bp - 1) - h)%nat.
        split.
        { destruct (Z.ltb_spec (Z.of_nat c) (Z.of_nat c + (Z.of_nat bp - 1 - 0) * 1 + - Z.of_nat h)); [|lia].
          do 2 f_equal. lia. }
        assert (KB : kn b (bp - 1) = kn b 0 + period b) by (rewrite <- (GP 0%nat) by lia; f_equal; lia).
        split; [lia|]. split; [|split; [right; auto|split; [congruence|]]].
        * split.
          -- assert (kn b (c + (bp - 1) - h) <= kn b (bp - 1)) by (apply kn_le; lia). lra.
          -- replace (c + (bp - 1) - h + D)%nat with (bp - 1 + (c + (D - h)))%nat by lia.
             rewrite GP by (destruct (Nat.even D); lia).
             assert (x <= kn b (c + (D - h))) by (apply HI; lia). lra.
        * intros _. unfold centred. fold h. cbn zeta.
          replace (c + (bp - 1) - h + h)%nat with (bp - 1 + c)%nat by lia.
          replace (bp - 1 + c + 1)%nat with (bp - 1 + (c + 1))%nat by lia.
          rewrite !GP by lia. unfold near in HN. destruct (Nat.even D) eqn:EV.
          -- destruct HN as [N1 N2]. split.
             ++ destruct N1 as [->|N1].
                ** assert (kn b (bp - 1 + 0 - 1) <= kn b (bp - 1)) by (apply kn_le; lia). lra.
                ** destruct (Nat.eq_dec c 0) as [->|].
                   --- assert (kn b (bp - 1 + 0 - 1) <= kn b (bp - 1)) by (apply kn_le; lia). lra.
                   --- replace (bp - 1 + c - 1)%nat with (bp - 1 + (c - 1))%nat by lia. rewrite GP by lia. lra.
             ++ destruct N2 as [N2|N2]; [lia|lra].
          -- destruct HN as [N1 N2]. destruct N2 as [N2|N2]; [lia|lra].
      + exists x, (c - h)%nat.
        split.
        { destruct (Z.ltb_spec (Z.of_nat c) (Z.of_nat c + (Z.of_nat bp - 1 - 0) * 0 + - Z.of_nat h)); [lia|].
          do 2 f_equal. lia. }
        split; [lia|]. split; [|split; [auto|split; [congruence|]]].
        * split; [apply LOh; lia|]. apply HI. lia.
        * intros _. unfold centred. fold h. cbn zeta.
          replace (c - h + h)%nat with c by lia. unfold near in HN.
          assert (UP : (c + 1 >= bp)%nat -> x <= kn b c /\ kn b c <= kn b (c + 1)).
          { intros H. assert (c = bp - 1)%nat by lia. split; [subst c; lra|apply kn_le; lia]. }
          destruct (Nat.even D) eqn:EV; destruct HN as [N1 N2].
          -- split; [destruct N1; [lia|auto]|]. destruct N2 as [N2|N2]; [|auto]. destruct (UP N2). lra.
          -- split; [auto|]. destruct N2 as [N2|N2]; [|auto]. destruct (UP N2). lra.
    - destruct (Z.ltb_spec (- Z.of_nat h) (0 - Z.of_nat c)) as [HC|HC].
      + exists x, 0%nat. split; [reflexivity|]. split; [lia|]. split; [|split; [auto|split; [auto|congruence]]].
        split; [lra|]. apply HI. lia.
      + destruct (Z.ltb_spec (Z.of_nat bp - 1 - Z.of_nat D) (Z.of_nat c + - Z.of_nat h)) as [HC2|HC2].
        * exists x, (bp - 1 - D)%nat. split; [do 2 f_equal; lia|]. split; [lia|].
          split; [|split; [auto|split; [auto|congruence]]].
          split; [apply LOh; lia|]. replace (bp - 1 - D + D)%nat with (bp - 1)%nat by lia. lra.
        * exists x, (c - h)%nat. split; [do 2 f_equal; lia|]. split; [lia|].
          split; [|split; [auto|split; [|congruence]]].
          -- split; [apply LOh; lia|]. apply HI. lia.
          -- intros _. right. right. unfold centred. fold h. cbn zeta.
             replace (c - h + h)%nat with c by lia. unfold near in HN.
             destruct (Nat.even D) eqn:EV; destruct HN as [N1 N2].
             ++ split; [destruct N1; [lia|auto]|]. destruct N2 as [N2|N2]; [lia|auto].
             ++ split; [auto|]. destruct N2 as [N2|N2]; [lia|auto].
  Qed.
End Stencil.
