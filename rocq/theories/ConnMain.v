(** Proofs: the interfaces listed along a direction, the index ranges along a direction. *)
From Verif Require Export ConnLines.

Section Main.
  Variable l : list interface.
  Hypothesis G : geometry l.
  Hypothesis Acc : connectivity_accepted l = true.

  Definition itf (e : edge) : interface :=
    match find_interface e l with Some i => i | None => Interface None None true end.
  Lemma itf_spec e : used_edge l e -> In (itf e) l /\ touches (itf e) e.
  Proof.
    intros Hu. unfold itf. destruct (find_interface_spec l G e Hu) as (i & -> & ? & ?). auto.
  Qed.
  Lemma itf_glued e e' : glued l e (Some e') -> touches (itf e) e'.
  Proof.
    intros Hg. destruct (itf_spec e (glued_used l _ _ Hg)) as [H1 H2].
    destruct Hg as (i & Hi & Hc). assert (itf e = i) as -> by (apply (geo_once _ G _ _ e); auto; unfold touches; tauto).
    unfold touches; tauto.
  Qed.
  Lemma ori_itf e : used_edge l e -> ori l e = itf e \/ ori l e = flip (itf e).
  Proof.
    intros Hu. destruct (used_glued l e Hu) as [m Hm]. destruct (ori_spec l G e m Hm) as (_ & (i & Hi & Ht & Ho) & _).
    destruct (itf_spec e Hu) as [H1 H2]. assert (itf e = i) as -> by (apply (geo_once _ G _ _ e); auto). auto.
  Qed.

  Lemma two_edges i x y : In i l -> touches i x -> touches i y -> x = y \/ glued l x (Some y).
  Proof.
    intros Hi [Hx|Hx] [Hy|Hy]; try (left; congruence); right; exists i; auto.
  Qed.

  Lemma crossings_nodup ws js next : line l ws -> NoDup (map perpendicular_grid ws) -> crossings l ws js next ->
    (forall k, S k < length ws -> next k = S k) ->
    (forall k, S k = length js -> S k <= length ws \/ (next (k - 1) = k /\ length ws = k /\
       exists lst, nth_error ws (length ws - 1) = Some lst /\ glued l lst None)) ->
    length js <= S (length ws) -> NoDup js.
  Proof.
    intros Hl Hn [Hjl Hc] Hnext Hlast Hlen. apply NoDup_nth_error.
    assert (Hmain : forall a b j, a < b -> nth_error js a = Some j -> nth_error js b = Some j -> False).
    { intros a b j Hab Ha Hb.
      assert (Hbl : b < length js) by (apply nth_error_Some; congruence).
      destruct (nth_error ws a) as [wa|] eqn:Ea. 2:{ apply nth_error_None in Ea. lia. }
      destruct (Hc a wa Ea) as (ja & _ & Hja & _ & Hta & _). assert (ja = j) by congruence. subst ja.
      destruct b as [|b]; [lia|].
      destruct (nth_error ws b) as [wb|] eqn:Eb. 2:{ apply nth_error_None in Eb. lia. }
      destruct (Hc b wb Eb) as (_ & jb & _ & Hjb & _ & Htb).
      assert (Hnb : next b = S b /\ (S b < length ws \/
        (exists lst, nth_error ws (length ws - 1) = Some lst /\ glued l lst None) /\ length ws = S b)).
      { destruct (Nat.lt_ge_cases (S b) (length ws)) as [H|H].
        - split; auto.
        - destruct (Hlast (S b)) as [?|(H1 & H2 & H3)]; try lia.
          simpl in H1. rewrite Nat.sub_0_r in H1. auto. }
      destruct Hnb as [Hnb Hcase]. rewrite Hnb in Hjb. assert (jb = j) by congruence. subst jb.
      assert (Hj : In j l) by (apply Hjl; eapply nth_error_In; eauto).
      destruct (two_edges j wb (opposite wa) Hj Htb Hta) as [E|Hg].
      - assert (b = a). { eapply (nodup_map_inj perpendicular_grid ws); eauto. rewrite E. reflexivity. }
        subst b. assert (Ew : wa = wb) by congruence. rewrite Ew in E. symmetry in E. now apply opposite_neq in E.
      - destruct Hcase as [H|[(lst & H1 & H2) H3]].
        + destruct (nth_error ws (S b)) as [wb'|] eqn:Eb'. 2:{ apply nth_error_None in Eb'. lia. }
          pose proof (Hl b _ _ Eb Eb') as Hg'. pose proof (glued_fun l G _ _ _ Hg Hg') as E. injection E as E.
          assert (a = S b); [|lia]. eapply (nodup_map_inj perpendicular_grid ws); eauto.
        + rewrite H3 in H1. simpl in H1. rewrite Nat.sub_0_r in H1. assert (lst = wb) by congruence. subst.
          pose proof (glued_fun l G _ _ _ Hg H2). discriminate. }
    intros a b Ha E. destruct (nth_error js a) as [j|] eqn:Ej. 2:{ apply nth_error_None in Ej. lia. }
    destruct (Nat.lt_trichotomy a b) as [H|[H|H]]; auto; exfalso.
    - eapply (Hmain a b); eauto. - eapply (Hmain b a); eauto.
  Qed.

  (* grids of a set of edges *)
  Lemma find_patch_spec ps p g : NoDup ps -> (forall q, In q ps <-> exists e, used_edge l e /\ associated_patch e = q) ->
    In p ps -> (g = p_grid1 p \/ g = p_grid2 p) -> find_patch g ps = Some p.
  Proof.
    intros _ Hps Hp Hg.
    assert (Huniq : forall q, In q ps -> (g = p_grid1 q \/ g = p_grid2 q) -> q = p).
    { intros q Hq Hgq. apply Hps in Hp as (e & Hue & <-). apply Hps in Hq as (e' & Hue' & <-).
      apply (geo_patch _ G e' e g); auto. }
    assert (Hne : forall q, In q ps -> p_grid1 q <> p_grid2 q).
    { intros q Hq. apply Hps in Hq as (e' & Hue' & <-). apply (geo_grids _ G e' Hue'). }
    clear Hps. induction ps as [|q ps IH]; [destruct Hp|]. simpl.
    destruct (Nat.eq_dec (p_grid1 q) g) as [E1|E1], (Nat.eq_dec (p_grid2 q) g) as [E2|E2].
    - exfalso. apply (Hne q); [now left|congruence].
    - f_equal. apply Huniq; [now left|auto].
    - f_equal. apply Huniq; [now left|auto].
    - apply IH.
      + destruct Hp as [<-|?]; auto. destruct Hg; congruence.
      + intros; apply Huniq; auto. now right. + intros; apply Hne. now right.
  Qed.

  Lemma start_patch e : used_edge l e -> exists ps, all_patches l = Some ps /\
    find_patch (perpendicular_grid e) ps = Some (associated_patch e).
  Proof.
    intros Hu. destruct (accepted_inv l Acc) as (_ & es & ps & _ & Hps & _ & _ & _ & Hnd & Hin).
    exists ps. split; auto. apply find_patch_spec; auto.
    - apply Hin. eauto.
    - apply (geo_proper _ G e Hu).
  Qed.

  Lemma nth_rev_map_opp k (P : list edge) w : nth_error (rev (map opposite P)) k = Some w ->
    nth_error (rev P) k = Some (opposite w).
  Proof.
    rewrite <- map_rev. intros H. destruct (nth_error (rev P) k) as [x|] eqn:E.
    - rewrite (map_nth_error _ _ _ E) in H. injection H as <-. now rewrite opposite_involutive.
    - exfalso. apply nth_error_None in E. assert (k < length (map opposite (rev P))) by (apply nth_error_Some; congruence).
      rewrite map_length in *. lia.
  Qed.

  Lemma last_nth {A} (a : A) q d : nth_error (a :: q) (length q) = Some (last (a :: q) d).
  Proof.
    revert a. induction q as [|b q IH]; intros a; [reflexivity|]. simpl length. simpl nth_error.
    rewrite IH. reflexivity.
  Qed.
  Lemma last_rev_first {A} (a : A) q d : nth_error (rev (a :: q)) 0 = Some (last (a :: q) d).
  Proof.
    destruct (exists_last (l := a :: q)) as (pre & z & ->); [discriminate|].
    rewrite rev_unit, last_last. reflexivity.
  Qed.

  Theorem interfaces_line fuel p g es : (forall e, used_edge l e -> In e es) -> S (length es) < fuel ->
    used_edge l (Edge p g FRONT) ->
    exists ws, collect_grids_on_dim fuel p g l = Some (map perpendicular_grid ws) /\
      NoDup (map perpendicular_grid ws) /\ line l ws /\ (forall x, In x ws -> used_edge l x) /\
      In (Edge p g BACK) ws /\
      ((open_line l ws /\ exists is js, collect_interfaces_on_dim fuel p g l = Some is /\
          crossings_open l ws js /\ up_to_flip is js /\ NoDup js /\ (forward_line ws -> in_order_open ws is)) \/
       (closed_line l ws /\ exists m, glued l (Edge p g BACK) (Some m) /\
          (e_ext m = FRONT -> exists is js, collect_interfaces_on_dim fuel p g l = Some is /\
             crossings_closed l ws js /\ up_to_flip is js /\ NoDup js /\ (forward_line ws -> in_order_closed ws is)) /\
          (e_ext m = BACK -> forall is fuel', collect_interfaces_on_dim fuel' p g l = Some is ->
             exists i, In i l /\ i <> flip i /\ touches i m /\ In i is /\ In (flip i) is))).
  Proof.
    intros Hes Hfuel Hu0.
    destruct (collect_grids_line l G Acc es fuel p g Hes ltac:(lia) Hu0)
      as (bs & fs & _ & Hcg & Hn & Hl & HlP & Hu & Hend). simpl in Hcg, Hn, Hl, Hu, Hend.
    set (e0 := Edge p g FRONT) in *. set (f0 := Edge p g BACK) in *.
    assert (Ef0 : f0 = opposite e0) by reflexivity.
    set (ws := rev (map opposite bs) ++ f0 :: fs) in *.
    set (P := e0 :: bs) in *.
    assert (Hws : ws = rev (map opposite P) ++ fs) by (subst ws P; simpl; now rewrite <- app_assoc).
    assert (HuP : forall x, In x P -> used_edge l x).
    { intros x Hx. rewrite <- (opposite_involutive x). apply used_opposite; auto. apply Hu. rewrite Hws, in_app_iff.
      left. rewrite <- in_rev. now apply in_map. }
    assert (HnP : NoDup (map perpendicular_grid P)).
    { rewrite Hws, map_app, map_grid_rev_opp in Hn.
      assert (HnP : NoDup (rev (map perpendicular_grid P))).
      { clear - Hn. revert Hn. generalize (rev (map perpendicular_grid P)) (map perpendicular_grid fs).
        intros a b. induction a; simpl; intros H; constructor; inversion H; subst; auto.
        intros Hin. apply H2, in_or_app; auto. }
      apply NoDup_rev in HnP. now rewrite rev_involutive in HnP. }
    assert (HlenP : length P <= length es).
    { apply NoDup_map_inv in HnP. apply NoDup_incl_length; auto. intros x Hx. auto. }
    assert (Hfirst : nth_error ws 0 = Some (opposite (last P e0))).
    { rewrite Hws. apply nth_error_app_first. rewrite <- map_rev.
      rewrite (map_nth_error opposite 0 (rev P) (last_rev_first e0 bs e0)). reflexivity. }
    assert (HendP : glued l (last P e0) None \/ glued l (last P e0) (Some (opposite e0))).
    { destruct Hend as [(a & b & Ha & _ & Hg & _)|[(a & b & Ha & Hb & Hg) Hfs]].
      - left. assert (a = opposite (last P e0)) by congruence. subst a. now rewrite opposite_involutive in Hg.
      - right. assert (a = opposite (last P e0)) by congruence. subst a. rewrite opposite_involutive in Hg.
        apply glued_sym. replace (opposite e0) with b; auto.
        subst ws fs. rewrite app_length in Hb. simpl in Hb.
        replace (length (rev (map opposite bs)) + 1 - 1) with (length (rev (map opposite bs))) in Hb by lia.
        rewrite nth_error_last in Hb. congruence. }
    assert (Hback : forall fuel', S (length P) <= fuel' ->
       collect_interfaces_along_dim fuel' e0 l BackInsert [] = Some (rev (map (ori l) P))).
    { intros fuel' Hf'. pose proof (walk_interfaces l G BackInsert [] e0 bs [] e0 fuel') as Hw. simpl app in Hw.
      simpl build_on in Hw. rewrite app_nil_r in Hw. apply Hw; auto. }
    exists ws. repeat split; auto.
    { subst ws. apply in_or_app; simpl; auto. }
    assert (HF2 : forall xs, (forall x, In x xs -> used_edge l x) -> up_to_flip (map (ori l) xs) (map itf xs)).
    { induction xs as [|x xs IHx]; simpl; intros Hx; constructor; [apply ori_itf; auto | apply IHx; auto]. }
    assert (Hint : forall xs, (forall x, In x xs -> used_edge l x) -> forall j, In j (map itf xs) -> In j l).
    { intros xs Hx j Hj. apply in_map_iff in Hj as (x & <- & Hxx). apply itf_spec; auto. }
    assert (HuF : forall x, In x (f0 :: fs) -> used_edge l x).
    { intros x Hx. apply Hu. subst ws. apply in_or_app; auto. }
    destruct Hend as [Hopen|[Hclosed Hfs]]; [left|right].
    - split; auto. destruct Hopen as (a & b & Ha & Hb & Hga & Hgb).
      exists (rev (map (ori l) P) ++ map (ori l) (f0 :: fs)), (map itf (rev P) ++ map itf (f0 :: fs)).
      assert (Hlast : last (f0 :: fs) f0 = b).
      { subst ws. rewrite app_length in Hb. simpl length in Hb.
        replace (length (rev (map opposite bs)) + S (length fs) - 1)
          with (length (rev (map opposite bs)) + length fs) in Hb by lia.
        rewrite nth_error_app2 in Hb by lia. rewrite (Nat.add_comm (length (rev (map opposite bs)))), Nat.add_sub in Hb. rewrite (last_nth f0 fs f0) in Hb. congruence. }
      assert (Hdisj : forall x, In x (f0 :: fs) -> ~ In (ori l x) (rev (map (ori l) P))).
      { intros x Hx Hin. apply in_rev, in_map_iff in Hin as (e & Ho & He).
        destruct (ori_inj l G e x (HuP e He) (HuF x Hx) Ho) as [E|Hg].
        - subst x. assert (Hoe : In (opposite e) (rev (map opposite P))) by (rewrite <- in_rev; now apply in_map).
          assert (Hi1 : exists i, nth_error ws i = Some (opposite e) /\ i < length P).
          { apply In_nth_error in Hoe as (i & Hi). exists i.
            assert (i < length (rev (map opposite P))) by (apply nth_error_Some; congruence).
            rewrite Hws, nth_error_app1 by auto. rewrite rev_length, map_length in H. auto. }
          assert (Hi2 : exists i, nth_error ws i = Some e).
          { apply In_nth_error. subst ws. apply in_or_app; auto. }
          destruct Hi1 as (i1 & Hi1 & _), Hi2 as (i2 & Hi2).
          assert (i1 = i2) by (eapply (nodup_map_inj perpendicular_grid ws); eauto).
          subst i2. apply (opposite_neq e). congruence.
        - assert (Hi1 : exists i, nth_error ws i = Some (opposite e) /\ i < length P).
          { assert (Hoe : In (opposite e) (rev (map opposite P))) by (rewrite <- in_rev; now apply in_map).
            apply In_nth_error in Hoe as (i & Hi). exists i.
            assert (i < length (rev (map opposite P))) by (apply nth_error_Some; congruence).
            rewrite Hws, nth_error_app1 by auto. rewrite rev_length, map_length in H. auto. }
          destruct Hi1 as ([|i] & Hi & Hlt).
          + rewrite Ha in Hi. injection Hi as ->. rewrite opposite_involutive in Hga.
            pose proof (glued_fun l G _ _ _ Hg Hga). discriminate.
          + destruct (nth_error ws i) as [y|] eqn:Hy.
            2:{ apply nth_error_None in Hy. assert (S i < length ws) by (apply nth_error_Some; congruence). lia. }
            pose proof (Hl i _ _ Hy Hi) as Hgy. rewrite opposite_involutive in Hgy. apply glued_sym in Hgy.
            pose proof (glued_fun l G _ _ _ Hg Hgy) as E. injection E as ->.
            assert (Hi2 : exists j, nth_error ws j = Some y /\ length P <= S j).
            { apply In_nth_error in Hx as (j & Hj). exists (length (rev (map opposite bs)) + j). split.
              - subst ws. rewrite nth_error_app2 by lia. now rewrite Nat.add_comm, Nat.add_sub.
              - subst P. simpl. rewrite rev_length, map_length. lia. }
            destruct Hi2 as (j & Hj & Hjl).
            assert (i = j) by (eapply (nodup_map_inj perpendicular_grid ws); eauto). lia. }
      assert (Hcr : crossings_open l ws (map itf (rev P) ++ map itf (f0 :: fs))).
      { split.
        { rewrite Hws, !app_length, !map_length, !rev_length, map_length. simpl. lia. }
        split.
        { intros j Hj. apply in_app_iff in Hj as [Hj|Hj].
          - eapply Hint; [|eauto]. intros x Hx. apply HuP. now apply in_rev.
          - eapply Hint; eauto. }
        (* position of the edges *)
        assert (Hlo : forall k w, nth_error ws k = Some w -> k < length P ->
           nth_error (map itf (rev P) ++ map itf (f0 :: fs)) k = Some (itf (opposite w))).
        { intros k w Hk Hlt. rewrite nth_error_app1 by (rewrite map_length, rev_length; auto).
          apply map_nth_error. apply nth_rev_map_opp. rewrite Hws, nth_error_app1 in Hk; auto.
          rewrite rev_length, map_length; auto. }
        assert (Hhi : forall k w, nth_error ws k = Some w -> length P <= S k ->
           nth_error (map itf (rev P) ++ map itf (f0 :: fs)) (S k) = Some (itf w)).
        { intros k w Hk Hge. rewrite nth_error_app2 by (rewrite map_length, rev_length; auto).
          rewrite map_length, rev_length. apply map_nth_error.
          subst ws P. simpl length in *. rewrite nth_error_app2 in Hk by (rewrite rev_length, map_length; lia).
          rewrite rev_length, map_length in Hk. replace (S k - S (length bs)) with (k - length bs) by lia. auto. }
        intros k w Hk.
        assert (Huw : used_edge l w) by (apply Hu; eapply nth_error_In; eauto).
        assert (Huo : used_edge l (opposite w)) by (apply used_opposite; auto).
        assert (H1 : exists a0, nth_error (map itf (rev P) ++ map itf (f0 :: fs)) k = Some a0 /\ touches a0 (opposite w)).
        { destruct (Nat.lt_ge_cases k (length P)) as [Hlt|Hge].
          - exists (itf (opposite w)). split; [auto|]. apply itf_spec; auto.
          - destruct k as [|k]; [subst P; simpl in Hge; lia|].
            destruct (nth_error ws k) as [y|] eqn:Hy.
            2:{ apply nth_error_None in Hy. assert (S k < length ws) by (apply nth_error_Some; congruence). lia. }
            exists (itf y). split; [apply Hhi; auto|]. apply itf_glued. apply (Hl k); auto. }
        assert (H2 : exists b0, nth_error (map itf (rev P) ++ map itf (f0 :: fs)) (S k) = Some b0 /\ touches b0 w).
        { destruct (Nat.lt_ge_cases (S k) (length P)) as [Hlt|Hge].
          - destruct (nth_error ws (S k)) as [y|] eqn:Hy.
            + exists (itf (opposite y)). split; [apply Hlo; auto|]. apply itf_glued. apply glued_sym. apply (Hl k); auto.
            + exfalso. apply nth_error_None in Hy. rewrite Hws, app_length, rev_length, map_length in Hy. lia.
          - exists (itf w). split; [auto|]. apply itf_spec; auto. }
        destruct H1 as (a0 & ? & ?), H2 as (b0 & ? & ?). exists a0, b0. auto. }
      split; [|split; [|split; [|split]]]; auto.
      + unfold collect_interfaces_on_dim. fold e0 f0. rewrite Hback by lia.
        assert (Hw : collect_interfaces_along_dim fuel f0 l FrontInsert (rev (map (ori l) P) ++ [])
                     = Some (rev (map (ori l) P) ++ map (ori l) (f0 :: fs))).
        { apply (walk_interfaces l G FrontInsert (rev (map (ori l) P)) f0 fs [] f0 fuel).
        * apply (line_app_r l _ _ Hl).
        * auto.
        * clear - Hn. subst ws. rewrite map_app in Hn. revert Hn. generalize (map perpendicular_grid (rev (map opposite bs))).
          intros a. induction a; simpl; intros H; auto. inversion H; auto.
        * auto.
        * reflexivity.
        * left. rewrite Hlast. auto.
        * assert (Hlw : length ws <= length es).
          { apply NoDup_map_inv in Hn. apply NoDup_incl_length; auto. intros x Hx; auto. }
          subst ws. rewrite app_length in Hlw. simpl in *. lia. }
        rewrite app_nil_r in Hw. rewrite Hw. apply (f_equal (@Some _)).
          apply (merge_prefix interface_eq_dec (rev (map (ori l) P)) (ori l f0 :: map (ori l) fs)).
          intros x Hx. change (In x (map (ori l) (f0 :: fs))) in Hx.
          apply in_map_iff in Hx as (y & <- & Hy). auto.
      + apply Forall2_app; [|apply HF2; auto]. rewrite <- map_rev. apply HF2. intros x Hx. apply HuP. now apply in_rev.
      + destruct Hcr as [Hc1 Hc2]. apply (crossings_nodup ws _ S); auto; [|lia].
        intros k Hk. right. rewrite Hc1 in Hk. injection Hk as ->.
        split; [|split; eauto]. assert (0 < length ws) by (subst ws; rewrite app_length; simpl; lia). lia.
      + intros Hfw k i Hk.
        assert (Hprev : forall k' w, nth_error ws k' = Some w -> k' = 0 -> opposite w = last P e0).
        { intros k' w Hw ->. rewrite Hfirst in Hw. injection Hw as <-. apply opposite_involutive. }
        destruct (Nat.lt_ge_cases k (length P)) as [Hlt|Hge].
        * rewrite nth_error_app1, <- map_rev in Hk by (rewrite rev_length, map_length; auto).
          destruct (nth_error ws k) as [w|] eqn:Hw.
          2:{ apply nth_error_None in Hw. rewrite Hws, app_length, rev_length, map_length in Hw. lia. }
          assert (Hro : nth_error (rev P) k = Some (opposite w)).
          { apply nth_rev_map_opp. rewrite Hws, nth_error_app1 in Hw; auto. rewrite rev_length, map_length; auto. }
          rewrite (map_nth_error _ _ _ Hro) in Hk. injection Hk as <-.
          assert (Hew : e_ext (opposite w) = FRONT).
          { unfold opposite; simpl. rewrite (Hfw w); auto. eapply nth_error_In; eauto. }
          simpl option_map.
          destruct k as [|k].
          -- rewrite Ha in Hw. injection Hw as ->. destruct (ori_spec l G _ _ Hga) as (_ & _ & Hsp). rewrite Hew in Hsp. auto.
          -- destruct (nth_error ws k) as [y|] eqn:Hy. 2:{ apply nth_error_None in Hy. assert (S k < length ws) by (apply nth_error_Some; congruence). lia. }
             pose proof (glued_sym l _ _ (Hl k _ _ Hy Hw)) as Hg. destruct (ori_spec l G _ _ Hg) as (_ & _ & Hsp). rewrite Hew in Hsp. auto.
        * rewrite nth_error_app2 in Hk by (rewrite rev_length, map_length; auto).
          rewrite rev_length, map_length in Hk.
          destruct k as [|k]; [subst P; simpl in Hge; lia|].
          destruct (nth_error (f0 :: fs) (S k - length P)) as [w|] eqn:Hw.
          2:{ exfalso. apply nth_error_None in Hw. assert (S k - length P < length (map (ori l) (f0 :: fs))) by (apply nth_error_Some; congruence).
              rewrite map_length in *. lia. }
          rewrite (map_nth_error _ _ _ Hw) in Hk. injection Hk as <-.
          assert (Hwk : nth_error ws k = Some w).
          { subst ws. rewrite nth_error_app2; rewrite rev_length, map_length; [|subst P; simpl in Hge; lia].
            subst P. simpl length in Hw, Hge. replace (k - length bs) with (S k - S (length bs)) by lia. auto. }
          rewrite Hwk.
          assert (Hew : e_ext w = BACK) by (apply Hfw; eapply nth_error_In; eauto).
          destruct (nth_error ws (S k)) as [y|] eqn:Hy.
          -- destruct (ori_spec l G _ _ (Hl k _ _ Hwk Hy)) as (_ & _ & Hsp). rewrite Hew in Hsp. auto.
          -- apply nth_error_None in Hy. assert (k < length ws) by (apply nth_error_Some; congruence).
             replace (length ws - 1) with k in Hb by lia. assert (w = b) by congruence. subst w.
             destruct (ori_spec l G _ _ Hgb) as (_ & _ & Hsp). rewrite Hew in Hsp. auto.
    - subst fs. rewrite app_nil_r in Hws. split; auto.
      assert (Hgm : glued l f0 (Some (last P e0))).
      { destruct Hclosed as (a & b & Ha & Hb & Hg). assert (a = opposite (last P e0)) by congruence. subst a.
        rewrite opposite_involutive in Hg. replace f0 with b; auto.
        subst ws. rewrite app_length in Hb. simpl in Hb.
        replace (length (rev (map opposite bs)) + 1 - 1) with (length (rev (map opposite bs))) in Hb by lia.
        rewrite nth_error_last in Hb. congruence. }
      assert (HlP' : In (last P e0) P).
      { pose proof (last_nth e0 bs e0) as H. apply nth_error_In in H. exact H. }
      assert (Huf : used_edge l f0) by (apply HuF; simpl; auto).
      exists (last P e0). split; auto. split.
      + intros Hext. exists (rev (map (ori l) P)), (map itf (rev P)).
        assert (Hlen : length (map itf (rev P)) = length ws) by (rewrite Hws, map_length, !rev_length, map_length; auto).
        assert (Hlw : length ws = length P) by (rewrite Hws, rev_length, map_length; auto).
        assert (Hlw0 : 0 < length ws) by (rewrite Hlw; subst P; simpl; lia).
        assert (Hlo : forall k w, nth_error ws k = Some w -> nth_error (map itf (rev P)) k = Some (itf (opposite w))).
        { intros k w Hk. apply map_nth_error. apply nth_rev_map_opp. rewrite <- Hws. auto. }
        assert (Hcr : crossings_closed l ws (map itf (rev P))).
        { split; auto. split.
          - intros j Hj. eapply Hint; [|eauto]. intros x Hx. apply HuP. now apply in_rev.
          - intros k w Hk.
            assert (Huw : used_edge l w) by (apply Hu; eapply nth_error_In; eauto).
            exists (itf (opposite w)).
            destruct (Nat.eqb_spec (S k) (length ws)) as [E|E].
            + exists (itf (opposite (opposite (last P e0)))). split; [auto|]. split; [apply Hlo; auto|].
              split; [apply itf_spec, used_opposite; auto|].
              rewrite opposite_involutive. apply itf_glued.
              assert (w = f0).
              { subst ws. rewrite app_length in E. simpl in E. replace k with (length (rev (map opposite bs))) in Hk by lia.
                rewrite nth_error_last in Hk. congruence. }
              subst w. apply glued_sym. auto.
            + destruct (nth_error ws (S k)) as [y|] eqn:Hy.
              2:{ apply nth_error_None in Hy. assert (k < length ws) by (apply nth_error_Some; congruence). lia. }
              exists (itf (opposite y)). split; [auto|]. split; [auto|].
              split; [apply itf_spec, used_opposite; auto|]. apply itf_glued, glued_sym. apply (Hl k); auto. }
        split; [|split; [|split; [|split]]]; auto.
        * unfold collect_interfaces_on_dim. fold e0 f0. rewrite Hback by lia.
          destruct fuel as [|fuel]; [lia|]. cbn [collect_interfaces_along_dim].
          rewrite (equivalent_spec l G _ _ Hgm).
          destruct (ori_spec l G _ _ Hgm) as (Ho & _ & Hs1). rewrite Ho.
          assert (Hin : In (ori l f0) (rev (map (ori l) P))).
          { rewrite <- in_rev. replace (ori l f0) with (ori l (last P e0)); [now apply in_map|].
            destruct (ori_spec l G _ _ (glued_sym l _ _ Hgm)) as (_ & _ & Hs2). rewrite Hext in Hs2. simpl in Hs1.
            assert (Ea : i_agree (ori l (last P e0)) = i_agree (ori l f0)).
            { assert (E : itf (last P e0) = itf f0).
              { apply (geo_once _ G _ _ f0).
                - apply itf_spec; auto. - apply itf_spec; auto.
                - apply itf_glued. now apply glued_sym. - apply itf_spec; auto. }
              destruct (ori_itf (last P e0) (HuP _ HlP')) as [-> | ->], (ori_itf f0 Huf) as [-> | ->]; unfold flip; cbn [i_agree]; rewrite E; reflexivity. }
            destruct (ori l (last P e0)), (ori l f0); simpl in *. destruct Hs1, Hs2. congruence. }
          assert (in_tags interface_eq_dec (ori l f0) (rev (map (ori l) P)) = true) as -> by (apply in_tags_iff; auto).
          f_equal. rewrite <- (app_nil_r (rev (map (ori l) P))) at 2. rewrite merge_prefix; [apply app_nil_r|].
          intros x [].
        * rewrite <- map_rev. apply HF2. intros x Hx. apply HuP. now apply in_rev.
        * destruct Hcr as [Hc1 Hc2]. apply (crossings_nodup ws _ _ Hl Hn Hc2); [|intros; left; lia|lia].
          intros k Hk. destruct (Nat.eqb_spec (S k) (length ws)); lia.
        * intros Hfw k i Hk. rewrite <- map_rev in Hk.
          destruct (nth_error ws k) as [w|] eqn:Hw.
          2:{ apply nth_error_None in Hw. assert (k < length (map (ori l) (rev P))) by (apply nth_error_Some; congruence).
              rewrite map_length, rev_length in *. lia. }
          rewrite (map_nth_error (ori l) k (rev P) (d := opposite w)) in Hk by (apply nth_rev_map_opp; rewrite <- Hws; auto).
          injection Hk as <-.
          assert (Hew : e_ext (opposite w) = FRONT).
          { unfold opposite; simpl. rewrite (Hfw w); auto. eapply nth_error_In; eauto. }
          simpl option_map.
          destruct k as [|k].
          -- destruct Hclosed as (a & b & Ha & Hb & Hg). rewrite Ha in Hw. injection Hw as ->.
             destruct (ori_spec l G _ _ (glued_sym l _ _ Hg)) as (_ & _ & Hsp). rewrite Hew in Hsp. rewrite Hb. auto.
          -- destruct (nth_error ws k) as [y|] eqn:Hy. 2:{ apply nth_error_None in Hy. assert (S k < length ws) by (apply nth_error_Some; congruence). lia. }
             pose proof (glued_sym l _ _ (Hl k _ _ Hy Hw)) as Hg. destruct (ori_spec l G _ _ Hg) as (_ & _ & Hsp). rewrite Hew in Hsp. auto.
      + intros Hext is fuel' Hc. unfold collect_interfaces_on_dim in Hc. fold e0 f0 in Hc.
        (* whatever the fuel, a backward result is the list above *)
        assert (Hmono : forall f1 f2 e pos fd r, f1 <= f2 -> collect_interfaces_along_dim f1 e l pos fd = Some r ->
           collect_interfaces_along_dim f2 e l pos fd = Some r).
        { induction f1 as [|f1 IH1]; intros f2 e pos fd r Hle H; [discriminate|].
          destruct f2 as [|f2]; [lia|]. cbn [collect_interfaces_along_dim] in *.
          destruct (equivalent_edge e l) as [m|]; [|discriminate].
          destruct (oriented_interface e m l); [|discriminate].
          destruct in_tags; auto. destruct m; auto. eapply IH1; eauto. lia. }
        assert (Hincl : forall f1 e pos fd r, collect_interfaces_along_dim f1 e l pos fd = Some r -> incl fd r).
        { induction f1 as [|f1 IH1]; intros e pos fd r H; [discriminate|]. cbn [collect_interfaces_along_dim] in H.
          destruct (equivalent_edge e l) as [m|]; [|discriminate].
          destruct (oriented_interface e m l); [|discriminate].
          destruct in_tags; [injection H as <-; apply incl_refl|].
          assert (Hadd : incl fd (add_to_type_seq interface_eq_dec i fd pos)).
          { intros x Hx. destruct pos; apply in_merge; auto. }
          destruct m; [eapply incl_tran; [exact Hadd|]; eapply IH1; eauto | injection H as <-; auto]. }
        destruct (collect_interfaces_along_dim fuel' e0 l BackInsert []) as [bk|] eqn:Ebk; [|discriminate].
        assert (bk = rev (map (ori l) P)).
        { apply (Hmono _ (fuel' + S (length P))) in Ebk; [|lia]. rewrite Hback in Ebk by lia. congruence. }
        subst bk.
        destruct (collect_interfaces_along_dim fuel' f0 l FrontInsert (rev (map (ori l) P))) as [fw|] eqn:Efw; [|discriminate].
        injection Hc as <-.
        destruct (ori_spec l G _ _ Hgm) as (Ho & _ & Hs1). simpl in Hs1.
        destruct (ori_spec l G _ _ (glued_sym l _ _ Hgm)) as (_ & _ & Hs2). rewrite Hext in Hs2.
        assert (Hinf : In (ori l f0) fw).
        { destruct fuel' as [|fuel']; [discriminate|]. cbn [collect_interfaces_along_dim] in Efw.
          rewrite (equivalent_spec l G _ _ Hgm), Ho in Efw.
          destruct (in_tags interface_eq_dec (ori l f0) (rev (map (ori l) P))) eqn:Et.
          - apply in_tags_iff in Et. injection Efw as <-. auto.
          - apply Hincl in Efw. apply Efw. apply in_merge. right. now left. }
        assert (Hinb : In (ori l (last P e0)) (rev (map (ori l) P))) by (rewrite <- in_rev; now apply in_map).
        assert (Hfl : ori l f0 = flip (ori l (last P e0))).
        { assert (E : itf (last P e0) = itf f0).
          { apply (geo_once _ G _ _ f0).
            - apply itf_spec; auto. - apply itf_spec; auto.
            - apply itf_glued. now apply glued_sym. - apply itf_spec; auto. }
          assert (Ea : i_agree (ori l (last P e0)) = i_agree (ori l f0)).
          { destruct (ori_itf (last P e0) (HuP _ HlP')) as [-> | ->], (ori_itf f0 Huf) as [-> | ->]; unfold flip; cbn [i_agree]; rewrite E; reflexivity. }
          unfold flip. destruct Hs1 as [X1 X2], Hs2 as [X3 X4].
          destruct (ori l (last P e0)) as [u1 u2 u3], (ori l f0) as [v1 v2 v3]; simpl in *. congruence. }
        assert (Hff : forall i, flip (flip i) = i) by (intros []; reflexivity).
        assert (Hneq : forall i, In i l -> i <> flip i).
        { intros i Hi E. apply (geo_sides _ G i Hi). destruct i as [u v w]. unfold flip in E; simpl in *. congruence. }
        destruct (itf_spec (last P e0) (HuP _ HlP')) as [Hi1 Hi2].
        exists (itf (last P e0)). split; auto. split; [apply Hneq; auto|]. split; auto.
        destruct (ori_itf (last P e0) (HuP _ HlP')) as [E|E].
        * rewrite E in Hinb, Hfl. rewrite <- Hfl. split; apply in_merge; auto.
        * rewrite <- E. rewrite E, Hff in Hfl. rewrite <- Hfl. split; apply in_merge; auto.
  Qed.
End Main.
