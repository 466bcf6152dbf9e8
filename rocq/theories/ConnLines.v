(** Proofs: grids of a line = connected grids; interfaces along a line; index ranges. *)
From Verif Require Export ConnProofs.

Section Lines.
  Variable l : list interface.
  Hypothesis G : geometry l.
  Hypothesis Acc : connectivity_accepted l = true.

  Lemma joined_sym g g' : joined l g g' -> joined l g' g.
  Proof. intros (e & e' & H & <- & <-). exists e', e. split; auto. now apply glued_sym. Qed.
  Lemma connected_sym g g' : connected l g g' -> connected l g' g.
  Proof.
    unfold connected. induction 1.
    - apply rt_step. now apply joined_sym. - apply rt_refl. - eapply rt_trans; eauto.
  Qed.

  Lemma line_connected ws : line l ws -> forall k w w0, nth_error ws 0 = Some w0 -> nth_error ws k = Some w ->
    connected l (perpendicular_grid w0) (perpendicular_grid w).
  Proof.
    intros Hl k. induction k; intros w w0 H0 H.
    - replace w with w0 by congruence. apply rt_refl.
    - destruct (nth_error ws k) as [y|] eqn:Ey.
      + eapply rt_trans; [eapply IHk; eauto|]. apply rt_step.
        exists y, (opposite w). split; auto. apply (Hl k); auto.
      + exfalso. apply nth_error_None in Ey. assert (S k < length ws) by (apply nth_error_Some; congruence). lia.
  Qed.

  Lemma line_closure ws : line l ws -> (open_line l ws \/ closed_line l ws) -> (forall x, In x ws -> used_edge l x) ->
    forall g g', In g (map perpendicular_grid ws) -> joined l g g' -> In g' (map perpendicular_grid ws).
  Proof.
    intros Hl He Hu g g' Hg (e & e' & Hgl & Eg & Eg'). subst g'.
    apply in_map_iff in Hg as (w & Hw & Hin).
    assert (Hend : exists first last, nth_error ws 0 = Some first /\ nth_error ws (length ws - 1) = Some last /\
      ((glued l (opposite first) None /\ glued l last None) \/ glued l last (Some (opposite first)))).
    { destruct He as [(a & b & ? & ? & ? & ?)|(a & b & ? & ? & ?)]; exists a, b; auto 6. }
    clear He. destruct Hend as (first & last & Hf & Hlast & Hend).
    apply In_nth_error in Hin as Hk. destruct Hk as (k & Hk).
    assert (Hkl : k < length ws) by (apply nth_error_Some; congruence).
    assert (Hmap : forall i x, nth_error ws i = Some x -> In (perpendicular_grid x) (map perpendicular_grid ws)).
    { intros i x Hx. apply in_map. eapply nth_error_In; eauto. }
    destruct (same_grid l G e w) as [E|E]; auto.
    - apply glued_used with (1 := Hgl).
    - congruence.
    - subst e. destruct (nth_error ws (S k)) as [w'|] eqn:Hk'.
      + pose proof (Hl k _ _ Hk Hk') as Hn. pose proof (glued_fun l G _ _ _ Hgl Hn) as E. injection E as ->.
        apply (Hmap _ _ Hk').
      + apply nth_error_None in Hk'. replace k with (length ws - 1) in Hk by lia.
        assert (w = last) by congruence. subst w.
        destruct Hend as [[_ Hend]|Hend]; pose proof (glued_fun l G _ _ _ Hgl Hend) as E; [discriminate|].
        injection E as ->. apply (Hmap _ _ Hf).
    - subst e. destruct k as [|k].
      + assert (w = first) by congruence. subst w.
        destruct Hend as [[Hend _]|Hend]; [|apply glued_sym in Hend];
          pose proof (glued_fun l G _ _ _ Hgl Hend) as E; [discriminate|].
        injection E as ->. apply (Hmap _ _ Hlast).
      + destruct (nth_error ws k) as [y|] eqn:Hy. 2:{ apply nth_error_None in Hy. lia. }
        pose proof (glued_sym l _ _ (Hl k _ _ Hy Hk)) as Hn.
        pose proof (glued_fun l G _ _ _ Hgl Hn) as E. injection E as ->. apply (Hmap _ _ Hy).
  Qed.

  Lemma line_is_component ws w : line l ws -> (open_line l ws \/ closed_line l ws) ->
    (forall x, In x ws -> used_edge l x) -> In w ws ->
    forall g, In g (map perpendicular_grid ws) <-> connected l (perpendicular_grid w) g.
  Proof.
    intros Hl He Hu Hin g. split.
    - intros Hg. apply in_map_iff in Hg as (x & <- & Hx).
      apply In_nth_error in Hx as (j & Hj). apply In_nth_error in Hin as (k & Hk).
      destruct (nth_error ws 0) as [w0|] eqn:H0.
      2:{ destruct ws; [destruct k; discriminate|discriminate]. }
      eapply rt_trans; [apply connected_sym|]; eapply line_connected; eauto.
    - intros Hc. apply clos_rt_rtn1 in Hc. induction Hc.
      + now apply in_map.
      + eapply line_closure; eauto.
  Qed.

  (* ----- oriented interfaces ----- *)
  Definition ori (e : edge) : interface :=
    match equivalent_edge e l with
    | Some m => match oriented_interface e m l with Some i => i | None => Interface None None true end
    | None => Interface None None true
    end.

  Lemma ori_spec e m : glued l e m ->
    oriented_interface e m l = Some (ori e) /\
    (exists i, In i l /\ touches i e /\ (ori e = i \/ ori e = flip i)) /\
    (match e_ext e with FRONT => i_edge1 (ori e) = m /\ i_edge2 (ori e) = Some e
                   | BACK => i_edge1 (ori e) = Some e /\ i_edge2 (ori e) = m end).
  Proof.
    intros Hg. unfold ori. rewrite (equivalent_spec l G _ _ Hg).
    destruct (find_interface_spec l G e (glued_used l _ _ Hg)) as (i & Hf & Hi & Ht).
    unfold oriented_interface. rewrite Hf.
    pose proof (geo_sides _ G i Hi) as Hne.
    assert (Hcase : (i_edge1 i = Some e /\ i_edge2 i = m) \/ (i_edge2 i = Some e /\ i_edge1 i = m)).
    { destruct Ht as [Ht|Ht].
      - left. split; auto. eapply glued_fun; eauto. exists i; auto.
      - right. split; auto. eapply glued_fun; eauto. exists i; auto. }
    unfold enforce_first_interface_edge.
    set (fst := match e_ext e with FRONT => m | BACK => Some e end).
    assert (Hfst : i_edge1 i = fst \/ i_edge2 i = fst).
    { subst fst. destruct (e_ext e); tauto. }
    destruct (side_eq_dec (i_edge1 i) fst) as [E1|E1], (side_eq_dec (i_edge2 i) fst) as [E2|E2];
      [congruence| | |tauto].
    - split; auto. split; [exists i; auto|]. subst fst. destruct (e_ext e).
      + destruct Hcase as [[? ?]|[? ?]]; [congruence|auto].
      + destruct Hcase as [[? ?]|[? ?]]; [auto|congruence].
    - split; auto. split; [exists i; auto|]. simpl. subst fst. destruct (e_ext e).
      + destruct Hcase as [[? ?]|[? ?]]; [auto|congruence].
      + destruct Hcase as [[? ?]|[? ?]]; [congruence|auto].
  Qed.

  Lemma ori_inj e e' : used_edge l e -> used_edge l e' -> ori e = ori e' -> e = e' \/ glued l e (Some e').
  Proof.
    intros Hu Hu' E. destruct (used_glued l e Hu) as [m Hm]. destruct (used_glued l e' Hu') as [m' Hm'].
    destruct (ori_spec e m Hm) as (_ & _ & H1). destruct (ori_spec e' m' Hm') as (_ & _ & H2). rewrite <- E in H2.
    destruct (e_ext e), (e_ext e'); destruct H1, H2.
    - left; congruence.
    - right. replace (Some e') with m by congruence. auto.
    - right. replace (Some e') with m by congruence. auto.
    - left; congruence.
  Qed.

  (* along a line the oriented interfaces of different edges differ *)
  Lemma ori_fresh p e q : line l (p ++ e :: q) -> (forall x, In x (p ++ e :: q) -> used_edge l x) ->
    NoDup (map perpendicular_grid (p ++ e :: q)) -> ~ In (ori e) (map ori p).
  Proof.
    intros Hl Hu Hn Hin. apply in_map_iff in Hin as (x & Hx & Hxin).
    apply In_nth_error in Hxin as (i & Hi).
    assert (Hip : i < length p) by (apply nth_error_Some; congruence).
    set (ws := p ++ e :: q) in *.
    assert (Hwi : nth_error ws i = Some x) by (subst ws; rewrite nth_error_app1; auto).
    assert (Hwe : nth_error ws (length p) = Some e) by (subst ws; rewrite nth_error_app2, Nat.sub_diag by lia; reflexivity).
    destruct (ori_inj x e) as [E|Hg]; auto.
    { apply Hu. eapply nth_error_In; eauto. } { apply Hu. eapply nth_error_In; eauto. }
    - subst x. assert (i = length p) by (eapply (nodup_map_inj perpendicular_grid ws); eauto). lia.
    - destruct (nth_error ws (S i)) as [y|] eqn:Hy.
      2:{ apply nth_error_None in Hy. subst ws. rewrite app_length in Hy. simpl in Hy. lia. }
      pose proof (Hl i _ _ Hwi Hy) as Hg'. pose proof (glued_fun l G _ _ _ Hg Hg') as E. injection E as E.
      assert (S i = length p).
      { eapply (nodup_map_inj perpendicular_grid ws); eauto. rewrite E. reflexivity. }
      assert (y = e) by congruence. subst y. symmetry in E. now apply opposite_neq in E.
  Qed.

  Definition build_on {A} (pos : insert_position) (f0 xs : list A) : list A :=
    match pos with FrontInsert => f0 ++ xs | BackInsert => rev xs ++ f0 end.
  Lemma in_build_on {A} pos (f0 xs : list A) x : In x (build_on pos f0 xs) <-> In x f0 \/ In x xs.
  Proof. destruct pos; simpl; rewrite in_app_iff; [tauto|]. rewrite <- in_rev. tauto. Qed.
  Lemma add_build_on {A} (dec : forall a b : A, {a = b} + {a <> b}) x pos f0 xs : ~ In x f0 -> ~ In x xs ->
    add_to_type_seq dec x (build_on pos f0 xs) pos = build_on pos f0 (xs ++ [x]).
  Proof.
    intros H0 H. destruct pos; simpl.
    - rewrite merge_disjoint. { now rewrite app_assoc. } intros y [<-|[]]. rewrite in_app_iff; tauto.
    - rewrite merge_disjoint. { now rewrite rev_unit. }
      intros y Hy [<-|[]]. apply in_app_iff in Hy as [Hy|Hy]; auto. apply in_rev in Hy. auto.
  Qed.

  Lemma walk_interfaces pos f0 first q : forall p e fuel,
    line l (p ++ e :: q) -> (forall x, In x (p ++ e :: q) -> used_edge l x) ->
    NoDup (map perpendicular_grid (p ++ e :: q)) ->
    (forall x, In x (e :: q) -> ~ In (ori x) f0) ->
    nth_error (p ++ e :: q) 0 = Some first ->
    (glued l (last (e :: q) e) None \/ glued l (last (e :: q) e) (Some (opposite first))) ->
    S (length (e :: q)) <= fuel ->
    collect_interfaces_along_dim fuel e l pos (build_on pos f0 (map ori p))
    = Some (build_on pos f0 (map ori (p ++ e :: q))).
  Proof.
    induction q as [|z q IH]; intros p e fuel Hl Hu Hn Hf0 Hfirst Hend Hfuel;
      (destruct fuel as [|fuel]; [simpl in Hfuel; lia|]);
      (assert (Hue : used_edge l e) by (apply Hu, in_or_app; simpl; auto));
      destruct (used_glued l e Hue) as [m Hm]; cbn [collect_interfaces_along_dim];
      rewrite (equivalent_spec l G _ _ Hm); destruct (ori_spec e m Hm) as (Ho & _ & _); rewrite Ho;
      pose proof (ori_fresh _ _ _ Hl Hu Hn) as Hfr;
      (assert (in_tags interface_eq_dec (ori e) (build_on pos f0 (map ori p)) = false) as ->
        by (apply in_tags_false; rewrite in_build_on; intros [?|?]; [apply (Hf0 e); simpl; auto | auto]));
      (rewrite add_build_on; [|apply Hf0; simpl; auto | auto]);
      change ([ori e]) with (map ori [e]); rewrite <- map_app.
    - simpl last in Hend. destruct m as [m|]; [|reflexivity].
      destruct Hend as [Hend|Hend]; pose proof (glued_fun l G _ _ _ Hm Hend) as E; [discriminate|]. injection E as ->.
      change (swap_extremity (opposite first)) with (opposite (opposite first)). rewrite opposite_involutive.
      destruct fuel as [|fuel]; [simpl in Hfuel; lia|]. cbn [collect_interfaces_along_dim].
      assert (Hu0 : used_edge l first) by (apply Hu; eapply nth_error_In; eauto).
      destruct (used_glued l first Hu0) as [m0 Hm0]. rewrite (equivalent_spec l G _ _ Hm0).
      destruct (ori_spec first m0 Hm0) as (Ho0 & _ & _). rewrite Ho0.
      assert (in_tags interface_eq_dec (ori first) (build_on pos f0 (map ori (p ++ [e]))) = true) as ->; auto.
      apply in_tags_iff, in_build_on. right. apply in_map. eapply nth_error_In; eauto.
    - pose proof (line_glued l _ _ _ _ Hl) as Hg. pose proof (glued_fun l G _ _ _ Hm Hg) as ->.
      change (swap_extremity (opposite z)) with (opposite (opposite z)). rewrite opposite_involutive.
      rewrite (IH (p ++ [e]) z fuel); rewrite <- ?app_assoc; auto.
      + intros x Hx. apply Hf0. simpl in *; auto.
      + replace (last (z :: q) z) with (last (e :: z :: q) e); auto.
        clear. change (last (e :: z :: q) e) with (last (z :: q) e).
        assert (forall d d', last (z :: q) d = last (z :: q) d'); auto.
        intros d d'. generalize z as y. induction q as [|a r IHr]; auto. intros y.
        change (last (a :: r) d = last (a :: r) d'). apply IHr.
      + simpl in *. lia.
  Qed.
End Lines.
