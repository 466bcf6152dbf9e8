(** Proofs: index ranges along a direction; final statements. *)
From Verif Require Export ConnMain.

Section Ranges.
  Context {V : Type}.
  Variable rs : list (list nat * (nat -> V)).
  Hypothesis Hnd : NoDup (map fst rs).

  Lemma relevant_in g t ts : In t (find_relevant_idx_range_types g ts) <-> In t ts /\ In g t.
  Proof.
    induction ts as [|r ts IH]; cbn [find_relevant_idx_range_types]; [simpl; tauto|].
    rewrite in_merge, IH. unfold in_tags. destruct (in_dec Nat.eq_dec g r); simpl; split; intuition; subst; auto; tauto.
  Qed.

  Lemma get_by_type_spec t v : In (t, v) rs -> get_by_type t rs = Some v.
  Proof.
    revert Hnd. induction rs as [|(t', v') r IH]; simpl; intros Hn Hin; [tauto|].
    inversion Hn as [|? ? Hni Hn']; subst. destruct (list_eq_dec Nat.eq_dec t' t) as [->|E].
    - unfold in_tags. destruct in_dec as [H|_]; [tauto|].
      destruct Hin as [H|H]; [congruence|]. exfalso. apply Hni. apply in_map_iff. now exists (t, v).
    - apply IH; auto. destruct Hin as [H|H]; [congruence|auto].
  Qed.

  Lemma get_idx_range_spec range g : provides rs range g -> get_idx_range g rs = Some (range g).
  Proof.
    intros (t & v & Hin & Hg & Hv & Hu). unfold get_idx_range, find_relevant_idx_range.
    assert (Ht : In t (find_relevant_idx_range_types g (map fst rs))).
    { apply relevant_in. split; auto. apply in_map_iff. now exists (t, v). }
    destruct (find_relevant_idx_range_types g (map fst rs)) as [|t0 r] eqn:E; [destruct Ht|]. simpl.
    assert (t0 = t).
    { assert (In t0 (find_relevant_idx_range_types g (map fst rs))) by (rewrite E; now left).
      apply relevant_in in H as [H1 H2]. auto. }
    subst t0. rewrite (get_by_type_spec t v Hin). simpl. now rewrite Hv.
  Qed.

  Lemma sequence_spec range gs : (forall g, In g gs -> provides rs range g) ->
    sequence (map (fun g => get_idx_range g rs) gs) = Some (map range gs).
  Proof.
    induction gs as [|g gs IH]; simpl; intros H; auto.
    rewrite (get_idx_range_spec range g) by auto. rewrite IH by auto. reflexivity.
  Qed.
End Ranges.

Section Final.
  Variable l : list interface.
  Hypothesis G : geometry l.
  Hypothesis Acc : connectivity_accepted l = true.

  Lemma inner_edges_used es : inner_edges l = Some es -> forall e, used_edge l e -> In e es.
  Proof.
    intros H e He. destruct (accepted_inv l Acc) as (_ & es' & ps & H' & _ & _ & _ & Hes & _).
    assert (es = es') by congruence. subst. now apply Hes.
  Qed.

  Lemma used_front e : used_edge l e -> used_edge l (Edge (associated_patch e) (perpendicular_grid e) FRONT).
  Proof.
    intros Hu. apply (complete_edges l Acc (geo_proper _ G) e); auto. apply (geo_proper _ G e Hu).
  Qed.

  Lemma ranges_along es fuel e : inner_edges l = Some es -> S (length es) < fuel -> used_edge l e ->
    exists ws, NoDup (map perpendicular_grid ws) /\ line l ws /\
      In (Edge (associated_patch e) (perpendicular_grid e) BACK) ws /\ (open_line l ws \/ closed_line l ws) /\
      (forall g, In g (map perpendicular_grid ws) <-> connected l (perpendicular_grid e) g) /\
      forall V (rs : list (list nat * (nat -> V))) range, NoDup (map fst rs) ->
        (forall g, In g (map perpendicular_grid ws) -> provides rs range g) ->
        get_all_idx_ranges_along_direction fuel l (perpendicular_grid e) rs
        = Some (map (fun w => range (perpendicular_grid w)) ws).
  Proof.
    intros He Hf Hu.
    destruct (interfaces_line l G Acc fuel (associated_patch e) (perpendicular_grid e) es
      (inner_edges_used es He) Hf (used_front e Hu)) as (ws & Hc & Hn & Hl & Huw & Hin & Hend).
    assert (Hend' : open_line l ws \/ closed_line l ws) by (destruct Hend as [[? _]|[? _]]; auto).
    exists ws. split; [|split; [|split; [|split; [|split]]]]; auto.
    - intros g. apply (line_is_component l G ws (Edge (associated_patch e) (perpendicular_grid e) BACK)); auto.
    - intros V rs range Hnd Hp. unfold get_all_idx_ranges_along_direction.
      destruct (start_patch l G Acc e Hu) as (ps & -> & ->). rewrite Hc.
      assert (length (map perpendicular_grid ws) =? 0 = false) as ->.
      { apply Nat.eqb_neq. rewrite map_length. destruct ws; [destruct Hin|simpl; lia]. }
      rewrite (sequence_spec rs Hnd range); auto. now rewrite map_map.
  Qed.

  Lemma interfaces_along es fuel e : inner_edges l = Some es -> S (length es) < fuel -> used_edge l e ->
    let back := Edge (associated_patch e) (perpendicular_grid e) BACK in
    exists ws, NoDup (map perpendicular_grid ws) /\ line l ws /\ In back ws /\
      ((open_line l ws /\ exists is js, get_all_interfaces_along_direction fuel l (perpendicular_grid e) = Some is /\
          crossings_open l ws js /\ up_to_flip is js /\ NoDup js /\ (forward_line ws -> in_order_open ws is)) \/
       (closed_line l ws /\ exists m, glued l back (Some m) /\
          (e_ext m = FRONT -> exists is js, get_all_interfaces_along_direction fuel l (perpendicular_grid e) = Some is /\
             crossings_closed l ws js /\ up_to_flip is js /\ NoDup js /\ (forward_line ws -> in_order_closed ws is)) /\
          (e_ext m = BACK -> forall is fuel', get_all_interfaces_along_direction fuel' l (perpendicular_grid e) = Some is ->
             exists i, In i l /\ i <> flip i /\ touches i m /\ In i is /\ In (flip i) is))).
  Proof.
    intros He Hf Hu back.
    destruct (interfaces_line l G Acc fuel (associated_patch e) (perpendicular_grid e) es
      (inner_edges_used es He) Hf (used_front e Hu)) as (ws & Hc & Hn & Hl & Huw & Hin & Hend).
    exists ws. destruct (start_patch l G Acc e Hu) as (ps & E1 & E2).
    unfold get_all_interfaces_along_direction. rewrite E1, E2. auto.
  Qed.

  Lemma equivalent_iff e s : used_edge l e -> (equivalent_edge e l = Some s <-> glued l e s).
  Proof.
    intros Hu. split; [|apply (equivalent_spec l G)].
    intros H. destruct (used_glued l e Hu) as [s' Hs]. rewrite (equivalent_spec l G _ _ Hs) in H. congruence.
  Qed.

  Lemma find_interface_iff e i : used_edge l e -> (find_interface e l = Some i <-> In i l /\ touches i e).
  Proof.
    intros Hu. destruct (find_interface_spec l G e Hu) as (j & Hj & Hi & Ht). split.
    - intros H. assert (i = j) by congruence. subst; auto.
    - intros [H1 H2]. rewrite Hj. f_equal. apply (geo_once _ G j i e); auto.
  Qed.
End Final.

Lemma accepted_complete l : connectivity_accepted l = true -> (forall e, used_edge l e -> proper_edge e) ->
  (forall e e', used_edge l e -> associated_patch e' = associated_patch e -> proper_edge e' -> used_edge l e') /\
  exists ps, all_patches l = Some ps /\ NoDup ps /\ (forall p, In p ps <-> exists e, used_edge l e /\ associated_patch e = p).
Proof.
  intros Ha Hp. split; [apply complete_edges; auto|].
  destruct (accepted_inv l Ha) as (_ & es & ps & _ & Hps & _ & _ & _ & Hnd & Hin). eauto.
Qed.

Lemma connections_spec l p i : connectivity_accepted l = true ->
  (In i (get_connections l p) <-> In i l /\ exists e, touches i e /\ associated_patch e = p).
Proof.
  intros Ha. destruct (accepted_inv l Ha) as (Hok & _). unfold get_connections. rewrite in_connection.
  split; intros [H1 H2]; split; auto; apply (connected_iff i p (Hok i H1)); auto.
Qed.

(** edge.hpp 31-34 *)
Lemma parallel_grid_spec l e : geometry l -> used_edge l e ->
  (perpendicular_grid e = p_grid1 (associated_patch e) /\ parallel_grid e = p_grid2 (associated_patch e)) \/
  (perpendicular_grid e = p_grid2 (associated_patch e) /\ parallel_grid e = p_grid1 (associated_patch e)).
Proof.
  intros G Hu. unfold parallel_grid. pose proof (geo_grids _ G e Hu) as Hn.
  destruct (geo_proper _ G e Hu) as [H|H]; rewrite H; destruct (Nat.eq_dec _ _) as [E|E]; auto; congruence.
Qed.

(** connectivity.hpp 81-90: std::get by type does not compile when the type of the range occurs twice *)
Lemma get_by_type_twice {V} (r1 r2 r3 : list (list nat * (nat -> V))) t v v' :
  get_by_type t (r1 ++ (t, v) :: r2 ++ (t, v') :: r3) = None.
Proof.
  assert (forall a b : list (list nat * (nat -> V)), In t (map fst b) ->
    get_by_type t b = None -> get_by_type t (a ++ b) = None) as H.
  { intros a b Hin Hb. induction a as [|(t0, v0) a IH]; simpl; auto.
    destruct (list_eq_dec Nat.eq_dec t0 t) as [_|_]; auto. unfold in_tags. destruct in_dec as [_|Hn]; auto.
    exfalso. apply Hn. rewrite map_app. apply in_or_app. auto. }
  apply H; [now left|]. simpl. destruct (list_eq_dec Nat.eq_dec t t) as [_|E]; [|congruence].
  unfold in_tags. destruct in_dec as [_|Hn]; auto. exfalso. apply Hn.
  rewrite map_app. apply in_or_app. right. now left.
Qed.
Lemma get_idx_range_twice {V} (r1 r2 r3 : list (list nat * (nat -> V))) t v v' g :
  (forall t', In t' (map fst (r1 ++ (t, v) :: r2 ++ (t, v') :: r3)) -> In g t' -> t' = t) ->
  get_idx_range g (r1 ++ (t, v) :: r2 ++ (t, v') :: r3) = None.
Proof.
  intros Hu. unfold get_idx_range, find_relevant_idx_range.
  destruct (find_relevant_idx_range_types _ _) as [|t0 r] eqn:E; auto. simpl.
  assert (t0 = t) as ->.
  { assert (In t0 (find_relevant_idx_range_types g (map fst (r1 ++ (t, v) :: r2 ++ (t, v') :: r3)))) by (rewrite E; now left).
    apply relevant_in in H as [H1 H2]. auto. }
  now rewrite get_by_type_twice.
Qed.
