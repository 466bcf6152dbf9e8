(** Proofs about the multipatch connectivity model. *)
From Verif Require Export ConnSpec.

(* ---------- type sequences ---------- *)
Section Seq.
  Context {A : Type} (dec : forall a b : A, {a = b} + {a <> b}).

  Lemma in_tags_iff x l : in_tags dec x l = true <-> In x l.
  Proof. unfold in_tags. destruct (in_dec dec x l); split; auto; discriminate. Qed.
  Lemma in_tags_false x l : in_tags dec x l = false <-> ~ In x l.
  Proof. unfold in_tags. destruct (in_dec dec x l); split; auto; [discriminate|tauto]. Qed.

  Lemma in_merge x a b : In x (type_seq_merge dec a b) <-> In x a \/ In x b.
  Proof.
    unfold type_seq_merge. rewrite in_app_iff, filter_In, negb_true_iff, in_tags_false.
    destruct (in_dec dec x a); tauto.
  Qed.

  Lemma nodup_app (a b : list A) : NoDup a -> NoDup b -> (forall x, In x a -> ~ In x b) -> NoDup (a ++ b).
  Proof.
    induction a as [|h a IHa]; simpl; auto. intros Ha Hb Hd. inversion Ha; subst. constructor.
    - rewrite in_app_iff. intros [?|?]; [tauto| apply (Hd h); auto].
    - apply IHa; auto.
  Qed.

  Lemma nodup_merge a b : NoDup a -> NoDup b -> NoDup (type_seq_merge dec a b).
  Proof.
    intros. apply nodup_app; auto using NoDup_filter.
    intros x Hx. rewrite filter_In, negb_true_iff, in_tags_false. tauto.
  Qed.

  Lemma filter_out_all a b : (forall x, In x b -> In x a) -> filter (fun x => negb (in_tags dec x a)) b = [].
  Proof.
    induction b; simpl; auto. intros H.
    assert (in_tags dec a0 a = true) as -> by (apply in_tags_iff, H; auto). simpl. apply IHb; auto.
  Qed.
  Lemma filter_keep_all a b : (forall x, In x b -> ~ In x a) -> filter (fun x => negb (in_tags dec x a)) b = b.
  Proof.
    induction b; simpl; auto. intros H.
    assert (in_tags dec a0 a = false) as -> by (apply in_tags_false, H; auto). simpl. f_equal. apply IHb; auto.
  Qed.

  Lemma merge_disjoint a b : (forall x, In x b -> ~ In x a) -> type_seq_merge dec a b = a ++ b.
  Proof. intros. unfold type_seq_merge. now rewrite filter_keep_all. Qed.

  Lemma merge_prefix a c : (forall x, In x c -> ~ In x a) -> type_seq_merge dec a (a ++ c) = a ++ c.
  Proof.
    intros. unfold type_seq_merge. rewrite filter_app, filter_out_all, filter_keep_all; auto.
  Qed.

  Lemma range_loop_firstn l idx todo out : NoDup (out ++ skipn idx l) -> idx + todo <= length l ->
    type_seq_range_loop dec l idx todo out = Some (out ++ firstn todo (skipn idx l)).
  Proof.
    revert idx out. induction todo; simpl; intros idx out Hn Hl.
    - now rewrite app_nil_r.
    - destruct (nth_error l idx) as [x|] eqn:E.
      2:{ apply nth_error_None in E. lia. }
      assert (Hs : skipn idx l = x :: skipn (S idx) l).
      { clear - E. revert l E. induction idx; intros [|y l] E; try discriminate; simpl in *.
        - now injection E as ->. - now apply IHidx. }
      rewrite Hs in Hn |- *. simpl firstn.
      rewrite merge_disjoint.
      2:{ intros y [<-|[]] Hy. apply NoDup_remove_2 in Hn. apply Hn. rewrite in_app_iff; auto. }
      rewrite IHtodo; [|now rewrite <- app_assoc|lia].
      now rewrite <- app_assoc.
  Qed.

  Lemma range_firstn l n : NoDup l -> n <= length l -> type_seq_range dec l 0 n = Some (firstn n l).
  Proof.
    intros Hn Hl. unfold type_seq_range.
    destruct (Nat.leb_spec n (length l)); [|lia].
    rewrite Nat.sub_0_r, range_loop_firstn; auto.
  Qed.

  Lemma intersection_loop a b r : type_seq_intersection_loop dec a b r
    = r ++ filter (fun x => in_tags dec x a) b.
  Proof.
    revert r. induction b; simpl; intros r; [now rewrite app_nil_r|].
    destruct (in_tags dec a0 a); rewrite IHb; auto. now rewrite <- app_assoc.
  Qed.
  Lemma in_intersection x a b : In x (type_seq_intersection dec a b) <-> In x a /\ In x b.
  Proof. unfold type_seq_intersection. rewrite intersection_loop. simpl. rewrite filter_In, in_tags_iff. tauto. Qed.
  Lemma nodup_intersection a b : NoDup b -> NoDup (type_seq_intersection dec a b).
  Proof. intros. unfold type_seq_intersection. rewrite intersection_loop. simpl. auto using NoDup_filter. Qed.
End Seq.

(* ---------- queries on one patch ---------- *)
Lemma connected_iff i p : interface_ok i = true ->
  connected_to_patch i p = true <-> exists e, touches i e /\ associated_patch e = p.
Proof.
  unfold interface_ok, connected_to_patch, touches. destruct i as [[a|] [b|] ag]; simpl; intros Hok; try discriminate.
  - rewrite orb_true_iff. destruct (patch_eq_dec (associated_patch a) p), (patch_eq_dec (associated_patch b) p);
      split; auto; try (intros _; eauto; fail).
    + intros [?|?]; discriminate.
    + intros (e & [H|H] & Hp); injection H as <-; congruence.
  - destruct (patch_eq_dec (associated_patch a) p); split; auto; eauto; [discriminate|].
    intros (e & [H|H] & Hp); [injection H as <-; congruence|discriminate].
  - destruct (patch_eq_dec (associated_patch b) p); split; auto; eauto; [discriminate|].
    intros (e & [H|H] & Hp); [discriminate|injection H as <-; congruence].
Qed.

Lemma in_connection p l i : In i (patch_connection p l) <-> In i l /\ connected_to_patch i p = true.
Proof.
  induction l as [|j l IH]; simpl; [tauto|].
  rewrite in_merge, IH. destruct (connected_to_patch j p) eqn:E; simpl; split; intuition; subst; auto; congruence.
Qed.
Lemma nodup_connection p l : NoDup (patch_connection p l).
Proof.
  induction l as [|j l IH]; simpl; [constructor|]. apply nodup_merge; auto.
  destruct connected_to_patch; repeat constructor; auto.
Qed.

(* ---------- inner edges, patches, the static_assert ---------- *)
Lemma strip_spec l es : strip_outside_edges l = Some es ->
  NoDup es /\ forall e, In e es <-> In (Some e) l.
Proof.
  revert es. induction l as [|s l IH]; [discriminate|]. intros es.
  assert (Hone : forall e, In e (match s with None => [] | Some e => [e] end) <-> Some e = s).
  { intros e. destruct s as [x|]; simpl; [split; [intros [->|[]]; auto | intros [= ->]; auto]|split; [tauto|discriminate]]. }
  assert (Hnd : NoDup (match s with None => [] | Some e => [e] end)) by (destruct s; repeat constructor; auto).
  destruct l as [|s' l].
  - simpl. intros [= <-]. split; auto. intros e. rewrite Hone. simpl. intuition.
  - change (strip_outside_edges (s :: s' :: l)) with
      (match strip_outside_edges (s' :: l) with
       | Some r' => Some (type_seq_merge edge_eq_dec (match s with None => [] | Some e => [e] end) r')
       | None => None end).
    destruct (strip_outside_edges (s' :: l)) as [r'|]; [|discriminate].
    intros E. assert (E' : es = type_seq_merge edge_eq_dec (match s with None => [] | Some e => [e] end) r') by congruence.
    rewrite E'. clear E E'. destruct (IH r' eq_refl) as [H1 H2]. split.
    + apply nodup_merge; auto.
    + intros e. rewrite in_merge, Hone, H2. simpl. intuition.
Qed.

Lemma extract_spec l : NoDup (extract_patches l) /\
  forall p, In p (extract_patches l) <-> exists e, In e l /\ associated_patch e = p.
Proof.
  induction l as [|e l [H1 H2]]; cbn [extract_patches].
  - split; [constructor|]. intros p. split; [intros []|]. now intros (e & [] & _).
  - split.
    + apply nodup_merge; auto. repeat constructor; auto.
    + intros p. rewrite in_merge, H2. simpl. split.
      * intros [[<-|[]]|(e' & ? & ?)]; eauto.
      * intros (e' & [<-|?] & ?); eauto.
Qed.

Lemma accepted_inv l : connectivity_accepted l = true ->
  (forall i, In i l -> interface_ok i = true) /\
  exists es ps, inner_edges l = Some es /\ all_patches l = Some ps /\ length es = 4 * length ps /\
    NoDup es /\ (forall e, In e es <-> used_edge l e) /\ NoDup ps /\
    (forall p, In p ps <-> exists e, used_edge l e /\ associated_patch e = p).
Proof.
  unfold connectivity_accepted. rewrite andb_true_iff, forallb_forall. intros [H0 H]. split; auto.
  unfold all_patches in *. destruct (inner_edges l) as [es|] eqn:E; [|discriminate]. simpl in *.
  apply Nat.eqb_eq in H. exists es, (extract_patches es).
  unfold inner_edges in E. apply strip_spec in E as [E1 E2].
  assert (Hu : forall e, In e es <-> used_edge l e).
  { intros e. rewrite E2, in_app_iff, !in_map_iff. unfold used_edge, touches. split.
    - intros [(i & ? & ?)|(i & ? & ?)]; eauto.
    - intros (i & ? & [?|?]); eauto. }
  destruct (extract_spec es) as [P1 P2].
  repeat split; auto; try apply Hu; intros.
  - apply P2 in H1 as (e & ? & ?). exists e. split; auto. now apply Hu.
  - destruct H1 as (e & ? & ?). apply P2. exists e. split; auto. now apply Hu.
Qed.

Definition sides_of (p : patch) : list edge :=
  [Edge p (p_grid1 p) FRONT; Edge p (p_grid1 p) BACK; Edge p (p_grid2 p) FRONT; Edge p (p_grid2 p) BACK].

Lemma in_sides p e : In e (sides_of p) <-> associated_patch e = p /\ proper_edge e.
Proof.
  unfold sides_of, proper_edge. destruct e as [q g x]; simpl. split.
  - intros [H|[H|[H|[H|[]]]]]; injection H as <- <- <-; auto.
  - intros [-> [-> | ->]]; destruct x; auto 6.
Qed.

Lemma flat_map_length4 ps : length (flat_map sides_of ps) = 4 * length ps.
Proof. induction ps; simpl in *; lia. Qed.

Lemma complete_edges l : connectivity_accepted l = true ->
  (forall e, used_edge l e -> proper_edge e) ->
  forall e e', used_edge l e -> associated_patch e' = associated_patch e -> proper_edge e' -> used_edge l e'.
Proof.
  intros Ha Hp e e' Hu Hpe He'. destruct (accepted_inv _ Ha) as (_ & es & ps & _ & _ & Hlen & Hnd & Hes & Hnp & Hps).
  apply Hes. apply (NoDup_length_incl (l' := flat_map sides_of ps)) in Hnd.
  - apply Hnd, in_flat_map. exists (associated_patch e). split; [apply Hps; eauto | now apply in_sides].
  - rewrite flat_map_length4. lia.
  - intros x Hx. apply Hes in Hx. apply in_flat_map. exists (associated_patch x).
    split; [apply Hps; eauto | apply in_sides; auto].
Qed.

(* ---------- interfaces of an edge ---------- *)
Lemma opposite_involutive e : opposite (opposite e) = e.
Proof. destruct e as [p g []]; reflexivity. Qed.
Lemma opposite_neq e : opposite e <> e.
Proof. destruct e as [p g []]; discriminate. Qed.
Lemma opposite_grid e : perpendicular_grid (opposite e) = perpendicular_grid e.
Proof. reflexivity. Qed.
Lemma swap_opposite e : swap_extremity e = opposite e.
Proof. reflexivity. Qed.
Lemma opposite_proper e : proper_edge e -> proper_edge (opposite e).
Proof. auto. Qed.

Section Geo.
  Variable l : list interface.
  Hypothesis G : geometry l.
  Hypothesis Acc : connectivity_accepted l = true.

  Lemma used_opposite e : used_edge l e -> used_edge l (opposite e).
  Proof.
    intros H. apply (complete_edges l Acc (geo_proper _ G) e); auto. apply opposite_proper. now apply G.
  Qed.
  Lemma glued_used e s : glued l e s -> used_edge l e.
  Proof. intros (i & Hi & [[? ?]|[? ?]]); exists i; split; auto; [left|right]; auto. Qed.
  Lemma glued_sym e e' : glued l e (Some e') -> glued l e' (Some e).
  Proof. intros (i & Hi & [[? ?]|[? ?]]); exists i; split; auto. Qed.
  Lemma glued_fun e s s' : glued l e s -> glued l e s' -> s = s'.
  Proof.
    intros (i & Hi & H) (j & Hj & H').
    assert (i = j).
    { apply (geo_once _ G i j e); auto; unfold touches; tauto. }
    subst j. pose proof (geo_sides _ G i Hi).
    destruct H as [[? ?]|[? ?]], H' as [[? ?]|[? ?]]; congruence.
  Qed.
  Lemma glued_irrefl e : ~ glued l e (Some e).
  Proof. intros (i & Hi & [[? ?]|[? ?]]); apply (geo_sides _ G i Hi); congruence. Qed.

  Lemma find_interface_spec e : used_edge l e -> exists i, find_interface e l = Some i /\ In i l /\ touches i e.
  Proof.
    pose proof (geo_sides _ G) as Hs. clear G Acc. intros (i & Hi & Ht).
    induction l as [|j r IH]; [destruct Hi|]. simpl.
    destruct (side_eq_dec (i_edge1 j) (Some e)) as [E1|E1], (side_eq_dec (i_edge2 j) (Some e)) as [E2|E2].
    - exfalso. apply (Hs j); [now left|congruence].
    - exists j. unfold touches. simpl; auto.
    - exists j. unfold touches. simpl; auto.
    - destruct Hi as [<-|Hi]; [destruct Ht; congruence|].
      destruct IH as (k & ? & ? & ?); auto. { intros; apply Hs; now right. }
      exists k. simpl; auto.
  Qed.

  Lemma equivalent_spec e s : glued l e s -> equivalent_edge e l = Some s.
  Proof.
    intros Hg. destruct (find_interface_spec e (glued_used _ _ Hg)) as (i & Hf & Hi & Ht).
    unfold equivalent_edge. rewrite Hf. unfold other_edge.
    destruct (side_eq_dec (Some e) (i_edge1 i)) as [E1|E1].
    - f_equal. eapply glued_fun; [|eauto]. exists i; auto.
    - destruct (side_eq_dec (Some e) (i_edge2 i)) as [E2|E2].
      + f_equal. eapply glued_fun; [|eauto]. exists i; auto.
      + destruct Ht; congruence.
  Qed.
  Lemma used_glued e : used_edge l e -> exists s, glued l e s.
  Proof. intros (i & Hi & [H|H]); [exists (i_edge2 i)|exists (i_edge1 i)]; exists i; auto. Qed.

  Lemma same_grid e e' : used_edge l e -> used_edge l e' -> perpendicular_grid e = perpendicular_grid e' ->
    e = e' \/ e = opposite e'.
  Proof.
    intros Hu Hu' Hg. assert (Hp : associated_patch e = associated_patch e').
    { pose proof (geo_proper _ G e Hu) as P1. pose proof (geo_proper _ G e' Hu') as P2. unfold proper_edge in *.
      apply (geo_patch _ G e e' (perpendicular_grid e)); auto. rewrite Hg. auto. }
    destruct e as [p g x], e' as [p' g' x']; simpl in *. subst. unfold opposite; simpl.
    destruct x, x'; auto.
  Qed.

  (* ----- lines ----- *)
  Lemma line_nil : line l [].
  Proof. intros k w w' H. destruct k; discriminate. Qed.
  Lemma line_one e : line l [e].
  Proof. intros k w w' _ H. destruct k as [|[]]; discriminate. Qed.
  Lemma line_app_l a b : line l (a ++ b) -> line l a.
  Proof.
    intros H k w w' H1 H2. apply (H k); rewrite nth_error_app1; auto; apply nth_error_Some; congruence.
  Qed.
  Lemma line_app_r a b : line l (a ++ b) -> line l b.
  Proof.
    intros H k w w' H1 H2. apply (H (length a + k)).
    - rewrite nth_error_app2 by lia. now replace (length a + k - length a) with k by lia.
    - rewrite nth_error_app2 by lia. now replace (S (length a + k) - length a) with (S k) by lia.
  Qed.
  Lemma line_snoc x y z : line l (x ++ [y]) -> glued l y (Some (opposite z)) -> line l ((x ++ [y]) ++ [z]).
  Proof.
    intros H Hg k w w' H1 H2.
    assert (Hk : S k < length ((x ++ [y]) ++ [z])) by (apply nth_error_Some; congruence).
    rewrite app_length in Hk. simpl in Hk.
    destruct (Nat.eq_dec (S k) (length (x ++ [y]))) as [E|E].
    - rewrite nth_error_app2 in H2 by lia. rewrite E, Nat.sub_diag in H2. injection H2 as <-.
      rewrite nth_error_app1 in H1 by lia. rewrite app_length in E. simpl in E.
      rewrite nth_error_app2 in H1 by lia. replace (k - length x) with 0 in H1 by lia. injection H1 as <-. auto.
    - rewrite nth_error_app1 in H1, H2 by lia. now apply (H k).
  Qed.
  Lemma line_glued x y z r : line l (x ++ y :: z :: r) -> glued l y (Some (opposite z)).
  Proof.
    intros H. apply (H (length x)).
    - rewrite nth_error_app2, Nat.sub_diag by lia. reflexivity.
    - rewrite nth_error_app2 by lia. now replace (S (length x) - length x) with 1 by lia.
  Qed.
  Lemma line_join x y q : line l (x ++ [y]) -> line l (y :: q) -> line l (x ++ y :: q).
  Proof.
    revert x y. induction q as [|z q IH]; intros x y H1 H2; auto.
    replace (x ++ y :: z :: q) with ((x ++ [y]) ++ z :: q) by now rewrite <- app_assoc.
    apply IH.
    - apply line_snoc; auto. apply (line_glued [] y z q H2).
    - apply (line_app_r [y] _ H2).
  Qed.
  Lemma line_rev p : line l p -> line l (rev (map opposite p)).
  Proof.
    induction p as [|a p IH]; intros H; [apply line_nil|].
    destruct p as [|b p]; [apply line_one|]. simpl map in *.
    change (rev (opposite a :: opposite b :: map opposite p)) with
      (rev (opposite b :: map opposite p) ++ [opposite a]).
    assert (E : rev (opposite b :: map opposite p) = rev (map opposite p) ++ [opposite b]) by reflexivity.
    rewrite E. apply line_snoc.
    - rewrite <- E. apply IH. apply (line_app_r [a] _ H).
    - rewrite opposite_involutive. apply glued_sym. apply (line_glued [] a b p H).
  Qed.

  Lemma nodup_map_inj {A B} (f : A -> B) xs i j x y : NoDup (map f xs) ->
    nth_error xs i = Some x -> nth_error xs j = Some y -> f x = f y -> i = j.
  Proof.
    intros Hn Hx Hy E. apply (NoDup_nth_error (map f xs)); auto.
    - rewrite map_length. apply nth_error_Some; congruence.
    - rewrite (map_nth_error _ _ _ Hx), (map_nth_error _ _ _ Hy). congruence.
  Qed.
  Lemma nth_error_last {A} (xs : list A) x : nth_error (xs ++ [x]) (length xs) = Some x.
  Proof. rewrite nth_error_app2, Nat.sub_diag by lia. reflexivity. Qed.

  (* a line which comes back to a grid comes back to its first edge *)
  Lemma line_stop p e : line l (p ++ [e]) -> (forall x, In x (p ++ [e]) -> used_edge l x) ->
    NoDup (map perpendicular_grid p) -> In (perpendicular_grid e) (map perpendicular_grid p) ->
    nth_error p 0 = Some e.
  Proof.
    intros Hl Hu Hn Hin. apply in_map_iff in Hin as (ej & Hgj & Hj).
    assert (Huj : used_edge l ej) by (apply Hu, in_or_app; auto).
    assert (Hue : used_edge l e) by (apply Hu, in_or_app; simpl; auto).
    apply In_nth_error in Hj as (j & Hj).
    assert (Hjk : j < length p) by (apply nth_error_Some; congruence).
    destruct (nth_error p (length p - 1)) as [z|] eqn:Hz.
    2:{ apply nth_error_None in Hz. lia. }
    assert (Hgz : glued l z (Some (opposite e))).
    { apply (Hl (length p - 1)).
      - rewrite nth_error_app1 by lia. auto.
      - replace (S (length p - 1)) with (length p) by lia. apply nth_error_last. }
    destruct (same_grid e ej Hue Huj (eq_sym Hgj)) as [E|E].
    - subst ej. destruct j as [|j]; auto. exfalso.
      destruct (nth_error p j) as [y|] eqn:Hy. 2:{ apply nth_error_None in Hy. lia. }
      assert (Hgy : glued l y (Some (opposite e))).
      { apply (Hl j); rewrite nth_error_app1 by lia; auto. }
      assert (y = z).
      { pose proof (glued_fun _ _ _ (glued_sym _ _ Hgy) (glued_sym _ _ Hgz)). congruence. }
      subst z. assert (j = length p - 1) by (eapply nodup_map_inj; eauto). lia.
    - exfalso. rewrite E, opposite_involutive in Hgz.
      destruct (Nat.eq_dec j (length p - 1)) as [Ej|Ej].
      + assert (ej = z) by congruence. subst. now apply glued_irrefl in Hgz.
      + destruct (nth_error p (S j)) as [y|] eqn:Hy. 2:{ apply nth_error_None in Hy. lia. }
        assert (Hgy : glued l ej (Some (opposite y))).
        { apply (Hl j); rewrite nth_error_app1 by lia; auto. }
        pose proof (glued_fun _ _ _ (glued_sym _ _ Hgz) Hgy) as E'. injection E' as E'.
        assert (S j = length p - 1).
        { eapply nodup_map_inj; eauto. rewrite E'. reflexivity. }
        assert (y = z) by congruence. subst y. symmetry in E'. now apply opposite_neq in E'.
  Qed.

  (* ----- the walk along grids ----- *)
  Definition build {A} (pos : insert_position) (xs : list A) : list A :=
    match pos with FrontInsert => xs | BackInsert => rev xs end.
  Lemma in_build {A} pos (xs : list A) x : In x (build pos xs) <-> In x xs.
  Proof. destruct pos; simpl; [tauto|]. symmetry. apply in_rev. Qed.
  Lemma add_build {A} (dec : forall a b : A, {a = b} + {a <> b}) x pos xs : ~ In x xs ->
    add_to_type_seq dec x (build pos xs) pos = build pos (xs ++ [x]).
  Proof.
    intros H. destruct pos; simpl.
    - rewrite merge_disjoint; auto. intros y [<-|[]]; auto.
    - rewrite merge_disjoint. { now rewrite rev_unit. }
      intros y Hy [<-|[]]. apply in_rev in Hy. auto.
  Qed.

  Definition line_ends (p : list edge) : Prop :=
    exists first last, nth_error p 0 = Some first /\ nth_error p (length p - 1) = Some last /\
      (glued l last None \/ glued l last (Some (opposite first))).

  Lemma nodup_snoc {A} (xs : list A) x : NoDup xs -> ~ In x xs -> NoDup (xs ++ [x]).
  Proof. intros. apply nodup_app; auto. { repeat constructor; auto. } intros y Hy [<-|[]]; auto. Qed.

  Lemma walk_grids es pos fuel : (forall e, used_edge l e -> In e es) -> forall p e,
    line l (p ++ [e]) -> (forall x, In x (p ++ [e]) -> used_edge l x) ->
    NoDup (map perpendicular_grid p) -> length es < length p + fuel ->
    exists q, collect_grids_along_dim fuel e l pos (build pos (map perpendicular_grid p))
              = Some (build pos (map perpendicular_grid (p ++ q))) /\
      NoDup (map perpendicular_grid (p ++ q)) /\ line l (p ++ q) /\ (forall x, In x (p ++ q) -> used_edge l x) /\
      line_ends (p ++ q) /\
      (In (perpendicular_grid e) (map perpendicular_grid p) -> q = []) /\
      (~ In (perpendicular_grid e) (map perpendicular_grid p) -> exists q', q = e :: q').
  Proof.
    intros Hes. induction fuel as [|fuel IH]; intros p e Hl Hu Hn Hf.
    { exfalso. apply NoDup_map_inv in Hn.
      assert (length p <= length es); [|lia].
      apply NoDup_incl_length; auto. intros x Hx. apply Hes, Hu, in_or_app; auto. }
    cbn [collect_grids_along_dim].
    assert (Hue : used_edge l e) by (apply Hu, in_or_app; simpl; auto).
    destruct (used_glued e Hue) as [s Hg]. rewrite (equivalent_spec _ _ Hg).
    destruct (in_tags Nat.eq_dec (perpendicular_grid e) (build pos (map perpendicular_grid p))) eqn:Et.
    - apply in_tags_iff, in_build in Et. exists []. rewrite app_nil_r. repeat split; auto.
      + apply line_app_l in Hl; auto.
      + intros; apply Hu, in_or_app; auto.
      + pose proof (line_stop p e Hl Hu Hn Et) as Hs.
        destruct (nth_error p (length p - 1)) as [z|] eqn:Hz.
        2:{ apply nth_error_None in Hz. destruct p; [discriminate|simpl in Hz; lia]. }
        exists e, z. repeat split; auto. right. apply (Hl (length p - 1)).
        * rewrite nth_error_app1; auto. destruct p; [discriminate|simpl; lia].
        * replace (S (length p - 1)) with (length p) by (destruct p; [discriminate|simpl; lia]). apply nth_error_last.
      + tauto.
    - apply in_tags_false in Et. rewrite in_build in Et. rewrite add_build by auto.
      change ([perpendicular_grid e]) with (map perpendicular_grid [e]). rewrite <- map_app.
      assert (Hn' : NoDup (map perpendicular_grid (p ++ [e]))) by (rewrite map_app; apply nodup_snoc; auto).
      destruct s as [m|].
      + destruct (IH (p ++ [e]) (swap_extremity m)) as (q & Hq1 & Hq2 & Hq3 & Hq4 & Hq5 & _ & _); auto.
        * apply line_snoc; auto. change (swap_extremity m) with (opposite m). rewrite opposite_involutive. auto.
        * intros x Hx. apply in_app_iff in Hx as [Hx|[<-|[]]]; auto.
          change (swap_extremity m) with (opposite m). apply used_opposite. apply glued_used with (Some e). now apply glued_sym.
        * rewrite app_length. simpl. lia.
        * exists (e :: q).
          rewrite <- app_assoc in Hq1, Hq2, Hq3, Hq4, Hq5. simpl in Hq1, Hq2, Hq3, Hq4, Hq5.
          repeat split; auto. { tauto. } { intros _; eauto. }
      + exists [e]. repeat split; auto.
        * destruct (nth_error (p ++ [e]) 0) as [f|] eqn:Ef.
          2:{ apply nth_error_None in Ef. rewrite app_length in Ef. simpl in Ef. lia. }
          exists f, e. rewrite app_length. simpl. replace (length p + 1 - 1) with (length p) by lia.
          repeat split; auto. apply nth_error_last.
        * tauto.
        * intros _; eauto.
  Qed.

  Lemma nth_error_app_first {A} (a b : list A) x : nth_error a 0 = Some x -> nth_error (a ++ b) 0 = Some x.
  Proof. destruct a; [discriminate|auto]. Qed.

  Lemma map_grid_rev_opp es0 :
    map perpendicular_grid (rev (map opposite es0)) = rev (map perpendicular_grid es0).
  Proof. rewrite map_rev, map_map. f_equal. Qed.

  (* the line through (p, g): the edges e0 = FRONT, e1, ... backward, then the whole line *)
  Lemma collect_grids_line es fuel p g : (forall e, used_edge l e -> In e es) -> length es < fuel ->
    used_edge l (Edge p g FRONT) ->
    exists bs fs,
      let ws := rev (map opposite bs) ++ Edge p g BACK :: fs in
      collect_grids_along_dim fuel (Edge p g FRONT) l BackInsert [] = Some (rev (map perpendicular_grid (Edge p g FRONT :: bs))) /\
      collect_grids_on_dim fuel p g l = Some (map perpendicular_grid ws) /\
      NoDup (map perpendicular_grid ws) /\ line l ws /\ line l (Edge p g FRONT :: bs) /\
      (forall x, In x ws -> used_edge l x) /\
      (open_line l ws \/ (closed_line l ws /\ fs = [])).
  Proof.
    intros Hes Hf Hu0. set (e0 := Edge p g FRONT) in *.
    destruct (walk_grids es BackInsert fuel Hes [] e0) as (q & Hq1 & Hq2 & Hq3 & Hq4 & Hq5 & _ & Hq6).
    { apply line_one. } { intros x [<-|[]]; auto. } { constructor. } { simpl; lia. }
    destruct Hq6 as (bs & ->); [simpl; auto|]. simpl app in *.
    set (f0 := Edge p g BACK). assert (Ef0 : f0 = opposite e0) by reflexivity.
    assert (Hr : rev (map opposite (e0 :: bs)) = rev (map opposite bs) ++ [f0]) by (simpl; now rewrite Ef0).
    destruct (walk_grids es FrontInsert fuel Hes (rev (map opposite bs)) f0) as (r & Hr1 & Hr2 & Hr3 & Hr4 & Hr5 & _ & Hr6).
    { rewrite <- Hr. apply line_rev; auto. }
    { rewrite <- Hr. intros x Hx. apply in_rev, in_map_iff in Hx as (y & <- & Hy). apply used_opposite; auto. }
    { rewrite map_grid_rev_opp. apply NoDup_rev. inversion Hq2; auto. }
    { lia. }
    assert (Hni : ~ In (perpendicular_grid f0) (map perpendicular_grid (rev (map opposite bs)))).
    { rewrite map_grid_rev_opp, <- in_rev. inversion Hq2; auto. }
    destruct (Hr6 Hni) as (fs & ->). exists bs, fs. intros ws.
    assert (Hws : ws = rev (map opposite (e0 :: bs)) ++ fs) by (rewrite Hr, <- app_assoc; reflexivity).
    repeat split; auto.
    - unfold collect_grids_on_dim. fold e0. fold f0.
      replace (collect_grids_along_dim fuel e0 l BackInsert [])
        with (Some (rev (map perpendicular_grid (e0 :: bs)))) by (symmetry; exact Hq1).
      rewrite range_firstn; [| apply NoDup_rev; auto | lia].
      assert (Hfn : firstn (length (rev (map perpendicular_grid (e0 :: bs))) - 1) (rev (map perpendicular_grid (e0 :: bs)))
                    = map perpendicular_grid (rev (map opposite bs))).
      { rewrite map_grid_rev_opp. simpl. rewrite app_length. simpl.
        replace (length (rev (map perpendicular_grid bs)) + 1 - 1) with (length (rev (map perpendicular_grid bs)) + 0) by lia.
        rewrite firstn_app_2. simpl. now rewrite app_nil_r. }
      rewrite Hfn. simpl build in Hr1. rewrite Hr1. f_equal.
      fold ws. rewrite Hws, map_app, map_grid_rev_opp.
      apply merge_prefix. intros x Hx Hx'.
      fold ws in Hr2. rewrite Hws, map_app, map_grid_rev_opp in Hr2.
      clear - Hr2 Hx Hx'. revert Hr2 Hx'. generalize (rev (map perpendicular_grid (e0 :: bs))) as a.
      intros a. induction a as [|b a IHa]; simpl; intros Hn Hin; [tauto|].
      inversion Hn; subst. destruct Hin as [->|Hin]; auto. apply H1, in_or_app; auto.
    - destruct Hq5 as (fst & lst & Hf1 & Hf2 & Hend). simpl in Hf1. injection Hf1 as <-.
      destruct Hr5 as (fst' & lst' & Hf1' & Hf2' & Hend'). fold ws in Hf1', Hf2'.
      (* first edge of ws is the opposite of the last backward edge *)
      assert (Hfirst : fst' = opposite lst).
      { rewrite Hws in Hf1'. simpl map in Hf1'.
        destruct (exists_last (l := e0 :: bs)) as (pre & z & Ez); [discriminate|].
        assert (lst = z).
        { rewrite Ez in Hf2. rewrite app_length in Hf2. simpl in Hf2.
          replace (length pre + 1 - 1) with (length pre) in Hf2 by lia. rewrite nth_error_last in Hf2. congruence. }
        subst z. change (opposite e0 :: map opposite bs) with (map opposite (e0 :: bs)) in Hf1'.
        rewrite Ez, map_app, rev_app_distr in Hf1'. simpl in Hf1'. congruence. }
      destruct Hend as [Hend|Hend].
      + left. exists fst', lst'. repeat split; auto.
        * rewrite Hfirst, opposite_involutive. auto.
        * destruct Hend' as [?|Hc]; auto. exfalso. rewrite Hfirst, opposite_involutive in Hc.
          apply glued_sym in Hc. pose proof (glued_fun _ _ _ Hend Hc). discriminate.
      + right. destruct fs as [|f1 fs].
        * split; auto. exists fst', lst'. repeat split; auto. destruct Hend' as [Hc|?]; auto.
          exfalso. assert (lst' = f0).
          { subst ws. rewrite app_length in Hf2'. simpl in Hf2'.
            replace (length (rev (map opposite bs)) + 1 - 1) with (length (rev (map opposite bs))) in Hf2' by lia.
            rewrite nth_error_last in Hf2'. congruence. }
          subst lst'. rewrite <- Ef0 in Hend. apply glued_sym in Hend.
          pose proof (glued_fun _ _ _ Hend Hc). discriminate.
        * exfalso. pose proof (line_glued _ _ _ _ Hr3) as Hg.
          rewrite <- Ef0 in Hend. apply glued_sym in Hend.
          pose proof (glued_fun _ _ _ Hend Hg) as E. injection E as E.
          rewrite E, opposite_involutive in Hfirst.
          assert (0 = S (length (rev (map opposite bs)))).
          { apply (nodup_map_inj perpendicular_grid ws 0 _ fst' f1); auto.
            - subst ws. rewrite nth_error_app2 by lia.
              replace (S (length (rev (map opposite bs))) - length (rev (map opposite bs))) with 1 by lia. reflexivity.
            - congruence. }
          discriminate.
  Qed.
End Geo.
