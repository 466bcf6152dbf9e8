(** The infinity norm. *)
From Coq Require Import Lra Lia Permutation.
From Verif Require Import NrmSpec.
Open Scope R_scope.

Lemma dlt_dle : forall x y, number x -> number y -> dlt x y = false -> dle y x.
Proof.
  intros [a|[]|] [b|[]|] Hx Hy E; cbn in *; try congruence; try exact Logic.I; try (exfalso; apply Hx; reflexivity); try (exfalso; apply Hy; reflexivity).
  destruct (Rlt_dec a b); [discriminate|lra].
Qed.
Lemma dlt_le : forall x y, dlt x y = true -> dle x y.
Proof. intros [a|[]|] [b|[]|] E; cbn in *; try discriminate; try exact Logic.I. destruct (Rlt_dec a b); [lra|discriminate]. Qed.
Lemma dle_refl : forall x, number x -> dle x x.
Proof. intros [a|[]|] H; cbn; try exact Logic.I; [lra|congruence]. Qed.
Lemma dle_trans : forall x y z, dle x y -> dle y z -> dle x z.
Proof. intros [a|[]|] [b|[]|] [c|[]|]; cbn; try tauto. lra. Qed.
Lemma dle_antisym : forall x y, dle x y -> dle y x -> x = y.
Proof. intros [a|[]|] [b|[]|]; cbn; try tauto; intros H G. f_equal; lra. Qed.
Lemma dle_number : forall x y, dle x y -> number x /\ number y.
Proof. intros [a|[]|] [b|[]|] H; split; discriminate || destruct H. Qed.
Lemma dmax_ok : forall x y, number x -> number y -> dle x (dmax x y) /\ dle y (dmax x y) /\ (dmax x y = x \/ dmax x y = y).
Proof.
  intros x y Hx Hy. unfold dmax. destruct (dlt x y) eqn:E.
  - split; [apply dlt_le; exact E|]. split; [apply dle_refl; exact Hy|right; reflexivity].
  - split; [apply dle_refl; exact Hx|]. split; [apply dlt_dle; assumption|left; reflexivity].
Qed.
Lemma rmax_ok : forall x y, number x -> number y -> dle x (reducer_max x y) /\ dle y (reducer_max x y) /\ (reducer_max x y = x \/ reducer_max x y = y).
Proof.
  intros x y Hx Hy. unfold reducer_max. destruct (dlt y x) eqn:E.
  - split; [apply dle_refl; exact Hx|]. split; [apply dlt_le; exact E|left; reflexivity].
  - split; [apply dlt_dle; assumption|]. split; [apply dle_refl; exact Hy|right; reflexivity].
Qed.
Lemma dabs_number : forall x, number x -> number (dabs x).
Proof. intros [a| |] H; try discriminate. congruence. Qed.
Lemma dabs_pos : forall x, number x -> dle (Fin 0) (dabs x).
Proof. intros [a| |] H; cbn; [apply Rabs_pos|exact Logic.I|congruence]. Qed.

(** a bound which is attained *)
Definition lub (xs : list dbl) (r : dbl) : Prop :=
  (forall x, In x xs -> dle x r) /\ (r = Fin 0 \/ In r xs) /\ dle (Fin 0) r.
Lemma fold_max : forall xs r0, number r0 -> (forall x, In x xs -> number x) ->
  dle r0 (fold_left (fun r x => dmax r x) xs r0) /\
  (forall x, In x xs -> dle x (fold_left (fun r x => dmax r x) xs r0)) /\
  (fold_left (fun r x => dmax r x) xs r0 = r0 \/ In (fold_left (fun r x => dmax r x) xs r0) xs).
Proof.
  induction xs as [|x xs IH]; intros r0 H0 HX; [split; [apply dle_refl; exact H0|split; [intros ? []|left; reflexivity]]|].
  cbn [fold_left]. assert (Nx := HX x (or_introl eq_refl)). destruct (dmax_ok r0 x H0 Nx) as (A & B & C).
  destruct (IH (dmax r0 x)) as (I1 & I2 & I3); [apply (dle_number _ _ A)|intros y Hy; apply HX; right; exact Hy|].
  split; [exact (dle_trans _ _ _ A I1)|]. split.
  - intros y [<-|Hy]; [exact (dle_trans _ _ _ B I1)|exact (I2 y Hy)].
  - destruct I3 as [I3|I3]; [|right; right; exact I3]. destruct C as [C|C]; [left; congruence|right; left; congruence].
Qed.
Lemma max_loop_lub : forall xs, (forall x, In x xs -> number x) -> lub xs (max_loop xs).
Proof.
  intros xs H. unfold max_loop. destruct (fold_max xs (Fin 0) ltac:(discriminate) H) as (A & B & C). split; [exact B|split; assumption].
Qed.
Lemma fold_map : forall (xs : list dbl) r0, fold_left (fun r x => dmax r (dabs x)) xs r0 = fold_left (fun r x => dmax r x) (map dabs xs) r0.
Proof. induction xs as [|x xs IH]; intros r0; [reflexivity|]. cbn. apply IH. Qed.
Lemma lub_abs : forall xs r, lub (map dabs xs) r -> largest_abs xs r.
Proof.
  intros xs r (A & B & _). split.
  - intros x Hx. apply A. apply in_map. exact Hx.
  - destruct B as [B|B]; [left; exact B|right]. apply in_map_iff in B. destruct B as (x & E & Hx). exists x. split; [exact Hx|symmetry; exact E].
Qed.
Lemma abs_lub : forall xs r, dle (Fin 0) r -> largest_abs xs r -> lub (map dabs xs) r.
Proof.
  intros xs r P (A & B). split; [|split; [|exact P]].
  - intros x Hx. apply in_map_iff in Hx. destruct Hx as (y & <- & Hy). apply A. exact Hy.
  - destruct B as [B|(x & Hx & ->)]; [left; exact B|right; apply in_map; exact Hx].
Qed.
Lemma components_lub : forall xs, (forall x, In x xs -> number x) -> lub (map dabs xs) (norm_inf_components xs).
Proof.
  intros xs H. unfold norm_inf_components. rewrite fold_map. apply max_loop_lub. intros x Hx. apply in_map_iff in Hx.
  destruct Hx as (y & <- & Hy). apply dabs_number. apply H. exact Hy.
Qed.
Theorem norm_components_ok : forall xs, (forall x, In x xs -> number x) -> largest_abs xs (norm_inf_components xs).
Proof. intros xs H. apply lub_abs. apply components_lub. exact H. Qed.
Lemma elem_lub : forall e, (forall x, In x (components e) -> number x) -> lub (map dabs (components e)) (norm_inf_elem e).
Proof.
  intros [x|xs] H; [|apply components_lub; exact H]. cbn in *.
  split; [intros y [<-|[]]; apply dle_refl; apply dabs_number; apply H; left; reflexivity|].
  split; [right; left; reflexivity|apply dabs_pos; apply H; left; reflexivity].
Qed.

Theorem lub_unique : forall xs r r', lub xs r -> lub xs r' -> r = r'.
Proof.
  intros xs r r' (A & B & C) (A' & B' & C'). apply dle_antisym.
  - destruct B as [->|B]; [exact C'|exact (A' r B)].
  - destruct B' as [->|B']; [exact C|exact (A r' B')].
Qed.
Lemma lub_flat : forall (X : Type) (l : list X) (f : X -> list dbl) (g : X -> dbl) r,
  (forall x, In x l -> lub (f x) (g x)) -> lub (map g l) r -> lub (flat_map f l) r.
Proof.
  intros X l f g r H (A & B & C). split; [|split; [|exact C]].
  - intros y Hy. apply in_flat_map in Hy. destruct Hy as (x & Hx & Hy). destruct (H x Hx) as (HA & _).
    apply (dle_trans _ (g x)); [exact (HA y Hy)|]. apply A. apply in_map. exact Hx.
  - destruct B as [B|B]; [left; exact B|]. apply in_map_iff in B. destruct B as (x & E & Hx). destruct (H x Hx) as (_ & HB & _).
    destruct HB as [HB|HB]; [left; congruence|]. right. apply in_flat_map. exists x. split; [exact Hx|]. rewrite <- E. exact HB.
Qed.

(** ** Reductions *)
Lemma reduce_lub : forall t f, (forall i, In i (leaves t) -> number (f i) /\ dle (Fin 0) (f i)) ->
  number (reduce t f) /\ lub (map f (leaves t)) (reduce t f).
Proof.
  intros t f. induction t as [i|l IHl r IHr|]; intros H; cbn [reduce leaves] in *.
  - destruct (H i (or_introl eq_refl)) as [N P]. split; [exact N|]. cbn. split; [intros x [<-|[]]; apply dle_refl; exact N|].
    split; [right; left; reflexivity|exact P].
  - destruct IHl as (Nl & Al & Bl & Cl). { intros i Hi. apply H. apply in_or_app. left. exact Hi. }
    destruct IHr as (Nr & Ar & Br & Cr). { intros i Hi. apply H. apply in_or_app. right. exact Hi. }
    destruct (rmax_ok _ _ Nl Nr) as (X & Y & Z). split; [apply (dle_number _ _ X)|]. rewrite map_app. split; [|split].
    + intros x Hx. apply in_app_or in Hx. destruct Hx as [Hx|Hx]; [exact (dle_trans _ _ _ (Al x Hx) X)|exact (dle_trans _ _ _ (Ar x Hx) Y)].
    + destruct Z as [-> | ->]; [destruct Bl as [B|B]|destruct Br as [B|B]]; try (left; exact B); right; apply in_or_app; auto.
    + exact (dle_trans _ _ _ Cl X).
  - split; [discriminate|]. split; [intros x []|]. split; [left; reflexivity|apply dle_refl; discriminate].
Qed.
Lemma lub_perm : forall xs ys r, (forall x, In x xs <-> In x ys) -> lub xs r -> lub ys r.
Proof.
  intros xs ys r H (A & B & C). split; [intros x Hx; apply A; apply H; exact Hx|]. split; [|exact C].
  destruct B as [B|B]; [left; exact B|right; apply H; exact B].
Qed.
Lemma norm_tree_lub : forall n t (e : nat -> elem), order_of n t ->
  (forall i x, (i < n)%nat -> In x (components (e i)) -> number x) ->
  lub (map dabs (all_components n e)) (reducer_max (Fin 0) (reduce t (fun i => norm_inf_elem (e i)))).
Proof.
  intros n t e P H.
  assert (EL : forall i, In i (leaves t) -> lub (map dabs (components (e i))) (norm_inf_elem (e i))).
  { intros i Hi. apply elem_lub. intros x Hx. apply (H i x); [|exact Hx]. apply (Permutation_in _ P) in Hi. apply in_seq in Hi. lia. }
  destruct (reduce_lub t (fun i => norm_inf_elem (e i))) as (NR & LR).
  { intros i Hi. destruct (EL i Hi) as (_ & _ & C). split; [apply (dle_number _ _ C)|exact C]. }
  assert (LF : lub (flat_map (fun i => map dabs (components (e i))) (leaves t)) (reduce t (fun i => norm_inf_elem (e i))))
    by (apply (lub_flat _ _ _ (fun i => norm_inf_elem (e i)) _ EL); exact LR).
  assert (E0 : reducer_max (Fin 0) (reduce t (fun i => norm_inf_elem (e i))) = reduce t (fun i => norm_inf_elem (e i))).
  { destruct LF as (_ & _ & C). destruct (rmax_ok (Fin 0) _ ltac:(discriminate) NR) as (X & Y & [Z|Z]); [|exact Z].
    rewrite Z in Y |- *. apply dle_antisym; assumption. }
  rewrite E0. apply (lub_perm _ _ _) with (2 := LF). intros x. unfold all_components. rewrite in_map_iff. split.
  - intros Hx. apply in_flat_map in Hx. destruct Hx as (i & Hi & Hx). apply in_map_iff in Hx. destruct Hx as (y & <- & Hy).
    exists y. split; [reflexivity|]. apply in_flat_map. exists i. split; [apply (Permutation_in _ P); exact Hi|exact Hy].
  - intros (y & <- & Hy). apply in_flat_map in Hy. destruct Hy as (i & Hi & Hy). apply in_flat_map. exists i.
    split; [apply (Permutation_in _ (Permutation_sym P)); exact Hi|apply in_map; exact Hy].
Qed.
Lemma lub_le_abs : forall xs r, lub (map dabs xs) r -> largest_abs xs r.
Proof. exact lub_abs. Qed.

Theorem norm_inf_ok : forall n t e, order_of n t ->
  (forall i x, (i < n)%nat -> In x (components (e i)) -> number x) ->
  largest_abs (all_components n e) (norm_inf t e).
Proof. intros n t e P H. apply lub_abs. apply (norm_tree_lub n t e P H). Qed.
Theorem norm_inf_schedule : forall n t t' e, order_of n t -> order_of n t' ->
  (forall i x, (i < n)%nat -> In x (components (e i)) -> number x) -> norm_inf t e = norm_inf t' e.
Proof. intros n t t' e P P' H. exact (lub_unique _ _ _ (norm_tree_lub n t e P H) (norm_tree_lub n t' e P' H)). Qed.
Theorem multipatch_norm_ok : forall (l : list (nat * tree * (nat -> elem))),
  (forall n t e, In (n, t, e) l -> order_of n t /\ forall i x, (i < n)%nat -> In x (components (e i)) -> number x) ->
  largest_abs (flat_map (fun p => all_components (fst (fst p)) (snd p)) l)
    (multipatch_norm_inf (map (fun p => (snd (fst p), snd p)) l)).
Proof.
  intros l H. apply lub_abs. unfold multipatch_norm_inf. rewrite map_map. cbn [fst snd].
  assert (E : map dabs (flat_map (fun p => all_components (fst (fst p)) (snd p)) l)
              = flat_map (fun p : nat * tree * (nat -> elem) => map dabs (all_components (fst (fst p)) (snd p))) l).
  { clear. induction l as [|p l IH]; [reflexivity|]. cbn. rewrite map_app, IH. reflexivity. }
  rewrite E. apply (lub_flat _ _ _ (fun p => norm_inf (snd (fst p)) (snd p))).
  - intros [[n t] e] Hp. destruct (H n t e Hp) as [P HN]. exact (norm_tree_lub n t e P HN).
  - apply max_loop_lub. intros x Hx. apply in_map_iff in Hx. destruct Hx as ([[n t] e] & <- & Hp). destruct (H n t e Hp) as [P HN].
    destruct (norm_tree_lub n t e P HN) as (_ & _ & C). apply (dle_number _ _ C).
Qed.

(** ** Errors *)
Definition dist (a b : elem) : list dbl := components (elem_sub a b).
Theorem error_norm_is_norm : forall t f g, error_norm_inf t f g = norm_inf t (fun i => elem_sub (f i) (g i)).
Proof. reflexivity. Qed.
Theorem multipatch_error_is_norm : forall l, multipatch_error_norm_inf l =
  multipatch_norm_inf (map (fun p => (fst (fst p), fun i => elem_sub (snd (fst p) i) (snd p i))) l).
Proof. intros l. unfold multipatch_error_norm_inf, multipatch_norm_inf. rewrite map_map. reflexivity. Qed.

Lemma sub_list_in : forall xs ys x, In x (sub_list xs ys) -> exists a b, In a xs /\ In b ys /\ x = dsub a b.
Proof.
  induction xs as [|a xs IH]; intros [|b ys] x H; try destruct H.
  - exists a, b. split; [left; reflexivity|]. split; [left; reflexivity|symmetry; assumption].
  - destruct (IH ys x H) as (c & d & Hc & Hd & E). exists c, d. split; [right; exact Hc|]. split; [right; exact Hd|exact E].
Qed.
Lemma finite_sub : forall a b, finite a -> finite b -> same_shape a b -> finite (elem_sub a b).
Proof.
  intros [x|xs] [y|ys] FA FB SH; try (cbn in SH; contradiction); intros z Hz; cbn in Hz.
  - destruct Hz as [<-|[]]. destruct (FA x) as (r & ->); [left; reflexivity|]. destruct (FB y) as (s & ->); [left; reflexivity|].
    cbn. eauto.
  - apply sub_list_in in Hz. destruct Hz as (a & b & Ha & Hb & ->). destruct (FA a Ha) as (r & ->). destruct (FB b Hb) as (s & ->).
    cbn. eauto.
Qed.
Lemma sub_zero : forall a b, finite a -> finite b -> same_shape a b ->
  (a = b <-> forall x, In x (components (elem_sub a b)) -> x = Fin 0).
Proof.
  intros [x|xs] [y|ys] FA FB SH; try (cbn in SH; contradiction).
  - destruct (FA x) as (r & ->); [left; reflexivity|]. destruct (FB y) as (s & ->); [left; reflexivity|]. cbn. split.
    + intros E z [<-|[]]. injection E as ->. f_equal. lra.
    + intros H. specialize (H _ (or_introl eq_refl)). injection H as H. f_equal. f_equal. lra.
  - cbn in SH |- *. transitivity (xs = ys); [split; [intros E; injection E as ->; reflexivity|intros ->; reflexivity]|].
    revert ys SH FB. induction xs as [|a xs IH]; intros [|b ys] SH FB; try discriminate.
    + split; [intros _ z []|reflexivity].
    + destruct (FA a) as (r & ->); [left; reflexivity|]. destruct (FB b) as (s & ->); [left; reflexivity|].
      specialize (IH (fun z Hz => FA z (or_intror Hz)) ys ltac:(cbn in SH; lia) (fun z Hz => FB z (or_intror Hz))). cbn [sub_list dsub]. split.
      * intros E z Hz. injection E as -> ->. destruct Hz as [<-|Hz]; [f_equal; lra|]. exact (proj1 IH eq_refl z Hz).
      * intros H. assert (H0 := H _ (or_introl eq_refl)). injection H0 as H0. f_equal; [f_equal; lra|]. apply IH.
        intros z Hz. apply H. right. exact Hz.
Qed.
Theorem error_norm_zero : forall n t f g, order_of n t ->
  (forall i, (i < n)%nat -> finite (f i) /\ finite (g i) /\ same_shape (f i) (g i)) ->
  (error_norm_inf t f g = Fin 0 <-> forall i, (i < n)%nat -> f i = g i).
Proof.
  intros n t f g P H. set (e := fun i => elem_sub (f i) (g i)).
  assert (FE : forall i x, (i < n)%nat -> In x (components (e i)) -> exists r, x = Fin r).
  { intros i x Hi Hx. destruct (H i Hi) as (A & B & C). exact (finite_sub _ _ A B C x Hx). }
  assert (L := norm_tree_lub n t e P ltac:(intros i x Hi Hx; destruct (FE i x Hi Hx) as (r & ->); discriminate)).
  fold (norm_inf t e) in L. change (error_norm_inf t f g) with (norm_inf t e). split.
  - intros E i Hi. destruct (H i Hi) as (A & B & C). apply (sub_zero _ _ A B C). intros x Hx.
    destruct (FE i x Hi Hx) as (r & ->). destruct L as (LA & _ & _). rewrite E in LA. specialize (LA (dabs (Fin r))).
    assert (W : dle (dabs (Fin r)) (Fin 0)).
    { apply LA. apply in_map. unfold all_components. apply in_flat_map. exists i. split; [apply in_seq; lia|exact Hx]. }
    cbn in W. f_equal. destruct (Req_dec r 0) as [Z|Z]; [exact Z|]. apply Rabs_pos_lt in Z. lra.
  - intros E. destruct L as (_ & LB & _). destruct LB as [LB|LB]; [exact LB|]. apply in_map_iff in LB. destruct LB as (x & EX & Hx).
    unfold all_components in Hx. apply in_flat_map in Hx. destruct Hx as (i & Hi & Hx). apply in_seq in Hi.
    destruct (H i ltac:(lia)) as (A & B & C). rewrite (proj1 (sub_zero _ _ A B C) (E i ltac:(lia)) x Hx) in EX.
    rewrite <- EX. cbn. rewrite Rabs_R0. reflexivity.
Qed.
Lemma components_sub_cases : forall a b c x, finite a -> finite b -> finite c -> same_shape a b -> same_shape b c ->
  In x (components (elem_sub a c)) -> exists y z, In y (components (elem_sub a b)) /\ In z (components (elem_sub b c)) /\
    exists r s, y = Fin r /\ z = Fin s /\ x = Fin (r + s).
Proof.
  intros [x|xs] [y|ys] [z|zs] w FA FB FC S1 S2 Hw; try (cbn in S1; contradiction); try (cbn in S2; contradiction).
  - destruct (FA x) as (a & ->); [left; reflexivity|]. destruct (FB y) as (b & ->); [left; reflexivity|].
    destruct (FC z) as (c & ->); [left; reflexivity|]. cbn in *. destruct Hw as [<-|[]].
    exists (Fin (a - b)), (Fin (b - c)). split; [left; reflexivity|]. split; [left; reflexivity|].
    exists (a - b), (b - c). split; [reflexivity|]. split; [reflexivity|]. f_equal. ring.
  - cbn in *. revert ys zs FB FC S1 S2 Hw. induction xs as [|a xs IH]; intros [|b ys] [|c zs] FB FC S1 S2 Hw; try discriminate; try destruct Hw.
    + destruct (FA a) as (ra & ->); [left; reflexivity|]. destruct (FB b) as (rb & ->); [left; reflexivity|].
      destruct (FC c) as (rc & ->); [left; reflexivity|]. cbn in *. subst w.
      exists (Fin (ra - rb)), (Fin (rb - rc)). split; [left; reflexivity|]. split; [left; reflexivity|].
      exists (ra - rb), (rb - rc). split; [reflexivity|]. split; [reflexivity|]. f_equal. ring.
    + destruct (IH (fun z Hz => FA z (or_intror Hz)) ys zs (fun z Hz => FB z (or_intror Hz)) (fun z Hz => FC z (or_intror Hz))
                 (eq_add_S _ _ S1) (eq_add_S _ _ S2) H) as (u & v & Hu & Hv & E).
      exists u, v. split; [right; exact Hu|]. split; [right; exact Hv|exact E].
Qed.
Theorem error_norm_triangle : forall n t1 t2 t3 f g h, order_of n t1 -> order_of n t2 -> order_of n t3 ->
  (forall i, (i < n)%nat -> finite (f i) /\ finite (g i) /\ finite (h i) /\ same_shape (f i) (g i) /\ same_shape (g i) (h i)) ->
  exists a b c, error_norm_inf t1 f h = Fin a /\ error_norm_inf t2 f g = Fin b /\ error_norm_inf t3 g h = Fin c /\ a <= b + c.
Proof.
  intros n t1 t2 t3 f g h P1 P2 P3 H.
  assert (SS : forall a b c, same_shape a b -> same_shape b c -> same_shape a c).
  { intros [x|xs] [y|ys] [z|zs]; cbn; try tauto. congruence. }
  assert (G : forall t u v, order_of n t -> (forall i, (i < n)%nat -> finite (u i) /\ finite (v i) /\ same_shape (u i) (v i)) ->
    exists r, error_norm_inf t u v = Fin r /\ 0 <= r /\
      (forall i s, (i < n)%nat -> In (Fin s) (components (elem_sub (u i) (v i))) -> Rabs s <= r) /\
      (r = 0 \/ exists i s, (i < n)%nat /\ In (Fin s) (components (elem_sub (u i) (v i))) /\ r = Rabs s)).
  { intros t u v P HU. set (e := fun i => elem_sub (u i) (v i)).
    assert (FE : forall i x, (i < n)%nat -> In x (components (e i)) -> exists r, x = Fin r).
    { intros i x Hi Hx. destruct (HU i Hi) as (A & B & C). exact (finite_sub _ _ A B C x Hx). }
    destruct (norm_tree_lub n t e P ltac:(intros i x Hi Hx; destruct (FE i x Hi Hx) as (r & ->); discriminate)) as (LA & LB & LC).
    fold (norm_inf t e) in LA, LB, LC. change (error_norm_inf t u v) with (norm_inf t e).
    assert (K : norm_inf t e = Fin 0 \/ exists i s, (i < n)%nat /\ In (Fin s) (components (e i)) /\ norm_inf t e = Fin (Rabs s)).
    { destruct LB as [LB|LB]; [left; exact LB|right]. apply in_map_iff in LB. destruct LB as (x & EX & Hx).
      unfold all_components in Hx. apply in_flat_map in Hx. destruct Hx as (i & Hi & Hx). apply in_seq in Hi.
      destruct (FE i x ltac:(lia) Hx) as (s & ->). exists i, s. split; [lia|]. split; [exact Hx|symmetry; exact EX]. }
    assert (LA' : forall i s, (i < n)%nat -> In (Fin s) (components (e i)) -> dle (Fin (Rabs s)) (norm_inf t e)).
    { intros i s Hi Hs. apply LA. change (Fin (Rabs s)) with (dabs (Fin s)). apply in_map. unfold all_components. apply in_flat_map.
      exists i. split; [apply in_seq; lia|exact Hs]. }
    destruct K as [K|(i0 & s0 & Hi0 & Hs0 & K)]; rewrite K in *.
    - exists 0. split; [reflexivity|]. split; [lra|]. split; [intros i s Hi Hs; exact (LA' i s Hi Hs)|left; reflexivity].
    - exists (Rabs s0). split; [reflexivity|]. split; [apply Rabs_pos|]. split; [intros i s Hi Hs; exact (LA' i s Hi Hs)|].
      right. exists i0, s0. split; [exact Hi0|]. split; [exact Hs0|reflexivity]. }
  destruct (G t1 f h P1) as (a & Ea & Pa & Ma & Aa). { intros i Hi. destruct (H i Hi) as (F1 & F2 & F3 & S1 & S2). split; [exact F1|]. split; [exact F3|eauto]. }
  destruct (G t2 f g P2) as (b & Eb & Pb & Mb & _). { intros i Hi. destruct (H i Hi) as (F1 & F2 & F3 & S1 & S2). split; [exact F1|]. split; [exact F2|exact S1]. }
  destruct (G t3 g h P3) as (c & Ec & Pc & Mc & _). { intros i Hi. destruct (H i Hi) as (F1 & F2 & F3 & S1 & S2). split; [exact F2|]. split; [exact F3|exact S2]. }
  exists a, b, c. split; [exact Ea|]. split; [exact Eb|]. split; [exact Ec|].
  destruct Aa as [->|(i & s & Hi & Hs & ->)]; [lra|].
  destruct (H i Hi) as (F1 & F2 & F3 & S1 & S2). destruct (components_sub_cases _ _ _ _ F1 F2 F3 S1 S2 Hs) as (y & z & Hy & Hz & r & q & -> & -> & E).
  injection E as ->. specialize (Mb i r Hi Hy). specialize (Mc i q Hi Hz). pose proof (Rabs_triang r q). lra.
Qed.
