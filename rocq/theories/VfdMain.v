(** Vector fields: slices, copies; the PDI helpers. *)
From Coq Require Import Lia String.
From Verif Require Import VfdSpec VfdProofs.
Open Scope nat_scope.

(** ** Slices of one component *)
Notation offs := (fun ds p => fold_right (fun d a => ((p (d_grid d) - d_front d) * d_stride d + a)%Z) 0%Z ds) (only parsing).
Lemma addr_base : forall b ds p, addr (View b ds) p = (b + fold_right (fun d a => ((p (d_grid d) - d_front d) * d_stride d + a)%Z) 0%Z ds)%Z.
Proof. intros b ds p. unfold addr. cbn [v_base v_dims]. induction ds as [|d ds IH]; cbn [fold_right]; lia. Qed.
Notation dims_range := (map (fun d => (d_grid d, (d_front d, d_size d)))) (only parsing).

Lemma slice_dims_ok : forall ds spec b l, slice_dims ds spec = Ok (b, l) ->
  dims_range l = remaining (dims_range ds) spec /\ fixed_ok (dims_range ds) spec /\
  forall p, (b + fold_right (fun d a => ((p (d_grid d) - d_front d) * d_stride d + a)%Z) 0%Z l
             = fold_right (fun d a => ((overlay spec p (d_grid d) - d_front d) * d_stride d + a)%Z) 0%Z ds)%Z.
Proof.
  induction ds as [|d ds IH]; intros spec b l E; cbn [slice_dims] in E.
  - injection E as <- <-. split; [reflexivity|split; [intros g f n i []|reflexivity]].
  - destruct (slice_dims ds spec) as [[b1 l1]| | |] eqn:E1; cbn [bind] in E; try discriminate.
    destruct (IH spec b1 l1 E1) as (R1 & F1 & A1). cbn [map remaining filter fst].
    destruct (assoc (d_grid d) spec) as [i|] eqn:EA.
    + destruct (in_dim d (fun _ => i)) eqn:EI; [|discriminate]. injection E as <- <-.
      unfold in_dim in EI. rewrite Bool.andb_true_iff, Z.leb_le, Z.ltb_lt in EI.
      split; [exact R1|]. split.
      * intros g f n j [X|X] Y; [|exact (F1 g f n j X Y)]. injection X as <- <- <-. rewrite EA in Y. injection Y as <-. exact EI.
      * intros p. cbn [fold_right]. rewrite <- A1. unfold overlay at 1. rewrite EA. lia.
    + injection E as <- <-. split; [cbn [map]; f_equal; exact R1|]. split.
      * intros g f n j [X|X] Y; [|exact (F1 g f n j X Y)]. injection X as <- <- <-. congruence.
      * intros p. cbn [fold_right]. rewrite <- A1. unfold overlay. rewrite EA. lia.
Qed.
Lemma slice_dims_total : forall ds spec, fixed_ok (dims_range ds) spec -> exists b l, slice_dims ds spec = Ok (b, l).
Proof.
  induction ds as [|d ds IH]; intros spec F; [exists 0%Z, []; reflexivity|].
  destruct (IH spec) as (b & l & E). { intros g f n i X. apply (F g f n i). right. exact X. }
  cbn [slice_dims]. rewrite E. cbn [bind]. destruct (assoc (d_grid d) spec) as [i|] eqn:EA; [|eauto].
  assert (B := F (d_grid d) (d_front d) (d_size d) i (or_introl eq_refl) EA).
  assert (EI : in_dim d (fun _ => i) = true) by (unfold in_dim; rewrite Bool.andb_true_iff, Z.leb_le, Z.ltb_lt; exact B).
  rewrite EI. eauto.
Qed.
Lemma slice_dims_ub : forall ds spec, slice_dims ds spec = Ub \/ exists b l, slice_dims ds spec = Ok (b, l).
Proof.
  induction ds as [|d ds IH]; intros spec; [right; exists 0%Z, []; reflexivity|]. cbn [slice_dims].
  destruct (IH spec) as [->|(b & l & ->)]; [left; reflexivity|]. cbn [bind].
  destruct (assoc (d_grid d) spec); [|right; eauto]. destruct (in_dim d _); [right; eauto|left; reflexivity].
Qed.
Lemma slice_ok : forall v spec v', slice v spec = Ok v' ->
  range_of v' = remaining (range_of v) spec /\ fixed_ok (range_of v) spec /\
  forall p, addr v' p = addr v (overlay spec p).
Proof.
  intros [b ds] spec v' E. unfold slice in E. cbn [v_dims v_base] in E.
  destruct (slice_dims ds spec) as [[b1 l1]| | |] eqn:E1; cbn [bind] in E; try discriminate. injection E as <-.
  destruct (slice_dims_ok ds spec b1 l1 E1) as (R1 & F1 & A1). split; [exact R1|split; [exact F1|]].
  intros p. rewrite !addr_base, <- A1. lia.
Qed.
Lemma slice_total : forall v spec, fixed_ok (range_of v) spec -> exists v', slice v spec = Ok v'.
Proof.
  intros [b ds] spec F. destruct (slice_dims_total ds spec F) as (b1 & l1 & E). unfold slice. cbn [v_dims].
  rewrite E. cbn [bind]. eauto.
Qed.
Lemma slice_ub : forall v spec, ~ fixed_ok (range_of v) spec -> slice v spec = Ub.
Proof.
  intros v spec F. unfold slice. destruct (slice_dims_ub (v_dims v) spec) as [->|(b & l & E)]; [reflexivity|].
  exfalso. apply F. apply (slice_dims_ok _ _ b l E).
Qed.

Lemma sub_dims_ok : forall ds spec b l, sub_dims ds spec = Ok (b, l) ->
  dims_range l = restricted (dims_range ds) spec /\ sub_range_ok (dims_range ds) spec /\
  forall p, (b + fold_right (fun d a => ((p (d_grid d) - d_front d) * d_stride d + a)%Z) 0%Z l
             = fold_right (fun d a => ((p (d_grid d) - d_front d) * d_stride d + a)%Z) 0%Z ds)%Z.
Proof.
  induction ds as [|d ds IH]; intros spec b l E; cbn [sub_dims] in E.
  - injection E as <- <-. split; [reflexivity|split; [intros g f n f' n' []|reflexivity]].
  - destruct (sub_dims ds spec) as [[b1 l1]| | |] eqn:E1; cbn [bind] in E; try discriminate.
    destruct (IH spec b1 l1 E1) as (R1 & F1 & A1). cbn [map restricted fst snd].
    destruct (assoc (d_grid d) spec) as [[f' n']|] eqn:EA.
    + destruct ((d_front d <=? f')%Z && (f' + Z.of_nat n' <=? d_front d + Z.of_nat (d_size d))%Z) eqn:EI; [|discriminate].
      injection E as <- <-. rewrite Bool.andb_true_iff, !Z.leb_le in EI.
      split; [cbn; f_equal; exact R1|]. split.
      * intros g f n g' m' [X|X] Y; [|exact (F1 g f n g' m' X Y)]. injection X as <- <- <-. rewrite EA in Y. injection Y as <- <-. exact EI.
      * intros p. cbn [fold_right d_grid d_front d_stride]. rewrite <- A1. lia.
    + injection E as <- <-. split; [cbn [map]; f_equal; exact R1|]. split.
      * intros g f n g' m' [X|X] Y; [|exact (F1 g f n g' m' X Y)]. injection X as <- <- <-. congruence.
      * intros p. cbn [fold_right]. rewrite <- A1. lia.
Qed.
Lemma sub_dims_total : forall ds spec, sub_range_ok (dims_range ds) spec -> exists b l, sub_dims ds spec = Ok (b, l).
Proof.
  induction ds as [|d ds IH]; intros spec F; [exists 0%Z, []; reflexivity|].
  destruct (IH spec) as (b & l & E). { intros g f n f' n' X. apply (F g f n f' n'). right. exact X. }
  cbn [sub_dims]. rewrite E. cbn [bind]. destruct (assoc (d_grid d) spec) as [[f' n']|] eqn:EA; [|eauto].
  assert (B := F (d_grid d) (d_front d) (d_size d) f' n' (or_introl eq_refl) EA).
  assert (EI : (d_front d <=? f')%Z && (f' + Z.of_nat n' <=? d_front d + Z.of_nat (d_size d))%Z = true)
    by (rewrite Bool.andb_true_iff, !Z.leb_le; exact B).
  rewrite EI. eauto.
Qed.
Lemma sub_dims_ub : forall ds spec, sub_dims ds spec = Ub \/ exists b l, sub_dims ds spec = Ok (b, l).
Proof.
  induction ds as [|d ds IH]; intros spec; [right; exists 0%Z, []; reflexivity|]. cbn [sub_dims].
  destruct (IH spec) as [->|(b & l & ->)]; [left; reflexivity|]. cbn [bind].
  destruct (assoc (d_grid d) spec) as [[f n]|]; [|right; eauto].
  destruct ((d_front d <=? f)%Z && _); [right; eauto|left; reflexivity].
Qed.
Lemma sub_ok : forall v spec v', sub_view v spec = Ok v' ->
  range_of v' = restricted (range_of v) spec /\ sub_range_ok (range_of v) spec /\
  forall p, addr v' p = addr v p.
Proof.
  intros [b ds] spec v' E. unfold sub_view in E. cbn [v_dims v_base] in E.
  destruct (sub_dims ds spec) as [[b1 l1]| | |] eqn:E1; cbn [bind] in E; try discriminate. injection E as <-.
  destruct (sub_dims_ok ds spec b1 l1 E1) as (R1 & F1 & A1). split; [exact R1|split; [exact F1|]].
  intros p. rewrite !addr_base, <- A1. lia.
Qed.
Lemma sub_total : forall v spec, sub_range_ok (range_of v) spec -> exists v', sub_view v spec = Ok v'.
Proof.
  intros [b ds] spec F. destruct (sub_dims_total ds spec F) as (b1 & l1 & E). unfold sub_view. cbn [v_dims].
  rewrite E. cbn [bind]. eauto.
Qed.
Lemma sub_ub : forall v spec, ~ sub_range_ok (range_of v) spec -> sub_view v spec = Ub.
Proof.
  intros v spec F. unfold sub_view. destruct (sub_dims_ub (v_dims v) spec) as [->|(b & l & E)]; [reflexivity|].
  exfalso. apply F. apply (sub_dims_ok _ _ b l E).
Qed.

(** ** Points of a slice *)
Lemma overlay_inside : forall rg spec p, fixed_ok rg spec -> inside (remaining rg spec) p -> inside rg (overlay spec p).
Proof.
  intros rg spec p F H g f n X. unfold overlay. destruct (assoc g spec) as [i|] eqn:EA; [exact (F g f n i X EA)|].
  apply (H g f n). apply filter_In. split; [exact X|]. cbn. rewrite EA. reflexivity.
Qed.
Lemma overlay_same : forall rg spec p q, same_point rg (overlay spec p) (overlay spec q) -> same_point (remaining rg spec) p q.
Proof.
  intros rg spec p q H g r X. apply filter_In in X. destruct X as [X Y]. cbn in Y. specialize (H g r X).
  unfold overlay in H. destruct (assoc g spec); [discriminate|exact H].
Qed.
Lemma restricted_inside : forall rg spec p, NoDup (map fst rg) -> sub_range_ok rg spec -> inside (restricted rg spec) p -> inside rg p.
Proof.
  intros rg spec p N F H g f n X.
  assert (Y : In (g, match assoc g spec with Some r => r | None => (f, n) end) (restricted rg spec)).
  { unfold restricted. apply in_map_iff. exists (g, (f, n)). split; [reflexivity|exact X]. }
  destruct (assoc g spec) as [[f' n']|] eqn:EA; [|exact (H g f n Y)].
  specialize (H g f' n' Y). destruct (F g f n f' n' X EA). lia.
Qed.
Lemma restricted_same : forall rg spec p q, same_point rg p q -> same_point (restricted rg spec) p q.
Proof.
  intros rg spec p q H g r X. unfold restricted in X. apply in_map_iff in X. destruct X as ([h s] & E & X).
  cbn [fst] in E. injection E as <- _. exact (H h s X).
Qed.
Lemma remaining_nodup : forall rg spec, NoDup (map fst rg) -> NoDup (map fst (remaining rg spec)).
Proof.
  intros rg spec. induction rg as [|x rg IH]; intros N; [constructor|]. inversion N as [|? ? N1 N2]; subst.
  cbn [remaining filter]. destruct (assoc (fst x) spec); [apply IH; exact N2|]. cbn [map]. constructor; [|apply IH; exact N2].
  intros H. apply N1. apply in_map_iff in H. destruct H as (y & E & Hy). apply filter_In in Hy. destruct Hy as [Hy _].
  apply in_map_iff. exists y. split; assumption.
Qed.
Lemma restricted_nodup : forall rg spec, NoDup (map fst rg) -> NoDup (map fst (restricted rg spec)).
Proof. intros rg spec N. unfold restricted. rewrite map_map. cbn. exact N. Qed.

(** ** Slices of vector fields *)
Lemma map_all_total : forall (A B : Type) (f : A -> res B) l, (forall a, In a l -> exists b, f a = Ok b) -> exists bs, map_all f l = Ok bs.
Proof.
  intros A B f l. induction l as [|a l IH]; intros H; [exists []; reflexivity|].
  destruct (H a (or_introl eq_refl)) as (b & E). destruct IH as (bs & EB). { intros x Hx. apply H. right. exact Hx. }
  cbn. rewrite E. cbn. rewrite EB. cbn. eauto.
Qed.
Lemma map_all_ub : forall (A B : Type) (f : A -> res B) l, l <> [] -> (forall a, In a l -> f a = Ub) -> map_all f l = Ub.
Proof. intros A B f [|a l] N H; [contradiction|]. cbn. rewrite (H a (or_introl eq_refl)). reflexivity. Qed.
Lemma forall2_len : forall (A B : Type) (P : A -> B -> Prop) l l', Forall2 P l l' -> length l = length l'.
Proof. intros A B P l l' F. induction F; cbn; [reflexivity|]. rewrite IHF. reflexivity. Qed.
Lemma forall2_nth_r : forall (A B : Type) (P : A -> B -> Prop) l l', Forall2 P l l' -> forall i b, nth_error l' i = Some b ->
  exists a, nth_error l i = Some a /\ P a b.
Proof.
  intros A B P l l' F. induction F as [|a b l l' H F IH]; intros i c E; [destruct i; discriminate|].
  destruct i as [|i]; cbn in *; [injection E as <-; eauto|]. apply IH. exact E.
Qed.
Lemma forall2_in_r : forall (A B : Type) (P : A -> B -> Prop) l l', Forall2 P l l' -> forall b, In b l' -> exists a, In a l /\ P a b.
Proof.
  intros A B P l l' F b Hb. apply In_nth_error in Hb. destruct Hb as (i & Hi).
  destruct (forall2_nth_r _ _ P l l' F i b Hi) as (a & Ha & Hp). exists a. split; [eapply nth_error_In; exact Ha|exact Hp].
Qed.

Section derived.
  Variables (vf vf' : vfield) (rg rg' : ranges) (tr : index -> index) (op : view -> res view).
  Hypothesis O : on_range vf rg.
  Hypothesis E : map_all op (vf_vals vf) = Ok (vf_vals vf').
  Hypothesis T : vf_tags vf' = vf_tags vf.
  Hypothesis N' : NoDup (map fst rg').
  Hypothesis OP : forall v v', In v (vf_vals vf) -> op v = Ok v' -> range_of v' = rg' /\ forall p, addr v' p = addr v (tr p).
  Hypothesis TI : forall p, inside rg' p -> inside rg (tr p).
  Hypothesis TS : forall p q, same_point rg (tr p) (tr q) -> same_point rg' p q.
  Let F2 := map_all_forall2 _ _ _ _ _ E.
  Lemma derived_range : on_range vf' rg'.
  Proof.
    destruct O as (N & L & N0 & F). split; [rewrite T; exact N|]. split; [rewrite T, <- L; symmetry; exact (forall2_len _ _ _ _ _ F2)|].
    split; [exact N'|]. apply Forall_forall. intros v' Hv'. destruct (forall2_in_r _ _ _ _ _ F2 v' Hv') as (v & Hv & EV).
    apply (OP v v' Hv EV).
  Qed.
  Lemma derived_values : forall m p, inside rg' p -> at_index m vf' p = at_index m vf (tr p).
  Proof.
    intros m p Hp. unfold at_index. destruct O as (_ & _ & _ & F). pose proof F2 as G. clear -F G OP Hp TI.
    revert F OP. induction G as [|v v' vs vs' EV _ IH]; intros F OP; [reflexivity|].
    pose proof (Forall_inv F) as F1. pose proof (Forall_inv_tail F) as F3. cbn beta in F1. destruct (OP v v' (or_introl eq_refl) EV) as [R1 A1].
    cbn [map_all]. unfold get at 1 3. rewrite (proj2 (in_view_iff v' p)) by (rewrite R1; exact Hp).
    rewrite (proj2 (in_view_iff v (tr p))) by (rewrite F1; apply TI; exact Hp). rewrite A1. rewrite IH; [reflexivity|exact F3|].
    intros x x' Hx. apply OP. right. exact Hx.
  Qed.
  Lemma derived_separate : separate vf rg -> separate vf' rg'.
  Proof.
    intros SP i j vi vj p q Hi Hj Hp Hq EA.
    destruct (forall2_nth_r _ _ _ _ _ F2 i vi Hi) as (ui & Ui & Ei). destruct (forall2_nth_r _ _ _ _ _ F2 j vj Hj) as (uj & Uj & Ej).
    destruct (OP ui vi (nth_error_In _ _ Ui) Ei) as [_ Ai]. destruct (OP uj vj (nth_error_In _ _ Uj) Ej) as [_ Aj].
    rewrite Ai, Aj in EA. destruct (SP i j ui uj (tr p) (tr q) Ui Uj (TI p Hp) (TI q Hq) EA) as [EI SQ].
    split; [exact EI|apply TS; exact SQ].
  Qed.
  Lemma derived_writable : forall m, writable m vf rg -> writable m vf' rg'.
  Proof.
    intros m W v' p Hv' Hp. destruct (forall2_in_r _ _ _ _ _ F2 v' Hv') as (v & Hv & EV).
    destruct (OP v v' Hv EV) as [_ A]. rewrite A. apply W; [exact Hv|apply TI; exact Hp].
  Qed.
  Lemma derived_uses : forall p a, uses_at vf' p a <-> uses_at vf (tr p) a.
  Proof.
    intros p a. split.
    - intros (v' & Hv' & ->). destruct (forall2_in_r _ _ _ _ _ F2 v' Hv') as (v & Hv & EV). destruct (OP v v' Hv EV) as [_ A].
      exists v. split; [exact Hv|apply A].
    - intros (v & Hv & ->). pose proof F2 as G.
      assert (X : exists v', In v' (vf_vals vf') /\ op v = Ok v').
      { clear -G Hv. induction G as [|u u' us us' EU _ IH]; [destruct Hv|]. destruct Hv as [->|Hv].
        - exists u'. split; [left; reflexivity|exact EU].
        - destruct (IH Hv) as (w & Hw & EW). exists w. split; [right; exact Hw|exact EW]. }
      destruct X as (v' & Hv' & EV). destruct (OP v v' Hv EV) as [_ A]. exists v'. split; [exact Hv'|symmetry; apply A].
  Qed.
End derived.

Theorem vslice_ok : forall vf rg spec, on_range vf rg -> fixed_ok rg spec ->
  exists vf', vslice vf spec = Ok vf' /\ vf_tags vf' = vf_tags vf /\ on_range vf' (remaining rg spec) /\
    (forall p, inside (remaining rg spec) p -> inside rg (overlay spec p)) /\
    same_elements vf vf' (remaining rg spec) (overlay spec) /\
    (separate vf rg -> separate vf' (remaining rg spec)) /\
    forall m, writable m vf rg -> writable m vf' (remaining rg spec).
Proof.
  intros vf rg spec O F. pose proof O as (N & L & N0 & FR). unfold vslice.
  rewrite (components_all view (fun v => slice v spec) vf N L).
  destruct (map_all_total _ _ (fun v => slice v spec) (vf_vals vf)) as (vals & E).
  { intros v Hv. apply slice_total. rewrite Forall_forall in FR. rewrite (FR v Hv). exact F. }
  rewrite E. cbn [bind]. exists (VField (vf_tags vf) vals). split; [reflexivity|]. split; [reflexivity|].
  assert (OP : forall v v', In v (vf_vals vf) -> slice v spec = Ok v' -> range_of v' = remaining rg spec /\ forall p, addr v' p = addr v (overlay spec p)).
  { intros v v' Hv EV. destruct (slice_ok v spec v' EV) as (R1 & _ & A). rewrite Forall_forall in FR. rewrite (FR v Hv) in R1. split; assumption. }
  assert (TI := fun p => overlay_inside rg spec p F).
  split; [eapply derived_range; try exact E; eauto using remaining_nodup|]. split; [exact TI|]. split; [|split].
  - split; [eapply derived_values; eauto|]. intros p a _. eapply (derived_uses vf (VField (vf_tags vf) vals)); eauto.
  - eapply derived_separate; eauto using overlay_same.
  - eapply derived_writable; eauto.
Qed.
Theorem vslice_ub : forall vf rg spec, on_range vf rg -> vf_vals vf <> [] -> ~ fixed_ok rg spec -> vslice vf spec = Ub.
Proof.
  intros vf rg spec (N & L & N0 & FR) NE F. unfold vslice. rewrite (components_all view (fun v => slice v spec) vf N L).
  rewrite map_all_ub; [reflexivity|exact NE|]. intros v Hv. apply slice_ub. rewrite Forall_forall in FR. rewrite (FR v Hv). exact F.
Qed.
Theorem vsub_ok : forall vf rg spec, on_range vf rg -> sub_range_ok rg spec ->
  exists vf', vsub vf spec = Ok vf' /\ vf_tags vf' = vf_tags vf /\ on_range vf' (restricted rg spec) /\
    (forall p, inside (restricted rg spec) p -> inside rg p) /\
    same_elements vf vf' (restricted rg spec) (fun p => p) /\
    (separate vf rg -> separate vf' (restricted rg spec)) /\
    forall m, writable m vf rg -> writable m vf' (restricted rg spec).
Proof.
  intros vf rg spec O F. pose proof O as (N & L & N0 & FR). unfold vsub.
  rewrite (components_all view (fun v => sub_view v spec) vf N L).
  destruct (map_all_total _ _ (fun v => sub_view v spec) (vf_vals vf)) as (vals & E).
  { intros v Hv. apply sub_total. rewrite Forall_forall in FR. rewrite (FR v Hv). exact F. }
  rewrite E. cbn [bind]. exists (VField (vf_tags vf) vals). split; [reflexivity|]. split; [reflexivity|].
  assert (OP : forall v v', In v (vf_vals vf) -> sub_view v spec = Ok v' -> range_of v' = restricted rg spec /\ forall p, addr v' p = addr v ((fun p => p) p)).
  { intros v v' Hv EV. destruct (sub_ok v spec v' EV) as (R1 & _ & A). rewrite Forall_forall in FR. rewrite (FR v Hv) in R1. split; assumption. }
  assert (TI := fun p => restricted_inside rg spec p N0 F).
  split; [eapply derived_range; try exact E; eauto using restricted_nodup|]. split; [exact TI|]. split; [|split].
  - split; [eapply (derived_values vf (VField (vf_tags vf) vals) rg _ (fun p => p)); eauto|]. intros p a _.
    eapply (derived_uses vf (VField (vf_tags vf) vals) (restricted rg spec) (fun p => p)); eauto.
  - eapply (derived_separate vf (VField (vf_tags vf) vals) rg _ (fun p => p)); eauto using restricted_same.
  - eapply (derived_writable vf (VField (vf_tags vf) vals) rg _ (fun p => p)); eauto.
Qed.
Theorem vsub_ub : forall vf rg spec, on_range vf rg -> vf_vals vf <> [] -> ~ sub_range_ok rg spec -> vsub vf spec = Ub.
Proof.
  intros vf rg spec (N & L & N0 & FR) NE F. unfold vsub. rewrite (components_all view (fun v => sub_view v spec) vf N L).
  rewrite map_all_ub; [reflexivity|exact NE|]. intros v Hv. apply sub_ub. rewrite Forall_forall in FR. rewrite (FR v Hv). exact F.
Qed.
