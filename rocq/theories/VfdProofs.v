(** Vector fields: allocation, assignment, slices. *)
From Coq Require Import Lia.
From Verif Require Import VfdSpec.
Open Scope nat_scope.

Lemma map_all_forall2 : forall (A B : Type) (f : A -> res B) l bs, map_all f l = Ok bs ->
  Forall2 (fun a b => f a = Ok b) l bs.
Proof.
  intros A B f l. induction l as [|a l IH]; intros bs E; cbn in E.
  - injection E as <-. constructor.
  - destruct (f a) as [b| | |] eqn:Ea; cbn in E; try discriminate.
    destruct (map_all f l) as [bs'| | |] eqn:El; cbn in E; try discriminate.
    injection E as <-. constructor; [exact Ea|apply IH; reflexivity].
Qed.
Lemma forall2_map_all : forall (A B : Type) (f : A -> res B) l bs, Forall2 (fun a b => f a = Ok b) l bs ->
  map_all f l = Ok bs.
Proof. intros A B f l bs F. induction F as [|a b l bs E F IH]; [reflexivity|]. cbn. rewrite E. cbn. rewrite IH. reflexivity. Qed.
Lemma map_all_ext : forall (A B : Type) (f g : A -> res B) l, (forall a, In a l -> f a = g a) ->
  map_all f l = map_all g l.
Proof.
  intros A B f g l. induction l as [|a l IH]; intros H; [reflexivity|]. cbn. rewrite (H a) by (left; reflexivity).
  rewrite IH; [reflexivity|]. intros b Hb. apply H. right. exact Hb.
Qed.

Lemma in_view_iff : forall v p, in_view v p = true <-> inside (range_of v) p.
Proof.
  intros v p. unfold in_view, inside, range_of. rewrite forallb_forall. split.
  - intros H g f n Hg. apply in_map_iff in Hg. destruct Hg as (d & E & Hd). injection E as <- <- <-.
    specialize (H d Hd). unfold in_dim in H. rewrite Bool.andb_true_iff, Z.leb_le, Z.ltb_lt in H. exact H.
  - intros H d Hd. unfold in_dim. rewrite Bool.andb_true_iff, Z.leb_le, Z.ltb_lt.
    apply (H (d_grid d) (d_front d) (d_size d)). apply in_map_iff. exists d. split; [reflexivity|exact Hd].
Qed.

(** ** Tags *)
Lemma rank_nth : forall ts i t, NoDup ts -> nth_error ts i = Some t -> rank t ts = i.
Proof.
  induction ts as [|u ts IH]; intros i t N E; [destruct i; discriminate|].
  inversion N as [|? ? N1 N2]; subst. destruct i as [|i]; cbn in *.
  - injection E as ->. rewrite Nat.eqb_refl. reflexivity.
  - destruct (Nat.eqb_spec t u) as [->|NE]; [exfalso; apply N1; eapply nth_error_In; exact E|].
    f_equal. apply IH; assumption.
Qed.
Lemma component_nth : forall vf i t v, NoDup (vf_tags vf) -> nth_error (vf_tags vf) i = Some t ->
  nth_error (vf_vals vf) i = Some v -> component vf t = Ok v.
Proof. intros vf i t v N Ht Hv. unfold component. rewrite (rank_nth _ i t N Ht), Hv. reflexivity. Qed.
Lemma components_all : forall (B : Type) (f : view -> res B) vf, NoDup (vf_tags vf) ->
  length (vf_vals vf) = length (vf_tags vf) ->
  map_all (fun t => let* v := component vf t in f v) (vf_tags vf) = map_all f (vf_vals vf).
Proof.
  intros B f [ts vs] N L. cbn [vf_tags vf_vals] in *.
  assert (G : forall ts1 vs1 ts2 vs2, ts = ts1 ++ ts2 -> vs = vs1 ++ vs2 -> length ts1 = length vs1 ->
    length ts2 = length vs2 ->
    map_all (fun t => let* v := component (VField ts vs) t in f v) ts2 = map_all f vs2).
  { intros ts1 vs1 ts2. revert ts1 vs1. induction ts2 as [|t ts2 IH]; intros ts1 vs1 vs2 E1 E2 L1 L2.
    - destruct vs2; [reflexivity|discriminate].
    - destruct vs2 as [|v vs2]; [discriminate|]. cbn [map_all].
      rewrite (component_nth (VField ts vs) (length ts1) t v N).
      + cbn [bind]. destruct (f v); cbn [bind]; [|reflexivity..].
        rewrite (IH (ts1 ++ [t]) (vs1 ++ [v]) vs2); [reflexivity|..].
        * rewrite <- app_assoc. exact E1.
        * rewrite <- app_assoc. exact E2.
        * rewrite !app_length. cbn. lia.
        * cbn in L2. lia.
      + cbn. rewrite E1, nth_error_app2, Nat.sub_diag by lia. reflexivity.
      + cbn. rewrite E2, nth_error_app2 by lia. rewrite L1, Nat.sub_diag. reflexivity. }
  apply (G [] [] ts vs); cbn; auto.
Qed.
Lemma bind_ok : forall (A : Type) (r : res A), (let* v := r in Ok v) = r.
Proof. intros A [a| | |]; reflexivity. Qed.
Theorem span_same : forall vf rg, on_range vf rg -> span_view vf = Ok vf.
Proof.
  intros vf rg (N & L & _). unfold span_view.
  rewrite (map_all_ext _ _ (component vf) (fun t => let* v := component vf t in Ok v)) by (intros; symmetry; apply bind_ok).
  rewrite (components_all view (fun v => Ok v) vf N L).
  rewrite (forall2_map_all _ _ _ (vf_vals vf) (vf_vals vf)).
  - cbn. destruct vf; reflexivity.
  - clear. induction (vf_vals vf) as [|v l IH]; constructor; [reflexivity|exact IH].
Qed.

(** ** Reading *)
Theorem at_index_iff : forall m vf rg p vec, on_range vf rg -> inside rg p ->
  (at_index m vf p = Ok vec <-> holds m vf p vec).
Proof.
  intros m vf rg p vec (_ & _ & _ & F) Hp. unfold at_index, holds. split.
  - intros E. apply map_all_forall2 in E. induction E as [|v r vs rs E _ IH]; [constructor|].
    inversion F as [|? ? F1 F2]; subst. constructor; [|apply IH; exact F2].
    unfold get in E. destruct (in_view v p); [|discriminate]. unfold load in E.
    destruct (m (addr v p)); [discriminate|discriminate|]. injection E as <-. reflexivity.
  - intros H. apply forall2_map_all. induction H as [|v r vs rs E _ IH]; [constructor|].
    inversion F as [|? ? F1 F2]; subst. constructor; [|apply IH; exact F2].
    unfold get. rewrite (proj2 (in_view_iff v p) Hp). unfold load. rewrite E. reflexivity.
Qed.
Theorem component_value : forall m vf rg p vec t, on_range vf rg -> inside rg p -> In t (vf_tags vf) ->
  at_index m vf p = Ok vec -> exists v, component vf t = Ok v /\ get m v p = vec_get (vf_tags vf) vec t.
Proof.
  intros m vf rg p vec t (N & L & _) Hp Ht E.
  apply In_nth_error in Ht. destruct Ht as (i & Hi).
  assert (Hl : i < length (vf_vals vf)) by (rewrite L; apply nth_error_Some; congruence).
  destruct (nth_error (vf_vals vf) i) as [v|] eqn:Hv; [|apply nth_error_None in Hv; lia].
  exists v. split; [apply (component_nth vf i t v N Hi Hv)|].
  unfold vec_get. rewrite (rank_nth _ i t N Hi). unfold at_index in E. apply map_all_forall2 in E.
  clear -E Hv. revert i Hv. induction E as [|u r vs rs E _ IH]; intros i Hv; [destruct i; discriminate|].
  destruct i as [|i]; cbn in *; [injection Hv as ->; exact E|]. apply IH. exact Hv.
Qed.

(** ** Writing *)
Lemma set_ok : forall m v p r, inside (range_of v) p -> m (addr v p) <> Free ->
  set m v p r = Ok (fun b => if Z.eqb b (addr v p) then Val r else m b).
Proof.
  intros m v p r Hp Hm. unfold set. rewrite (proj2 (in_view_iff v p) Hp). unfold store.
  destruct (m (addr v p)); [congruence|reflexivity|reflexivity].
Qed.
Lemma same_addr : forall v p q, same_point (range_of v) p q -> addr v p = addr v q.
Proof.
  intros [b ds] p q H. unfold addr, range_of in *. cbn [v_base v_dims] in *.
  induction ds as [|d ds IH]; [reflexivity|]. cbn [fold_right].
  rewrite IH by (intros g r Hg; apply (H g r); right; exact Hg).
  rewrite (H (d_grid d) (d_front d, d_size d)) by (left; reflexivity). reflexivity.
Qed.

Lemma assign_tags_ok : forall vf rg p vec, on_range vf rg -> separate vf rg -> inside rg p ->
  length vec = length (vf_tags vf) ->
  forall n m, writable m vf rg -> n <= length (vf_tags vf) ->
  exists m', assign_tags m vf p vec (skipn n (vf_tags vf)) = Ok m' /\ writable m' vf rg /\
    (forall i v r, n <= i -> nth_error (vf_vals vf) i = Some v -> nth_error vec i = Some r -> m' (addr v p) = Val r) /\
    (forall a, (forall i v, n <= i -> nth_error (vf_vals vf) i = Some v -> a <> addr v p) -> m' a = m a).
Proof.
  intros vf rg p vec O Sp Hp Lv n. pose proof O as (N & L & _ & F).
  remember (length (vf_tags vf) - n) as k eqn:Ek. revert n Ek.
  induction k as [|k IH]; intros n Ek m W Hn.
  - rewrite skipn_all2 by lia. exists m. split; [reflexivity|split; [exact W|split]].
    + intros i v r Hi Hv _. assert (i < length (vf_vals vf)) by (apply nth_error_Some; congruence). lia.
    + reflexivity.
  - destruct (nth_error (vf_tags vf) n) as [t|] eqn:Ht; [|apply nth_error_None in Ht; lia].
    destruct (nth_error (vf_vals vf) n) as [v|] eqn:Hv; [|apply nth_error_None in Hv; lia].
    destruct (nth_error vec n) as [r|] eqn:Hr; [|apply nth_error_None in Hr; lia].
    assert (Es : skipn n (vf_tags vf) = t :: skipn (S n) (vf_tags vf)).
    { clear -Ht. revert n Ht. induction (vf_tags vf) as [|u l IHl]; intros n Ht; [destruct n; discriminate|].
      destruct n as [|n]; cbn in *; [injection Ht as ->; reflexivity|]. apply IHl. exact Ht. }
    rewrite Es. cbn [assign_tags]. rewrite (component_nth vf n t v N Ht Hv). cbn [bind].
    unfold vec_get at 1. rewrite (rank_nth _ n t N Ht), Hr. cbn [bind].
    assert (Rv : range_of v = rg). { rewrite Forall_forall in F. apply F. eapply nth_error_In. exact Hv. }
    rewrite set_ok; [|rewrite Rv; exact Hp|apply W; [eapply nth_error_In; exact Hv|exact Hp]]. cbn [bind].
    set (m1 := fun b => if Z.eqb b (addr v p) then Val r else m b).
    destruct (IH (S n) ltac:(lia) m1) as (m' & E & W' & V & U); [|lia|].
    { intros u q Hu Hq. unfold m1. destruct (Z.eqb_spec (addr u q) (addr v p)); [discriminate|apply W; assumption]. }
    exists m'. split; [exact E|split; [exact W'|split]].
    + intros i u s Hi Hu Hs. destruct (Nat.eq_dec i n) as [->|NE]; [|apply (V i u s); [lia|assumption..]].
      rewrite Hv in Hu. injection Hu as <-. rewrite Hr in Hs. injection Hs as <-.
      rewrite U.
      * unfold m1. rewrite Z.eqb_refl. reflexivity.
      * intros j w Hj Hw EA. destruct (Sp n j v w p p Hv Hw Hp Hp EA) as [EI _]. lia.
    + intros a Ha. rewrite U by (intros i u Hi; apply Ha; lia). unfold m1.
      destruct (Z.eqb_spec a (addr v p)) as [->|NE]; [|reflexivity]. exfalso. apply (Ha n v); [lia|exact Hv|reflexivity].
Qed.
Lemma forall2_nth : forall (A B : Type) (P : A -> B -> Prop) l l', length l = length l' ->
  (forall i a b, nth_error l i = Some a -> nth_error l' i = Some b -> P a b) -> Forall2 P l l'.
Proof.
  intros A B P l. induction l as [|a l IH]; intros [|b l'] L H; try discriminate; constructor.
  - apply (H 0 a b); reflexivity.
  - apply IH; [cbn in L; lia|]. intros i x y Hx Hy. apply (H (S i) x y Hx Hy).
Qed.
Theorem assign_ok : forall m vf rg p vec, on_range vf rg -> separate vf rg -> writable m vf rg -> inside rg p ->
  length vec = length (vf_tags vf) ->
  exists m', assign m vf p vec = Ok m' /\ writable m' vf rg /\ holds m' vf p vec /\
    unchanged_but (uses_at vf p) m m' /\
    forall q, inside rg q -> ~ same_point rg p q -> forall w, holds m vf q w -> holds m' vf q w.
Proof.
  intros m vf rg p vec O Sp W Hp Lv.
  destruct (assign_tags_ok vf rg p vec O Sp Hp Lv 0 m W ltac:(lia)) as (m' & E & W' & V & U).
  exists m'. split; [exact E|split; [exact W'|split; [|split]]].
  - apply forall2_nth; [destruct O as (_ & L & _); lia|]. intros i v r Hv Hr. apply (V i v r); [lia|assumption..].
  - intros a Ha. apply U. intros i v _ Hv ->. apply Ha. exists v. split; [eapply nth_error_In; exact Hv|reflexivity].
  - intros q Hq NS w Hw. unfold holds in *.
    assert (G : forall u, In u (vf_vals vf) -> m' (addr u q) = m (addr u q)).
    { intros u Hu. apply U. intros i v _ Hv EA. apply In_nth_error in Hu. destruct Hu as (j & Hu).
      destruct (Sp i j v u p q Hv Hu Hp Hq (eq_sym EA)) as [_ SP]. contradiction. }
    clear -Hw G. induction Hw as [|u r us rs E _ IH]; [constructor|]. constructor.
    + rewrite G by (left; reflexivity). exact E.
    + apply IH. intros x Hx. apply G. right. exact Hx.
Qed.
Lemma same_holds : forall m vf rg p q vec, on_range vf rg -> same_point rg p q -> holds m vf p vec -> holds m vf q vec.
Proof.
  intros m vf rg p q vec (_ & _ & _ & F) H Hh. unfold holds in *.
  induction Hh as [|v r vs rs E _ IH]; [constructor|]. inversion F as [|? ? F1 F2]; subst.
  constructor; [|apply IH; exact F2]. rewrite <- E. f_equal. symmetry. apply same_addr. exact H.
Qed.
Lemma same_point_dec : forall rg p q, {same_point rg p q} + {~ same_point rg p q}.
Proof.
  induction rg as [|[g r] rg IH]; intros p q; [left; intros ? ? []|].
  destruct (Z.eq_dec (p g) (q g)) as [E|NE].
  - destruct (IH p q) as [Y|N].
    + left. intros h s [X|X]; [injection X as <- <-; exact E|exact (Y h s X)].
    + right. intros H. apply N. intros h s X. apply (H h s). right. exact X.
  - right. intros H. apply NE. apply (H g r). left. reflexivity.
Qed.
(** a loop over the points, in any order *)
Theorem assign_each_ok : forall vf rg f l m, on_range vf rg -> separate vf rg -> writable m vf rg ->
  (forall p, In p l -> inside rg p /\ length (f p) = length (vf_tags vf)) ->
  (forall p q, In p l -> In q l -> same_point rg p q -> f p = f q) ->
  exists m', assign_each m vf f l = Ok m' /\ writable m' vf rg /\ unchanged_but (uses vf rg) m m' /\
    (forall p, In p l -> holds m' vf p (f p)) /\
    (forall q, inside rg q -> (forall p, In p l -> ~ same_point rg p q) -> forall w, holds m vf q w -> holds m' vf q w).
Proof.
  intros vf rg f l m O Sp. revert m. induction l as [|p l IH]; intros m W H1 H2.
  - exists m. split; [reflexivity|split; [exact W|split; [intros a _; reflexivity|split; [intros ? []|auto]]]].
  - destruct (H1 p (or_introl eq_refl)) as [Hp Lp].
    destruct (assign_ok m vf rg p (f p) O Sp W Hp Lp) as (m1 & E1 & W1 & V1 & U1 & K1).
    destruct (IH m1 W1) as (m' & E & W' & U & V & K).
    { intros q Hq. apply H1. right. exact Hq. }
    { intros q s Hq Hs. apply H2; right; assumption. }
    exists m'. cbn [assign_each]. rewrite E1. cbn [bind]. split; [exact E|split; [exact W'|split; [|split]]].
    + intros a Ha. rewrite (U a Ha). apply U1. intros HU. apply Ha. exists p. split; assumption.
    + intros q [<-|Hq]; [|apply V; exact Hq].
      destruct (Exists_dec (fun q => same_point rg q p) l (fun q => same_point_dec rg q p)) as [Y|N].
      * apply Exists_exists in Y. destruct Y as (q & Hq & SQ).
        rewrite <- (H2 q p (or_intror Hq) (or_introl eq_refl) SQ). apply (same_holds m' vf rg q p (f q) O SQ).
        apply V. exact Hq.
      * apply K; [exact Hp| |exact V1]. intros q Hq SQ. apply N. apply Exists_exists. exists q. split; assumption.
    + intros q Hq NS w Hw. apply K; [exact Hq| |].
      * intros s Hs. apply NS. right. exact Hs.
      * apply K1; [exact Hq|apply NS; left; reflexivity|exact Hw].
Qed.

(** ** Allocation *)
Fixpoint place (rg : ranges) (p : index) : Z :=
  match rg with [] => 0%Z | (g, (f, n)) :: rg' => ((p g - f) * Z.of_nat (volume rg') + place rg' p)%Z end.
Lemma addr_right : forall rg b p, addr (View b (right_dims rg)) p = (b + place rg p)%Z.
Proof.
  intros rg b p. unfold addr. cbn [v_base v_dims].
  induction rg as [|[g [f n]] rg IH]; cbn [right_dims fold_right place]; [lia|].
  rewrite IH. cbn [d_grid d_front d_stride]. lia.
Qed.
Lemma range_right : forall rg b, range_of (View b (right_dims rg)) = rg.
Proof.
  intros rg b. unfold range_of. cbn [v_dims]. induction rg as [|[g [f n]] rg IH]; [reflexivity|].
  cbn. rewrite IH. reflexivity.
Qed.
Lemma inside_cons : forall g f n rg p, inside ((g, (f, n)) :: rg) p <->
  (f <= p g < f + Z.of_nat n)%Z /\ inside rg p.
Proof.
  intros. split.
  - intros H. split; [apply (H g f n); left; reflexivity|]. intros h f' n' X. apply (H h f' n'). right. exact X.
  - intros [H1 H2] h f' n' [X|X]; [injection X as <- <- <-; exact H1|exact (H2 h f' n' X)].
Qed.
Lemma place_bounds : forall rg p, inside rg p -> (0 <= place rg p < Z.of_nat (volume rg))%Z.
Proof.
  induction rg as [|[g [f n]] rg IH]; intros p H; [cbn; lia|].
  apply inside_cons in H. destruct H as [H1 H2]. specialize (IH p H2). cbn [place volume].
  rewrite Nat2Z.inj_mul. nia.
Qed.
Lemma place_inj : forall rg p q, inside rg p -> inside rg q -> place rg p = place rg q -> same_point rg p q.
Proof.
  induction rg as [|[g [f n]] rg IH]; intros p q Hp Hq E; [intros ? ? []|].
  apply inside_cons in Hp. apply inside_cons in Hq. destruct Hp as [P1 P2]. destruct Hq as [Q1 Q2].
  pose proof (place_bounds rg p P2) as BP. pose proof (place_bounds rg q Q2) as BQ. cbn [place] in E.
  assert (EG : p g = q g) by nia.
  assert (EP : place rg p = place rg q) by (rewrite EG in E; lia).
  intros h r [X|X]; [injection X as <- <-; exact EG|exact (IH p q P2 Q2 EP h r X)].
Qed.
Lemma alloc_nth : forall rg k next i v, nth_error (alloc_views rg k next) i = Some v ->
  i < k /\ v = View (next + Z.of_nat (i * volume rg))%Z (right_dims rg).
Proof.
  intros rg k. induction k as [|k IH]; intros next i v E; [destruct i; discriminate|].
  destruct i as [|i]; cbn in E.
  - injection E as <-. split; [lia|]. f_equal. lia.
  - apply IH in E. destruct E as [Hi ->]. split; [lia|]. f_equal. rewrite Nat.mul_succ_l. lia.
Qed.
Lemma alloc_length : forall rg k next, length (alloc_views rg k next) = k.
Proof. intros rg k. induction k; intros next; cbn; [reflexivity|]. rewrite IHk. reflexivity. Qed.
Theorem new_ok : forall m next ts rg m' next' vf, NoDup ts -> NoDup (map fst rg) ->
  new_vector_field_mem m next ts rg = (m', next', vf) ->
  vf_tags vf = ts /\ on_range vf rg /\ separate vf rg /\ writable m' vf rg /\
  (forall a, uses vf rg a -> (next <= a < next')%Z) /\
  unchanged_but (fun a => (next <= a < next')%Z) m m'.
Proof.
  intros m next ts rg m' next' vf N1 N2 E. unfold new_vector_field_mem in E. injection E as <- <- <-.
  cbn [vf_tags].
  assert (A : forall i v p, nth_error (alloc_views rg (length ts) next) i = Some v -> inside rg p ->
    i < length ts /\ addr v p = (next + Z.of_nat (i * volume rg) + place rg p)%Z).
  { intros i v p Hv Hp. apply alloc_nth in Hv. destruct Hv as [Hi ->]. split; [exact Hi|apply addr_right]. }
  assert (B : forall v p, In v (alloc_views rg (length ts) next) -> inside rg p ->
    (next <= addr v p < next + Z.of_nat (length ts * volume rg))%Z).
  { intros v p Hv Hp. apply In_nth_error in Hv. destruct Hv as (i & Hv). destruct (A i v p Hv Hp) as [Hi ->].
    pose proof (place_bounds rg p Hp). split; [lia|].
    assert (S i * volume rg <= length ts * volume rg) by (apply Nat.mul_le_mono_r; lia). lia. }
  split; [reflexivity|]. split; [|split; [|split; [|split]]].
  - split; [exact N1|]. cbn [vf_vals vf_tags]. split; [apply alloc_length|]. split; [exact N2|].
    apply Forall_forall. intros v Hv. apply In_nth_error in Hv. destruct Hv as (i & Hv). apply alloc_nth in Hv.
    destruct Hv as [_ ->]. apply range_right.
  - intros i j vi vj p q Hi Hj Hp Hq EA. cbn [vf_vals] in *.
    destruct (A i vi p Hi Hp) as [Li Ei]. destruct (A j vj q Hj Hq) as [Lj Ej]. rewrite Ei, Ej in EA.
    pose proof (place_bounds rg p Hp). pose proof (place_bounds rg q Hq).
    assert (EI : i = j).
    { destruct (Nat.lt_trichotomy i j) as [LT|[EQ|GT]]; [|exact EQ|]; exfalso.
      - assert (S i * volume rg <= j * volume rg) by (apply Nat.mul_le_mono_r; lia). lia.
      - assert (S j * volume rg <= i * volume rg) by (apply Nat.mul_le_mono_r; lia). lia. }
    split; [exact EI|]. subst j. apply place_inj; [assumption..|lia].
  - intros v p Hv Hp. specialize (B v p Hv Hp). unfold alloc_mem.
    replace ((next <=? addr v p)%Z && (addr v p <? next + Z.of_nat (length ts * volume rg))%Z) with true; [discriminate|].
    symmetry. apply Bool.andb_true_iff. rewrite Z.leb_le, Z.ltb_lt. exact B.
  - intros a (p & Hp & v & Hv & ->). exact (B v p Hv Hp).
  - intros a Ha. unfold alloc_mem.
    destruct ((next <=? a)%Z && (a <? next + Z.of_nat (length ts * volume rg))%Z) eqn:C; [|reflexivity].
    exfalso. apply Ha. rewrite Bool.andb_true_iff, Z.leb_le, Z.ltb_lt in C. exact C.
Qed.
