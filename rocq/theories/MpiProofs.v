(** Lemmas for the MPI layouts (C12, C13). *)
From Verif Require Export MpiSpec.
From Coq Require Import Permutation ZifyBool.
Open Scope nat_scope.
Local Opaque Nat.div Nat.modulo Nat.gcd.

(** ** Generalities *)
Lemma nprod_app a b : nprod (a ++ b) = nprod a * nprod b.
Proof. induction a as [|x a IH]; simpl; [lia|]. rewrite IH. lia. Qed.
Lemma nprod_perm a b : Permutation a b -> nprod a = nprod b.
Proof. intros H; induction H; simpl; lia. Qed.
Lemma nprod_pos l : (forall x, In x l -> 0 < x) -> 0 < nprod l.
Proof.
  induction l as [|x l IH]; intros H; simpl; [lia|].
  assert (0 < x) by (apply H; left; auto).
  assert (0 < nprod l) by (apply IH; intros; apply H; right; auto). nia.
Qed.

Lemma in_tags_iff d s : in_tags d s = true <-> In d s.
Proof.
  unfold in_tags. rewrite existsb_exists. split.
  - intros (x & Hx & E). apply Nat.eqb_eq in E. subst; auto.
  - intros H. exists d. rewrite Nat.eqb_refl. auto.
Qed.
Lemma in_tags_false d s : in_tags d s = false <-> ~ In d s.
Proof. rewrite <- in_tags_iff. destruct (in_tags d s); split; congruence. Qed.

Lemma tag_eqb_iff a b : tag_eqb a b = true <-> a = b.
Proof.
  destruct a, b; simpl; rewrite ?Nat.eqb_eq; split; congruence.
Qed.
Lemma tag_eqb_refl a : tag_eqb a a = true.
Proof. apply tag_eqb_iff; reflexivity. Qed.
Lemma tag_eqb_neq a b : a <> b -> tag_eqb a b = false.
Proof. intros H. destruct (tag_eqb a b) eqn:E; auto. apply tag_eqb_iff in E; congruence. Qed.

(** ** Row-major offsets *)
Definition in_bounds (s : shape) (idx : tag -> nat) : Prop := forall t n, In (t, n) s -> idx t < n.

Lemma offset_lt s idx : in_bounds s idx -> offset s idx < shape_size s.
Proof.
  induction s as [|[t n] s IH]; intros H; [unfold shape_size; simpl; lia|].
  cbn [offset]. change (shape_size ((t, n) :: s)) with (n * shape_size s).
  assert (idx t < n) by (apply H; left; auto).
  assert (offset s idx < shape_size s) by (apply IH; intros t' n' Hi; apply H; right; auto).
  nia.
Qed.

Lemma offset_ext s i j : (forall t, In t (tags_of s) -> i t = j t) -> offset s i = offset s j.
Proof.
  induction s as [|[t n] s IH]; intros H; simpl; auto.
  rewrite (H t) by (left; auto). rewrite IH; auto. intros; apply H; right; auto.
Qed.

Lemma decode_offset s idx t : in_bounds s idx -> NoDup (tags_of s) -> In t (tags_of s) ->
  decode s (offset s idx) t = idx t.
Proof.
  induction s as [|[t0 n] s IH]; intros Hb Hn Hi; simpl in *; [tauto|].
  inversion Hn as [|? ? Hn1 Hn2]; subst.
  assert (Hb' : in_bounds s idx) by (intros t' n' Hi'; apply Hb; right; auto).
  pose proof (offset_lt s idx Hb') as Hlt.
  destruct (tag_eqb t t0) eqn:E.
  - apply tag_eqb_iff in E; subst t0.
    symmetry. apply (Nat.div_unique _ _ _ (offset s idx)); lia.
  - assert (t <> t0) by (intros ->; rewrite tag_eqb_refl in E; discriminate).
    replace ((idx t0 * shape_size s + offset s idx) mod shape_size s) with (offset s idx).
    + apply IH; auto. destruct Hi; congruence.
    + apply (Nat.mod_unique _ _ (idx t0)); lia.
Qed.

Lemma decode_in_bounds s k : k < shape_size s -> NoDup (tags_of s) -> in_bounds s (decode s k).
Proof.
  revert k; induction s as [|[t0 n] s IH]; intros k Hk Hn t m Hi; simpl in *; [tauto|].
  inversion Hn as [|? ? Hn1 Hn2]; subst.
  unfold shape_size in Hk; simpl in Hk. fold (shape_size s) in Hk.
  destruct Hi as [Hi|Hi].
  - injection Hi as -> ->. rewrite tag_eqb_refl. apply Nat.div_lt_upper_bound; lia.
  - rewrite tag_eqb_neq.
    + apply (IH (k mod shape_size s)); auto. apply Nat.mod_upper_bound; lia.
    + intros ->. apply Hn1. apply (in_map fst) in Hi. exact Hi.
Qed.

Lemma offset_decode s k : k < shape_size s -> NoDup (tags_of s) -> offset s (decode s k) = k.
Proof.
  revert k; induction s as [|[t0 n] s IH]; intros k Hk Hn; unfold shape_size in Hk; simpl in *; [lia|].
  inversion Hn as [|? ? Hn1 Hn2]; subst. fold (shape_size s) in Hk.
  rewrite tag_eqb_refl.
  rewrite (offset_ext s _ (decode s (k mod shape_size s))).
  - assert (0 < shape_size s) by lia.
    rewrite IH; auto.
    + rewrite (Nat.div_mod k (shape_size s)) at 3 by lia. lia.
    + apply Nat.mod_upper_bound; lia.
  - intros t Ht. rewrite tag_eqb_neq; auto. intros ->; tauto.
Qed.

Lemma offset_inj s i j : NoDup (tags_of s) -> in_bounds s i -> in_bounds s j ->
  offset s i = offset s j -> forall t, In t (tags_of s) -> i t = j t.
Proof.
  intros Hn Hi Hj E t Ht. rewrite <- (decode_offset s i t), <- (decode_offset s j t), E; auto.
Qed.

Lemma shape_size_app a b : shape_size (a ++ b) = shape_size a * shape_size b.
Proof. unfold shape_size. rewrite map_app. apply nprod_app. Qed.
Lemma offset_app a b idx : offset (a ++ b) idx = offset a idx * shape_size b + offset b idx.
Proof.
  induction a as [|[t n] a IH]; simpl; [lia|]. rewrite IH, shape_size_app. lia.
Qed.
Lemma shape_size_perm a b : Permutation a b -> shape_size a = shape_size b.
Proof. intros H. apply nprod_perm, Permutation_map, H. Qed.

(** ** transpose_layout *)
Lemma transpose_layout_spec {A} dst_shape (dst : list A) src_shape src :
  Permutation src_shape dst_shape -> NoDup (tags_of src_shape) ->
  length src = shape_size src_shape -> length dst = shape_size dst_shape ->
  exists out, transpose_layout dst_shape dst src_shape src = Ok out /\
    length out = shape_size dst_shape /\
    forall idx, in_bounds src_shape idx ->
      nth_error out (offset dst_shape idx) = nth_error src (offset src_shape idx).
Proof.
  intros Hp Hn Hs Hd.
  assert (Hnd : NoDup (tags_of dst_shape)) by (eapply Permutation_NoDup; [apply Permutation_map, Hp|exact Hn]).
  assert (Hbd : forall idx, in_bounds src_shape idx -> in_bounds dst_shape idx).
  { intros idx H t n Hi. apply H. eapply Permutation_in; [apply Permutation_sym, Hp|exact Hi]. }
  assert (Htg : forall t, In t (tags_of src_shape) -> In t (tags_of dst_shape)).
  { intros t Ht. eapply Permutation_in; [apply Permutation_map, Hp|exact Ht]. }
  set (body := fun k (acc : res (list A)) =>
         let* dst := acc in
         let idx := decode src_shape k in
         let* v := rd src (Z.of_nat (offset src_shape idx)) in
         wr dst (Z.of_nat (offset dst_shape idx)) v).
  assert (Inv : forall m, m <= shape_size src_shape ->
    exists out, for_loop m body (Ok dst) = Ok out /\ length out = shape_size dst_shape /\
      forall k, k < m -> nth_error out (offset dst_shape (decode src_shape k)) = nth_error src k).
  { induction m as [|m IH]; intros Hm.
    - exists dst. simpl. repeat split; auto. intros; lia.
    - destruct IH as (out & E & Hl & Ho); [lia|]. simpl. rewrite E. unfold body. simpl.
      assert (Hk : m < shape_size src_shape) by lia.
      rewrite (offset_decode _ _ Hk Hn).
      destruct (nth_error src m) as [v|] eqn:Ev.
      2:{ apply nth_error_None in Ev. lia. }
      unfold rd. replace (Z.of_nat m <? 0)%Z with false by lia.
      rewrite Nat2Z.id, Ev. cbn [bind].
      pose proof (decode_in_bounds _ _ Hk Hn) as Hb.
      pose proof (offset_lt _ _ (Hbd _ Hb)) as Hlt.
      rewrite wr_ok by lia. rewrite Nat2Z.id.
      eexists; split; [reflexivity|]. split; [rewrite replace_nth_length; auto|].
      intros k Hk'. destruct (Nat.eq_dec k m) as [->|Hne].
      + rewrite nth_error_replace_eq by lia. auto.
      + rewrite nth_error_replace_neq; [apply Ho; lia|].
        intros E'. apply Hne.
        assert (Hk2 : k < shape_size src_shape) by lia.
        rewrite <- (offset_decode _ _ Hk Hn), <- (offset_decode _ _ Hk2 Hn).
        apply offset_ext. intros t Ht.
        apply (offset_inj dst_shape); auto; apply Hbd, decode_in_bounds; auto. }
  destruct (Inv (shape_size src_shape)) as (out & E & Hl & Ho); [lia|].
  exists out. split; [exact E|]. split; auto.
  intros idx Hb. rewrite <- Ho by (apply offset_lt; auto).
  f_equal. apply offset_ext. intros t Ht. symmetry. apply decode_offset; auto.
  eapply Permutation_in; [apply Permutation_sym, Permutation_map, Hp|exact Ht].
Qed.

(** ** Process grid of a layout *)
Fixpoint grid (distr : list nat) (g : idx_range) (P : nat) : shape :=
  match g with
  | [] => []
  | (d, (_, s)) :: rest =>
      if in_tags d distr then (MPIDim d, Nat.gcd P s) :: grid distr rest (P / Nat.gcd P s)
      else grid distr rest P
  end.

Definition dsizes (distr : list nat) (g : idx_range) : list nat :=
  map (fun x => snd (snd x)) (filter (fun x => in_tags (fst x) distr) g).

Lemma gcd_div_divide P s q : 0 < P -> Nat.divide P (s * q) -> Nat.divide (P / Nat.gcd P s) q.
Proof.
  intros HP H.
  assert (Hg : Nat.gcd P s <> 0) by (intros E; apply Nat.gcd_eq_0 in E; lia).
  destruct (Nat.gcd_divide_l P s) as [a Ha]. destruct (Nat.gcd_divide_r P s) as [b Hb].
  set (n := Nat.gcd P s) in *.
  assert (Ea : P / n = a) by (rewrite Ha; apply Nat.div_mul; auto).
  rewrite Ea.
  assert (Hab : Nat.gcd a b = 1).
  { assert (Nat.gcd (P / n) (s / n) = 1) by (apply Nat.gcd_div_gcd; auto).
    rewrite Ea in H0. rewrite Hb in H0. rewrite Nat.div_mul in H0 by auto. exact H0. }
  apply (Nat.gauss a b q); auto.
  destruct H as [k Hk]. exists k. rewrite Ha in Hk. rewrite Hb in Hk at 1.
  apply (Nat.mul_cancel_l _ _ n); auto. lia.
Qed.

Lemma div_gcd_pos P s : 0 < P -> 0 < P / Nat.gcd P s /\ (P / Nat.gcd P s) * Nat.gcd P s = P.
Proof.
  intros HP.
  assert (Hg : Nat.gcd P s <> 0) by (intros E; apply Nat.gcd_eq_0 in E; lia).
  destruct (Nat.gcd_divide_l P s) as [a Ha].
  assert (Ea : P / Nat.gcd P s = a) by (rewrite Ha at 1; apply Nat.div_mul; auto).
  rewrite Ea. nia.
Qed.

Lemma grid_size distr g : forall P, 0 < P -> Nat.divide P (nprod (dsizes distr g)) ->
  shape_size (grid distr g P) = P.
Proof.
  induction g as [|[d [f s]] g IH]; intros P HP Hd; cbn [grid].
  - unfold dsizes in Hd; simpl in Hd. apply Nat.divide_1_r in Hd. subst. reflexivity.
  - unfold dsizes in Hd; simpl in Hd. destruct (in_tags d distr); simpl in Hd.
    + pose proof (div_gcd_pos P s HP) as [H1 H2].
      unfold shape_size. simpl. fold (shape_size (grid distr g (P / Nat.gcd P s))).
      rewrite IH; auto.
      * lia.
      * apply gcd_div_divide; auto.
    + apply IH; auto.
Qed.

Lemma grid_tags distr g P : tags_of (grid distr g P) = map MPIDim (filter (fun d => in_tags d distr) (dims g)).
Proof.
  revert P; induction g as [|[d [f s]] g IH]; intros P; simpl; auto.
  destruct (in_tags d distr); simpl; rewrite ?IH; reflexivity.
Qed.

Lemma NoDup_map_inj {X Y} (f : X -> Y) l : (forall a b, f a = f b -> a = b) -> NoDup l -> NoDup (map f l).
Proof.
  intros Hf H; induction H as [|x l Hx Hl IH]; simpl; constructor; auto.
  rewrite in_map_iff. intros (y & E & Hy). apply Hf in E. subst; auto.
Qed.
Lemma NoDup_filter' {X} (f : X -> bool) l : NoDup l -> NoDup (filter f l).
Proof.
  induction 1 as [|x l Hx Hl IH]; simpl; [constructor|].
  destruct (f x); auto. constructor; auto. rewrite filter_In. tauto.
Qed.

Lemma grid_nodup distr g P : NoDup (dims g) -> NoDup (tags_of (grid distr g P)).
Proof.
  intros H. rewrite grid_tags. apply NoDup_map_inj; [congruence|]. apply NoDup_filter'; auto.
Qed.

Fixpoint extent (s : shape) (t : tag) : nat :=
  match s with
  | [] => 1
  | (t', n) :: s' => if tag_eqb t t' then n else extent s' t
  end.

Lemma extent_in s t n : NoDup (tags_of s) -> In (t, n) s -> extent s t = n.
Proof.
  induction s as [|[t' n'] s IH]; intros Hn Hi; simpl in *; [tauto|].
  inversion Hn as [|? ? Hn1 Hn2]; subst. destruct Hi as [E|Hi].
  - injection E as -> ->. rewrite tag_eqb_refl. auto.
  - rewrite tag_eqb_neq; auto. intros ->. apply Hn1. apply (in_map fst) in Hi. exact Hi.
Qed.

Lemma in_extent s t : In t (tags_of s) -> In (t, extent s t) s.
Proof.
  induction s as [|[t' n'] s IH]; simpl; [tauto|].
  intros H. destruct (tag_eqb t t') eqn:E.
  - apply tag_eqb_iff in E; subst; auto.
  - destruct H as [->|H]; [rewrite tag_eqb_refl in E; discriminate|]. auto.
Qed.

(** number of ranks along d and local range of rank r along d *)
Definition loc (gr : shape) (r : nat) (distr : list nat) (d : nat) (fs : Z * nat) : Z * nat :=
  if in_tags d distr then
    let m := snd fs / extent gr (MPIDim d) in
    ((fst fs + Z.of_nat (decode gr r (MPIDim d) * m))%Z, m)
  else fs.
Definition local_range (distr : list nat) (g : idx_range) (P r : nat) : idx_range :=
  map (fun x => (fst x, loc (grid distr g P) r distr (fst x) (snd x))) g.

Lemma extent_divides distr g P d f s : NoDup (dims g) -> In (d, (f, s)) g -> in_tags d distr = true ->
  Nat.divide (extent (grid distr g P) (MPIDim d)) s.
Proof.
  revert P; induction g as [|[d' [f' s']] g IH]; intros P Hn Hi Ht; simpl in *; [tauto|].
  inversion Hn as [|? ? Hn1 Hn2]; subst. destruct Hi as [E|Hi].
  - injection E as -> -> ->. rewrite Ht. simpl. rewrite Nat.eqb_refl. apply Nat.gcd_divide_r.
  - assert (d <> d') by (intros ->; apply Hn1; apply (in_map fst) in Hi; exact Hi).
    destruct (in_tags d' distr); [|apply IH; auto].
    simpl. replace (d =? d') with false by lia. apply IH; auto.
Qed.

Lemma internal_distribute_spec distr g : forall P r, 0 < P -> r < P -> NoDup (dims g) ->
  Nat.divide P (nprod (dsizes distr g)) ->
  internal_distribute distr g P r = Ok (local_range distr g P r).
Proof.
  induction g as [|[d [f s]] g IH]; intros P r HP Hr Hn Hd; [reflexivity|].
  inversion Hn as [|? ? Hn1 Hn2]; subst.
  unfold dsizes in Hd; cbn [filter fst map] in Hd.
  destruct g as [|y g].
  - simpl. unfold local_range, loc. simpl.
    destruct (in_tags d distr) eqn:Et; simpl in Hd.
    + rewrite Nat.mul_1_r in Hd.
      assert (E : s mod P = 0) by (apply Nat.mod_divide; [lia|auto]).
      rewrite E. simpl. rewrite Nat.eqb_refl.
      assert (Nat.gcd P s = P) as -> by (apply Nat.divide_gcd_iff; auto; lia).
      unfold shape_size; simpl. rewrite Nat.div_1_r. reflexivity.
    + apply Nat.divide_1_r in Hd. subst. reflexivity.
  - remember (y :: g) as g'. 
    assert (Eq : internal_distribute distr ((d, (f, s)) :: g') P r =
      if in_tags d distr then
        let* remaining := internal_distribute distr g' (P / Nat.gcd P s) (r mod (P / Nat.gcd P s)) in
        Ok ((d, ((f + Z.of_nat (r / (P / Nat.gcd P s) * (s / Nat.gcd P s)))%Z, s / Nat.gcd P s)) :: remaining)
      else let* remaining := internal_distribute distr g' P r in Ok ((d, (f, s)) :: remaining)).
    { subst g'. reflexivity. }
    rewrite Eq; clear Eq.
    destruct (in_tags d distr) eqn:Et; simpl in Hd.
    + pose proof (div_gcd_pos P s HP) as [H1 H2].
      pose proof (gcd_div_divide P s _ HP Hd) as Hd'.
      rewrite IH; auto; [|apply Nat.mod_upper_bound; lia].
      cbn [bind]. f_equal. unfold local_range. cbn [map fst snd].
      f_equal.
      * f_equal. unfold loc. rewrite Et. cbn [grid]. rewrite Et.
        cbn [extent decode]. rewrite tag_eqb_refl. rewrite (grid_size distr g'); auto.
      * apply map_ext_in. intros [d' [f' s']] Hi. f_equal. cbn [fst snd]. unfold loc.
        destruct (in_tags d' distr) eqn:Et'; auto.
        assert (d' <> d) by (intros ->; apply Hn1; apply (in_map fst) in Hi; exact Hi).
        cbn [grid]. rewrite Et. cbn [extent decode].
        rewrite tag_eqb_neq by congruence. rewrite (grid_size distr g'); auto.
    + rewrite IH; auto. cbn [bind]. f_equal. unfold local_range. cbn [map fst snd].
      f_equal.
      * unfold loc. rewrite Et. reflexivity.
      * apply map_ext_in. intros [d' [f' s']] Hi. f_equal. cbn [fst snd]. cbn [grid]. rewrite Et.
        reflexivity.
Qed.

Lemma select_in g d f n : NoDup (dims g) -> In (d, (f, n)) g -> select d g = (f, n).
Proof.
  induction g as [|[d' r'] g IH]; intros Hn Hi; simpl in *; [tauto|].
  inversion Hn as [|? ? Hn1 Hn2]; subst. destruct Hi as [E|Hi].
  - injection E as -> ->. rewrite Nat.eqb_refl. auto.
  - destruct (Nat.eqb_spec d d') as [->|]; auto.
    exfalso; apply Hn1. apply (in_map fst) in Hi. exact Hi.
Qed.
Lemma in_select g d : In d (dims g) -> In (d, select d g) g.
Proof.
  induction g as [|[d' r'] g IH]; simpl; [tauto|]. intros H.
  destruct (Nat.eqb_spec d d') as [->|]; auto. destruct H; [congruence|auto].
Qed.

Lemma dsizes_perm distr g : NoDup (dims g) -> NoDup distr -> incl distr (dims g) ->
  nprod (dsizes distr g) = nprod (map (fun d => snd (select d g)) distr).
Proof.
  intros Hg Hd Hi.
  assert (E : dsizes distr g = map (fun d => snd (select d g)) (filter (fun d => in_tags d distr) (dims g))).
  { unfold dsizes, dims.
    assert (H : forall l, incl l g ->
       map (fun x : nat * (Z * nat) => snd (snd x)) (filter (fun x => in_tags (fst x) distr) l) =
       map (fun d => snd (select d g)) (filter (fun d => in_tags d distr) (map fst l))).
    { induction l as [|[d [f n]] l IH]; intros Hl; simpl; auto.
      assert (Hin : In (d, (f, n)) g) by (apply Hl; left; auto).
      assert (IH' := IH (fun x Hx => Hl x (or_intror Hx))).
      destruct (in_tags d distr); simpl; rewrite ?IH'; auto.
      rewrite (select_in g d f n) by auto. reflexivity. }
    apply H. apply incl_refl. }
  rewrite E. apply nprod_perm, Permutation_map, NoDup_Permutation; auto.
  - apply NoDup_filter'; auto.
  - intros d. rewrite filter_In, in_tags_iff. split; [tauto|]. intros H; split; auto.
Qed.

Lemma distribute_ok distr g P r : NoDup (dims g) -> NoDup distr -> incl distr (dims g) ->
  0 < P -> r < P -> Nat.divide P (distributed_size distr g) ->
  distribute_idx_range distr g P r = Ok (local_range distr g P r).
Proof.
  intros Hg Hd Hi HP Hr Hdiv. unfold distribute_idx_range.
  assert (E : range_size (sub_range distr g) = distributed_size distr g).
  { unfold range_size, sub_range, distributed_size. rewrite map_map. reflexivity. }
  rewrite E. replace (distributed_size distr g mod P) with 0 by (symmetry; apply Nat.mod_divide; [lia|auto]).
  simpl. apply internal_distribute_spec; auto. rewrite dsizes_perm; auto.
Qed.

Lemma distribute_throw distr g P r : 0 < P -> ~ Nat.divide P (distributed_size distr g) ->
  distribute_idx_range distr g P r = Throw.
Proof.
  intros HP Hn. unfold distribute_idx_range.
  assert (E : range_size (sub_range distr g) = distributed_size distr g).
  { unfold range_size, sub_range, distributed_size. rewrite map_map. reflexivity. }
  rewrite E. destruct (Nat.eqb_spec (distributed_size distr g mod P) 0) as [H|H]; auto.
  exfalso; apply Hn. apply Nat.mod_divide; [lia|auto].
Qed.

(** multi-index of the owner of a global index in the process grid *)
Definition gidx (gr : shape) (g : idx_range) (idx : nat -> Z) (t : tag) : nat :=
  match t with
  | MPIDim d => Z.to_nat (idx d - fst (select d g)) / (snd (select d g) / extent gr t)
  | Dim _ => 0
  end.

Lemma div_lt_range j n m : j < n * m -> j / m < n.
Proof. intros H. apply Nat.div_lt_upper_bound; lia. Qed.

Section Grid.
  Variable distr : list nat.
  Variable g : idx_range.
  Variable P : nat.
  Hypothesis Hg : NoDup (dims g).
  Hypothesis HP : 0 < P.
  Hypothesis Hdiv : Nat.divide P (nprod (dsizes distr g)).
  Let gr := grid distr g P.

  Lemma gr_tag t : In t (tags_of gr) <-> exists d, t = MPIDim d /\ In d (dims g) /\ in_tags d distr = true.
  Proof.
    unfold gr. rewrite grid_tags, in_map_iff. split.
    - intros (d & <- & H). apply filter_In in H. exists d; tauto.
    - intros (d & -> & H1 & H2). exists d. rewrite filter_In. auto.
  Qed.

  Lemma extent_mul d : In d (dims g) -> in_tags d distr = true ->
    snd (select d g) = extent gr (MPIDim d) * (snd (select d g) / extent gr (MPIDim d)) /\ 0 < extent gr (MPIDim d).
  Proof.
    intros Hd Ht. pose proof (in_select g d Hd) as Hi. destruct (select d g) as [f s] eqn:E. simpl.
    pose proof (extent_divides distr g P d f s Hg Hi Ht) as [k Hk]. fold gr in Hk.
    assert (Hpos : 0 < extent gr (MPIDim d)).
    { assert (Hin : In (MPIDim d, extent gr (MPIDim d)) gr).
      { apply in_extent. apply gr_tag. eauto. }
      assert (Hsz : shape_size gr = P) by (apply grid_size; auto).
      destruct (Nat.eq_dec (extent gr (MPIDim d)) 0) as [E0|]; [|lia].
      exfalso. rewrite E0 in Hin. unfold shape_size in Hsz.
      apply (in_map snd) in Hin. simpl in Hin. revert Hsz Hin HP.
      generalize (map snd gr). intros l Hl Hin HP'. subst P.
      clear - Hin HP'. induction l as [|x l IH]; simpl in *; [tauto|].
      destruct Hin as [->|Hin]; [lia|]. apply IH; auto. destruct (nprod l); lia. }
    split; auto. rewrite Hk at 2. rewrite Nat.div_mul by lia. lia.
  Qed.

  Lemma gidx_in_bounds idx : in_range idx g -> in_bounds gr (gidx gr g idx).
  Proof.
    intros Hr t n Hi.
    assert (Ht : In t (tags_of gr)) by (apply (in_map fst) in Hi; exact Hi).
    apply gr_tag in Ht. destruct Ht as (d & -> & Hd & Hdt).
    rewrite <- (extent_in gr (MPIDim d) n (grid_nodup distr g P Hg) Hi).
    unfold gidx. pose proof (extent_mul d Hd Hdt) as [E _].
    pose proof (Hr d (fst (select d g)) (snd (select d g))) as H.
    rewrite <- surjective_pairing in H. specialize (H (in_select g d Hd)).
    apply div_lt_range. rewrite <- E. lia.
  Qed.

  Lemma div_unique_iff j m q : 0 < m -> (j / m = q <-> q * m <= j < q * m + m).
  Proof.
    intros Hm. split.
    - intros <-. pose proof (Nat.div_mod j m). pose proof (Nat.mod_upper_bound j m). lia.
    - intros H. symmetry. apply (Nat.div_unique _ _ _ (j - q * m)); lia.
  Qed.

  Lemma in_local_iff idx r : r < P ->
    in_range idx (local_range distr g P r) <->
    in_range idx g /\ forall d, In d (dims g) -> in_tags d distr = true ->
       gidx gr g idx (MPIDim d) = decode gr r (MPIDim d).
  Proof.
    intros Hr. unfold in_range, local_range. fold gr.
    assert (Hdec : in_bounds gr (decode gr r)).
    { apply decode_in_bounds; [|apply grid_nodup; auto]. unfold gr. rewrite grid_size; auto. }
    split.
    - intros H.
      assert (Hloc : forall d, In d (dims g) -> in_tags d distr = true ->
        let f := fst (select d g) in let m := snd (select d g) / extent gr (MPIDim d) in
        (f + Z.of_nat (decode gr r (MPIDim d) * m) <= idx d < f + Z.of_nat (decode gr r (MPIDim d) * m) + Z.of_nat m)%Z).
      { intros d Hd Ht f m. apply H. apply in_map_iff. exists (d, select d g).
        split; [|apply in_select; auto]. simpl. unfold loc. rewrite Ht. reflexivity. }
      split.
      + intros d f n Hi.
        destruct (in_tags d distr) eqn:Et.
        * assert (Hd : In d (dims g)) by (apply (in_map fst) in Hi; exact Hi).
          specialize (Hloc d Hd Et). cbv zeta in Hloc.
          pose proof (extent_mul d Hd Et) as [E Hp].
          rewrite (select_in g d f n Hg Hi) in *. simpl in *.
          assert (Hlt : decode gr r (MPIDim d) < extent gr (MPIDim d)).
          { apply Hdec. apply in_extent, gr_tag. eauto. }
          set (m := n / extent gr (MPIDim d)) in *. nia.
        * apply H. apply in_map_iff. exists (d, (f, n)). split; auto. simpl. unfold loc. rewrite Et. auto.
      + intros d Hd Ht. specialize (Hloc d Hd Ht). cbv zeta in Hloc. unfold gidx.
        set (m := snd (select d g) / extent gr (MPIDim d)) in *.
        apply div_unique_iff; lia.
    - intros [H1 H2] d f n Hi. apply in_map_iff in Hi. destruct Hi as ([d' [f' n']] & E & Hi).
      simpl in E. injection E as <- E.
      unfold loc in E. destruct (in_tags d' distr) eqn:Et.
      + assert (Hd : In d' (dims g)) by (apply (in_map fst) in Hi; exact Hi).
        specialize (H2 d' Hd Et). unfold gidx in H2.
        pose proof (extent_mul d' Hd Et) as [E2 Hp].
        specialize (H1 _ _ _ Hi).
        rewrite (select_in g d' f' n' Hg Hi) in *. simpl in *.
        injection E as <- <-.
        set (m := n' / extent gr (MPIDim d')) in *.
        apply div_unique_iff in H2; [lia|]. nia.
      + injection E as <- <-. apply H1; auto.
  Qed.

  Lemma owner_unique idx r : in_range idx g -> r < P -> in_range idx (local_range distr g P r) ->
    r = offset gr (gidx gr g idx).
  Proof.
    intros Hi Hr H. apply in_local_iff in H; auto. destruct H as [_ H].
    assert (Hn : NoDup (tags_of gr)) by (apply grid_nodup; auto).
    rewrite <- (offset_decode gr r) at 1; auto; [|unfold gr; rewrite grid_size; auto].
    apply offset_ext. intros t Ht. apply gr_tag in Ht. destruct Ht as (d & -> & Hd & Hdt).
    symmetry. apply H; auto.
  Qed.

  Lemma owner_exists idx : in_range idx g ->
    offset gr (gidx gr g idx) < P /\ in_range idx (local_range distr g P (offset gr (gidx gr g idx))).
  Proof.
    intros Hi.
    assert (Hb := gidx_in_bounds idx Hi).
    assert (Hlt : offset gr (gidx gr g idx) < P).
    { pose proof (offset_lt _ _ Hb) as H. rewrite (grid_size distr g P HP Hdiv : shape_size gr = P) in H; auto. }
    split; auto. apply in_local_iff; auto. split; auto.
    intros d Hd Ht. symmetry. apply decode_offset; auto; [apply grid_nodup; auto|]. apply gr_tag. eauto.
  Qed.

  Lemma local_partition : partitions P (local_range distr g P) g.
  Proof.
    split.
    - intros idx Hi. exists (offset gr (gidx gr g idx)).
      destruct (owner_exists idx Hi) as [H1 H2]. split; [exact H1|]. split; [exact H2|].
      intros r' Hr' H'. apply owner_unique; auto.
    - intros r idx Hr H. apply in_local_iff in H; tauto.
  Qed.

  Lemma local_dims r : dims (local_range distr g P r) = dims g.
  Proof. unfold dims, local_range. rewrite map_map. reflexivity. Qed.

  Lemma local_nondistributed r d f n : In (d, (f, n)) g -> ~ In d distr ->
    In (d, (f, n)) (local_range distr g P r).
  Proof.
    intros Hi Hn. unfold local_range. apply in_map_iff. exists (d, (f, n)). split; auto.
    simpl. unfold loc. apply in_tags_false in Hn. rewrite Hn. auto.
  Qed.

  Lemma local_sizes r r' : map (fun x => snd (snd x)) (local_range distr g P r) =
                           map (fun x => snd (snd x)) (local_range distr g P r').
  Proof.
    unfold local_range. rewrite !map_map. apply map_ext. intros [d [f n]]. simpl. unfold loc.
    destruct (in_tags d distr); reflexivity.
  Qed.

End Grid.

Lemma local_range_size_gen distr gr r g :
    (forall d f n, In (d, (f, n)) g -> in_tags d distr = true -> n = extent gr (MPIDim d) * (n / extent gr (MPIDim d))) ->
    range_size (map (fun x => (fst x, loc gr r distr (fst x) (snd x))) g)
      * nprod (map (fun d => extent gr (MPIDim d)) (filter (fun d => in_tags d distr) (dims g))) = range_size g.
Proof.
  intros He. unfold range_size.
  induction g as [|[d [f n]] g IH]; simpl; auto.
  specialize (IH (fun d f n Hi Ht => He d f n (or_intror Hi) Ht)).
  unfold loc at 1. simpl.
  destruct (in_tags d distr) eqn:Et; simpl.
  - rewrite <- IH.
    specialize (He d f n (or_introl eq_refl) Et).
    set (m := n / extent gr (MPIDim d)) in *. rewrite He. ring.
  - rewrite <- IH. ring.
Qed.

Lemma local_size distr g P r : NoDup (dims g) -> 0 < P -> Nat.divide P (nprod (dsizes distr g)) ->
  range_size (local_range distr g P r) * P = range_size g.
Proof.
  intros Hg HP Hdiv.
  assert (E : nprod (map (fun d => extent (grid distr g P) (MPIDim d)) (filter (fun d => in_tags d distr) (dims g))) = P).
  { transitivity (shape_size (grid distr g P)); [|apply grid_size; auto]. unfold shape_size.
    f_equal. rewrite <- (map_map MPIDim (extent (grid distr g P))).
    rewrite <- (grid_tags distr g P). unfold tags_of. rewrite map_map.
    apply map_ext_in. intros [t n] Hi. apply extent_in; auto. apply grid_nodup; auto. }
  rewrite <- E at 2. apply local_range_size_gen.
  intros d f n Hi Ht.
  assert (Hd : In d (dims g)) by (apply (in_map fst) in Hi; exact Hi).
  pose proof (extent_mul distr g P Hg HP Hdiv d Hd Ht) as [H _].
  rewrite (select_in g d f n Hg Hi) in H. exact H.
Qed.

Lemma mpi_layout_partition : forall distr g P, NoDup (dims g) -> NoDup distr -> incl distr (dims g) ->
  0 < P -> Nat.divide P (distributed_size distr g) ->
  exists local : nat -> idx_range,
    (forall r, r < P -> distribute_idx_range distr g P r = Ok (local r)) /\
    partitions P local g /\
    (forall r, r < P -> dims (local r) = dims g /\ range_size (local r) * P = range_size g /\
       (forall r', r' < P -> map (fun x => snd (snd x)) (local r) = map (fun x => snd (snd x)) (local r')) /\
       (forall d f n, In (d, (f, n)) g -> ~ In d distr -> In (d, (f, n)) (local r))).
Proof.
  intros distr g P Hg Hd Hi HP Hdiv. exists (local_range distr g P).
  assert (Hdiv' : Nat.divide P (nprod (dsizes distr g))) by (rewrite dsizes_perm; auto).
  split; [intros; apply distribute_ok; auto|].
  split; [apply local_partition; auto|].
  intros r Hr. split; [apply local_dims|]. split; [apply local_size; auto|].
  split; [intros; apply local_sizes|]. intros; apply local_nondistributed; auto.
Qed.
